(** * Printing of accumulators

    What is modelled is the list of values handed to printf, line by line (every
    value is a double there: floats are promoted).  The rendering of a double as
    decimal text by [%g] is the C library's and is not modelled. *)
From Coq Require Import ZArith Bool List.
From Flocq Require Import Core BinarySingleNaN.
From Verif Require Import Fp Mem Binned.
Import ListNotations.
Open Scope Z_scope.

(** One group [2^%d: %g #%g =%g].  [l_exp = None]: converting the logarithm to int
    is undefined behaviour (log2 of 0, of an infinity or of NaN). *)
Record line := { l_exp : option Z; l_sum : F Dbl; l_car : F Dbl; l_total : F Dbl }.

(** [(int)log2(M)], [(int)log2f(M)] for M a power of two: the exponent. *)
Definition int_log2 {t} (M : F t) : option Z :=
  match M with B754_finite false m e _ => Some (Z.log2 (Zpos m) + e) | _ => None end.

(** dmprint.c:26-27, zmprint.c:27-28,29-30: [M = UFP(pri)] (through float, see
    [binned_ufp]), then [(int)log2(M) + 1, pri - 1.5*M, car, ((car - 6) * 0.25 * M + pri)]. *)
Definition print_double (pri car : F Dbl) : line :=
  let M := binned_ufp pri in
  {| l_exp := option_map (fun e => e + 1) (int_log2 M);
     l_sum := fsub pri (fmul (mkf 3 (-1)) M);
     l_car := car;
     l_total := fadd (fmul (fmul (fsub car (ofZ 6)) (mkf 1 (-2))) M) pri |}.

(** smprint.c:26-27, cmprint.c:27-30: M is a float; [1.5*M], [0.25] are doubles, so all but
    [car - 6] is computed in double. *)
Definition print_float (pri car : F Flt) : line :=
  let M := binned_ufpf pri in
  {| l_exp := option_map (fun e => e + 1) (int_log2 M);
     l_sum := fsub (f2d pri) (fmul (mkf 3 (-1)) (f2d M));
     l_car := f2d car;
     l_total := fadd (fmul (fmul (f2d (fsub car (ofZ 6))) (mkf 1 (-2))) (f2d M)) (f2d pri) |}.

Definition print_words {t} : F t -> F t -> line :=
  match t with Dbl => print_double | Flt => print_float end.

(** dmprint.c:22-29, smprint.c:22-29: one line per i < fold, priX += incpriX, carX += inccarX. *)
Definition dmprint {t} (fold priX incpriX carX inccarX : Z) (m : mem t) : list line :=
  map (fun i => print_words (m (priX + Z.of_nat i * incpriX)) (m (carX + Z.of_nat i * inccarX)))
      (seq 0 (Z.to_nat fold)).
(** zmprint.c:22-32, cmprint.c:22-32.  Note [priX += incpriX], not [2 * incpriX]. *)
Definition zmprint {t} (fold priX incpriX carX inccarX : Z) (m : mem t) : list (line * line) :=
  map (fun i =>
         let p := priX + Z.of_nat i * incpriX in let c := carX + Z.of_nat i * inccarX in
         (print_words (m p) (m c), print_words (m (p + 1)) (m (c + 1))))
      (seq 0 (Z.to_nat fold)).
(** dbprint.c:13-15, sbprint.c:13-15. *)
Definition dbprint {t} (fold X : Z) (m : mem t) : list line := dmprint fold X 1 (X + fold) 1 m.
(** zbprint.c:13-15, cbprint.c:13-15. *)
Definition zbprint {t} (fold X : Z) (m : mem t) : list (line * line) :=
  zmprint fold X 2 (X + 2 * fold) 2 m.
