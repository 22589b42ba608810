(** * Specification of the binned accumulators, on integers only

    This file does not mention any model of the code.  Every finite float of type
    [t] is an integer multiple of [2^emin t]; [toZ x] is that integer.  A summand
    X (such an integer) is cut into slices: bin 0 takes X rounded (half away from
    zero) to a multiple of its unit, bin 1 takes the remainder rounded to a
    multiple of its smaller unit, and so on. *)
From Coq Require Import ZArith List Bool.
From Flocq Require Import Core BinarySingleNaN.
From Verif Require Import Fp.
Import ListNotations.
Open Scope Z_scope.

(** Value of a finite float in units of [2^emin t]. *)
Definition toZ {t} (x : F t) : Z :=
  match x with
  | B754_finite s m e _ => cond_Zopp s (Zpos m) * 2 ^ (e - emin t)
  | _ => 0
  end.

Definition width (t : ty) : Z := match t with Dbl => 40 | Flt => 13 end.
(** Largest bin. *)
Definition jmax (t : ty) : Z := match t with Dbl => 51 | Flt => 20 end.
(** Number of deposits a bin endures between two normalisations. *)
Definition endurance (t : ty) : Z := 2 ^ (prec t - width t - 2).
(** Most summands an accumulator can take. *)
Definition capacity (t : ty) : Z := endurance t * (2 ^ (prec t - 1) - 1).

(** Bin j holds multiples of [2^(unit_exp j)] (times 2^emin). *)
Definition unit_exp (t : ty) (j : Z) : Z :=
  emax t - emin t - width t + 1 - Z.min j (jmax t) * width t.

(** Round a/b half away from zero. *)
Definition rhaz (a b : Z) : Z := Z.sgn a * ((2 * Z.abs a + b) / (2 * b)).

(** What is left of X when bins 0..n-1 have taken their slices. *)
Fixpoint remainder (t : ty) (X : Z) (n : nat) : Z :=
  match n with
  | O => X
  | S n' =>
      let r := remainder t X n' in
      let u := 2 ^ unit_exp t (Z.of_nat n') in
      r - rhaz r u * u
  end.
(** Slice of X in bin j, in units of that bin. *)
Definition slice (t : ty) (X j : Z) : Z :=
  rhaz (remainder t X (Z.to_nat j)) (2 ^ unit_exp t j).

(** Bin in which the magnitude of X lies; zero is put in the last one. *)
Definition bin_of (t : ty) (X : Z) : Z :=
  if X =? 0 then jmax t
  else Z.min ((emax t - emin t - (Z.log2 (Z.abs X) + 1)) / width t) (jmax t).

(** Sum of the slices in bin j, and leading bin, of a list of summands. *)
Definition bin_sum (t : ty) (xs : list Z) (j : Z) : Z :=
  fold_right Z.add 0 (map (fun X => slice t X j) xs).
Definition bin_idx (t : ty) (xs : list Z) : Z :=
  fold_right Z.min (jmax t) (map (bin_of t) xs).

(** The two canonical words of a bin whose slice sum is v: the primary is
    1.5*2^(p-1) + (v mod 2^(p-3)) units, the carry counts multiples of 2^(p-3).
    Bin 0 is stored scaled down by 2^(p-W+1) so that it does not overflow. *)
Definition stored_exp (t : ty) (j : Z) : Z :=
  unit_exp t j - (if j =? 0 then prec t - width t + 1 else 0).
Definition quarter (t : ty) : Z := 2 ^ (prec t - 3).
Definition pri_word (t : ty) (j v : Z) : F t :=
  mkf (6 * quarter t + v mod quarter t) (stored_exp t j + emin t).
Definition car_word (t : ty) (v : Z) : F t := ofZ (v / quarter t).

(** ** What an accumulator must contain

    [xs]: the floats summed; [us]: floats the accumulator was only made room for. *)
Definition findex {t} (x : F t) : Z := if is_finite x then bin_of t (toZ x) else 0.
Definition lead {t} (l : list (F t)) : Z := fold_right Z.min (jmax t) (map findex l).
Definition sums {t} (xs : list (F t)) (j : Z) : Z := bin_sum t (map toZ xs) j.
Definition all_finite {t} (xs : list (F t)) : bool := forallb is_finite xs.

(** Sum of a list that has at least one non finite element. *)
Definition is_pinf {t} (x : F t) : bool := match x with B754_infinity false => true | _ => false end.
Definition is_ninf {t} (x : F t) : bool := match x with B754_infinity true => true | _ => false end.
Definition special {t} (xs : list (F t)) : F t :=
  if existsb f_isnan xs || (existsb is_pinf xs && existsb is_ninf xs) then B754_nan
  else B754_infinity (existsb is_ninf xs).

(** The normalised accumulator of [xs] (with room for [us]): P gives the primary
    words, W the carry words.  For non finite data only the first primary counts. *)
Definition holds (t : ty) (fold : Z) (us xs : list (F t)) (P W : Z -> F t) : Prop :=
  if all_finite xs then
    match us ++ xs with
    | nil => forall i, 0 <= i < fold -> P i = fzero /\ W i = fzero
    | _ :: _ =>
        let k := lead (us ++ xs) in
        forall i, 0 <= i < fold ->
          P i = pri_word t (k + i) (sums xs (k + i)) /\ W i = car_word t (sums xs (k + i))
    end
  else P 0 = special xs.

(** Content of bin j encoded by a primary word p and a carry word w. *)
Definition content (t : ty) (j : Z) (p w : F t) : Z :=
  toZ w / 2 ^ (- emin t) * quarter t + (toZ p / 2 ^ stored_exp t j - 6 * quarter t).
(** Exact value (in units of 2^emin) of an accumulator whose first bin is k. *)
Fixpoint value_from (t : ty) (n : nat) (k i : Z) (P W : Z -> F t) : Z :=
  match n with
  | O => 0
  | S n' => content t (k + i) (P i) (W i) * 2 ^ unit_exp t (k + i) + value_from t n' k (i + 1) P W
  end.
Definition value (t : ty) (fold k : Z) (P W : Z -> F t) : Z := value_from t (Z.to_nat fold) k 0 P W.
(** Exact sum of a list of finite floats, in units of 2^emin. *)
Definition exact_sum {t} (xs : list (F t)) : Z := fold_right Z.add 0 (map toZ xs).
