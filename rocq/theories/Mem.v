(** * C memory and loops

    Memory is a flat map from integer addresses to floating point cells (one cell
    = one [double] or one [float]).  C pointers are addresses; [p[i*inc]] is the cell
    at [p + i*inc].  C [int] is modelled by [Z] (no overflow). *)
From Coq Require Import ZArith List Lia.
From Verif Require Import Fp.
Open Scope Z_scope.

Definition mem (t : ty) := Z -> F t.
Definition upd {t} (m : mem t) (a : Z) (v : F t) : mem t :=
  fun b => if b =? a then v else m b.

(** [loop n i f s]: n iterations of the body f with i, i+1, ... *)
Fixpoint loop {S : Type} (n : nat) (i : Z) (f : Z -> S -> S) (s : S) : S :=
  match n with O => s | Datatypes.S n' => loop n' (i + 1) f (f i s) end.
(** [for (i = lo; i < hi; i++) s = f i s]. *)
Definition for_up {S : Type} (lo hi : Z) (f : Z -> S -> S) (s : S) : S :=
  loop (Z.to_nat (hi - lo)) lo f s.
(** [for (i = hi; i >= lo; i--) s = f i s]. *)
Definition for_down {S : Type} (hi lo : Z) (f : Z -> S -> S) (s : S) : S :=
  loop (Z.to_nat (hi - lo + 1)) 0 (fun d => f (hi - d)) s.
(** C integer division truncates towards zero: [a / b], [a % b]. *)
Definition cdiv (a b : Z) : Z := Z.quot a b.
Definition cmod (a b : Z) : Z := Z.rem a b.
