(** * What an MPI library may do with a reduction operator *)
From Coq Require Import ZArith Bool List Lia.
From Flocq Require Import Core BinarySingleNaN.
From Verif Require Import Fp Mem Binned Spec Client Mpi.
Import ListNotations.
Open Scope Z_scope.

(** One call of the operator: the elements off .. off+cnt-1 of the buffer of rank src
    are combined into those of rank dst. *)
Record call := Call { src : nat; dst : nat; off : Z; cnt : Z }.
Definition covers (e : Z) (c : call) : bool := (off c <=? e) && (e <? off c + cnt c).
(** Element e of the buffer starting at b. *)
Definition elem (fold b e : Z) : Z := b + e * dbnum fold.
Definition zelem (fold b e : Z) : Z := b + e * zbnum fold.
Definition run_calls {t} (fold : Z) (buf : nat -> Z) (cs : list call) (m : mem t) : mem t :=
  fold_left (fun m c => mpi_dbdbadd fold (cnt c) (elem fold (buf (src c)) (off c)) (elem fold (buf (dst c)) (off c)) m) cs m.
(** A reduction of one element: each call consumes one of the values still live, in
    any order and either operand position, until one is left. *)
Inductive reduces : list nat -> list call -> nat -> Prop :=
| reduces_one r : reduces [r] [] r
| reduces_call live c cs r : In (src c) live -> In (dst c) live -> src c <> dst c ->
    reduces (remove Nat.eq_dec (src c) live) cs r -> reduces live (c :: cs) r.
(** A reduction of len elements: every element is reduced, pieces of the array may
    be reduced by different trees. *)
Definition reduction (ranks : list nat) (len : Z) (cs : list call) (result : Z -> nat) : Prop :=
  NoDup ranks /\ Forall (fun c => 0 <= off c /\ 0 <= cnt c /\ off c + cnt c <= len) cs /\
  forall e, 0 <= e < len -> reduces ranks (filter (covers e) cs) (result e).
(** The buffers (each of len elements) do not overlap. *)
Definition buffers (num len : Z) (ranks : list nat) (buf : nat -> Z) : Prop :=
  forall i j, In i ranks -> In j ranks -> i <> j -> apart (len * num) (buf i) (buf j).
