(** * C31: accumulators stay inside their storage *)
From Coq Require Import ZArith Bool List Lia.
From Flocq Require Import Core BinarySingleNaN.
From Verif Require Import Fp Mem Binned Spec FpProofs SpecProofs MemProofs AccProofs SumProofs ConvProofs Client History ClientProofs StrideProofs PropsMem.
Import ListNotations.
Open Scope Z_scope.

(** Folds from 2 on: whatever the state (index 0 included), a call writes only the cells of its
    target and depends only on the cells of its operands; conversion likewise. *)
Theorem C31_two_and_up_partial t fold (R : nat -> reg) (o : op t) (m m' : mem t) : 2 <= fold ->
  registers fold R -> two_regs o ->
  only fold (R (target o)) m (exec fold R o m) /\
  ((forall r a, cells fold (R r) a -> m a = m' a) ->
   (forall r a, cells fold (R r) a -> exec fold R o m a = exec fold R o m' a) /\
   (forall r, ddmconv fold (rp (R r)) (rip (R r)) (rc (R r)) (ric (R r)) m = ddmconv fold (rp (R r)) (rip (R r)) (rc (R r)) (ric (R r)) m')).
Proof.
  intros Hf HR HO.
  assert (S0 : forall r, same_acc fold m (R r) m (R r)) by (intros r i Hi; auto).
  split; [exact (proj2 (C15_strided_call t fold R R o m m Hf HR HR HO S0))|]. intros E.
  assert (S : forall r, same_acc fold m (R r) m' (R r)) by (intros r i Hi; split; apply (E r); exists i; split; auto).
  destruct (C15_strided_call t fold R R o m m' Hf HR HR HO S) as [S1 _]. split.
  - intros r a (i & Hi & [-> | ->]); apply (S1 r i Hi).
  - intros r. apply C15_strided_convert; auto.
Qed.
Print Assumptions C31_two_and_up_partial.
(** Fold 1: adding a number of bin 0 changes the cell after the primary word, although the
    accumulator consists of cells 10 (primary) and 20 (carry) only; and converting reads
    the cell after the carry. *)
Definition stranger : mem Dbl := fun a => if (a =? 11) || (a =? 21) then mkf 5 0 else fzero.
Theorem C31_fold_one_refuted :
  (let m' := dmdadd 1 (mkf (2 ^ 52 + 1) 940) 10 1 20 1 stranger in
   feq (stranger 11) (mkf 5 0) = true /\ feq (m' 11) (mkf 5 0) = false) /\
  (exists m m' : mem Dbl, (forall a, a <> 21 -> m a = m' a) /\
     feq (ddmconv 1 10 1 20 1 m) (ddmconv 1 10 1 20 1 m') = false).
Proof.
  split.
  - split; vm_compute; reflexivity.
  - exists (fun a => if a =? 10 then dmbins Dbl 0 0 else fzero), (fun a => if a =? 10 then dmbins Dbl 0 0 else if a =? 21 then mkf 5 0 else fzero).
    split.
    + intros a Ha. destruct (a =? 10); auto. destruct (Z.eqb_spec a 21); [contradiction|reflexivity].
    + vm_compute. reflexivity.
Qed.
Print Assumptions C31_fold_one_refuted.
(** In the packed layout the cell after the primary word is the carry: with fold 1 the sum
    of one number converts to something far from it. *)
Theorem C31_fold_one_value_refuted :
  flt (mkf 1 993 : F Dbl) (ddbconv 1 10 (dbdadd 1 (mkf (2 ^ 52 + 1) 940) 10 (dbsetzero 1 10 (fun _ => fzero)))) = true.
Proof. vm_compute. reflexivity. Qed.
