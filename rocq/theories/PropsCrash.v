(** * C82: checkpoints and restarts *)
From Coq Require Import ZArith Bool List Lia Permutation.
From Flocq Require Import Core BinarySingleNaN.
From Verif Require Import Fp Mem Binned Spec FpProofs BitProofs CoreArith SpecProofs WordProofs MemProofs AccProofs SumProofs ConvProofs Client History ClientProofs StrideProofs PropsSum PropsAcc PropsMem Gen GenProofs Blas LaneProofs ReduceProofs DriverProofs BlasSpec PropsBlas.
Import ListNotations.
Open Scope Z_scope.

(** A program that sums [data] into an accumulator, copying its 2*fold words away (fwrite, memcpy, MPI) now
    and then, and that can stop at any point and be started again, in another process, from the last copy. *)
Record running (t : ty) := Running {
  memory : mem t;          (* the memory of the process *)
  place : Z;               (* where it has the accumulator *)
  done : nat;              (* elements summed *)
  saved : Z -> F t;        (* the last copy: words 0 to 2*fold-1 *)
  saved_done : nat;        (* elements summed when it was made *)
}.
Arguments Running {t}. Arguments memory {t}. Arguments place {t}. Arguments done {t}. Arguments saved {t}. Arguments saved_done {t}.

Inductive step {t} (fold : Z) (data : list (F t)) (s : running t) : running t -> Prop :=
(* the next element is added with binned_dbdadd *)
| AddOne x : nth_error data (done s) = Some x ->
    step fold data s (Running (dbdadd fold x (place s) (memory s)) (place s) (S (done s)) (saved s) (saved_done s))
(* the next n elements lie in a buffer and are added with binnedBLAS_dbdsum, of a library tuned in any way *)
| AddBlock tu X incX n : tuned t tu -> clear_of X incX (Z.of_nat n) (place s) (dbnum fold) ->
    read (memory s) X incX (Z.of_nat n) = firstn n (skipn (done s) data) -> (done s + n <= length data)%nat ->
    step fold data s (Running (dbdsum tu fold (Z.of_nat n) X incX (place s) (memory s)) (place s) (done s + n) (saved s) (saved_done s))
(* the rest of the memory changes *)
| Other m' : (forall a, place s <= a < place s + dbnum fold -> m' a = memory s a) ->
    step fold data s (Running m' (place s) (done s) (saved s) (saved_done s))
(* a copy of the accumulator is made *)
| Save w : (forall i, 0 <= i < dbnum fold -> w i = memory s (place s + i)) ->
    step fold data s (Running (memory s) (place s) (done s) w (done s))
(* the process is lost; another one reads the last copy into its memory and continues from there *)
| Crash m' Y' : (forall i, 0 <= i < dbnum fold -> m' (Y' + i) = saved s i) ->
    step fold data s (Running m' Y' (saved_done s) (saved s) (saved_done s)).
Inductive steps {t} (fold : Z) (data : list (F t)) (s : running t) : running t -> Prop :=
| Stop : steps fold data s s
| Step s1 s2 : steps fold data s s1 -> step fold data s1 s2 -> steps fold data s s2.
(** At first the accumulator is set to zero and saved. *)
Definition started {t} (fold Y : Z) (m : mem t) : running t :=
  let m := dbsetzero fold Y m in Running m Y 0 (fun i => m (Y + i)) 0.

(** Every part of a history: the accumulator and its copy are those of the elements counted. *)
Definition image {t} (w : Z -> F t) : mem t := w.
Definition sound {t} (fold : Z) (data : list (F t)) (s : running t) : Prop :=
  (done s <= length data)%nat /\ (saved_done s <= length data)%nat /\
  acc_at fold [] (firstn (done s) data) (memory s) (place s) /\ acc_at fold [] (firstn (saved_done s) data) (image (saved s)) 0.
Lemma moved t fold us xs (m m' : mem t) Y Y' : 2 <= fold -> (forall i, 0 <= i < dbnum fold -> m' (Y' + i) = m (Y + i)) ->
  acc_at fold us xs m Y -> acc_at fold us xs m' Y'.
Proof.
  intros Hf E H. unfold acc_at, dbnum in *. eapply holds_words_ext; [exact Hf| |exact H]. intros i Hi. cbv beta.
  replace (Y + fold + i * 1) with (Y + (fold + i)) by lia. replace (Y' + fold + i * 1) with (Y' + (fold + i)) by lia.
  replace (Y + i * 1) with (Y + i) by lia. replace (Y' + i * 1) with (Y' + i) by lia. split; apply E; lia.
Qed.
Lemma firstn_more {A} (l : list A) : forall a n, (a + n <= length l)%nat -> firstn (a + n) l = firstn a l ++ firstn n (skipn a l).
Proof.
  induction l as [|x l IH]; intros a n H.
  - cbn [length] in H. assert (a = 0%nat) by lia. assert (n = 0%nat) by lia. subst. reflexivity.
  - destruct a as [|a]; [reflexivity|]. cbn [length] in H. cbn [Nat.add firstn skipn app]. f_equal. apply IH. lia.
Qed.
Lemma nth_firstn {A} (l : list A) : forall a x, nth_error l a = Some x -> firstn (S a) l = firstn a l ++ [x] /\ (S a <= length l)%nat.
Proof.
  induction l as [|y l IH]; intros a x H; [destruct a; discriminate|]. destruct a as [|a].
  - injection H as ->. cbn. split; auto. lia.
  - cbn [nth_error] in H. destruct (IH a x H) as [E L]. cbn [firstn app length]. rewrite <- E. split; [reflexivity|lia].
Qed.
Lemma finite_firstn {t} (l : list (F t)) a : all_finite l = true -> all_finite (firstn a l) = true.
Proof.
  intros H. rewrite <- (firstn_skipn a l), all_finite_app in H. now apply andb_true_iff in H.
Qed.
Section RUN.
  Context {t : ty} (fold : Z) (Hf : 2 <= fold <= MAXFOLD t) (data : list (F t)) (HC : Z.of_nat (length data) <= CAPACITY t).
  Hypothesis AF : all_finite data = true.
  Lemma step_sound s s' : sound fold data s -> step fold data s s' -> sound fold data s'.
  Proof.
    intros (D1 & D2 & H1 & H2) ST. rewrite CAPACITY_eq in HC.
    destruct ST as [x Hx|tu X incX n HT CX ER HN|m' E|w E|m' Y' E]; unfold sound; cbn [memory place done saved saved_done].
    - destruct (nth_firstn data (done s) x Hx) as [E L]. rewrite E. split; [exact L|]. split; [exact D2|]. split; [|exact H2].
      destruct (add_list_holds fold Hf (place s) [x] (memory s) [] _ H1) as [A _].
      { rewrite app_length. cbn [length]. rewrite firstn_length. lia. }
      cbn [rev app add_list fold_left] in A. unfold acc_at. eapply holds_perm; [reflexivity|apply Permutation_cons_append|exact A].
    - split; [exact HN|]. split; [exact D2|]. split; [|exact H2].
      destruct (reduce_fin fold Hf Sum tu (Z.of_nat n) X incX X incX (place s) (memory s) [] (firstn (done s) data) HT ltac:(lia) H1 CX CX) as [A _].
      { rewrite terms_sum, ER, app_length, !firstn_length. lia. }
      { rewrite terms_sum, ER. apply finite_firstn. rewrite <- (firstn_skipn (done s) data), all_finite_app in AF. now apply andb_true_iff in AF. }
      rewrite terms_sum, ER in A. rewrite firstn_more by lia. unfold acc_at. eapply holds_perm; [reflexivity|apply Permutation_app_comm|exact A].
    - split; [exact D1|]. split; [exact D2|]. split; [|exact H2]. apply (moved t fold [] _ (memory s) m' (place s) (place s)); [lia| |exact H1].
      intros i Hi. apply E. lia.
    - split; [exact D1|]. split; [exact D1|]. split; [exact H1|]. apply (moved t fold [] _ (memory s) w (place s) 0); [lia| |exact H1].
      intros i Hi. rewrite Z.add_0_l. now apply E.
    - split; [exact D2|]. split; [exact D2|]. split; [|exact H2]. apply (moved t fold [] _ (image (saved s)) m' 0 Y'); [lia| |exact H2].
      intros i Hi. rewrite Z.add_0_l. now apply E.
  Qed.
  Lemma started_sound Y m : sound fold data (started fold Y m).
  Proof.
    unfold sound, started. cbn [memory place done saved saved_done].
    destruct (sum_list_holds fold Hf Y [] m) as [H0 _]; [cbn [length]; unfold capacity; destruct t; cbn; lia|].
    change (sum_list fold Y [] m) with (dbsetzero fold Y m) in H0.
    split; [lia|]. split; [lia|]. split; [exact H0|]. apply (moved t fold [] _ (dbsetzero fold Y m) _ Y 0); [lia| |exact H0].
    intros i Hi. rewrite Z.add_0_l. reflexivity.
  Qed.
  Lemma steps_sound Y m s : steps fold data (started fold Y m) s -> sound fold data s.
  Proof. induction 1; [apply started_sound|eapply step_sound; eauto]. Qed.
End RUN.
(** Whenever and however often the program is stopped and restarted: when all the data are counted,
    the accumulator has the words of the uninterrupted sum in any order. *)
Theorem C82_restart t fold (data xs : list (F t)) Y Y' (m m' : mem t) s :
  2 <= fold <= MAXFOLD t -> Z.of_nat (length data) <= CAPACITY t -> all_finite data = true -> Permutation data xs ->
  steps fold data (started fold Y m) s -> done s = length data ->
  same_words fold (memory s) (place s) (sum_list fold Y' xs m') Y' /\
  ddbconv fold (place s) (memory s) = ddbconv fold Y' (sum_list fold Y' xs m').
Proof.
  intros Hf HC AF HP ST HD. destruct (steps_sound fold Hf data HC AF Y m s ST) as (_ & _ & H & _).
  rewrite HD, firstn_all in H. rewrite CAPACITY_eq in HC.
  destruct (sum_list_holds fold Hf Y' xs m') as [H2 _]; [rewrite <- (Permutation_length HP); exact HC|].
  assert (SW : same_words fold (memory s) (place s) (sum_list fold Y' xs m') Y').
  { eapply acc_at_same; [exact Hf|exact AF|reflexivity|exact HP|exact H|exact H2]. }
  split; [exact SW|].
  exact (ddmconv_perm fold (place s) 1 (place s + fold) 1 Y' 1 (Y' + fold) 1 _ _ [] _ _ (proj1 Hf) HP H H2).
Qed.
Print Assumptions C82_restart.
(** And at any time it has those of the elements counted so far, and so does the copy. *)
Theorem C82_midway t fold (data : list (F t)) Y Y' (m m' : mem t) s :
  2 <= fold <= MAXFOLD t -> Z.of_nat (length data) <= CAPACITY t -> all_finite data = true ->
  steps fold data (started fold Y m) s ->
  same_words fold (memory s) (place s) (sum_list fold Y' (firstn (done s) data) m') Y' /\
  same_words fold (saved s) 0 (sum_list fold Y' (firstn (saved_done s) data) m') Y'.
Proof.
  intros Hf HC AF ST. destruct (steps_sound fold Hf data HC AF Y m s ST) as (D1 & D2 & H1 & H2). rewrite CAPACITY_eq in HC.
  split; (eapply acc_at_same; [exact Hf|apply finite_firstn; exact AF|reflexivity|reflexivity|eassumption|]);
    apply sum_list_holds; auto; rewrite firstn_length; lia.
Qed.
Print Assumptions C82_midway.
(** The copy must be of all the words: with the primary words only, the sum is lost. *)
Definition c82_data : list (F Flt) := repeat worst 800.
Theorem C82_carries_needed :
  let full := sum_list 2 0 c82_data (fun _ => fzero) in
  let half := fun a : Z => if a <? 2 then full a else fzero in
  feq (ddbconv 2 0 full) (ddbconv 2 0 half) = false.
Proof. vm_compute. reflexivity. Qed.
(** A history with a copy, a crash, and a block. *)
Example C82_case : exists s, steps 3 sample (started 3 0 (spread sample 1)) s /\ done s = length sample /\ saved_done s = 1%nat.
Proof.
  set (s0 := started 3 0 (spread sample 1)).
  set (s1 := Running (dbdadd 3 (nth 0 sample fzero) 0 (memory s0)) 0 1 (saved s0) 0%nat).
  set (w := fun i => memory s1 (0 + i)).
  set (s2 := Running (memory s1) 0 1 w 1%nat).
  set (s3 := Running (dbdadd 3 (nth 1 sample fzero) 0 (memory s1)) 0 2 w 1%nat).
  set (m4 := fun a : Z => if a <? 1000 then nth (Z.to_nat a) sample fzero else w (a - 1000)).
  set (s4 := Running m4 1000 1 w 1%nat).
  set (n := (length sample - 1)%nat).
  exists (Running (dbdsum sample_tuning 3 (Z.of_nat n) 1 1 1000 m4) 1000 (1 + n) w 1%nat).
  split; [|split; reflexivity].
  assert (T1 : steps 3 sample s0 s1) by (refine (Step _ _ _ _ _ (Stop _ _ _) (AddOne 3 sample s0 _ _)); reflexivity).
  assert (T2 : steps 3 sample s0 s2) by (refine (Step _ _ _ _ _ T1 (Save 3 sample s1 w _)); reflexivity).
  assert (T3 : steps 3 sample s0 s3) by (refine (Step _ _ _ _ _ T2 (AddOne 3 sample s2 _ _)); reflexivity).
  assert (T4 : steps 3 sample s0 s4).
  { refine (Step _ _ _ _ _ T3 (Crash 3 sample s3 m4 1000 _)). intros i Hi. unfold m4. cbn [saved s3].
    rewrite (proj2 (Z.ltb_ge (1000 + i) 1000)) by lia. f_equal. lia. }
  refine (Step _ _ _ _ _ T4 (AddBlock 3 sample s4 sample_tuning 1 1 n _ _ _ _)).
  - apply C18_case.
  - intros i Hi. cbn [place s4]. change (Z.of_nat n) with (Z.of_nat (length sample) - 1) in Hi. cbn in Hi. unfold dbnum. lia.
  - reflexivity.
  - cbn [done s4]. unfold n. cbn. lia.
Qed.
