(** * C65: processes on different machines *)
From Coq Require Import ZArith Bool List Lia Permutation.
From Flocq Require Import Core BinarySingleNaN.
From Verif Require Import Fp Mem Binned Spec Client FpProofs MemProofs SpecProofs AccProofs SumProofs ClientProofs PropsSum PropsConv Gen GenProofs Blas DriverProofs BlasSpec PropsBlas GemvProofs Mpi MpiSpec PropsMpi.
From Verif Require Import Emit EmitBlas EmitDriver EmitSpec PropsEmit.
Import ListNotations.
Open Scope Z_scope.

(** One reduction by one process: its build of the library, register contents, its memory, vectors and accumulator. *)
Record job (t : ty) := Job { j_build : build; j_stale : stale t; j_mem : mem t; j_N : Z; j_X : Z; j_incX : Z; j_Y : Z; j_incY : Z; j_acc : Z }.
Arguments j_build {t}. Arguments j_stale {t}. Arguments j_mem {t}. Arguments j_N {t}. Arguments j_X {t}. Arguments j_incX {t}.
Arguments j_Y {t}. Arguments j_incY {t}. Arguments j_acc {t}.
(** The numbers it sums. *)
Definition job_data {t} (k : kind) (j : job t) : list (F t) :=
  match k with
  | Sum => read (j_mem j) (j_X j) (j_incX j) (j_N j)
  | ASum => magnitudes (j_mem j) (j_X j) (j_incX j) (j_N j)
  | Dot => products (j_mem j) (j_X j) (j_incX j) (j_Y j) (j_incY j) (j_N j)
  end.
(** binned_dbsetzero, then binnedBLAS_dbdsum, _dbdasum or _dbddot on its machine. *)
Definition job_run {t} (fold : Z) (k : kind) (j : job t) : mem t :=
  reduce_code k (j_build j) (j_stale j) fold (j_N j) (j_X j) (j_incX j) (j_Y j) (j_incY j) (j_acc j) (dbsetzero fold (j_acc j) (j_mem j)).
Definition job_ok {t} (fold : Z) (j : job t) : Prop :=
  legal_build t false (j_build j) /\ 0 <= j_N j <= CAPACITY t /\
  clear_of (j_X j) (j_incX j) (j_N j) (j_acc j) (dbnum fold) /\ clear_of (j_Y j) (j_incY j) (j_N j) (j_acc j) (dbnum fold).

Lemma job_holds {t} fold k (j : job t) : 2 <= fold <= MAXFOLD t -> job_ok fold j -> all_finite (job_data k j) = true ->
  acc_at fold [] (job_data k j) (job_run fold k j) (j_acc j).
Proof.
  intros Hf (LB & HN & CX & CY) FX. rewrite CAPACITY_eq in HN. unfold job_run. rewrite reduce_code_ok; [|lia|apply legal_tuned; exact LB].
  assert (E : job_data k j = terms k (j_X j) (j_incX j) (j_Y j) (j_incY j) (j_mem j) (j_N j)).
  { destruct k; cbn [job_data].
    - unfold terms, val, read. cbn [term]. reflexivity.
    - unfold terms, val, magnitudes, read. cbn [term]. rewrite map_map. reflexivity.
    - unfold terms, val, products, read. cbn [term]. try reflexivity. induction (zseq 0 (j_N j)) as [|i l IH]; [reflexivity|]. cbn [map combine fst snd] in *. now rewrite IH. }
  rewrite E in *. apply (fresh_fin fold Hf k _ _ _ _ _ _ _ _ (legal_tuned t false _ fold LB) HN CX CY FX).
Qed.
Lemma acc_same_words {t} fold us xs (m m' : mem t) A B : 2 <= fold <= MAXFOLD t -> same_words fold m' B m A -> acc_at fold us xs m A -> acc_at fold us xs m' B.
Proof.
  intros Hf E H. unfold acc_at in *. eapply holds_words_ext; [exact (ClientProofs.Hf2 fold Hf)| |exact H].
  intros i Hi. cbv beta. rewrite !Z.mul_1_r. rewrite <- !Z.add_assoc. unfold same_words, dbnum in E. split; apply E; lia.
Qed.
Lemma all_finite_part {t A} (f : A -> list (F t)) l r : all_finite (flat_map f l) = true -> In r l -> all_finite (f r) = true.
Proof.
  intros H I. apply in_split in I. destruct I as (l1 & l2 & ->). rewrite flat_map_app in H. cbn [flat_map] in H. unfold all_finite in *. rewrite !forallb_app in H.
  apply andb_true_iff in H. destruct H as [_ H]. apply andb_true_iff in H. apply H.
Qed.
(** Every process of the cluster reduces its vectors (one or more reductions each, elements e of the buffers) with the
    library built for its machine; the words are sent and combined by the operator in any order and tree; the value is the
    one a single process of another machine computes from all the numbers in any arrangement. *)
Theorem C65_cluster t fold k len ranks buf cs result (J : nat -> Z -> job t) (w : mem t) (one : Z -> job t) :
  2 <= fold <= MAXFOLD t -> buffers (dbnum fold) len ranks buf -> reduction ranks len cs result ->
  (forall e, 0 <= e < len -> job_ok fold (one e) /\ forall r, In r ranks -> job_ok fold (J r e) /\
     same_words fold w (elem fold (buf r) e) (job_run fold k (J r e)) (j_acc (J r e))) ->
  forall e, 0 <= e < len ->
  (forall e', 0 <= e' < len -> all_finite (job_data k (one e')) = true /\
     Permutation (flat_map (fun r => job_data k (J r e')) ranks) (job_data k (one e'))) ->
  same_words fold (run_calls fold buf cs w) (elem fold (buf (result e)) e) (job_run fold k (one e)) (j_acc (one e)) /\
  ddbconv fold (elem fold (buf (result e)) e) (run_calls fold buf cs w) = ddbconv fold (j_acc (one e)) (job_run fold k (one e)).
Proof.
  intros Hf HB RD HJ e He HP.
  assert (LEN : forall j : job t, 0 <= j_N j -> Z.of_nat (length (job_data k j)) = j_N j).
  { intros j Hj. destruct k; cbn [job_data]; unfold magnitudes, products, read; rewrite ?map_length, ?combine_length, ?map_length, GenProofs.zseq_length; lia. }
  destruct (reduce_holds t fold len ranks buf cs result (fun _ _ => []) (fun r e => job_data k (J r e)) w Hf HB RD) with (e := e) as (us' & xs' & R1 & R2 & R3); [|exact He|].
  { intros e' He'. destruct (HJ e' He') as (O1 & O2). destruct (HP e' He') as (P1 & P2). split.
    - rewrite (Permutation_length P2). destruct O1 as (_ & HN & _). rewrite CAPACITY_eq in HN. rewrite LEN; lia.
    - intros r Hr. destruct (O2 r Hr) as (K1 & K2). eapply acc_same_words; [exact Hf|exact K2|]. apply job_holds; auto.
      apply (all_finite_part (fun r => job_data k (J r e')) ranks r); auto. rewrite (all_finite_perm _ _ P2). exact P1. }
  assert (NU : flat_map (fun _ : nat => @nil (F t)) ranks = []) by (clear; induction ranks; auto).
  rewrite NU in R2. symmetry in R2. apply Permutation_nil in R2. subst us'. destruct (HP e He) as (P1 & P2). rewrite P2 in R3.
  destruct (HJ e He) as (O1 & _). pose proof (job_holds fold k (one e) Hf O1 P1) as R4. split.
  - eapply acc_at_same; [exact Hf| |apply Permutation_refl|exact R3|exact R1|exact R4]. now rewrite (all_finite_perm _ _ R3).
  - eapply conv_acc; [exact Hf|apply Permutation_refl|exact R3|exact R1|exact R4].
Qed.
Print Assumptions C65_cluster.
(** Seven numbers: two on an AVX machine (stride 2), one on an SSE machine, four on a machine with plain C, the partial sums
    reduced 1 -> 2 -> 0; the sum of all of them on the AVX machine is exact: 3. *)
Definition c65_data : mem Dbl := fun a =>
  if (0 <=? a) && (a <? 7) then nth (Z.to_nat a) [mkf 1 60; mkf 3 0; mkf (-1) 60; mkf 7 (-60); mkf 5 100; mkf (-7) (-60); mkf (-5) 100] fzero else fnan.
Definition c65_job (r : nat) (_ : Z) : job Dbl :=
  match r with
  | O => Job Dbl (avx_build Dbl false) (junk Dbl) c65_data 2 0 2 0 2 100
  | 1%nat => Job Dbl (sse_build Dbl false) (junk Dbl) c65_data 1 1 1 1 1 200
  | _ => Job Dbl (c_build Dbl false) (junk Dbl) c65_data 4 6 (-1) 6 (-1) 300
  end.
Definition c65_one (_ : Z) : job Dbl := Job Dbl (avx_build Dbl false) (junk Dbl) c65_data 7 0 1 0 1 100.
Definition c65_buf (r : nat) : Z := 10 * Z.of_nat r.
Definition c65_world : mem Dbl := fun a => let r := Z.to_nat (a / 10) in job_run 3 Sum (c65_job r 0) (j_acc (c65_job r 0) + a mod 10).
Definition c65_calls : list call := [Call 1 2 0 1; Call 2 0 0 1].
Example C65_case :
  buffers (dbnum 3) 1 [0%nat; 1%nat; 2%nat] c65_buf /\ reduction [0%nat; 1%nat; 2%nat] 1 c65_calls (fun _ => 0%nat) /\
  (forall r e, job_ok 3 (c65_job r e)) /\ (forall e, job_ok 3 (c65_one e)) /\
  (forall r e, In r [0%nat; 1%nat; 2%nat] -> 0 <= e < 1 -> same_words 3 c65_world (elem 3 (c65_buf r) e) (job_run 3 Sum (c65_job r e)) (j_acc (c65_job r e))) /\
  (forall e, all_finite (job_data Sum (c65_one e)) = true /\
    map toZ (flat_map (fun r => job_data Sum (c65_job r e)) [0%nat; 1%nat; 2%nat]) = map toZ [mkf 1 60; mkf (-1) 60; mkf 3 0; mkf (-5) 100; mkf (-7) (-60); mkf 5 100; mkf 7 (-60) : F Dbl]) /\
  feq (ddbconv 3 (c65_buf 0) (run_calls 3 c65_buf c65_calls c65_world)) (mkf 3 0) = true.
Proof.
  split; [|split; [|split; [|split; [|split; [|split]]]]].
  - intros i j [<-|[<-|[<-|[]]]] [<-|[<-|[<-|[]]]] NE; try congruence; unfold apart, c65_buf, dbnum; lia.
  - split; [do 3 (apply NoDup_cons; [cbn [In]; intros H; decompose [or] H; (discriminate || contradiction)|]); apply NoDup_nil|].
    split; [do 2 (apply Forall_cons; [cbn; lia|]); apply Forall_nil|].
    intros e He. assert (e = 0) as -> by lia. cbn.
    apply reduces_call; cbn; [auto|auto|discriminate|]. apply reduces_call; cbn; [auto|auto|discriminate|constructor].
  - intros r e. destruct r as [|[|r]]; (split; [apply file_legal|]); (split; [split; vm_compute; discriminate|]); (split; intros i Hi; cbn [c65_job j_N j_X j_incX j_Y j_incY j_acc] in *; unfold dbnum; lia).
  - intros e. split; [apply file_legal|]. split; [split; vm_compute; discriminate|]. split; intros i Hi; cbn [c65_one j_N j_X j_incX j_Y j_incY j_acc] in *; unfold dbnum; lia.
  - intros r e Hr He i Hi. assert (e = 0) as -> by lia. unfold c65_world, elem, c65_buf.
    replace (10 * Z.of_nat r + 0 * dbnum 3 + i) with (i + Z.of_nat r * 10) by ring. rewrite Z.div_add, Z.mod_add by lia. rewrite Z.div_small, Z.mod_small by lia.
    rewrite Z.add_0_l, Nat2Z.id. reflexivity.
  - intros e. split; vm_compute; reflexivity.
  - vm_compute. reflexivity.
Qed.
