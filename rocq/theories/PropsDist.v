(** * C84: matrix products distributed over the inner dimension *)
From Coq Require Import ZArith Bool List Lia Permutation Ascii.
From Flocq Require Import Core BinarySingleNaN.
From Verif Require Import Fp Mem Binned Spec FpProofs BitProofs CoreArith SpecProofs WordProofs MemProofs AccProofs SumProofs ConvProofs Client History ClientProofs StrideProofs PropsSum PropsAcc PropsMem Gen GenProofs Params Blas LaneProofs ReduceProofs DriverProofs BlasSpec PropsBlas Gemv GemvSpec GemvProofs PropsGemv Mpi MpiSpec PropsMpi.
Import ListNotations.
Open Scope Z_scope.

(** What one process multiplies: its memory, flags, tuning and blocks, [p_K] columns of op(A) and rows of
    op(B), its binned matrix C and buffers. *)
Record part (t : ty) := Part {
  p_mem : mem t; p_tu : tuning; p_blocks : gemm_blocks; p_order : ascii; p_ta : ascii; p_tb : ascii; p_K : Z;
  p_A : Z; p_lda : Z; p_B : Z; p_ldb : Z; p_C : Z; p_ldc : Z; p_bufA : Z; p_bufB : Z }.
Arguments p_mem {t}. Arguments p_tu {t}. Arguments p_blocks {t}. Arguments p_order {t}. Arguments p_ta {t}. Arguments p_tb {t}.
Arguments p_K {t}. Arguments p_A {t}. Arguments p_lda {t}. Arguments p_B {t}. Arguments p_ldb {t}. Arguments p_C {t}. Arguments p_ldc {t}.
Arguments p_bufA {t}. Arguments p_bufB {t}.
(** Elements of its operands, and its accumulators. *)
Definition pA {t} (p : part t) (i k : Z) : F t := p_mem p (op_addr (p_order p) (p_ta p) (p_A p) (p_lda p) i k).
Definition pB {t} (p : part t) (k j : Z) : F t := p_mem p (op_addr (p_order p) (p_tb p) (p_B p) (p_ldb p) k j).
Definition pC {t} (fold : Z) (p : part t) (i j : Z) : Z := c_at fold (p_order p) (p_C p) (p_ldc p) i j.
(** binnedBLAS_dbdgemm on its matrices. *)
Definition part_run {t} (fold M N : Z) (alpha : F t) (p : part t) : mem t :=
  dbdgemm (p_tu p) (p_blocks p) fold (p_order p) (p_ta p) (p_tb p) M N (p_K p) alpha (p_A p) (p_lda p) (p_B p) (p_ldb p)
    (p_C p) (p_ldc p) (p_bufA p) (p_bufB p) (p_mem p).
(** Its matrices do not overlap, its accumulators are empty, no product overflows. *)
Definition part_ok {t} (fold M N : Z) (alpha : F t) (p : part t) : Prop :=
  tuned t (p_tu p) /\ legal_gemm (p_blocks p) /\ 0 <= p_K p /\
  gemm_layout fold (p_order p) (p_ta p) (p_tb p) M N (p_K p) (p_A p) (p_lda p) (p_B p) (p_ldb p) (p_C p) (p_ldc p)
    (p_bufA p) (bufA_len (p_blocks p) M (p_K p)) (p_bufB p) (mxt_block (p_blocks p) * myt_block (p_blocks p)) /\
  (forall i j, 0 <= i < M -> 0 <= j < N -> acc_at fold [] [] (p_mem p) (pC fold p i j)) /\
  (forall i j k, 0 <= i < M -> 0 <= j < N -> 0 <= k < p_K p -> is_finite (fmul (fmul (pA p i k) alpha) (pB p k j)) = true).

Section S.
  Context {t : ty} (fold M N : Z) (Hf : 2 <= fold <= MAXFOLD t) (HM : 0 <= M) (HN : 0 <= N) (alpha : F t) (Al : feq alpha fzero = false).
  Definition part_terms (p : part t) (i j : Z) : list (F t) := map (fun k => fmul (fmul (pA p i k) alpha) (pB p k j)) (zseq 0 (p_K p)).
  Lemma part_holds p : part_ok fold M N alpha p -> p_K p <= capacity t -> forall i j, 0 <= i < M -> 0 <= j < N ->
    acc_at fold [] (part_terms p i j) (part_run fold M N alpha p) (pC fold p i j).
  Proof.
    intros (HT & LB & HK & L & HA & HF) HC i j Hi Hj.
    destruct (gemm_holds fold Hf (p_tu p) (p_blocks p) (p_order p) (p_ta p) (p_tb p) M N (p_K p) alpha (p_A p) (p_lda p) (p_B p) (p_ldb p) (p_C p) (p_ldc p)
      (p_bufA p) (p_bufB p) (fun _ _ => []) (fun _ _ => []) (p_mem p) HT LB HM HN HK L Al) as [G _].
    { intros i' j' Hi' Hj'. split; [exact (HA i' j' Hi' Hj')|]. split; [cbn [length]; lia|]. unfold all_finite. apply forallb_forall.
      intros x Hx. apply in_map_iff in Hx. destruct Hx as (k & <- & Hk). apply zseq_In in Hk. apply (HF i' j' k); lia. }
    specialize (G i j Hi Hj). rewrite app_nil_r in G. exact G.
  Qed.
  Lemma part_length p i j : 0 <= p_K p -> Z.of_nat (length (part_terms p i j)) = p_K p.
  Proof. intros H. unfold part_terms. now apply zmap_length. Qed.
End S.
(** The inner index [k] of the whole product is index [snd (home k)] of process [fst (home k)], and every
    index of every process is the home of exactly one: blocks, cyclic, anything. *)
Definition distributed {t} (ranks : list nat) (G : nat -> part t) (K : Z) (home : Z -> nat * Z) : Prop :=
  Permutation (map home (zseq 0 K)) (flat_map (fun r => map (pair r) (zseq 0 (p_K (G r)))) ranks).
Lemma distributed_terms {t} ranks (G : nat -> part t) (one : part t) home alpha i j :
  distributed ranks G (p_K one) home ->
  (forall k, 0 <= k < p_K one -> pA (G (fst (home k))) i (snd (home k)) = pA one i k /\ pB (G (fst (home k))) (snd (home k)) j = pB one k j) ->
  Permutation (flat_map (fun r => part_terms alpha (G r) i j) ranks) (part_terms alpha one i j).
Proof.
  intros D E. set (f := fun h : nat * Z => fmul (fmul (pA (G (fst h)) i (snd h)) alpha) (pB (G (fst h)) (snd h) j)).
  transitivity (map f (flat_map (fun r => map (pair r) (zseq 0 (p_K (G r)))) ranks)).
  - clear D E. induction ranks as [|r l IH]; cbn [flat_map]; [constructor|]. rewrite map_app. apply Permutation_app; [|exact IH].
    unfold part_terms. rewrite map_map. reflexivity.
  - unfold distributed in D. rewrite <- D, map_map. unfold part_terms. erewrite map_ext_in; [reflexivity|].
    intros k Hk. apply zseq_In in Hk. destruct (E k ltac:(lia)) as [E1 E2]. unfold f. now rewrite E1, E2.
Qed.
(** Each process multiplies its part into empty accumulators; its binned matrix (element [e] of the buffers
    is entry [at e]) is sent and combined by the MPI operator in any order and tree.  The words of every
    entry, and the value, are those of a single process multiplying the whole matrices. *)
Theorem C84_gemm t fold M N (alpha : F t) len ranks buf cs result (G : nat -> part t) (one : part t) home (entry : Z -> Z * Z) (w : mem t) :
  2 <= fold <= MAXFOLD t -> feq alpha fzero = false -> 0 <= M -> 0 <= N ->
  part_ok fold M N alpha one -> p_K one <= CAPACITY t -> (forall r, In r ranks -> part_ok fold M N alpha (G r)) ->
  distributed ranks G (p_K one) home ->
  (forall k i, 0 <= k < p_K one -> 0 <= i < M -> pA (G (fst (home k))) i (snd (home k)) = pA one i k) ->
  (forall k j, 0 <= k < p_K one -> 0 <= j < N -> pB (G (fst (home k))) (snd (home k)) j = pB one k j) ->
  (forall e, 0 <= e < len -> 0 <= fst (entry e) < M /\ 0 <= snd (entry e) < N) ->
  (forall e r, 0 <= e < len -> In r ranks -> same_words fold w (elem fold (buf r) e)
     (part_run fold M N alpha (G r)) (pC fold (G r) (fst (entry e)) (snd (entry e)))) ->
  buffers (dbnum fold) len ranks buf -> reduction ranks len cs result ->
  forall e, 0 <= e < len -> let out := elem fold (buf (result e)) e in let whole := pC fold one (fst (entry e)) (snd (entry e)) in
  same_words fold (run_calls fold buf cs w) out (part_run fold M N alpha one) whole /\
  ddbconv fold out (run_calls fold buf cs w) = ddbconv fold whole (part_run fold M N alpha one).
Proof.
  intros Hf Al HM HN O1 HC OG D EA EB HE EW HB RD e He out whole. rewrite CAPACITY_eq in HC.
  assert (PT : forall e, 0 <= e < len -> Permutation (flat_map (fun r => part_terms alpha (G r) (fst (entry e)) (snd (entry e))) ranks) (part_terms alpha one (fst (entry e)) (snd (entry e)))).
  { intros e' He'. destruct (HE e' He') as [R1 R2]. apply (distributed_terms ranks G one home); [exact D|]. intros k Hk. split; [apply EA|apply EB]; assumption. }
  assert (KL : forall l r, In r l -> p_K (G r) <= Z.of_nat (length (flat_map (fun r => map (pair r) (zseq 0 (p_K (G r)))) l))).
  { induction l as [|q l IH]; intros r Hr; [destruct Hr|]. cbn [flat_map]. rewrite app_length, map_length, Nat2Z.inj_add, zseq_length.
    destruct Hr as [-> |Hr]; [lia|]. specialize (IH r Hr). lia. }
  assert (KR : forall r, In r ranks -> p_K (G r) <= capacity t).
  { intros r Hr. specialize (KL ranks r Hr). rewrite <- (Permutation_length D), map_length, zseq_length in KL.
    assert (0 <= p_K one) by apply O1. lia. }
  destruct (HE e He) as [R1 R2].
  destruct (reduce_holds t fold len ranks buf cs result (fun _ _ => []) (fun r e => part_terms alpha (G r) (fst (entry e)) (snd (entry e))) w Hf HB RD) with (e := e) as (us' & xs' & S1 & S2 & S3); [|exact He|].
  { intros e' He'. destruct (HE e' He') as [Q1 Q2]. split.
    - rewrite (Permutation_length (PT e' He')), part_length by apply O1. exact HC.
    - intros r Hr. pose proof (part_holds fold M N Hf HM HN alpha Al (G r) (OG r Hr) (KR r Hr) _ _ Q1 Q2) as PH.
      unfold acc_at in *. eapply holds_words_ext; [exact (proj1 Hf)| |exact PH]. intros i Hi. unfold P_of. specialize (EW e' r He' Hr). unfold same_words, dbnum in EW.
      rewrite !Z.mul_1_r, <- !Z.add_assoc. split; apply EW; lia. }
  assert (NU : flat_map (fun _ : nat => @nil (F t)) ranks = []) by (clear; induction ranks; auto).
  rewrite NU in S2. symmetry in S2. apply Permutation_nil in S2. subst us'. rewrite (PT e He) in S3.
  pose proof (part_holds fold M N Hf HM HN alpha Al one O1 HC _ _ R1 R2) as S4. fold whole in S4. fold out in S1.
  assert (AF : all_finite (part_terms alpha one (fst (entry e)) (snd (entry e))) = true).
  { unfold all_finite. apply forallb_forall. intros x Hx. apply in_map_iff in Hx. destruct Hx as (k & <- & Hk). apply zseq_In in Hk. apply O1; lia. }
  split.
  - eapply acc_at_same; [exact Hf| |apply Permutation_refl|exact S3|exact S1|exact S4]. now rewrite (all_finite_perm _ _ S3).
  - eapply conv_acc; [exact Hf|apply Permutation_refl|exact S3|exact S1|exact S4].
Qed.
Print Assumptions C84_gemm.

(** Case: three processes with an uneven cyclic distribution of an inner dimension of 4 (columns 0, 3 / 1 / 2),
    reduced 1 -> 2 -> 0. *)
Definition c84_mem : mem Dbl := fun a => if a <? 200 then sample_mem a else fzero.
Definition c84_part (r : nat) : part Dbl :=
  Part Dbl c84_mem sample_tuning sample_mblocks "C" "N" "T" (if (r =? 0)%nat then 2 else 1)
    (6 * Z.of_nat r) 18 (100 + 6 * Z.of_nat r) 18 1000 2 2000 3000.
Definition c84_one : part Dbl := Part Dbl c84_mem sample_tuning sample_mblocks "C" "N" "T" 4 0 6 100 6 1000 2 2000 3000.
Definition c84_home (k : Z) : nat * Z := (Z.to_nat (k mod 3), k / 3).
Definition c84_entry (e : Z) : Z * Z := (e mod 2, e / 2).
Definition c84_buf (r : nat) : Z := 100 * Z.of_nat r.
Definition c84_world : mem Dbl := fun a => part_run 3 2 3 (mkf 1 1) (c84_part (Z.to_nat (a / 100))) (1000 + a mod 100).
Definition c84_calls : list call := [Call 1 2 0 6; Call 2 0 0 6].
Lemma c84_zero Y a : dbsetzero 3 Y (fun _ => fzero : F Dbl) a = fzero.
Proof.
  unfold dbsetzero, dmsetzero. unfold for_up. change (Z.to_nat (3 - 0)) with 3%nat. cbn [loop]. unfold upd.
  repeat match goal with |- context [if ?b then _ else _] => destruct b end; reflexivity.
Qed.
Lemma c84_ok p : p_mem p = c84_mem -> p_tu p = sample_tuning -> p_blocks p = sample_mblocks -> p_order p = "C"%char -> p_ta p = "N"%char -> p_tb p = "T"%char ->
  p_C p = 1000 -> p_ldc p = 2 -> p_bufA p = 2000 -> p_bufB p = 3000 -> 0 <= p_K p <= 4 ->
  (forall i k, 0 <= i < 2 -> 0 <= k < p_K p -> 0 <= p_A p + k * p_lda p + i < 30) ->
  (forall k j, 0 <= k < p_K p -> 0 <= j < 3 -> 100 <= p_B p + k * p_ldb p + j < 130) ->
  (forall i j k, 0 <= i < 2 -> 0 <= j < 3 -> 0 <= k < p_K p -> is_finite (fmul (fmul (pA p i k) (mkf 1 1)) (pB p k j)) = true) ->
  part_ok 3 2 3 (mkf 1 1) p.
Proof.
  intros E1 E2 E3 E4 E5 E6 E7 E8 E9 E10 HK HA HB HF. unfold part_ok, pC, pA, pB in *. rewrite E1, E2, E3, E4, E5, E6, E7, E8, E9, E10 in *.
  assert (AA : forall i k, op_addr "C" "N" (p_A p) (p_lda p) i k = p_A p + k * p_lda p + i) by reflexivity.
  assert (AB : forall k j, op_addr "C" "T" (p_B p) (p_ldb p) k j = p_B p + k * p_ldb p + j) by reflexivity.
  assert (AC : forall i j, c_at 3 "C" 1000 2 i j = 1000 + (j * 2 + i) * 6) by reflexivity.
  assert (E : mxt_block sample_mblocks * myt_block sample_mblocks = 4) by reflexivity.
  assert (BL : 0 <= bufA_len sample_mblocks 2 (p_K p) <= 8) by (unfold bufA_len; rewrite E; lia). rewrite E. clear E.
  set (LA := bufA_len sample_mblocks 2 (p_K p)) in *. clearbody LA.
  split; [apply C18_case|]. split; [apply C24_case|]. split; [lia|]. split; [|split; [|exact HF]].
  - unfold gemm_layout, gemm_touched, within, dbnum. change (is_row "C") with false. cbv iota. split; [lia|]. split; [|split; [|split]].
    + intros i k Hi Hk. rewrite AA. specialize (HA i k Hi Hk). intros [(r & s & Hr & Hs & H)|[H|H]]; try lia. rewrite AC in H. lia.
    + intros k j Hk Hj. rewrite AB. specialize (HB k j Hk Hj). intros [(r & s & Hr & Hs & H)|[H|H]]; try lia. rewrite AC in H. lia.
    + intros; lia.
    + intros a i j Ha Hi Hj. rewrite AC. lia.
  - intros i j Hi Hj. assert (Hf : 2 <= 3 <= MAXFOLD Dbl) by (vm_compute; split; discriminate).
    destruct (setzero_holds (t := Dbl) 3 Hf (c_at 3 "C" 1000 2 i j) (fun _ => fzero)) as [Z _].
    unfold acc_at in *. eapply holds_words_ext; [lia| |exact Z]. intros k Hk. rewrite AC. unfold dpri, dcar. rewrite !c84_zero. unfold c84_mem.
    split; rewrite (proj2 (Z.ltb_ge _ _)) by lia; reflexivity.
Qed.
Lemma below4 (P : Z -> Prop) : P 0 -> P 1 -> P 2 -> P 3 -> forall i, 0 <= i < 4 -> P i.
Proof. intros H0 H1 H2 H3 i Hi. assert (E : i = 0 \/ i = 1 \/ i = 2 \/ i = 3) by lia. destruct E as [-> |[-> |[-> | ->]]]; auto. Qed.
Example C84_case :
  part_ok 3 2 3 (mkf 1 1) c84_one /\ (forall r, In r [0; 1; 2]%nat -> part_ok 3 2 3 (mkf 1 1) (c84_part r)) /\
  distributed [0; 1; 2]%nat c84_part 4 c84_home /\
  (forall k i, 0 <= k < 4 -> 0 <= i < 2 -> pA (c84_part (fst (c84_home k))) i (snd (c84_home k)) = pA c84_one i k) /\
  (forall k j, 0 <= k < 4 -> 0 <= j < 3 -> pB (c84_part (fst (c84_home k))) (snd (c84_home k)) j = pB c84_one k j) /\
  (forall e, 0 <= e < 6 -> 0 <= fst (c84_entry e) < 2 /\ 0 <= snd (c84_entry e) < 3) /\
  (forall e r, 0 <= e < 6 -> In r [0; 1; 2]%nat -> same_words 3 c84_world (elem 3 (c84_buf r) e)
     (part_run 3 2 3 (mkf 1 1) (c84_part r)) (pC 3 (c84_part r) (fst (c84_entry e)) (snd (c84_entry e)))) /\
  buffers (dbnum 3) 6 [0; 1; 2]%nat c84_buf /\ reduction [0; 1; 2]%nat 6 c84_calls (fun _ => 0%nat).
Proof.
  assert (RK : forall (P : nat -> Prop), P 0%nat -> P 1%nat -> P 2%nat -> forall r, In r [0; 1; 2]%nat -> P r).
  { intros P P0 P1 P2 r [<-|[<-|[<-|[]]]]; assumption. }
  split; [|split; [|split; [|split; [|split; [|split; [|split; [|split]]]]]]].
  - apply c84_ok; try reflexivity; cbn [c84_one p_A p_lda p_B p_ldb p_K]; try (intros; lia).
    intros i j k Hi Hj. revert k. revert j Hj. revert i Hi. refine (below2 _ _ _); refine (below3 _ _ _ _); refine (below4 _ _ _ _ _); vm_compute; reflexivity.
  - refine (RK _ _ _ _); (apply c84_ok; try reflexivity; cbn [c84_part p_A p_lda p_B p_ldb p_K Nat.eqb]; try (intros; lia)).
    + intros i j k Hi Hj. revert k. revert j Hj. revert i Hi. refine (below2 _ _ _); refine (below3 _ _ _ _); refine (below2 _ _ _); vm_compute; reflexivity.
    + intros i j k Hi Hj Hk. assert (k = 0) as -> by lia. clear Hk. revert j Hj. revert i Hi. refine (below2 _ _ _); refine (below3 _ _ _ _); vm_compute; reflexivity.
    + intros i j k Hi Hj Hk. assert (k = 0) as -> by lia. clear Hk. revert j Hj. revert i Hi. refine (below2 _ _ _); refine (below3 _ _ _ _); vm_compute; reflexivity.
  - unfold distributed. change (map c84_home (zseq 0 4)) with [(0%nat, 0); (1%nat, 0); (2%nat, 0); (0%nat, 1)].
    change (flat_map (fun r => map (pair r) (zseq 0 (p_K (c84_part r)))) [0; 1; 2]%nat) with [(0%nat, 0); (0%nat, 1); (1%nat, 0); (2%nat, 0)].
    apply perm_skip. apply Permutation_sym. exact (Permutation_cons_append [(1%nat, 0); (2%nat, 0)] (0%nat, 1)).
  - intros k i Hk. revert k Hk i. refine (below4 _ _ _ _ _); refine (below2 _ _ _); reflexivity.
  - intros k j Hk. revert k Hk j. refine (below4 _ _ _ _ _); refine (below3 _ _ _ _); reflexivity.
  - intros e He. unfold c84_entry. cbn [fst snd]. pose proof (Z.div_mod e 2 ltac:(lia)). pose proof (Z.mod_pos_bound e 2 ltac:(lia)). lia.
  - intros e r He Hr i Hi. unfold dbnum in Hi.
    assert (E : pC 3 (c84_part r) (fst (c84_entry e)) (snd (c84_entry e)) = 1000 + 6 * e).
    { unfold pC, c_at, dbnum. cbn [c84_part p_order p_C p_ldc]. change (is_row "C") with false. cbv iota. unfold c84_entry. cbn [fst snd].
      pose proof (Z.div_mod e 2 ltac:(lia)). lia. }
    rewrite E. unfold c84_world, elem, c84_buf, dbnum.
    replace (100 * Z.of_nat r + e * (2 * 3) + i) with (6 * e + i + Z.of_nat r * 100) by ring. rewrite Z.div_add, Z.mod_add by lia.
    rewrite Z.div_small, Z.mod_small, Z.add_0_l, Nat2Z.id by lia. f_equal. lia.
  - intros i j Hi Hj NE. unfold apart, c84_buf, dbnum. lia.
  - split; [do 3 (apply NoDup_cons; [cbn [In]; intros H; decompose [or] H; (discriminate || contradiction)|]); apply NoDup_nil|].
    split; [do 2 (apply Forall_cons; [cbn; lia|]); apply Forall_nil|].
    intros e He. unfold c84_calls. cbn [filter].
    assert (E : forall s d, covers e (Call s d 0 6) = true).
    { intros s d. unfold covers. cbn [off cnt]. apply andb_true_iff. split; [apply Z.leb_le|apply Z.ltb_lt]; lia. }
    rewrite !E. apply reduces_call; cbn; [auto|auto|discriminate|]. apply reduces_call; cbn; [auto|auto|discriminate|constructor].
Qed.
(** A value of the case. *)
Example C84_case_value : Z.shiftr (toZ (ddbconv 3 (1000 + 6 * 5) (part_run 3 2 3 (mkf 1 1) c84_one))) 1074 <> 0.
Proof. vm_compute. discriminate. Qed.
