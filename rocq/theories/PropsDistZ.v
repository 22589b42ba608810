(** * C89: complex matrix products distributed over the inner dimension *)
From Coq Require Import ZArith Bool List Lia Permutation Ascii.
From Flocq Require Import Core BinarySingleNaN.
From Verif Require Import Fp Mem Binned Spec FpProofs BitProofs CoreArith SpecProofs WordProofs MemProofs AccProofs SumProofs ConvProofs Client History ClientProofs StrideProofs PropsSum PropsAcc PropsMem ComplexProofs PropsComplex Gen GenProofs Params ParamsProofs PropsGen Blas LaneProofs ReduceProofs DriverProofs BlasSpec PropsBlas BlasZ ZEvents ZKernel ZDriver ZLoop BlasZSpec PropsBlasZ Gemv GemvSpec GemvProofs PropsGemv GemvZ GemvZSpec GemvZProofs PropsGemvZ PropsGemmZ Mpi MpiSpec PropsMpi PropsSplit PropsSplitZ PropsDist.
Import ListNotations.
Open Scope Z_scope.

(** The operands of a process as complex matrices (elements after conjugation), its accumulators. *)
Definition zpA {t} (p : part t) (i k : Z) : F t * F t := zop (p_mem p) (p_order p) (p_ta p) (p_A p) (p_lda p) i k.
Definition zpB {t} (p : part t) (k j : Z) : F t * F t := zop (p_mem p) (p_order p) (p_tb p) (p_B p) (p_ldb p) k j.
Definition zpC {t} (fold : Z) (p : part t) (i j : Z) : Z := zc_at fold (p_order p) (p_C p) (p_ldc p) i j.
(** binnedBLAS_zbzgemm on its matrices. *)
Definition zpart_run {t} (fold M N : Z) (alpha : F t * F t) (p : part t) : mem t :=
  zbzgemm (p_tu p) (p_blocks p) fold (p_order p) (p_ta p) (p_tb p) M N (p_K p) alpha (p_A p) (p_lda p) (p_B p) (p_ldb p)
    (p_C p) (p_ldc p) (p_bufA p) (p_bufB p) (p_mem p).
(** Its matrices do not overlap, its accumulators are empty, the call is outside of the exceptions of
    C47 and C29. *)
Definition zpart_ok {t} (fold M N : Z) (alpha : F t * F t) (p : part t) : Prop :=
  tuned t (p_tu p) /\ legal_gemm (p_blocks p) /\ 0 <= p_K p /\
  right_scaling (p_order p) (p_ta p) alpha /\
  Z.min (Z.min (p_K p) (Z.max (mx_block (p_blocks p)) (mxt_block (p_blocks p)))) (block_max (p_tu p)) <= ENDURANCE t / 2 /\
  zgemm_layout fold (p_order p) (p_ta p) (p_tb p) M N (p_K p) (p_A p) (p_lda p) (p_B p) (p_ldb p) (p_C p) (p_ldc p)
    (p_bufA p) (bufA_len (p_blocks p) M (p_K p)) (p_bufB p) (mxt_block (p_blocks p) * myt_block (p_blocks p)) /\
  (forall i j, 0 <= i < M -> 0 <= j < N -> zacc_at fold [] [] [] (p_mem p) (zpC fold p i j)).
Definition zpart_terms {t} (alpha : F t * F t) (p : part t) (i j : Z) : list (F t * F t) :=
  flat_map (fun k => summands (times_complex alpha (zpA p i k)) (zpB p k j)) (zseq 0 (p_K p)).

Section S.
  Context {t : ty} (fold M N : Z) (Hf : 2 <= fold <= MAXFOLD t) (HM : 0 <= M) (HN : 0 <= N) (alpha : F t * F t) (Al : is_complex alpha fzero = false).
  Lemma zpart_length p i j : 0 <= p_K p -> Z.of_nat (length (zpart_terms alpha p i j)) = 2 * p_K p.
  Proof. intros H. unfold zpart_terms. apply flat_two; auto. Qed.
  Lemma zpart_holds p : zpart_ok fold M N alpha p -> 2 * p_K p <= capacity t -> forall i j, 0 <= i < M -> 0 <= j < N ->
    zfinite (zpart_terms alpha p i j) = true ->
    zholds fold (zpart_terms alpha p i j) (zpart_run fold M N alpha p) (zpC fold p i j).
  Proof.
    intros (HT & LB & HK & RS & HE & L & HA) HC i j Hi Hj FF. apply half_dots in HE.
    destruct (zgemm_holds fold Hf (p_tu p) (p_blocks p) (p_order p) (p_ta p) (p_tb p) M N (p_K p) alpha (p_A p) (p_lda p) (p_B p) (p_ldb p) (p_C p) (p_ldc p)
      (p_bufA p) (p_bufB p) (fun _ _ => []) (fun _ _ => []) (fun _ _ => []) (p_mem p) HT LB HM HN HK RS HE L Al) as [G _].
    { intros i' j' Hi' Hj'. split; [exact (HA i' j' Hi' Hj')|]. cbn [length]. lia. }
    specialize (G i j Hi Hj). rewrite app_nil_r in G. apply zout_acc in G; [exact G|exact FF].
  Qed.
End S.
Lemma zdistributed_terms {t} ranks (G : nat -> part t) (one : part t) home alpha i j :
  distributed ranks G (p_K one) home ->
  (forall k, 0 <= k < p_K one -> zpA (G (fst (home k))) i (snd (home k)) = zpA one i k /\ zpB (G (fst (home k))) (snd (home k)) j = zpB one k j) ->
  Permutation (flat_map (fun r => zpart_terms alpha (G r) i j) ranks) (zpart_terms alpha one i j).
Proof.
  intros D E. set (f := fun h : nat * Z => summands (times_complex alpha (zpA (G (fst h)) i (snd h))) (zpB (G (fst h)) (snd h) j)).
  transitivity (flat_map f (flat_map (fun r => map (pair r) (zseq 0 (p_K (G r)))) ranks)).
  - clear D E. induction ranks as [|r l IH]; cbn [flat_map]; [constructor|]. rewrite flat_map_app. apply Permutation_app; [|exact IH].
    unfold zpart_terms. rewrite (flat_map_concat_map f), map_map, <- flat_map_concat_map. reflexivity.
  - unfold distributed in D. transitivity (flat_map f (map home (zseq 0 (p_K one)))); [apply Permutation_flat_map; now symmetry|].
    rewrite (flat_map_concat_map f), map_map, <- flat_map_concat_map. unfold zpart_terms. erewrite flat_ext_in; [reflexivity|].
    intros k Hk. apply zseq_In in Hk. destruct (E k ltac:(lia)) as [E1 E2]. unfold f. now rewrite E1, E2.
Qed.
Lemma zfinite_perm {t} (a b : list (F t * F t)) : Permutation a b -> zfinite a = zfinite b.
Proof. intros P. unfold zfinite. now rewrite (all_finite_perm _ _ (Permutation_map fst P)), (all_finite_perm _ _ (Permutation_map snd P)). Qed.
Lemma zfinite_flat {t} (f : nat -> list (F t * F t)) l r : zfinite (flat_map f l) = true -> In r l -> zfinite (f r) = true.
Proof.
  induction l as [|q l IH]; intros H Hr; [destruct Hr|]. cbn [flat_map] in H. rewrite zfinite_app in H. apply andb_true_iff in H.
  destruct Hr as [-> |Hr]; [apply H|apply IH; [apply H|exact Hr]].
Qed.
(** Single precision, with the MPI operator CBCBADD: the words and the value of every entry are those of
    one process.  (In double precision the operator ZBZBADD is wrong, see C41.) *)
Theorem C89_gemm fold M N (alpha : F Flt * F Flt) len ranks buf cs result (G : nat -> part Flt) (one : part Flt) home (entry : Z -> Z * Z) (w : mem Flt) :
  2 <= fold <= MAXFOLD Flt -> is_complex alpha fzero = false -> 0 <= M -> 0 <= N ->
  zpart_ok fold M N alpha one -> 2 * p_K one <= CAPACITY Flt -> (forall r, In r ranks -> zpart_ok fold M N alpha (G r)) ->
  distributed ranks G (p_K one) home ->
  (forall k i, 0 <= k < p_K one -> 0 <= i < M -> zpA (G (fst (home k))) i (snd (home k)) = zpA one i k) ->
  (forall k j, 0 <= k < p_K one -> 0 <= j < N -> zpB (G (fst (home k))) (snd (home k)) j = zpB one k j) ->
  (* no product overflows *)
  (forall i j, 0 <= i < M -> 0 <= j < N -> zfinite (zgemm_products (p_mem one) (p_order one) (p_ta one) (p_tb one) (p_A one) (p_lda one) alpha (p_B one) (p_ldb one) (p_K one) i j) = true) ->
  (forall e, 0 <= e < len -> 0 <= fst (entry e) < M /\ 0 <= snd (entry e) < N) ->
  (forall e r, 0 <= e < len -> In r ranks -> zsame_words fold w (zelem fold (buf r) e)
     (zpart_run fold M N alpha (G r)) (zpC fold (G r) (fst (entry e)) (snd (entry e)))) ->
  buffers (zbnum fold) len ranks buf -> reduction ranks len cs result ->
  forall e, 0 <= e < len -> let out := zelem fold (buf (result e)) e in let whole := zpC fold one (fst (entry e)) (snd (entry e)) in
  zsame_words fold (run_ccalls fold buf cs w) out (zpart_run fold M N alpha one) whole /\
  zzbconv_sub fold out (run_ccalls fold buf cs w) = zzbconv_sub fold whole (zpart_run fold M N alpha one).
Proof.
  intros Hf Al HM HN O1 HC OG D EA EB FF HE EW HB RD e He out whole. rewrite CAPACITY_eq in HC.
  assert (PT : forall e, 0 <= e < len -> Permutation (flat_map (fun r => zpart_terms alpha (G r) (fst (entry e)) (snd (entry e))) ranks) (zpart_terms alpha one (fst (entry e)) (snd (entry e)))).
  { intros e' He'. destruct (HE e' He') as [R1 R2]. apply (zdistributed_terms ranks G one home); [exact D|]. intros k Hk. split; [apply EA|apply EB]; assumption. }
  assert (FT : forall e, 0 <= e < len -> zfinite (zpart_terms alpha one (fst (entry e)) (snd (entry e))) = true) by (intros e' He'; apply FF; apply HE; exact He').
  assert (KL : forall l r, In r l -> p_K (G r) <= Z.of_nat (length (flat_map (fun r => map (pair r) (zseq 0 (p_K (G r)))) l))).
  { induction l as [|q l IH]; intros r Hr; [destruct Hr|]. cbn [flat_map]. rewrite app_length, map_length, Nat2Z.inj_add, zseq_length.
    destruct Hr as [-> |Hr]; [lia|]. specialize (IH r Hr). lia. }
  assert (KR : forall r, In r ranks -> 2 * p_K (G r) <= capacity Flt).
  { intros r Hr. specialize (KL ranks r Hr). rewrite <- (Permutation_length D), map_length, zseq_length in KL.
    assert (0 <= p_K one) by apply O1. lia. }
  assert (CL : forall e, 0 <= e < len -> Z.of_nat (length (flat_map (fun r => zpart_terms alpha (G r) (fst (entry e)) (snd (entry e))) ranks)) <= capacity Flt).
  { intros e' He'. rewrite (Permutation_length (PT e' He')), zpart_length by apply O1. exact HC. }
  destruct (HE e He) as [R1 R2].
  pose proof (C41_float fold len ranks buf cs result (fun r e => zpart_terms alpha (G r) (fst (entry e)) (snd (entry e))) w (fun _ => fzero) 0
    (zpart_terms alpha one (fst (entry e)) (snd (entry e))) Hf HB RD) as C.
  assert (SUM : forall zs : list (F Flt * F Flt), Z.of_nat (length zs) <= capacity Flt -> zholds fold zs (zsum_list fold 0 zs (fun _ => fzero)) 0).
  { intros zs Hz. exact (proj1 (zsum_list_holds fold Hf 0 zs (fun _ => fzero) Hz)). }
  destruct C with (e := e) as [C1 C2]; [| |exact He|exact (PT e He)|].
  - intros e' r He' Hr. destruct (HE e' He') as [Q1 Q2].
    assert (F' : zfinite (zpart_terms alpha (G r) (fst (entry e')) (snd (entry e'))) = true).
    { apply (zfinite_flat (fun r => zpart_terms alpha (G r) (fst (entry e')) (snd (entry e'))) ranks); [|exact Hr]. rewrite (zfinite_perm _ _ (PT e' He')). apply FT, He'. }
    pose proof (zpart_holds fold M N Hf HM HN alpha Al (G r) (OG r Hr) (KR r Hr) _ _ Q1 Q2 F') as PH.
    assert (LH : Z.of_nat (length (zpart_terms alpha (G r) (fst (entry e')) (snd (entry e')))) <= capacity Flt).
    { rewrite zpart_length by apply (OG r Hr). apply KR, Hr. }
    pose proof (zholds_cells fold Hf _ _ _ _ _ (proj1 (proj1 (andb_true_iff _ _) F')) (proj2 (proj1 (andb_true_iff _ _) F')) PH (SUM _ LH)) as SW.
    specialize (EW e' r He' Hr). unfold zsame_words in *. intros i Hi. rewrite EW by exact Hi. apply SW. exact Hi.
  - intros e' He'. rewrite CAPACITY_eq. apply CL, He'.
  - pose proof (zpart_holds fold M N Hf HM HN alpha Al one O1 HC _ _ R1 R2 (FT e He)) as S4.
    assert (L1 : Z.of_nat (length (zpart_terms alpha one (fst (entry e)) (snd (entry e)))) <= capacity Flt) by (rewrite zpart_length by apply O1; exact HC).
    pose proof (SUM _ L1) as S5. specialize (C1 (FT e He)). fold out in C1, C2. fold whole in S4.
    pose proof (FT e He) as FX. apply andb_true_iff in FX.
    pose proof (zholds_cells fold Hf _ _ _ _ _ (proj1 FX) (proj2 FX) S4 S5) as SW. split.
    + unfold zsame_words in *. intros i Hi. rewrite C1 by exact Hi. symmetry. apply SW. exact Hi.
    + rewrite C2. destruct S4 as [R I], S5 as [R' I']. unfold zzbconv_sub, zzmconv_sub. f_equal.
      * exact (ddmconv_perm fold _ 2 _ 2 _ 2 _ 2 _ _ [] _ _ (proj1 Hf) (Permutation_refl _) R' R).
      * exact (ddmconv_perm fold _ 2 _ 2 _ 2 _ 2 _ _ [] _ _ (proj1 Hf) (Permutation_refl _) I' I).
Qed.
Print Assumptions C89_gemm.

(** Case: three processes with an uneven cyclic distribution of an inner dimension of 4 (columns 0, 3 / 1 / 2), the
    second operand conjugate transposed, reduced 1 -> 2 -> 0. *)
Definition c89_tuning : tuning := file_tuning Flt true 4 2 64 8 3 6.
Definition c89_mem : mem Flt := fun a => if a <? 300 then mkf (a * 7 mod 11 - 5) (5 * (a mod 3)) else fzero.
Definition c89_alpha : F Flt * F Flt := (mkf 3 0, mkf (-1) 1).
Definition c89_part (r : nat) : part Flt :=
  Part Flt c89_mem c89_tuning sample_mblocks "C" "N" "C" (if (r =? 0)%nat then 2 else 1)
    (12 * Z.of_nat r) 18 (100 + 12 * Z.of_nat r) 18 1000 2 2000 3000.
Definition c89_one : part Flt := Part Flt c89_mem c89_tuning sample_mblocks "C" "N" "C" 4 0 6 100 6 1000 2 2000 3000.
Definition c89_world : mem Flt := fun a => zpart_run 3 2 3 c89_alpha (c89_part (Z.to_nat (a / 100))) (1000 + a mod 100).
Definition c89_calls : list call := [Call 1 2 0 6; Call 2 0 0 6].
Lemma c89_zero Y a : zbsetzero 3 Y (fun _ => fzero : F Flt) a = fzero.
Proof.
  rewrite zbsetzero_parts. unfold dmsetzero. unfold for_up. change (Z.to_nat (3 - 0)) with 3%nat. cbn [loop]. unfold upd.
  repeat match goal with |- context [if ?b then _ else _] => destruct b end; reflexivity.
Qed.
Lemma c89_ok p : p_mem p = c89_mem -> p_tu p = c89_tuning -> p_blocks p = sample_mblocks -> p_order p = "C"%char -> p_ta p = "N"%char -> p_tb p = "C"%char ->
  p_C p = 1000 -> p_ldc p = 2 -> p_bufA p = 2000 -> p_bufB p = 3000 -> 0 <= p_K p <= 4 ->
  (forall i k, 0 <= i < 2 -> 0 <= k < p_K p -> 0 <= p_A p + 2 * (k * p_lda p + i) < 90) ->
  (forall k j, 0 <= k < p_K p -> 0 <= j < 3 -> 100 <= p_B p + 2 * (k * p_ldb p + j) < 190) ->
  zpart_ok 3 2 3 c89_alpha p.
Proof.
  intros E1 E2 E3 E4 E5 E6 E7 E8 E9 E10 HK HA HB. unfold zpart_ok, zpC in *. rewrite E1, E2, E3, E4, E5, E6, E7, E8, E9, E10 in *.
  assert (AA : forall i k, zop_addr "C" "N" (p_A p) (p_lda p) i k = p_A p + 2 * (k * p_lda p + i)) by (intros; unfold zop_addr, op_addr, elem_addr; cbn; ring).
  assert (AB : forall k j, zop_addr "C" "C" (p_B p) (p_ldb p) k j = p_B p + 2 * (k * p_ldb p + j)) by (intros; unfold zop_addr, op_addr, elem_addr; cbn; ring).
  assert (AC : forall i j, zc_at 3 "C" 1000 2 i j = 1000 + (j * 2 + i) * 12) by reflexivity.
  assert (E : mxt_block sample_mblocks * myt_block sample_mblocks = 4) by reflexivity.
  assert (BL : 0 <= bufA_len sample_mblocks 2 (p_K p) <= 8) by (unfold bufA_len; rewrite E; lia). rewrite E. clear E.
  set (LA := bufA_len sample_mblocks 2 (p_K p)) in *. clearbody LA.
  split; [apply C18_argument_files; [right; exists 2; vm_compute; split; congruence|right; exists 1; vm_compute; split; congruence|lia]|].
  split; [apply C24_case|]. split; [lia|]. split; [right; left; reflexivity|]. split; [apply Z.le_trans with 4; [lia|vm_compute; discriminate]|]. split.
  - unfold zgemm_layout, zgemm_touched, within, zbnum. change (is_row "C") with false. cbv iota. split; [lia|]. split; [|split; [|split]].
    + intros i k o Hi Hk Ho. rewrite AA. specialize (HA i k Hi Hk). intros [(r & s & Hr & Hs & H)|[H|H]]; try lia. rewrite AC in H. lia.
    + intros k j o Hk Hj Ho. rewrite AB. specialize (HB k j Hk Hj). intros [(r & s & Hr & Hs & H)|[H|H]]; try lia. rewrite AC in H. lia.
    + intros; lia.
    + intros a i j Ha Hi Hj. rewrite AC. lia.
  - intros i j Hi Hj. assert (Hf : 2 <= 3 <= MAXFOLD Flt) by (vm_compute; split; discriminate).
    destruct (zsetzero_holds (t := Flt) 3 Hf (zc_at 3 "C" 1000 2 i j) (fun _ => fzero)) as [Z _].
    apply (zholds_outside 3 Hf [] (zbsetzero 3 (zc_at 3 "C" 1000 2 i j) (fun _ => fzero))); [|exact Z].
    intros a Ha. rewrite c89_zero. unfold c89_mem. rewrite AC in Ha. unfold block, zbnum in Ha. rewrite (proj2 (Z.ltb_ge _ _)) by lia. reflexivity.
Qed.
Example C89_case :
  zpart_ok 3 2 3 c89_alpha c89_one /\ (forall r, In r [0; 1; 2]%nat -> zpart_ok 3 2 3 c89_alpha (c89_part r)) /\
  distributed [0; 1; 2]%nat c89_part 4 c84_home /\
  (forall k i, 0 <= k < 4 -> 0 <= i < 2 -> zpA (c89_part (fst (c84_home k))) i (snd (c84_home k)) = zpA c89_one i k) /\
  (forall k j, 0 <= k < 4 -> 0 <= j < 3 -> zpB (c89_part (fst (c84_home k))) (snd (c84_home k)) j = zpB c89_one k j) /\
  (forall i j, 0 <= i < 2 -> 0 <= j < 3 -> zfinite (zgemm_products c89_mem "C" "N" "C" 0 6 c89_alpha 100 6 4 i j) = true) /\
  (forall e r, 0 <= e < 6 -> In r [0; 1; 2]%nat -> zsame_words 3 c89_world (zelem 3 (c84_buf r) e)
     (zpart_run 3 2 3 c89_alpha (c89_part r)) (zpC 3 (c89_part r) (fst (c84_entry e)) (snd (c84_entry e)))) /\
  buffers (zbnum 3) 6 [0; 1; 2]%nat c84_buf /\ reduction [0; 1; 2]%nat 6 c89_calls (fun _ => 0%nat).
Proof.
  assert (RK : forall (P : nat -> Prop), P 0%nat -> P 1%nat -> P 2%nat -> forall r, In r [0; 1; 2]%nat -> P r).
  { intros P P0 P1 P2 r [<-|[<-|[<-|[]]]]; assumption. }
  split; [|split; [|split; [|split; [|split; [|split; [|split; [|split]]]]]]].
  - apply c89_ok; try reflexivity; cbn [c89_one p_A p_lda p_B p_ldb p_K]; intros; lia.
  - refine (RK _ _ _ _); (apply c89_ok; try reflexivity; cbn [c89_part p_A p_lda p_B p_ldb p_K Nat.eqb]; intros; lia).
  - unfold distributed. change (map c84_home (zseq 0 4)) with [(0%nat, 0); (1%nat, 0); (2%nat, 0); (0%nat, 1)].
    change (flat_map (fun r => map (pair r) (zseq 0 (p_K (c89_part r)))) [0; 1; 2]%nat) with [(0%nat, 0); (0%nat, 1); (1%nat, 0); (2%nat, 0)].
    apply perm_skip. apply Permutation_sym. exact (Permutation_cons_append [(1%nat, 0); (2%nat, 0)] (0%nat, 1)).
  - intros k i Hk. revert k Hk i. refine (below4 _ _ _ _ _); refine (below2 _ _ _); reflexivity.
  - intros k j Hk. revert k Hk j. refine (below4 _ _ _ _ _); refine (below3 _ _ _ _); reflexivity.
  - intros i j Hi. revert i Hi j. refine (below2 _ _ _); refine (below3 _ _ _ _); vm_compute; reflexivity.
  - intros e r He Hr i Hi.
    assert (E : zpC 3 (c89_part r) (fst (c84_entry e)) (snd (c84_entry e)) = 1000 + 12 * e).
    { unfold zpC, zc_at, zbnum. cbn [c89_part p_order p_C p_ldc]. change (is_row "C") with false. cbv iota. unfold c84_entry. cbn [fst snd].
      pose proof (Z.div_mod e 2 ltac:(lia)). lia. }
    rewrite E. unfold c89_world, zelem, c84_buf, zbnum.
    replace (100 * Z.of_nat r + e * (4 * 3) + i) with (12 * e + i + Z.of_nat r * 100) by ring. rewrite Z.div_add, Z.mod_add by lia.
    rewrite Z.div_small, Z.mod_small, Z.add_0_l, Nat2Z.id by lia. f_equal. lia.
  - intros i j Hi Hj NE. unfold apart, c84_buf, zbnum. lia.
  - split; [do 3 (apply NoDup_cons; [cbn [In]; intros H; decompose [or] H; (discriminate || contradiction)|]); apply NoDup_nil|].
    split; [do 2 (apply Forall_cons; [cbn; lia|]); apply Forall_nil|].
    intros e He. unfold c89_calls. cbn [filter].
    assert (E : forall s d, covers e (Call s d 0 6) = true).
    { intros s d. unfold covers. cbn [off cnt]. apply andb_true_iff. split; [apply Z.leb_le|apply Z.ltb_lt]; lia. }
    rewrite !E. apply reduces_call; cbn; [auto|auto|discriminate|]. apply reduces_call; cbn; [auto|auto|discriminate|constructor].
Qed.
(** Values of the case. *)
Example C89_case_value : let z := zzbconv_sub 3 (1000 + 12 * 5) (zpart_run 3 2 3 c89_alpha c89_one) in
  Z.shiftr (toZ (fst z)) 149 <> 0 /\ Z.shiftr (toZ (snd z)) 149 <> 0.
Proof. vm_compute. split; discriminate. Qed.
