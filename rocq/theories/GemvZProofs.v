(** * Proofs about the blocked complex matrix products *)
From Coq Require Import ZArith Bool List Reals Lra Lia Permutation Ascii.
From Flocq Require Import Core BinarySingleNaN.
From Verif Require Import Fp Mem Binned Spec FpProofs BitProofs CoreArith SpecProofs WordProofs MemProofs AccProofs SumProofs ConvProofs Client History ClientProofs StrideProofs PropsSum PropsAcc PropsMem ComplexProofs PropsComplex Gen GenProofs Params ParamsProofs Blas LaneProofs ReduceProofs DriverProofs BlasSpec PropsBlas BlasZ ZEvents ZKernel ZDriver ZLoop BlasZSpec PropsBlasZ Gemv GemvSpec GemvProofs GemvZ GemvZSpec.
Import ListNotations.
Open Scope Z_scope.

(** ** Signs in products *)
Lemma fmul_comm {t} (x y : F t) : fmul x y = fmul y x.
Proof.
  destruct x as [sx|sx| |sx mx ex Hx], y as [sy|sy| |sy my ey Hy]; unfold fmul, Bmult; try reflexivity; try (rewrite xorb_comm; reflexivity).
  apply B2SF_inj. rewrite !B2SF_SF2B. rewrite xorb_comm, Pos.mul_comm, Z.add_comm. reflexivity.
Qed.
Lemma round_aux_neg t s m e l :
  binary_round_aux (prec t) (emax t) mode_NE (negb s) m e l = SpecFloat.SFopp (binary_round_aux (prec t) (emax t) mode_NE s m e l).
Proof.
  unfold binary_round_aux. cbn [choice_mode]. destruct (SpecFloat.shr_fexp (prec t) (emax t) m e l) as [a b].
  destruct (SpecFloat.shr_fexp (prec t) (emax t) _ b SpecFloat.loc_Exact) as [c d]. destruct (SpecFloat.shr_m c); try reflexivity.
  unfold binary_fit_aux. destruct (Z.leb d (emax t - prec t)); reflexivity.
Qed.
Lemma B2SF_neg {t} (x : F t) : B2SF (Bopp x) = SpecFloat.SFopp (B2SF x).
Proof. destruct x; reflexivity. Qed.
Lemma fmul_neg_l {t} (x y : F t) : fmul (fneg x) y = fneg (fmul x y).
Proof.
  destruct x as [sx|sx| |sx mx ex Hx], y as [sy|sy| |sy my ey Hy]; unfold fmul, fneg; cbn [Bopp];
    unfold Bmult; cbn [Bopp]; try reflexivity; try (destruct sx, sy; reflexivity).
  apply B2SF_inj. rewrite B2SF_neg, !B2SF_SF2B. rewrite <- round_aux_neg. f_equal. destruct sx, sy; reflexivity.
Qed.
Lemma fmul_neg_r {t} (x y : F t) : fmul x (fneg y) = fneg (fmul x y).
Proof. rewrite fmul_comm, fmul_neg_l, fmul_comm. reflexivity. Qed.
Lemma fneg_neg {t} (x : F t) : fneg (fneg x) = x.
Proof. apply Bopp_involutive. Qed.
Lemma fsub_add {t} (x y : F t) : fsub x y = fadd x (fneg y).
Proof. destruct x, y; reflexivity. Qed.

(** ** The summands of the dot products *)
Definition pair_terms {t} (k : zkind) (x y : F t * F t) : list (F t * F t) :=
  match k with
  | ZSum => [x]
  | ZDotC => [(fmul (fst x) (fst y), fneg (fmul (snd x) (fst y))); (fmul (snd x) (snd y), fmul (fst x) (snd y))]
  | ZDotU => summands x y
  end.
(** Same summands in each part, in some order. *)
Definition alike {t} (l l' : list (F t * F t)) : Prop := Permutation (map fst l) (map fst l') /\ Permutation (map snd l) (map snd l').
Lemma alike_refl {t} (l : list (F t * F t)) : alike l l. Proof. split; reflexivity. Qed.
Lemma alike_app {t} (a b c d : list (F t * F t)) : alike a b -> alike c d -> alike (a ++ c) (b ++ d).
Proof. intros (A & B) (C & D). split; rewrite !map_app; apply Permutation_app; auto. Qed.
Lemma alike_trans {t} (a b c : list (F t * F t)) : alike a b -> alike b c -> alike a c.
Proof. intros (A & B) (C & D). split; etransitivity; eauto. Qed.
Lemma alike_flat {t} (f g : Z -> list (F t * F t)) l : (forall k, In k l -> alike (f k) (g k)) -> alike (flat_map f l) (flat_map g l).
Proof.
  induction l as [|k l IH]; intros H; [apply alike_refl|]. cbn [flat_map]. apply alike_app; [apply H; now left|apply IH; intros; apply H; now right].
Qed.
Lemma alike_perm {t} (a b : list (F t * F t)) : Permutation a b -> alike a b.
Proof. intros P. split; apply Permutation_map; exact P. Qed.
Definition call_terms {t} (d : dot_call) (a b : F t * F t) : list (F t * F t) :=
  match d with UAB => pair_terms ZDotU a b | CAB => pair_terms ZDotC a b | CBA => pair_terms ZDotC b a end.
Definition conj_if {t} (c : bool) (z : F t * F t) : F t * F t := if c then conjugate z else z.
Lemma terms_cab {t} (a b : F t * F t) : alike (call_terms CAB a b) (summands (conjugate a) b).
Proof.
  destruct a as (ar, ai), b as (br, bi). unfold call_terms, pair_terms, summands, conjugate. cbn [fst snd].
  rewrite !fmul_neg_l, fneg_neg. apply alike_refl.
Qed.
Lemma terms_cba {t} (a b : F t * F t) : alike (call_terms CBA a b) (summands a (conjugate b)).
Proof.
  destruct a as (ar, ai), b as (br, bi). unfold call_terms, pair_terms, summands, conjugate. cbn [fst snd].
  rewrite !fmul_neg_r, fneg_neg. rewrite (fmul_comm br ar), (fmul_comm bi ar), (fmul_comm bi ai), (fmul_comm br ai).
  split; cbn [map fst snd]; [reflexivity|apply perm_swap].
Qed.
Lemma mul_conj_eq {t} (alpha x : F t * F t) : mul_conj alpha x = mul_plain alpha (conjugate x).
Proof.
  unfold mul_conj, mul_plain, conjugate. cbn [fst snd]. rewrite !fsub_add, !fmul_neg_l, fneg_neg. reflexivity.
Qed.
Lemma zdata_flat {t} k (m : mem t) X iX Y iY N : 0 <= N -> k <> ZSum ->
  zdata k m X iX Y iY N = flat_map (fun i => pair_terms k (cell2 m (X + 2 * (i * iX))) (cell2 m (Y + 2 * (i * iY)))) (zseq 0 N).
Proof.
  intros HN HK. unfold zdata, conj_products, plain_products, zread.
  destruct k; [congruence| |]; generalize (zseq 0 N); intros l; induction l as [|i l IH]; try reflexivity;
    cbn [map combine flat_map]; rewrite IH; reflexivity.
Qed.

(** ** Reductions into accumulators that may hold infinities or NaN *)
Section OUTZ.
  Context {t : ty} (fold : Z) (Hf : 2 <= fold <= MAXFOLD t).
  Notation Hf2' := (ClientProofs.Hf2 fold Hf). Notation Hfm' := (ClientProofs.Hfm fold Hf).
  Definition zout us vs (zs : list (F t * F t)) (m : mem t) A : Prop :=
    @cout t fold A 2 (A + 2 * fold) 2 us (map fst zs) m /\ @cout t fold (A + 1) 2 (A + 2 * fold + 1) 2 vs (map snd zs) m.
  Lemma zacc_out us vs zs (m : mem t) A : zacc_at fold us vs zs m A -> zout us vs zs m A.
  Proof.
    intros [HR HI]. split; unfold cout.
    - destruct (all_finite (map fst zs)) eqn:E; [exact HR|]. left. unfold holds in HR. rewrite E, Z.mul_0_l, Z.add_0_r in HR. exact HR.
    - destruct (all_finite (map snd zs)) eqn:E; [exact HI|]. left. unfold holds in HI. rewrite E, Z.mul_0_l, Z.add_0_r in HI. exact HI.
  Qed.
  Lemma cout_perm p c us xs xs' (m : mem t) : Permutation xs xs' -> @cout t fold p 2 c 2 us xs m -> @cout t fold p 2 c 2 us xs' m.
  Proof.
    intros P. unfold cout. rewrite <- (all_finite_perm _ _ P), <- (special_perm _ _ P). destruct (all_finite xs); auto.
    intros H. eapply holds_perm; [reflexivity|exact P|exact H].
  Qed.
  Lemma zout_alike us vs zs zs' (m : mem t) A : alike zs zs' -> zout us vs zs m A -> zout us vs zs' m A.
  Proof. intros (P & Q) (H1 & H2). split; eapply cout_perm; eauto. Qed.
  Lemma zout_frame us vs zs (m m' : mem t) A : (forall a, A <= a < A + zbnum fold -> m' a = m a) -> zout us vs zs m A -> zout us vs zs m' A.
  Proof.
    intros E (H1 & H2). split; unfold cout in *.
    - destruct (all_finite (map fst zs)); [|rewrite E by (unfold zbnum; lia); exact H1].
      eapply holds_words_ext; [exact Hf2'| |exact H1]. intros i Hi. unfold P_of. split; apply E; unfold zbnum; lia.
    - destruct (all_finite (map snd zs)); [|rewrite E by (unfold zbnum; lia); exact H2].
      eapply holds_words_ext; [exact Hf2'| |exact H2]. intros i Hi. unfold P_of. split; apply E; unfold zbnum; lia.
  Qed.
  Lemma zreduce_zout k tu N X iX Y iY A (m : mem t) us vs zs :
    legal_avec (amax_vec tu) -> legal_vec (dep_vec tu) -> 1 <= block_max tu -> nterms k * Z.min N (block_max tu) <= endurance t ->
    0 <= N -> zout us vs zs m A ->
    zclear_of X iX N A (zbnum fold) -> zclear_of Y iY N A (zbnum fold) ->
    nterms k * N + Z.of_nat (length zs) <= capacity t ->
    let m' := zreduce k tu fold N X iX Y iY A 1 (A + 2 * fold) 1 m in
    zout us vs (zdata k m X iX Y iY N ++ zs) m' A /\ unchanged_outside A (zbnum fold) m m'.
  Proof.
    intros LA LV HB HB2 HN [HR HI] CX CY HC m'. unfold m'. clear m'. rewrite zreduce_short by auto.
    pose proof (endurance_pos t) as EP. pose proof (nterms_pos k) as NP.
    assert (HE : nterms k <= endurance t) by (destruct k; cbn [nterms]; unfold endurance in *; destruct t; cbn; lia).
    set (tu' := Tuning (Z.max 1 (Z.min N (block_max tu))) (amax_vec tu) (dep_vec tu)).
    assert (HB' : 1 <= block_max tu') by (unfold tu'; cbn [block_max]; lia).
    assert (HB2' : nterms k * block_max tu' <= endurance t) by (unfold tu'; cbn [block_max]; nia).
    change (legal_avec (amax_vec tu')) in LA. change (legal_vec (dep_vec tu')) in LV. clearbody tu'.
    clear tu HB HB2. rename tu' into tu, HB' into HB, HB2' into HB2.
    set (m' := zreduce k tu fold N X iX Y iY A 1 (A + 2 * fold) 1 m).
    destruct (zdata_terms k m X iX Y iY N HN) as [E0 E1]. unfold zout. rewrite !map_app, E0, E1.
    pose proof (zloop_ok (ip := 1) (ic := 1) (layout_complex_re fold A ltac:(lia)) (layout_complex_im fold A ltac:(lia)) (zin_disjoint fold A) Hf2' Hfm'
      (S (Z.to_nat N)) k tu N X iX Y iY 0 (block_max tu) 0 m us vs (map fst zs) (map snd zs)) as R.
    cbv zeta in R. rewrite Z.sub_0_r in R.
    assert (LZ : Z.of_nat (length zs) <= capacity t) by nia.
    destruct R as (R0 & R1 & R2); auto; try lia.
    - unfold cst. rewrite Z.mul_0_r. unfold cout in HR. destruct (all_finite (map fst zs)) eqn:FZ; [|exact HR].
      apply holds_rep; auto. now rewrite map_length.
    - unfold cst. rewrite Z.mul_0_r. unfold cout in HI. destruct (all_finite (map snd zs)) eqn:FZ; [|exact HI].
      apply holds_rep; auto. now rewrite map_length.
    - apply (zclear_outside fold Hf); auto.
    - apply (zclear_outside fold Hf); auto.
    - intros _. rewrite app_length, map_length, zterms_length. nia.
    - intros _. rewrite app_length, map_length, zterms_length. nia.
    - split; [split; [exact R0|exact R1]|]. intros a Ha. apply R2; intros (i & Hi & E); apply Ha; unfold zbnum; lia.
  Qed.

  Context (I : Type) (dec : forall r r' : I, {r = r'} + {r <> r'}) (ok : I -> Prop) (ad : I -> Z).
  Context (AP : forall r r', ok r -> ok r' -> r <> r' -> apart (zbnum fold) (ad r) (ad r')).
  Context (us vs : I -> list (F t)) (zs : I -> list (F t * F t)) (tm : I -> Z -> list (F t * F t)) (K : Z).
  Context (HC : forall r, ok r -> 2 * K + Z.of_nat (length (zs r)) <= capacity t).
  Context (LT : forall r k, length (tm r k) = 2%nat).

  Definition ztaken r n := flat_map (tm r) (zseq 0 n).
  Definition zinv (c : I -> Z) (m : mem t) := forall r, ok r -> zout (us r) (vs r) (ztaken r (c r) ++ zs r) m (ad r).
  Definition zclear a := forall r, ok r -> ~ (ad r <= a < ad r + zbnum fold).
  (** Both cells of a complex number. *)
  Definition zclear2 a := zclear a /\ zclear (a + 1).
  Lemma zinv_ext c c' m : (forall r, ok r -> c r = c' r) -> zinv c m -> zinv c' m.
  Proof. intros E H r Hr. rewrite <- E by auto. auto. Qed.
  Lemma zinv_frame c (m m' : mem t) : (forall r a, ok r -> ad r <= a < ad r + zbnum fold -> m' a = m a) ->
    zinv c m -> zinv c m'.
  Proof. intros E H r Hr. eapply zout_frame; [|exact (H r Hr)]. intros a Ha. eapply E; eauto. Qed.
  Lemma ztaken_length r n : 0 <= n -> Z.of_nat (length (ztaken r n)) = 2 * n.
  Proof.
    intros Hn. unfold ztaken. assert (E : forall l, length (flat_map (tm r) l) = (2 * length l)%nat).
    { induction l as [|k l IH]; [reflexivity|]. cbn [flat_map length]. rewrite app_length, LT, IH. lia. }
    rewrite E, zseq_length. lia.
  Qed.

  Lemma zdot_step k tu n P iP Q iQ r c c' (m : mem t) : k <> ZSum -> tuned t tu -> 0 <= n -> 2 * Z.min n (block_max tu) <= endurance t ->
    ok r -> 0 <= c r -> c r + n <= K -> zinv c m ->
    (forall e, 0 <= e < n -> zclear2 (P + 2 * (e * iP)) /\ zclear2 (Q + 2 * (e * iQ)) /\
       alike (pair_terms k (cell2 m (P + 2 * (e * iP))) (cell2 m (Q + 2 * (e * iQ)))) (tm r (c r + e))) ->
    c' r = c r + n -> (forall r', ok r' -> r' <> r -> c' r' = c r') ->
    let m' := zreduce k tu fold n P iP Q iQ (ad r) 1 (ad r + 2 * fold) 1 m in
    zinv c' m' /\ (forall a, zclear a -> m' a = m a).
  Proof.
    intros NK HT Hn HE Hr C0 C1 HI HD E1 E2 m'. destruct (tuned_legal t tu HT) as (LB & LA & LV).
    assert (N2 : nterms k = 2) by (destruct k; [congruence| |]; reflexivity).
    assert (ET : alike (zdata k m P iP Q iQ n) (flat_map (tm r) (zseq (c r) n))).
    { rewrite zdata_flat by auto. rewrite (zseq_from0 (c r)).
      assert (FM : forall (g : Z -> Z) l, flat_map (tm r) (map g l) = flat_map (fun x => tm r (g x)) l).
      { intros g l. induction l as [|x l IH]; [reflexivity|]. cbn [map flat_map]. now rewrite IH. }
      rewrite FM. apply alike_flat. intros e He. apply zseq_In in He. destruct (HD e ltac:(lia)) as (_ & _ & E). cbv beta. replace (e + c r) with (c r + e) by lia. exact E. }
    assert (ET' : ztaken r (c r + n) = ztaken r (c r) ++ flat_map (tm r) (zseq (c r) n)).
    { unfold ztaken. rewrite zseq_app by lia. rewrite flat_map_app. reflexivity. }
    destruct (zreduce_zout k tu n P iP Q iQ (ad r) m (us r) (vs r) (ztaken r (c r) ++ zs r)) as [R1 R2]; auto; try lia.
    - intros e o He Ho. destruct (HD e He) as ((A & B) & _). destruct Ho as [-> | ->]; [rewrite Z.add_0_r; exact (A r Hr)|exact (B r Hr)].
    - intros e o He Ho. destruct (HD e He) as (_ & (A & B) & _). destruct Ho as [-> | ->]; [rewrite Z.add_0_r; exact (A r Hr)|exact (B r Hr)].
    - rewrite app_length. pose proof (ztaken_length r (c r) C0). specialize (HC r Hr). lia.
    - fold m' in R1, R2. clearbody m'. split.
      + intros r' Hr'. destruct (dec r' r) as [-> | NE].
        * rewrite E1, ET'. eapply zout_alike; [|exact R1]. rewrite app_assoc. apply alike_app; [|apply alike_refl].
          eapply alike_trans; [apply alike_app; [exact ET|apply alike_refl]|]. apply alike_perm, Permutation_app_comm.
        * rewrite E2 by auto. eapply zout_frame; [|exact (HI r' Hr')]. intros a Ha. apply R2.
          specialize (AP r r' Hr Hr' ltac:(congruence)). unfold apart in AP. lia.
      + intros a Ha. apply R2. apply Ha. exact Hr.
  Qed.
End OUTZ.

Notation inR R := (fun r => 0 <= r < R).
Lemma cell2_ext {t} (m m' : mem t) a : m a = m' a -> m (a + 1) = m' (a + 1) -> cell2 m a = cell2 m' a.
Proof. intros E1 E2. unfold cell2. now rewrite E1, E2. Qed.
Definition zk (conj : bool) : zkind := if conj then ZDotC else ZDotU.
Lemma zdot_reduce {t} conj tu fold n P iP Q iQ Y (m : mem t) :
  zdot conj tu fold n P iP Q iQ Y m = zreduce (zk conj) tu fold n P iP Q iQ Y 1 (Y + 2 * fold) 1 m.
Proof. destruct conj; reflexivity. Qed.
(** The nest of zbzgemv: R outputs, K terms each. *)
Definition zgemv_nest {t} (conj : bool) (tu : tuning) (fold R K limit bi bk : Z) (prep : Z -> Z -> mem t -> mem t) (op : Z -> Z -> Z -> Z)
    (pX iX : Z) (ad : Z -> Z) (m : mem t) : mem t :=
  for_step 0 R bi (fun i m => for_step 0 K bk (fun j m =>
    let m := prep i j m in
    for_block i R bi (fun ii m =>
      zdot conj tu fold (Z.min bk (limit - j)) (op i j ii) 1 (pX + 2 * j * iX) iX (ad ii) m) m) m) m.
Section GEMVZ.
  Context {t : ty} (fold : Z) (Hf : 2 <= fold <= MAXFOLD t) (conj : bool).
  Context (tu : tuning) (HT : tuned t tu) (R K limit bi bk : Z) (Hbi : 1 <= bi) (Hbk : 1 <= bk) (HK : 0 <= K).
  Context (HLim : forall j, 0 <= j < K -> (bk | j) -> Z.min bk (limit - j) = Z.min bk (K - j)).
  Context (HE : 2 * Z.min (Z.min K bk) (block_max tu) <= endurance t).
  Context (ad : Z -> Z) (AP : forall r r', 0 <= r < R -> 0 <= r' < R -> r <> r' -> apart (zbnum fold) (ad r) (ad r')).
  Context (us vs : Z -> list (F t)) (zs : Z -> list (F t * F t)) (Aval : Z -> Z -> F t * F t) (Xval : Z -> F t * F t).
  Context (tm : Z -> Z -> list (F t * F t)) (LT : forall r k, length (tm r k) = 2%nat).
  Context (TM : forall r k, 0 <= r < R -> 0 <= k < K -> alike (pair_terms (zk conj) (Aval r k) (Xval k)) (tm r k)).
  Context (HC : forall r, 0 <= r < R -> 2 * K + Z.of_nat (length (zs r)) <= capacity t).
  Context (prep : Z -> Z -> mem t -> mem t) (op : Z -> Z -> Z -> Z) (pX iX : Z) (buf : Z -> Prop) (m1 : mem t).
  Let cl := zclear fold Z (inR R) ad.
  Let iv := zinv fold Z (inR R) ad us vs zs tm.
  Definition zagree (m : mem t) := forall a, cl a -> ~ buf a -> m a = m1 a.
  Context (BC : forall a, buf a -> cl a).
  Context (HX : forall k o, 0 <= k < K -> o = 0 \/ o = 1 -> cl (pX + 2 * (k * iX) + o) /\ ~ buf (pX + 2 * (k * iX) + o)).
  Context (HXV : forall k, 0 <= k < K -> cell2 m1 (pX + 2 * (k * iX)) = Xval k).
  Context (HO : forall i j ii k o, 0 <= i < R -> 0 <= j < K -> i <= ii < Z.min R (i + bi) -> 0 <= k < Z.min bk (K - j) ->
    o = 0 \/ o = 1 -> cl (op i j ii + 2 * k + o)).
  Context (HP : forall i j m, 0 <= i < R -> 0 <= j < K -> zagree m ->
    (forall a, ~ buf a -> prep i j m a = m a) /\
    forall ii k, i <= ii < Z.min R (i + bi) -> 0 <= k < Z.min bk (K - j) -> cell2 (prep i j m) (op i j ii + 2 * k) = Aval ii (j + k)).

  Lemma zgemv_nest_ok : iv (fun _ => 0) m1 ->
    let m' := zgemv_nest conj tu fold R K limit bi bk prep op pX iX ad m1 in
    iv (fun _ => K) m' /\ zagree m'.
  Proof.
    intros I0 m'.
    destruct (for_step_inv (fun i m => iv (fun r => if r <? i then K else 0) m /\ zagree m)
      (fun i m => for_step 0 K bk (fun j m =>
        let m := prep i j m in
        for_block i R bi (fun ii m =>
          zdot conj tu fold (Z.min bk (limit - j)) (op i j ii) 1 (pX + 2 * j * iX) iX (ad ii) m) m) m) 0 R bi m1 Hbi)
      as (e & He & _ & G1 & G2).
    - split; [|intros a _ _; reflexivity]. eapply zinv_ext; [|exact I0]. intros r Hr. cbv beta. destruct (Z.ltb_spec r 0); lia.
    - intros i m Hi _ (Im & Am).
      destruct (for_step_inv (fun j m => iv (fun r => if r <? i then K else if r <? i + bi then Z.min j K else 0) m /\ zagree m)
        (fun j m =>
          let m := prep i j m in
          for_block i R bi (fun ii m =>
            zdot conj tu fold (Z.min bk (limit - j)) (op i j ii) 1 (pX + 2 * j * iX) iX (ad ii) m) m) 0 K bk m Hbk)
        as (e & He & _ & G1 & G2).
      + split; [|exact Am]. eapply zinv_ext; [|exact Im]. intros r Hr. cbv beta.
        destruct (Z.ltb_spec r i), (Z.ltb_spec r (i + bi)); lia.
      + clear m Im Am. intros j m Hj Dj (Im & Am). cbv zeta. rewrite Z.sub_0_r in Dj.
        destruct (HP i j m Hi Hj Am) as [P1 P2]. set (m2 := prep i j m) in *.
        assert (Im2 : iv (fun r => if r <? i then K else if r <? i + bi then Z.min j K else 0) m2).
        { eapply (zinv_frame fold Hf); [|exact Im]. intros r a Hr Ha. apply P1. intros Ba. exact (BC a Ba r Hr Ha). }
        assert (Am2 : zagree m2). { intros a Ca Ba. rewrite P1 by exact Ba. apply Am; auto. }
        clearbody m2. clear m Im Am P1. rewrite (HLim j Hj Dj).
        pose proof (for_block_inv (fun ii m =>
          iv (fun r => if r <? i then K else if r <? ii then Z.min (j + bk) K else if r <? i + bi then Z.min j K else 0) m /\
          forall a, cl a -> m a = m2 a)
          (fun ii m => zdot conj tu fold (Z.min bk (K - j)) (op i j ii) 1 (pX + 2 * j * iX) iX (ad ii) m) i R bi m2 ltac:(lia) ltac:(lia)) as B.
        cbv beta in B. destruct B as [B1 B2].
        * split; [|reflexivity]. eapply zinv_ext; [|exact Im2]. intros r Hr. cbv beta.
          destruct (Z.ltb_spec r i), (Z.ltb_spec r (i + bi)); lia.
        * intros ii m Hii (Im & Fm). rewrite !zdot_reduce.
          destruct (zdot_step fold Hf Z Z.eq_dec (inR R) ad AP us vs zs tm K HC LT (zk conj) tu (Z.min bk (K - j)) (op i j ii) 1 (pX + 2 * j * iX) iX ii
            (fun r => if r <? i then K else if r <? ii then Z.min (j + bk) K else if r <? i + bi then Z.min j K else 0)
            (fun r => if r <? i then K else if r <? ii + 1 then Z.min (j + bk) K else if r <? i + bi then Z.min j K else 0) m)
            as [D1 D2]; auto; try lia.
          -- destruct conj; discriminate.
          -- destruct (Z.ltb_spec ii i), (Z.ltb_spec ii ii), (Z.ltb_spec ii (i + bi)); lia.
          -- destruct (Z.ltb_spec ii i), (Z.ltb_spec ii ii), (Z.ltb_spec ii (i + bi)); lia.
          -- intros k Hk. rewrite Z.mul_1_r.
             replace (pX + 2 * j * iX + 2 * (k * iX)) with (pX + 2 * ((j + k) * iX)) by ring.
             assert (HX' := fun o => HX (j + k) o ltac:(lia)). assert (HO' := fun o => HO i j ii k o Hi Hj Hii Hk).
             assert (C0 : zclear2 fold Z (inR R) ad (op i j ii + 2 * k)).
             { split; [rewrite <- (Z.add_0_r (_ + _))|]; apply HO'; auto. }
             assert (C1 : zclear2 fold Z (inR R) ad (pX + 2 * ((j + k) * iX))).
             { split; [rewrite <- (Z.add_0_r (_ + _))|]; apply HX'; auto. }
             split; [exact C0|]. split; [exact C1|].
             rewrite (cell2_ext m m2 (op i j ii + 2 * k)) by (apply Fm, C0).
             rewrite (cell2_ext m m2 (pX + 2 * ((j + k) * iX))) by (apply Fm, C1).
             rewrite P2 by lia.
             rewrite (cell2_ext m2 m1 (pX + 2 * ((j + k) * iX))).
             2:{ apply Am2; [apply C1|]. rewrite <- (Z.add_0_r (_ + _)). apply HX'; auto. }
             2:{ apply Am2; [apply C1|]. apply HX'; auto. }
             rewrite HXV by lia.
             destruct (Z.ltb_spec ii i), (Z.ltb_spec ii ii), (Z.ltb_spec ii (i + bi)); try lia.
             rewrite Z.min_l by lia. apply TM; lia.
          -- cbv beta. destruct (Z.ltb_spec ii i), (Z.ltb_spec ii ii), (Z.ltb_spec ii (i + bi)), (Z.ltb_spec ii (ii + 1)); lia.
          -- intros r Hr NE. cbv beta. destruct (Z.ltb_spec r i), (Z.ltb_spec r ii), (Z.ltb_spec r (ii + 1)); lia.
          -- split; [exact D1|]. intros a Ca. rewrite D2 by exact Ca. apply Fm. exact Ca.
        * split.
          -- eapply zinv_ext; [|exact B1]. intros r Hr. cbv beta.
             destruct (Z.ltb_spec r i), (Z.ltb_spec r (i + bi)), (Z.ltb_spec r (Z.min R (i + bi))); lia.
          -- intros a Ca Ba. rewrite B2 by exact Ca. apply Am2; auto.
      + split; [|exact G2]. eapply zinv_ext; [|exact G1]. intros r Hr. cbv beta.
        destruct (Z.ltb_spec r i), (Z.ltb_spec r (i + bi)); lia.
    - split; [|exact G2]. eapply zinv_ext; [|exact G1]. intros r Hr. cbv beta. destruct (Z.ltb_spec r e); lia.
  Qed.
End GEMVZ.

(** ** Buffer fills *)
Section COVERZ.
  Context {t : ty} (rng : Z -> Z -> Prop) (adr : Z -> Z -> Z) (V : Z -> Z -> F t * F t) (buf : Z -> Prop) (m0 : mem t).
  Context (IN : forall p q, rng p q -> buf (adr p q) /\ buf (adr p q + 1)).
  Context (INJ : forall p q p' q', rng p q -> rng p' q' -> - 2 < adr p q - adr p' q' < 2 -> p = p' /\ q = q').
  Definition zgood (S : Z -> Z -> Prop) (m : mem t) :=
    (forall a, ~ buf a -> m a = m0 a) /\ forall p q, S p q -> rng p q -> cell2 m (adr p q) = V p q.
  Definition zcovers (f : mem t -> mem t) (B : Z -> Z -> Prop) :=
    forall S m, zgood S m -> zgood (fun p q => S p q \/ B p q) (f m).
  Lemma zgood_mono (S S' : Z -> Z -> Prop) m : zgood S m -> (forall p q, S' p q -> S p q) -> zgood S' m.
  Proof. intros (A & B) H. split; auto. Qed.
  Lemma zcovers_write a p q v : a = adr p q -> rng p q -> (forall m, (forall b, ~ buf b -> m b = m0 b) -> v m = V p q) ->
    zcovers (fun m => upd2 m a (v m)) (fun p' q' => p' = p /\ q' = q).
  Proof.
    intros -> Hr Hv S m (G1 & G2). unfold upd2. destruct (IN p q Hr) as [I1 I2]. split.
    - intros a Ha. rewrite !upd_other; auto; intros ->; auto.
    - intros p' q' HS Hr'. destruct (Z_lt_dec (Z.abs (adr p' q' - adr p q)) 2) as [E|NE].
      + destruct (INJ _ _ _ _ Hr' Hr ltac:(lia)) as [-> ->]. unfold cell2. rewrite upd_same, upd_other by lia. rewrite upd_same.
        rewrite <- surjective_pairing. auto.
      + unfold cell2. rewrite !upd_other by lia. destruct HS as [HS|[-> ->]]; [apply G2; auto|lia].
  Qed.
  Lemma zcovers_for_up lo hi f (B : Z -> Z -> Z -> Prop) : (forall i, lo <= i < hi -> zcovers (f i) (B i)) ->
    zcovers (for_up lo hi f) (fun p q => exists i, lo <= i < hi /\ B i p q).
  Proof.
    intros H S m G. destruct (Z_le_gt_dec lo hi) as [L|L].
    - apply (for_up_inv (fun k m => zgood (fun p q => S p q \/ exists i, lo <= i < k /\ B i p q) m)); auto.
      + eapply zgood_mono; [exact G|]. intros p q [|(i & ? & _)]; [auto|lia].
      + intros k m' Hk G'. eapply zgood_mono; [apply (H k Hk); exact G'|]. cbv beta.
        intros p q [|(i & Hi & HB)]; [auto|]. destruct (Z.eq_dec i k) as [-> |]; [auto|]. left. right. exists i. split; auto. lia.
    - rewrite for_up_empty by lia. eapply zgood_mono; [exact G|]. intros p q [|(i & ? & _)]; [auto|lia].
  Qed.
  Lemma zcovers_for_block i hi block f (B : Z -> Z -> Z -> Prop) :
    (forall k, i <= k < Z.min hi (i + block) -> zcovers (f k) (B k)) ->
    zcovers (for_block i hi block f) (fun p q => exists k, i <= k < Z.min hi (i + block) /\ B k p q).
  Proof. apply zcovers_for_up. Qed.
  Lemma zcovers_for_step lo hi step f (B : Z -> Z -> Z -> Prop) : 1 <= step ->
    (forall i, lo <= i < hi -> (step | i - lo) -> zcovers (f i) (B i)) ->
    zcovers (for_step lo hi step f) (fun p q => exists i, lo <= i < hi /\ (step | i - lo) /\ B i p q).
  Proof.
    intros Hs H S m G.
    destruct (for_step_inv (fun k m => (step | k - lo) /\ zgood (fun p q => S p q \/ exists i, lo <= i < k /\ (step | i - lo) /\ B i p q) m) f lo hi step m Hs)
      as (e & He & _ & _ & G').
    - split; [exists 0; lia|]. eapply zgood_mono; [exact G|]. intros p q [|(i & ? & _)]; [auto|lia].
    - intros k m' Hk Dk (_ & G'). split; [destruct Dk as (z & Dk); exists (z + 1); lia|].
      eapply zgood_mono; [apply (H k Hk Dk); exact G'|]. cbv beta.
      intros p q [|(i & Hi & Di & HB)]; [auto|]. destruct (Z.eq_dec i k) as [-> |]; [auto|].
      left. right. exists i. split; [|auto]. destruct Dk as (z & Dk), Di as (z' & Di). assert (z' < z + 1) by nia. nia.
    - eapply zgood_mono; [exact G'|]. intros p q [|(i & Hi & Di & HB)]; [auto|]. right. exists i. split; [lia|auto].
  Qed.
End COVERZ.

Section FILLZ.
  Context {t : ty} (b : gemv_blocks) (LB : legal_gemv b) (M N A lda bufA i j : Z) (Hi : 0 <= i < N) (Hj : 0 <= j < M).
  Context (m : mem t).
  Let xt := xt_block b. Let yt := yt_block b.
  Let buf a := bufA <= a < bufA + 2 * (xt * yt).
  Context (HA : forall r c o, 0 <= r < M -> 0 <= c < N -> o = 0 \/ o = 1 -> ~ buf (A + 2 * (r * lda + c) + o)).
  Lemma zgemv_fill_ok : let m' := zgemv_fill b M N A lda bufA i j m in
    (forall a, ~ buf a -> m' a = m a) /\
    forall ii k, i <= ii < Z.min N (i + yt) -> 0 <= k < Z.min xt (M - j) ->
      cell2 m' (bufA + 2 * (ii - i) * xt + 2 * k) = cell2 m (A + 2 * ((j + k) * lda + ii)).
  Proof.
    destruct LB as ((Y1 & Y2) & (Z1 & Z2) & T1 & TY & TX).
    assert (X1 : 1 <= xt) by (apply block_div; lia). fold yt in Z1, Z2, TY. fold xt in TX.
    set (rng := fun p q => 0 <= p < Z.min yt (N - i) /\ 0 <= q < Z.min xt (M - j)).
    set (adr := fun p q => bufA + 2 * (p * xt + q)).
    set (V := fun p q => cell2 m (A + 2 * ((j + q) * lda + (i + p)))).
    assert (IN : forall p q, rng p q -> buf (adr p q) /\ buf (adr p q + 1)).
    { unfold rng, buf, adr. intros p q H. assert (0 <= p * xt + q < xt * yt) by nia. lia. }
    assert (INJ : forall p q p' q', rng p q -> rng p' q' -> - 2 < adr p q - adr p' q' < 2 -> p = p' /\ q = q').
    { unfold rng, adr. intros p q p' q' H H' E. assert (E' : p * xt + q = p' * xt + q') by lia. clear E. assert (p = p') by nia. subst. lia. }
    assert (C : zcovers rng adr V buf m (zgemv_fill b M N A lda bufA i j)
      (fun p q => exists jj, j <= jj < Z.min M (j + xt) /\ (t_block b | jj - j) /\
        exists ii, i <= ii < Z.min N (i + yt) /\ (t_block b | ii - i) /\
        exists jjj, jj <= jjj < Z.min M (jj + Z.min (t_block b) xt) /\
        exists iii, ii <= iii < Z.min N (ii + Z.min (t_block b) yt) /\
        p = iii - i /\ q = jjj - j)).
    { unfold zgemv_fill. fold xt yt. apply zcovers_for_step; [exact T1|]. intros jj Hjj (zj & Djj).
      apply zcovers_for_step; [exact T1|]. intros ii Hii (zi & Dii).
      apply zcovers_for_block. intros jjj Hjjj. apply zcovers_for_block. intros iii Hiii.
      assert (R : rng (iii - i) (jjj - j)).
      { pose proof (tile_in (t_block b) yt iii i zi (iii - ii) T1 TY ltac:(lia) ltac:(lia) ltac:(lia) ltac:(nia)).
        pose proof (tile_in (t_block b) xt jjj j zj (jjj - jj) T1 TX ltac:(lia) ltac:(lia) ltac:(lia) ltac:(nia)).
        unfold rng. lia. }
      apply (zcovers_write rng adr V buf m IN INJ); auto. intros m' Hm'. unfold V.
      replace (A + 2 * (jjj * lda + iii)) with (A + 2 * ((j + (jjj - j)) * lda + (i + (iii - i)))) by ring.
      unfold rng in R. assert (HA' := fun o => HA (j + (jjj - j)) (i + (iii - i)) o ltac:(lia) ltac:(lia)).
      apply cell2_ext; apply Hm'; [rewrite <- (Z.add_0_r (_ + _))|]; apply HA'; auto. }
    intros m'. destruct (C (fun _ _ => False) m) as [G1 G2].
    - split; [auto|]. intros p q [].
    - fold m' in G1, G2. clearbody m'. split; [exact G1|]. intros ii k Hii Hk.
      specialize (G2 (ii - i) k). unfold adr, V in G2. replace (bufA + 2 * (ii - i) * xt + 2 * k) with (bufA + 2 * ((ii - i) * xt + k)) by ring.
      rewrite G2.
      + f_equal. ring.
      + right.
        destruct (tile_of (t_block b) xt k T1 ltac:(lia) ltac:(lia)) as (zj & Hzj & Ej).
        destruct (tile_of (t_block b) yt (ii - i) T1 ltac:(lia) ltac:(lia)) as (zi & Hzi & Ei).
        exists (j + zj * t_block b). split; [lia|]. split; [exists zj; lia|].
        exists (i + zi * t_block b). split; [lia|]. split; [exists zi; lia|].
        exists (j + k). split; [lia|]. exists ii. split; lia.
      + unfold rng. lia.
  Qed.
End FILLZ.

(** ** zbzgemv *)
Lemma z_one {t} (a : F t * F t) : z_is_one a = is_complex a (mkf 1 0). Proof. reflexivity. Qed.
Lemma z_zero {t} (a : F t * F t) : z_is_zero a = is_complex a fzero. Proof. reflexivity. Qed.
Lemma zscale_vector_ok {t} n (alpha : F t * F t) X incX bufX (m : mem t) :
  (forall j o, 0 <= j < n -> o = 0 \/ o = 1 -> ~ within bufX (2 * n) (X + 2 * (j * incX) + o)) ->
  let '(pX, iX, m1) := zscale_vector n alpha X incX bufX m in
  (forall a, ~ within bufX (2 * n) a -> m1 a = m a) /\
  (forall j, 0 <= j < n -> cell2 m1 (pX + 2 * (j * iX)) = times_complex alpha (cell2 m (X + 2 * (j * incX)))) /\
  (forall j o, 0 <= j < n -> o = 0 \/ o = 1 -> pX + 2 * (j * iX) + o = X + 2 * (j * incX) + o \/ within bufX (2 * n) (pX + 2 * (j * iX) + o)).
Proof.
  intros HX. unfold zscale_vector, times_complex. rewrite z_one. destruct (is_complex alpha (mkf 1 0)) eqn:E1.
  - split; auto.
  - destruct (Z_le_gt_dec 0 n) as [L|L].
    2:{ rewrite for_up_empty by lia. split; auto. split; intros; lia. }
    pose proof (for_up_inv (fun k m1 => (forall a, ~ within bufX (2 * n) a -> m1 a = m a) /\
      forall j, 0 <= j < k -> cell2 m1 (bufX + 2 * j) = mul_plain alpha (cell2 m (X + 2 * (j * incX))))
      (fun j m => upd2 m (bufX + 2 * j) (mul_plain alpha (cell2 m (X + 2 * j * incX)))) 0 n m L) as G. cbv beta in G.
    destruct G as [G1 G2].
    + split; auto. intros; lia.
    + intros k m' Hk (G1 & G2). unfold upd2. split.
      * intros a Ha. rewrite !upd_other; auto; unfold within in Ha; lia.
      * intros j Hj. destruct (Z.eq_dec j k) as [-> |].
        -- unfold cell2 at 1. rewrite upd_same, upd_other, upd_same by lia. rewrite <- surjective_pairing. f_equal.
           rewrite <- Z.mul_assoc. assert (HX' := fun o => HX k o Hk). apply cell2_ext; apply G1; [rewrite <- (Z.add_0_r (_ + _))|]; apply HX'; auto.
        -- unfold cell2 at 1. rewrite !upd_other by lia. apply G2. lia.
    + split; [exact G1|]. split.
      * intros j Hj. rewrite Z.mul_1_r. now apply G2.
      * intros j o Hj Ho. right. unfold within. lia.
Qed.
Section TOPVZ.
  Context {t : ty} (fold : Z) (Hf : 2 <= fold <= MAXFOLD t) (conj : bool).
  Context (tu : tuning) (HT : tuned t tu) (b : gemv_blocks) (LB : legal_gemv b).
  Context (R K : Z) (HK : 0 <= K) (alpha : F t * F t) (X incX Y incY bufX bufA : Z) (el : Z -> Z -> Z) (m : mem t).
  Let lenA := xt_block b * yt_block b.
  Let touched := zgemv_touched fold R Y incY bufX K bufA lenA.
  Context (NY : incY <> 0) (HA : forall i j o, 0 <= i < R -> 0 <= j < K -> o = 0 \/ o = 1 -> ~ touched (el i j + o)).
  Context (HX : forall j o, 0 <= j < K -> o = 0 \/ o = 1 -> ~ touched (X + 2 * (j * incX) + o)).
  Context (DXA : forall a, within bufX (2 * K) a -> ~ within bufA (2 * lenA) a).
  Context (DB : forall a i, within bufX (2 * K) a \/ within bufA (2 * lenA) a -> 0 <= i < R -> ~ within (zy_at fold Y incY i) (zbnum fold) a).
  Context (us vs : Z -> list (F t)) (zs : Z -> list (F t * F t)).
  Let tm i j := summands (conj_if conj (cell2 m (el i j))) (times_complex alpha (cell2 m (X + 2 * (j * incX)))).
  Context (HC : forall i, 0 <= i < R -> 2 * K + Z.of_nat (length (zs i)) <= capacity t).
  Context (H0 : forall i, 0 <= i < R -> zacc_at fold (us i) (vs i) (zs i) m (zy_at fold Y incY i)).

  Lemma zy_apart r r' : 0 <= r < R -> 0 <= r' < R -> r <> r' -> apart (zbnum fold) (zy_at fold Y incY r) (zy_at fold Y incY r').
  Proof. intros Hr Hr' NE. unfold apart, zy_at, zbnum. assert (r * incY + 1 <= r' * incY \/ r' * incY + 1 <= r * incY) by nia. nia. Qed.
  Let cl := zclear fold Z (fun r => 0 <= r < R) (zy_at fold Y incY).
  Lemma zuntouched_clear a : ~ touched a -> cl a.
  Proof. intros H r Hr Hw. apply H. left. exists r. split; auto. Qed.
  Lemma zbufs_clear a : within bufX (2 * K) a \/ within bufA (2 * lenA) a -> cl a.
  Proof. intros H r Hr Hw. exact (DB a r H Hr Hw). Qed.
  Definition zresult (m' : mem t) := 
    (forall i, 0 <= i < R -> zout fold (us i) (vs i) (flat_map (tm i) (zseq 0 K) ++ zs i) m' (zy_at fold Y incY i)) /\
    (forall a, ~ touched a -> m' a = m a).
  Lemma zstart_inv (m1 : mem t) : (forall a, ~ within bufX (2 * K) a -> m1 a = m a) ->
    zinv fold Z (fun r => 0 <= r < R) (zy_at fold Y incY) us vs zs tm (fun _ => 0) m1.
  Proof.
    intros E r Hr. unfold ztaken. rewrite zseq_nil by lia. cbn [flat_map app].
    eapply (zout_frame fold Hf); [|apply zacc_out; exact (H0 r Hr)]. intros a Ha. apply E. intros Hw. exact (DB a r (or_introl Hw) Hr Ha).
  Qed.
  Lemma tm_two i j : length (tm i j) = 2%nat. Proof. reflexivity. Qed.
  Lemma tm_alike i j : alike (pair_terms (zk conj) (cell2 m (el i j)) (times_complex alpha (cell2 m (X + 2 * (j * incX))))) (tm i j).
  Proof. unfold tm, conj_if. destruct conj; [apply (terms_cab (cell2 m (el i j)))|apply alike_refl]. Qed.
  Lemma zdirect_ok A lda limit : (forall i j, 0 <= i < R -> 0 <= j < K -> el i j = A + 2 * (i * lda + j)) ->
    (forall j, 0 <= j < K -> (x_block b | j) -> Z.min (x_block b) (limit - j) = Z.min (x_block b) (K - j)) ->
    2 * Z.min (Z.min K (x_block b)) (block_max tu) <= endurance t ->
    zresult (zgemv_direct conj tu b fold R K limit alpha A lda X incX Y incY bufX m).
  Proof.
    intros EL HLim HE. unfold zgemv_direct.
    assert (HX' : forall j o, 0 <= j < K -> o = 0 \/ o = 1 -> ~ within bufX (2 * K) (X + 2 * (j * incX) + o)).
    { intros j o Hj Ho Hw. apply (HX j o Hj Ho). right. left. exact Hw. }
    pose proof (zscale_vector_ok K alpha X incX bufX m HX') as SV.
    destruct (zscale_vector K alpha X incX bufX m) as [[pX iX] m1]. destruct SV as (S1 & S2 & S3).
    destruct LB as ((Y1 & Y2) & _). assert (X1 : 1 <= x_block b) by (apply block_div; lia).
    destruct (zgemv_nest_ok fold Hf conj tu HT R K limit (y_block b) (x_block b) Y1 X1 HK HLim HE (zy_at fold Y incY) zy_apart
      us vs zs (fun i j => cell2 m (el i j)) (fun j => times_complex alpha (cell2 m (X + 2 * (j * incX)))) tm tm_two (fun r k _ _ => tm_alike r k) HC
      (fun i j m => m) (fun i j ii => A + 2 * (ii * lda + j)) pX iX (fun _ => False) m1) as [G1 G2].
    - intros a [].
    - intros k o Hk Ho. split; [|auto]. destruct (S3 k o Hk Ho) as [-> |S4].
      + apply zuntouched_clear. auto.
      + apply zbufs_clear. auto.
    - exact S2.
    - intros i j ii k o Hi Hj Hii Hk Ho. apply zuntouched_clear.
      replace (A + 2 * (ii * lda + j) + 2 * k + o) with (A + 2 * (ii * lda + (j + k)) + o) by ring. rewrite <- EL by lia. apply HA; auto; lia.
    - intros i j m2 Hi Hj Ag. split; auto. intros ii k Hii Hk.
      replace (A + 2 * (ii * lda + j) + 2 * k) with (A + 2 * (ii * lda + (j + k))) by ring. rewrite <- EL by lia.
      unfold zagree in Ag. assert (NT := fun o => HA ii (j + k) o ltac:(lia) ltac:(lia)).
      assert (E : forall o, o = 0 \/ o = 1 -> m2 (el ii (j + k) + o) = m (el ii (j + k) + o)).
      { intros o Ho. rewrite Ag; [|apply zuntouched_clear; auto|auto]. apply S1. intros Hw. apply (NT o Ho). right. left. exact Hw. }
      apply cell2_ext; [rewrite <- (Z.add_0_r (el _ _))|]; apply E; auto.
    - apply zstart_inv. exact S1.
    - split; [exact G1|]. intros a Ha. etransitivity; [apply G2; [apply zuntouched_clear; exact Ha|auto]|].
      apply S1. intros Hw. apply Ha. right. left. exact Hw.
  Qed.
  Lemma ztrans_ok A lda : (forall i j, 0 <= i < R -> 0 <= j < K -> el i j = A + 2 * (j * lda + i)) ->
    2 * Z.min (Z.min K (xt_block b)) (block_max tu) <= endurance t ->
    zresult (zgemv_trans conj tu b fold K R alpha A lda X incX Y incY bufX bufA m).
  Proof.
    intros EL HE. unfold zgemv_trans.
    assert (HX' : forall j o, 0 <= j < K -> o = 0 \/ o = 1 -> ~ within bufX (2 * K) (X + 2 * (j * incX) + o)).
    { intros j o Hj Ho Hw. apply (HX j o Hj Ho). right. left. exact Hw. }
    pose proof (zscale_vector_ok K alpha X incX bufX m HX') as SV.
    destruct (zscale_vector K alpha X incX bufX m) as [[pX iX] m1]. destruct SV as (S1 & S2 & S3).
    assert (LB' := LB). destruct LB' as (_ & (Z1 & Z2) & _). assert (X1 : 1 <= xt_block b) by (apply block_div; lia).
    destruct (zgemv_nest_ok fold Hf conj tu HT R K K (yt_block b) (xt_block b) Z1 X1 HK (fun _ _ _ => eq_refl) HE (zy_at fold Y incY) zy_apart
      us vs zs (fun i j => cell2 m (el i j)) (fun j => times_complex alpha (cell2 m (X + 2 * (j * incX)))) tm tm_two (fun r k _ _ => tm_alike r k) HC
      (fun i j m => zgemv_fill b K R A lda bufA i j m) (fun i j ii => bufA + 2 * (ii - i) * xt_block b) pX iX (within bufA (2 * lenA)) m1) as [G1 G2].
    - intros a Ha. apply zbufs_clear. auto.
    - intros k o Hk Ho. destruct (S3 k o Hk Ho) as [-> |S4]; split.
      + apply zuntouched_clear. auto.
      + intros Hw. apply (HX k o Hk Ho). right. right. exact Hw.
      + apply zbufs_clear. auto.
      + apply DXA. exact S4.
    - exact S2.
    - intros i j ii k o Hi Hj Hii Hk Ho. apply zbufs_clear. right. unfold within, lenA.
      assert (0 <= (ii - i) * xt_block b + k < xt_block b * yt_block b) by nia. lia.
    - intros i j m2 Hi Hj Ag.
      assert (NB : forall r c o, 0 <= r < K -> 0 <= c < R -> o = 0 \/ o = 1 -> ~ (bufA <= A + 2 * (r * lda + c) + o < bufA + 2 * (xt_block b * yt_block b))).
      { intros r c o Hr Hc Ho Hw. rewrite <- EL in Hw by lia. apply (HA c r o Hc Hr Ho). right. right. exact Hw. }
      destruct (zgemv_fill_ok b LB K R A lda bufA i j ltac:(lia) ltac:(lia) m2 NB) as [F1 F2].
      split; [exact F1|]. intros ii k Hii Hk. etransitivity; [apply F2; lia|]. rewrite <- EL by lia.
      assert (NT := fun o => HA ii (j + k) o ltac:(lia) ltac:(lia)). unfold zagree in Ag.
      assert (E : forall o, o = 0 \/ o = 1 -> m2 (el ii (j + k) + o) = m (el ii (j + k) + o)).
      { intros o Ho. rewrite Ag; [|apply zuntouched_clear; auto|intros Hw; apply (NT o Ho); right; right; exact Hw].
        apply S1. intros Hw. apply (NT o Ho). right. left. exact Hw. }
      apply cell2_ext; [rewrite <- (Z.add_0_r (el _ _))|]; apply E; auto.
    - apply zstart_inv. exact S1.
    - split; [exact G1|]. intros a Ha. etransitivity.
      + apply G2; [apply zuntouched_clear; exact Ha|]. intros Hw. apply Ha. right. right. exact Hw.
      + apply S1. intros Hw. apply Ha. right. left. exact Hw.
  Qed.
End TOPVZ.

(** ** The nest of zbzgemm *)
Section GEMMZ.
  Context {t : ty} (fold : Z) (Hf : 2 <= fold <= MAXFOLD t) (d : dot_call).
  Context (tu : tuning) (HT : tuned t tu) (by_rows : bool) (M N K bi bj bk : Z).
  Context (Hbi : 1 <= bi) (Hbj : 1 <= bj) (Hbk : 1 <= bk) (HK : 0 <= K).
  Context (C ldc : Z).
  Let ok (r : Z * Z) := 0 <= fst r < M /\ 0 <= snd r < N.
  Let ad (r : Z * Z) := C + (if by_rows then fst r * ldc + snd r else snd r * ldc + fst r) * zbnum fold.
  Context (AP : forall r r', ok r -> ok r' -> r <> r' -> apart (zbnum fold) (ad r) (ad r')).
  Context (HE : 2 * Z.min (Z.min K bk) (block_max tu) <= endurance t).
  Context (us vs : Z * Z -> list (F t)) (zs : Z * Z -> list (F t * F t)) (Aval Bval : Z -> Z -> F t * F t).
  Context (tm : Z * Z -> Z -> list (F t * F t)) (LT : forall r k, length (tm r k) = 2%nat).
  Context (TM : forall r k, ok r -> 0 <= k < K -> alike (call_terms d (Aval (fst r) k) (Bval k (snd r))) (tm r k)).
  Context (HC : forall r, ok r -> 2 * K + Z.of_nat (length (zs r)) <= capacity t).
  Context (prep : Z -> Z -> Z -> mem t -> mem t) (opA opB : Z -> Z -> Z -> Z -> Z) (buf : Z -> Prop) (m1 : mem t).
  Let cl := zclear fold (Z * Z) ok ad.
  Let iv := zinv fold (Z * Z) ok ad us vs zs tm.
  Definition zmagree (m : mem t) := forall a, cl a -> ~ buf a -> m a = m1 a.
  Context (BC : forall a, buf a -> cl a).
  Context (HOA : forall i j k ii q, 0 <= i < M -> 0 <= j < N -> 0 <= k < K -> i <= ii < Z.min M (i + bi) ->
    0 <= q < Z.min bk (K - k) -> zclear2 fold (Z * Z) ok ad (opA i j k ii + 2 * q)).
  Context (HOB : forall i j k jj q, 0 <= i < M -> 0 <= j < N -> 0 <= k < K -> j <= jj < Z.min N (j + bj) ->
    0 <= q < Z.min bk (K - k) -> zclear2 fold (Z * Z) ok ad (opB i j k jj + 2 * q)).
  Context (HP : forall i j k m, 0 <= i < M -> 0 <= j < N -> 0 <= k < K -> zmagree m ->
    (forall a, ~ buf a -> prep i j k m a = m a) /\
    (forall ii q, i <= ii < Z.min M (i + bi) -> 0 <= q < Z.min bk (K - k) -> cell2 (prep i j k m) (opA i j k ii + 2 * q) = Aval ii (k + q)) /\
    (forall jj q, j <= jj < Z.min N (j + bj) -> 0 <= q < Z.min bk (K - k) -> cell2 (prep i j k m) (opB i j k jj + 2 * q) = Bval (k + q) jj)).

  (** The inner double loop, either order. *)
  Let base i j k (r : Z * Z) := if fst r <? i then K else if fst r <? i + bi then
    (if snd r <? j then K else if snd r <? j + bj then Z.min k K else 0) else 0.
  Let part i j k (D : Z -> Z -> bool) (r : Z * Z) :=
    if ((i <=? fst r) && (fst r <? i + bi) && (j <=? snd r) && (snd r <? j + bj)) && D (fst r) (snd r)
    then Z.min (k + bk) K else base i j k r.
  Let dot i j k ii jj (m : mem t) := call_dot d tu fold (Z.min bk (K - k)) (opA i j k ii) (opB i j k jj)
      (C + (if by_rows then ii * ldc + jj else jj * ldc + ii) * zbnum fold) m.

  Lemma zcall_step n PA PB r c c' (m : mem t) : 0 <= n -> 2 * Z.min n (block_max tu) <= endurance t ->
    ok r -> 0 <= c r -> c r + n <= K -> iv c m ->
    (forall e, 0 <= e < n -> zclear2 fold (Z * Z) ok ad (PA + 2 * e) /\ zclear2 fold (Z * Z) ok ad (PB + 2 * e) /\
       alike (call_terms d (cell2 m (PA + 2 * e)) (cell2 m (PB + 2 * e))) (tm r (c r + e))) ->
    c' r = c r + n -> (forall r', ok r' -> r' <> r -> c' r' = c r') ->
    let m' := call_dot d tu fold n PA PB (ad r) m in
    iv c' m' /\ (forall a, cl a -> m' a = m a).
  Proof.
    intros Hn He Hr C0 C1 HI HD E1 E2.
    assert (D : d = UAB \/ d = CAB \/ d = CBA) by (destruct d; auto). destruct D as [D|[D|D]]; rewrite D in *; unfold call_dot.
    - apply (zdot_step fold Hf (Z * Z) pair_dec ok ad AP us vs zs tm K HC LT ZDotU tu n PA 1 PB 1 r c c' m); auto; try discriminate.
      intros e He'. rewrite Z.mul_1_r. apply HD. exact He'.
    - apply (zdot_step fold Hf (Z * Z) pair_dec ok ad AP us vs zs tm K HC LT ZDotC tu n PA 1 PB 1 r c c' m); auto; try discriminate.
      intros e He'. rewrite Z.mul_1_r. apply HD. exact He'.
    - apply (zdot_step fold Hf (Z * Z) pair_dec ok ad AP us vs zs tm K HC LT ZDotC tu n PB 1 PA 1 r c c' m); auto; try discriminate.
      intros e He'. rewrite Z.mul_1_r. destruct (HD e He') as (X1 & X2 & X3). auto.
  Qed.
  Lemma zgemm_dot i j k (m2 m : mem t) ii jj D D' :
    0 <= i < M -> 0 <= j < N -> 0 <= k < K ->
    i <= ii < Z.min M (i + bi) -> j <= jj < Z.min N (j + bj) ->
    (forall ii q, i <= ii < Z.min M (i + bi) -> 0 <= q < Z.min bk (K - k) -> cell2 m2 (opA i j k ii + 2 * q) = Aval ii (k + q)) ->
    (forall jj q, j <= jj < Z.min N (j + bj) -> 0 <= q < Z.min bk (K - k) -> cell2 m2 (opB i j k jj + 2 * q) = Bval (k + q) jj) ->
    (iv (part i j k D) m /\ forall a, cl a -> m a = m2 a) ->
    D ii jj = false -> D' ii jj = true ->
    (forall a b, i <= a < Z.min M (i + bi) -> j <= b < Z.min N (j + bj) -> a <> ii \/ b <> jj -> D' a b = D a b) ->
    iv (part i j k D') (dot i j k ii jj m) /\ forall a, cl a -> dot i j k ii jj m a = m2 a.
  Proof.
    intros Hi Hj Hk Hii Hjj PA PB (Im & Fm) D0 D1 DE.
    assert (Cr : part i j k D (ii, jj) = k).
    { unfold part, base. cbn [fst snd]. rewrite D0, andb_false_r.
      destruct (Z.ltb_spec ii i), (Z.ltb_spec ii (i + bi)), (Z.ltb_spec jj j), (Z.ltb_spec jj (j + bj)); lia. }
    destruct (zcall_step (Z.min bk (K - k)) (opA i j k ii) (opB i j k jj)
      (ii, jj) (part i j k D) (part i j k D') m) as [E1 E2]; auto; try lia.
    - split; cbn [fst snd]; lia.
    - intros q Hq. rewrite Cr.
      assert (CA : zclear2 fold (Z * Z) ok ad (opA i j k ii + 2 * q)) by (apply HOA; lia).
      assert (CB : zclear2 fold (Z * Z) ok ad (opB i j k jj + 2 * q)) by (apply HOB; lia).
      split; [exact CA|]. split; [exact CB|].
      rewrite (cell2_ext m m2 (opA i j k ii + 2 * q)) by (apply Fm, CA). rewrite (cell2_ext m m2 (opB i j k jj + 2 * q)) by (apply Fm, CB).
      rewrite PA, PB by lia. apply (TM (ii, jj)); [split; cbn [fst snd]; lia|lia].
    - rewrite Cr. unfold part. cbn [fst snd]. rewrite D1.
      destruct (Z.leb_spec i ii), (Z.ltb_spec ii (i + bi)), (Z.leb_spec j jj), (Z.ltb_spec jj (j + bj)); cbn [andb]; lia.
    - intros (a, b) (Ha & Hb) NE. cbn [fst snd] in Ha, Hb. unfold part. cbn [fst snd].
      destruct (Z.leb_spec i a), (Z.ltb_spec a (i + bi)), (Z.leb_spec j b), (Z.ltb_spec b (j + bj)); cbn [andb]; auto.
      rewrite DE; auto; try lia. destruct (Z.eq_dec a ii), (Z.eq_dec b jj); auto. subst. congruence.
    - split; [exact E1|]. intros a Ca. etransitivity; [apply E2; exact Ca|apply Fm; exact Ca].
  Qed.
  Lemma zpart_done i j k (D : Z -> Z -> bool) c r : ok r -> 0 <= i -> 0 <= j ->
    (forall a b, i <= a < Z.min M (i + bi) -> j <= b < Z.min N (j + bj) -> D a b = c) ->
    part i j k D r = if c then base i j (k + bk) r else base i j k r.
  Proof.
    intros (Ha & Hb) Hi Hj H. destruct r as (a, b). unfold part, base. cbn [fst snd] in *.
    destruct (Z.leb_spec i a), (Z.ltb_spec a (i + bi)), (Z.leb_spec j b), (Z.ltb_spec b (j + bj)); cbn [andb];
      try (rewrite H by lia); destruct c; auto;
      destruct (Z.ltb_spec a i), (Z.ltb_spec b j); lia.
  Qed.
  Lemma zgemm_inner i j k (m2 : mem t) : 0 <= i < M -> 0 <= j < N -> 0 <= k < K ->
    (forall ii q, i <= ii < Z.min M (i + bi) -> 0 <= q < Z.min bk (K - k) -> cell2 m2 (opA i j k ii + 2 * q) = Aval ii (k + q)) ->
    (forall jj q, j <= jj < Z.min N (j + bj) -> 0 <= q < Z.min bk (K - k) -> cell2 m2 (opB i j k jj + 2 * q) = Bval (k + q) jj) ->
    iv (base i j k) m2 ->
    let m' := if by_rows
      then for_block i M bi (fun ii m => for_block j N bj (fun jj m => dot i j k ii jj m) m) m2
      else for_block j N bj (fun jj m => for_block i M bi (fun ii m => dot i j k ii jj m) m) m2 in
    iv (base i j (k + bk)) m' /\ forall a, cl a -> m' a = m2 a.
  Proof.
    intros Hi Hj Hk PA PB I0.
    assert (H : forall (D0 D1 : Z -> Z -> bool) m',
      (iv (part i j k D0) m2 /\ (forall a, cl a -> m2 a = m2 a) -> iv (part i j k D1) m' /\ forall a, cl a -> m' a = m2 a) ->
      (forall a b, i <= a < Z.min M (i + bi) -> j <= b < Z.min N (j + bj) -> D0 a b = false) ->
      (forall a b, i <= a < Z.min M (i + bi) -> j <= b < Z.min N (j + bj) -> D1 a b = true) ->
      iv (base i j (k + bk)) m' /\ forall a, cl a -> m' a = m2 a).
    { intros D0 D1 m' H1 H2 H3. destruct H1 as [A B].
      - split; [|reflexivity]. eapply zinv_ext; [|exact I0]. intros r Hr. symmetry. apply (zpart_done i j k D0 false r Hr); auto; lia.
      - split; [|exact B]. eapply zinv_ext; [|exact A]. intros r Hr. apply (zpart_done i j k D1 true r Hr); auto; lia. }
    cbv zeta. case by_rows.
    - apply (H (fun a b => a <? i) (fun a b => a <? Z.min M (i + bi))); [|intros; apply Z.ltb_ge; lia|intros; apply Z.ltb_lt; lia].
      intros G0. apply (for_block_inv (fun ii m => iv (part i j k (fun a b => a <? ii)) m /\ forall a, cl a -> m a = m2 a)); auto; try lia.
      intros ii m Hii G.
      assert (G' : iv (part i j k (fun a b => (a <? ii) || (a =? ii) && (b <? Z.min N (j + bj)))) (for_block j N bj (fun jj m => dot i j k ii jj m) m) /\
        forall a, cl a -> for_block j N bj (fun jj m => dot i j k ii jj m) m a = m2 a).
      { apply (for_block_inv (fun jj m => iv (part i j k (fun a b => (a <? ii) || (a =? ii) && (b <? jj))) m /\ forall a, cl a -> m a = m2 a)); auto; try lia.
        - destruct G as [G1 G2]. split; [|exact G2]. eapply zinv_ext; [|exact G1]. intros (a, b) Hr. unfold part. cbn [fst snd].
          destruct (Z.leb_spec i a), (Z.ltb_spec a (i + bi)), (Z.leb_spec j b), (Z.ltb_spec b (j + bj)); cbn [andb]; auto.
          replace (b <? j) with false by (symmetry; apply Z.ltb_ge; lia). now rewrite andb_false_r, orb_false_r.
        - intros jj m' Hjj G'. apply (zgemm_dot i j k m2 m' ii jj (fun a b => (a <? ii) || (a =? ii) && (b <? jj))
            (fun a b => (a <? ii) || (a =? ii) && (b <? jj + 1)) Hi Hj Hk Hii Hjj PA PB G').
          + rewrite Z.ltb_irrefl, Z.eqb_refl, Z.ltb_irrefl. reflexivity.
          + rewrite Z.eqb_refl. replace (jj <? jj + 1) with true by (symmetry; apply Z.ltb_lt; lia). apply orb_true_r.
          + intros a b Ha Hb NE. destruct (Z.ltb_spec a ii), (Z.eqb_spec a ii), (Z.ltb_spec b (jj + 1)), (Z.ltb_spec b jj); cbn; auto; lia. }
      destruct G' as [G1 G2]. split; [|exact G2]. eapply zinv_ext; [|exact G1]. intros (a, b) Hr. unfold part. cbn [fst snd].
      destruct Hr as (Ra & Rb). cbn [fst snd] in Ra, Rb.
      destruct (Z.leb_spec i a), (Z.ltb_spec a (i + bi)), (Z.leb_spec j b), (Z.ltb_spec b (j + bj)); cbn [andb]; auto.
      destruct (Z.ltb_spec a ii), (Z.eqb_spec a ii), (Z.ltb_spec b (Z.min N (j + bj))), (Z.ltb_spec a (ii + 1)); cbn; auto; lia.
    - apply (H (fun a b => b <? j) (fun a b => b <? Z.min N (j + bj))); [|intros; apply Z.ltb_ge; lia|intros; apply Z.ltb_lt; lia].
      intros G0. apply (for_block_inv (fun jj m => iv (part i j k (fun a b => b <? jj)) m /\ forall a, cl a -> m a = m2 a)); auto; try lia.
      intros jj m Hjj G.
      assert (G' : iv (part i j k (fun a b => (b <? jj) || (b =? jj) && (a <? Z.min M (i + bi)))) (for_block i M bi (fun ii m => dot i j k ii jj m) m) /\
        forall a, cl a -> for_block i M bi (fun ii m => dot i j k ii jj m) m a = m2 a).
      { apply (for_block_inv (fun ii m => iv (part i j k (fun a b => (b <? jj) || (b =? jj) && (a <? ii))) m /\ forall a, cl a -> m a = m2 a)); auto; try lia.
        - destruct G as [G1 G2]. split; [|exact G2]. eapply zinv_ext; [|exact G1]. intros (a, b) Hr. unfold part. cbn [fst snd].
          destruct (Z.leb_spec i a), (Z.ltb_spec a (i + bi)), (Z.leb_spec j b), (Z.ltb_spec b (j + bj)); cbn [andb]; auto.
          replace (a <? i) with false by (symmetry; apply Z.ltb_ge; lia). now rewrite andb_false_r, orb_false_r.
        - intros ii m' Hii G'. apply (zgemm_dot i j k m2 m' ii jj (fun a b => (b <? jj) || (b =? jj) && (a <? ii))
            (fun a b => (b <? jj) || (b =? jj) && (a <? ii + 1)) Hi Hj Hk Hii Hjj PA PB G').
          + rewrite Z.ltb_irrefl, Z.eqb_refl, Z.ltb_irrefl. reflexivity.
          + rewrite Z.eqb_refl. replace (ii <? ii + 1) with true by (symmetry; apply Z.ltb_lt; lia). apply orb_true_r.
          + intros a b Ha Hb NE. destruct (Z.ltb_spec b jj), (Z.eqb_spec b jj), (Z.ltb_spec a (ii + 1)), (Z.ltb_spec a ii); cbn; auto; lia. }
      destruct G' as [G1 G2]. split; [|exact G2]. eapply zinv_ext; [|exact G1]. intros (a, b) Hr. unfold part. cbn [fst snd].
      destruct Hr as (Ra & Rb). cbn [fst snd] in Ra, Rb.
      destruct (Z.leb_spec i a), (Z.ltb_spec a (i + bi)), (Z.leb_spec j b), (Z.ltb_spec b (j + bj)); cbn [andb]; auto.
      destruct (Z.ltb_spec b jj), (Z.eqb_spec b jj), (Z.ltb_spec a (Z.min M (i + bi))), (Z.ltb_spec b (jj + 1)); cbn; auto; lia.
  Qed.

  Lemma zgemm_nest_ok : iv (fun _ => 0) m1 ->
    let m' := zgemm_nest d tu by_rows fold M N K bi bj bk prep opA opB C ldc m1 in
    iv (fun _ => K) m' /\ zmagree m'.
  Proof.
    intros I0 m'. unfold zgemm_nest in m'.
    destruct (for_step_inv (fun i m => iv (fun r => if fst r <? i then K else 0) m /\ zmagree m)
      (fun i m => for_step 0 N bj (fun j m => for_step 0 K bk (fun k m =>
        let m := prep i j k m in
        if by_rows
        then for_block i M bi (fun ii m => for_block j N bj (fun jj m => dot i j k ii jj m) m) m
        else for_block j N bj (fun jj m => for_block i M bi (fun ii m => dot i j k ii jj m) m) m) m) m) 0 M bi m1 Hbi)
      as (e & He & _ & G1 & G2).
    - split; [|intros a _ _; reflexivity]. eapply zinv_ext; [|exact I0]. intros (a, b) (Ha & _). cbn [fst snd] in *. destruct (Z.ltb_spec a 0); lia.
    - intros i m Hi _ (Im & Am).
      destruct (for_step_inv (fun j m => iv (fun r => if fst r <? i then K else if fst r <? i + bi then (if snd r <? j then K else 0) else 0) m /\ zmagree m)
        (fun j m => for_step 0 K bk (fun k m =>
        let m := prep i j k m in
        if by_rows
        then for_block i M bi (fun ii m => for_block j N bj (fun jj m => dot i j k ii jj m) m) m
        else for_block j N bj (fun jj m => for_block i M bi (fun ii m => dot i j k ii jj m) m) m) m) 0 N bj m Hbj)
        as (e & He & _ & G1 & G2).
      + split; [|exact Am]. eapply zinv_ext; [|exact Im]. intros (a, b) (Ha & Hb). cbn [fst snd] in *.
        destruct (Z.ltb_spec a i), (Z.ltb_spec a (i + bi)), (Z.ltb_spec b 0); lia.
      + clear m Im Am. intros j m Hj _ (Im & Am).
        destruct (for_step_inv (fun k m => iv (base i j k) m /\ zmagree m)
          (fun k m =>
          let m := prep i j k m in
          if by_rows
          then for_block i M bi (fun ii m => for_block j N bj (fun jj m => dot i j k ii jj m) m) m
          else for_block j N bj (fun jj m => for_block i M bi (fun ii m => dot i j k ii jj m) m) m) 0 K bk m Hbk)
          as (e & He & _ & G1 & G2).
        * split; [|exact Am]. eapply zinv_ext; [|exact Im]. intros (a, b) (Ha & Hb). unfold base. cbn [fst snd] in *.
          destruct (Z.ltb_spec a i), (Z.ltb_spec a (i + bi)), (Z.ltb_spec b j), (Z.ltb_spec b (j + bj)); lia.
        * clear m Im Am. intros k m Hk _ (Im & Am). cbv zeta.
          destruct (HP i j k m Hi Hj Hk Am) as (P1 & P2 & P3). set (m2 := prep i j k m) in *.
          assert (Im2 : iv (base i j k) m2).
          { eapply (zinv_frame fold Hf); [|exact Im]. intros r a Hr Ha. apply P1. intros Ba. exact (BC a Ba r Hr Ha). }
          assert (Am2 : zmagree m2). { intros a Ca Ba. rewrite P1 by exact Ba. apply Am; auto. }
          clearbody m2. clear m Im Am P1.
          destruct (zgemm_inner i j k m2 Hi Hj Hk P2 P3 Im2) as [B1 B2].
          split; [exact B1|]. intros a Ca Ba. rewrite B2 by exact Ca. apply Am2; auto.
        * split; [|exact G2]. eapply zinv_ext; [|exact G1]. intros (a, b) (Ha & Hb). unfold base. cbn [fst snd] in *.
          destruct (Z.ltb_spec a i), (Z.ltb_spec a (i + bi)), (Z.ltb_spec b j), (Z.ltb_spec b (j + bj)); lia.
      + split; [|exact G2]. eapply zinv_ext; [|exact G1]. intros (a, b) (Ha & Hb). cbn [fst snd] in *.
        destruct (Z.ltb_spec a i), (Z.ltb_spec a (i + bi)), (Z.ltb_spec b e); lia.
    - split; [|exact G2]. eapply zinv_ext; [|exact G1]. intros (a, b) (Ha & Hb). cbn [fst snd] in *. destruct (Z.ltb_spec a e); lia.
  Qed.
End GEMMZ.

(** ** zbzgemm *)
Lemma zscale_matrix_ok {t} (f : F t * F t -> F t * F t) M K A lda bufA len (m : mem t) : 0 <= M -> 0 <= K -> M * K <= len ->
  (forall i k o, 0 <= i < M -> 0 <= k < K -> o = 0 \/ o = 1 -> ~ within bufA (2 * len) (A + 2 * (i * lda + k) + o)) ->
  let m1 := zscale_matrix f M K A lda bufA m in
  (forall a, ~ within bufA (2 * len) a -> m1 a = m a) /\
  (forall i k, 0 <= i < M -> 0 <= k < K -> cell2 m1 (bufA + 2 * (i * K + k)) = f (cell2 m (A + 2 * (i * lda + k)))) /\
  (forall i k o, 0 <= i < M -> 0 <= k < K -> o = 0 \/ o = 1 -> within bufA (2 * len) (bufA + 2 * (i * K + k) + o)).
Proof.
  intros HM HK HL HA.
  assert (IB : forall i k, 0 <= i < M -> 0 <= k < K -> 0 <= i * K + k < len) by (intros; nia).
  set (rng := fun p q => 0 <= p < M /\ 0 <= q < K). set (adr := fun p q => bufA + 2 * (p * K + q)).
  set (V := fun p q => f (cell2 m (A + 2 * (p * lda + q)))).
  assert (IN : forall p q, rng p q -> within bufA (2 * len) (adr p q) /\ within bufA (2 * len) (adr p q + 1)).
  { intros p q [Hp Hq]. specialize (IB p q Hp Hq). unfold within, adr. lia. }
  assert (INJ : forall p q p' q', rng p q -> rng p' q' -> - 2 < adr p q - adr p' q' < 2 -> p = p' /\ q = q').
  { unfold rng, adr. intros p q p' q' H H' E. assert (E' : p * K + q = p' * K + q') by lia. clear E. assert (p = p') by nia. subst. lia. }
  assert (C : zcovers rng adr V (within bufA (2 * len)) m (zscale_matrix f M K A lda bufA)
    (fun p q => exists i, 0 <= i < M /\ exists k, 0 <= k < K /\ p = i /\ q = k)).
  { unfold zscale_matrix. apply zcovers_for_up. intros i Hi. apply zcovers_for_up. intros k Hk.
    apply (zcovers_write rng adr V _ m IN INJ); auto; [split; lia|]. intros m' Hm'. unfold V. f_equal.
    assert (HA' := fun o => HA i k o Hi Hk). apply cell2_ext; apply Hm'; [rewrite <- (Z.add_0_r (_ + _))|]; apply HA'; auto. }
  cbv zeta. destruct (C (fun _ _ => False) m) as [G1 G2].
  - split; [auto|]. intros p q [].
  - split; [exact G1|]. split.
    + intros i k Hi Hk. apply (G2 i k); [|split; lia]. right. exists i. split; [lia|]. exists k. auto.
    + intros i k o Hi Hk Ho. specialize (IB i k Hi Hk). unfold within. lia.
Qed.
Lemma zgemm_fill_ok {t} (f : F t * F t -> F t * F t) J K yt xt B ld buf j k (m : mem t) : 1 <= yt -> 1 <= xt -> 0 <= j < J -> 0 <= k < K ->
  (forall jj kk o, 0 <= jj < J -> 0 <= kk < K -> o = 0 \/ o = 1 -> ~ within buf (2 * (xt * yt)) (B + 2 * (kk * ld + jj) + o)) ->
  let m' := zgemm_fill f J K yt xt xt B ld buf j k m in
  (forall a, ~ within buf (2 * (xt * yt)) a -> m' a = m a) /\
  forall jj q, j <= jj < Z.min J (j + yt) -> 0 <= q < Z.min xt (K - k) ->
    cell2 m' (buf + 2 * (jj - j) * xt + 2 * q) = f (cell2 m (B + 2 * ((k + q) * ld + jj))).
Proof.
  intros Hy Hx Hj Hk HB.
  set (rng := fun p q => 0 <= p < Z.min yt (J - j) /\ 0 <= q < Z.min xt (K - k)).
  set (adr := fun p q => buf + 2 * (p * xt + q)).
  set (V := fun p q => f (cell2 m (B + 2 * ((k + q) * ld + (j + p))))).
  assert (IN : forall p q, rng p q -> within buf (2 * (xt * yt)) (adr p q) /\ within buf (2 * (xt * yt)) (adr p q + 1)).
  { unfold rng, within, adr. intros p q H. assert (0 <= p * xt + q < xt * yt) by nia. lia. }
  assert (INJ : forall p q p' q', rng p q -> rng p' q' -> - 2 < adr p q - adr p' q' < 2 -> p = p' /\ q = q').
  { unfold rng, adr. intros p q p' q' H H' E. assert (E' : p * xt + q = p' * xt + q') by lia. clear E. assert (p = p') by nia. subst. lia. }
  assert (C : zcovers rng adr V (within buf (2 * (xt * yt))) m (zgemm_fill f J K yt xt xt B ld buf j k)
    (fun p q => exists kk, k <= kk < Z.min K (k + xt) /\ exists jj, j <= jj < Z.min J (j + yt) /\ p = jj - j /\ q = kk - k)).
  { unfold zgemm_fill. apply zcovers_for_block. intros kk Hkk. apply zcovers_for_block. intros jj Hjj.
    assert (R : rng (jj - j) (kk - k)) by (unfold rng; lia).
    apply (zcovers_write rng adr V _ m IN INJ); auto. intros m' Hm'. unfold V.
    replace (B + 2 * (kk * ld + jj)) with (B + 2 * ((k + (kk - k)) * ld + (j + (jj - j)))) by ring.
    f_equal. assert (HB' := fun o => HB (j + (jj - j)) (k + (kk - k)) o ltac:(lia) ltac:(lia)).
    apply cell2_ext; apply Hm'; [rewrite <- (Z.add_0_r (_ + _))|]; apply HB'; auto. }
  intros m'. destruct (C (fun _ _ => False) m) as [G1 G2].
  - split; [auto|]. intros p q [].
  - fold m' in G1, G2. clearbody m'. split; [exact G1|]. intros jj q Hjj Hq.
    specialize (G2 (jj - j) q). unfold adr, V in G2. replace (buf + 2 * (jj - j) * xt + 2 * q) with (buf + 2 * ((jj - j) * xt + q)) by ring. rewrite G2.
    + do 2 f_equal. ring.
    + right. exists (k + q). split; [lia|]. exists jj. lia.
    + unfold rng. lia.
Qed.

Section TOPMZ.
  Context {t : ty} (fold : Z) (Hf : 2 <= fold <= MAXFOLD t).
  Context (tu : tuning) (HT : tuned t tu) (b : gemm_blocks) (LB : legal_gemm b) (by_rows : bool).
  Context (M N K : Z) (HM : 0 <= M) (HN : 0 <= N) (HK : 0 <= K) (A lda B ldb C ldc bufA bufB : Z).
  Context (elA elB : Z -> Z -> Z) (m : mem t).
  Let yt := myt_block b. Let xt := mxt_block b.
  Let lenA := bufA_len b M K. Let lenB := xt * yt.
  Let cad (r : Z * Z) := C + (if by_rows then fst r * ldc + snd r else snd r * ldc + fst r) * zbnum fold.
  Let ok (r : Z * Z) := 0 <= fst r < M /\ 0 <= snd r < N.
  Let touched a := (exists i j, 0 <= i < M /\ 0 <= j < N /\ within (cad (i, j)) (zbnum fold) a) \/
    within bufA (2 * lenA) a \/ within bufB (2 * lenB) a.
  Context (NC : if by_rows then N <= ldc else M <= ldc).
  Context (HA : forall i k o, 0 <= i < M -> 0 <= k < K -> o = 0 \/ o = 1 -> ~ touched (elA i k + o)).
  Context (HB : forall k j o, 0 <= k < K -> 0 <= j < N -> o = 0 \/ o = 1 -> ~ touched (elB k j + o)).
  Context (DAB : forall a, within bufA (2 * lenA) a -> ~ within bufB (2 * lenB) a).
  Context (DC : forall a i j, within bufA (2 * lenA) a \/ within bufB (2 * lenB) a -> 0 <= i < M -> 0 <= j < N ->
    ~ within (cad (i, j)) (zbnum fold) a).
  Context (us vs : Z * Z -> list (F t)) (zs : Z * Z -> list (F t * F t)) (tm : Z * Z -> Z -> list (F t * F t)).
  Context (LT : forall r k, length (tm r k) = 2%nat).
  Context (HC : forall r, ok r -> 2 * K + Z.of_nat (length (zs r)) <= capacity t).
  Context (H0 : forall r, ok r -> zacc_at fold (us r) (vs r) (zs r) m (cad r)).
  Let cl := zclear fold (Z * Z) ok cad.
  Let cl2 := zclear2 fold (Z * Z) ok cad.

  Lemma zc_apart r r' : ok r -> ok r' -> r <> r' -> apart (zbnum fold) (cad r) (cad r').
  Proof.
    destruct r as (a, c), r' as (a', c'). intros (Ha & Hc) (Ha' & Hc') NE. cbn [fst snd] in *. unfold apart, cad. cbn [fst snd].
    assert (E : forall x y L, 0 <= x < L -> 0 <= y < L -> L <= ldc -> forall p q, p * ldc + x <> q * ldc + y \/ (p = q /\ x = y)).
    { intros x y L Hx Hy HL p q. destruct (Z.eq_dec p q); [subst; lia|left; nia]. }
    revert NC. case by_rows; intros NC'.
    - destruct (E c c' N Hc Hc' NC' a a') as [H|[-> ->]]; [|congruence]. unfold zbnum. nia.
    - destruct (E a a' M Ha Ha' NC' c c') as [H|[-> ->]]; [|congruence]. unfold zbnum. nia.
  Qed.
  Lemma zmuntouched_clear a : ~ touched a -> cl a.
  Proof. intros H (i, j) (Hi & Hj) Hw. apply H. left. exists i, j. auto. Qed.
  Lemma zmbufs_clear a : within bufA (2 * lenA) a \/ within bufB (2 * lenB) a -> cl a.
  Proof. intros H (i, j) (Hi & Hj) Hw. exact (DC a i j H Hi Hj Hw). Qed.
  Lemma two_cells (P : Z -> Prop) a : (forall o, o = 0 \/ o = 1 -> P (a + o)) -> P a /\ P (a + 1).
  Proof. intros H. split; [rewrite <- (Z.add_0_r a)|]; apply H; auto. Qed.
  Definition zmresult (m' : mem t) :=
    (forall r, ok r -> zout fold (us r) (vs r) (flat_map (tm r) (zseq 0 K) ++ zs r) m' (cad r)) /\
    (forall a, ~ touched a -> m' a = m a).
  Lemma zmstart_inv (m1 : mem t) : (forall a, ~ within bufA (2 * lenA) a -> m1 a = m a) ->
    zinv fold (Z * Z) ok cad us vs zs tm (fun _ => 0) m1.
  Proof.
    intros E r Hr. unfold ztaken. rewrite zseq_nil by lia. cbn [flat_map app].
    eapply (zout_frame fold Hf); [|apply zacc_out; exact (H0 r Hr)]. intros a Ha. apply E. intros Hw.
    destruct r as (i, j), Hr as (Hi & Hj). exact (DC a i j (or_introl Hw) Hi Hj Ha).
  Qed.

  (** fa, fb: whether A, B go through the block buffers; gA, gB: what is done to the elements. *)
  Section CORE.
    Context (d : dot_call) (fa fb : bool) (gA gB : F t * F t -> F t * F t) (pA ld : Z) (m1 : mem t) (Aval Bval : Z -> Z -> F t * F t).
    Context (TM : forall r k, ok r -> 0 <= k < K -> alike (call_terms d (Aval (fst r) k) (Bval k (snd r))) (tm r k)).
    Let bi := if fa then yt else my_block b. Let bj := if fb then yt else my_block b.
    Let bk := if fa || fb then xt else mx_block b.
    Let prep i j k m := let m := if fa then zgemm_fill gA M K yt xt xt A lda bufA i k m else m in
      if fb then zgemm_fill gB N K yt xt xt B ldb bufB j k m else m.
    Let opA i (j : Z) k ii := if fa then bufA + 2 * (ii - i) * xt else pA + 2 * (ii * ld + k).
    Let opB (i : Z) j k jj := if fb then bufB + 2 * (jj - j) * xt else B + 2 * (jj * ldb + k).
    Context (HE : 2 * Z.min (Z.min K bk) (block_max tu) <= endurance t).
    Context (EA1 : fa = true -> forall i k, 0 <= i < M -> 0 <= k < K -> elA i k = A + 2 * (k * lda + i) /\ Aval i k = gA (cell2 m (elA i k))).
    Context (M1 : forall a, ~ within bufA (2 * lenA) a -> m1 a = m a).
    Context (EA0 : fa = false -> forall i k, 0 <= i < M -> 0 <= k < K -> cell2 m1 (pA + 2 * (i * ld + k)) = Aval i k /\
      (pA + 2 * (i * ld + k) = elA i k \/ forall o, o = 0 \/ o = 1 -> within bufA (2 * lenA) (pA + 2 * (i * ld + k) + o))).
    Context (EB : forall k j, 0 <= k < K -> 0 <= j < N -> elB k j = if fb then B + 2 * (k * ldb + j) else B + 2 * (j * ldb + k)).
    Context (VB : forall k j, 0 <= k < K -> 0 <= j < N -> Bval k j = if fb then gB (cell2 m (elB k j)) else cell2 m (elB k j)).
    Lemma zgemm_core_ok : zmresult (zgemm_nest d tu by_rows fold M N K bi bj bk prep opA opB C ldc m1).
    Proof.
      destruct LB as ((Y1 & Y2) & (Z1 & Z2)).
      assert (XT : 1 <= xt) by (apply block_div; lia). assert (XB : 1 <= mx_block b) by (apply block_div; lia).
      fold yt in Z1, Z2.
      assert (LA : xt * yt <= lenA) by (unfold lenA, bufA_len; fold xt yt; lia).
      assert (NA : forall i k o, 0 <= i < M -> 0 <= k < K -> o = 0 \/ o = 1 -> ~ within bufA (2 * lenA) (elA i k + o)).
      { intros i k o Hi Hk Ho Hw. apply (HA i k o Hi Hk Ho). right. left. exact Hw. }
      assert (NA' : forall i k o, 0 <= i < M -> 0 <= k < K -> o = 0 \/ o = 1 -> ~ within bufB (2 * lenB) (elA i k + o)).
      { intros i k o Hi Hk Ho Hw. apply (HA i k o Hi Hk Ho). right. right. exact Hw. }
      assert (NB : forall k j o, 0 <= k < K -> 0 <= j < N -> o = 0 \/ o = 1 -> ~ within bufA (2 * lenA) (elB k j + o)).
      { intros k j o Hk Hj Ho Hw. apply (HB k j o Hk Hj Ho). right. left. exact Hw. }
      assert (NB' : forall k j o, 0 <= k < K -> 0 <= j < N -> o = 0 \/ o = 1 -> ~ within bufB (2 * lenB) (elB k j + o)).
      { intros k j o Hk Hj Ho Hw. apply (HB k j o Hk Hj Ho). right. right. exact Hw. }
      assert (BX : forall i ii q, i <= ii < i + yt -> 0 <= q < xt -> 0 <= (ii - i) * xt + q < xt * yt) by (intros; nia).
      set (buf := fun a => (fa = true /\ within bufA (2 * lenA) a) \/ (fb = true /\ within bufB (2 * lenB) a)).
      destruct (zgemm_nest_ok fold Hf d tu HT by_rows M N K bi bj bk) with (C := C) (ldc := ldc) (us := us) (vs := vs) (zs := zs) (Aval := Aval) (Bval := Bval) (tm := tm)
        (prep := prep) (opA := opA) (opB := opB) (buf := buf) (m1 := m1) as [G1 G2].
      - unfold bi. destruct fa; lia.
      - unfold bj. destruct fb; lia.
      - unfold bk. destruct (fa || fb); lia.
      - exact HK.
      - exact zc_apart.
      - exact HE.
      - exact LT.
      - exact TM.
      - exact HC.
      - intros a [(_ & H)|(_ & H)]; apply zmbufs_clear; auto.
      - intros i j k ii q Hi Hj Hk Hii Hq. unfold opA, bi, bk in *. apply two_cells. intros o Ho. fold cl. destruct fa eqn:Ea.
        + apply zmbufs_clear. left. cbn [orb] in Hq. specialize (BX i ii q ltac:(lia) ltac:(lia)). unfold within. lia.
        + assert (Hq' : 0 <= k + q < K) by lia. destruct (EA0 eq_refl ii (k + q) ltac:(lia) ltac:(lia)) as [_ E].
          replace (pA + 2 * (ii * ld + k) + 2 * q) with (pA + 2 * (ii * ld + (k + q))) by ring.
          destruct E as [-> |Hw].
          * apply zmuntouched_clear. apply HA; auto; lia.
          * apply zmbufs_clear. left. auto.
      - intros i j k jj q Hi Hj Hk Hjj Hq. unfold opB, bj, bk in *. specialize (EB (k + q) jj). apply two_cells. intros o Ho. fold cl. destruct fb eqn:Eb.
        + apply zmbufs_clear. right. rewrite orb_true_r in Hq. specialize (BX j jj q ltac:(lia) ltac:(lia)). unfold within, lenB. lia.
        + replace (B + 2 * (jj * ldb + k) + 2 * q) with (B + 2 * (jj * ldb + (k + q))) by ring. rewrite <- EB by lia. apply zmuntouched_clear. apply HB; auto; lia.
      - intros i j k m2 Hi Hj Hk Ag.
        assert (RA : forall ii kk, 0 <= ii < M -> 0 <= kk < K -> cell2 m2 (elA ii kk) = cell2 m (elA ii kk)).
        { intros ii kk Hii Hkk. assert (E : forall o, o = 0 \/ o = 1 -> m2 (elA ii kk + o) = m (elA ii kk + o)).
          { intros o Ho. rewrite Ag.
            - apply M1. apply NA; auto.
            - apply zmuntouched_clear. apply HA; auto.
            - intros [(_ & H)|(_ & H)]; [apply (NA ii kk o Hii Hkk Ho H)|apply (NA' ii kk o Hii Hkk Ho H)]. }
          apply cell2_ext; [rewrite <- (Z.add_0_r (elA _ _))|]; apply E; auto. }
        (* step 1: A *)
        assert (S1 : forall m3, m3 = (if fa then zgemm_fill gA M K yt xt xt A lda bufA i k m2 else m2) ->
          (forall a, ~ (fa = true /\ within bufA (2 * lenA) a) -> m3 a = m2 a) /\
          (forall ii q, i <= ii < Z.min M (i + bi) -> 0 <= q < Z.min bk (K - k) -> cell2 m3 (opA i j k ii + 2 * q) = Aval ii (k + q))).
        { intros m3 E3. unfold opA, bi, bk. destruct fa eqn:Ea.
          - assert (EL : forall ii kk, 0 <= ii < M -> 0 <= kk < K -> elA ii kk = A + 2 * (kk * lda + ii)) by (intros; now apply EA1).
            destruct (zgemm_fill_ok gA M K yt xt A lda bufA i k m2 Z1 XT Hi Hk) as [F1 F2].
            { intros ii kk o Hii Hkk Ho Hw. rewrite <- EL in Hw by (auto; lia). apply (NA ii kk o Hii Hkk Ho). unfold within in *. lia. }
            rewrite <- E3 in F1, F2. split.
            + intros a Ha. apply F1. intros Hw. apply Ha. split; auto. unfold within in *. lia.
            + intros ii q Hii Hq. cbn [orb] in Hq. rewrite F2 by lia. destruct (EA1 eq_refl ii (k + q) ltac:(lia) ltac:(lia)) as [E1 ->].
              rewrite <- E1. now rewrite RA by lia.
          - subst m3. split; auto. intros ii q Hii Hq. replace (pA + 2 * (ii * ld + k) + 2 * q) with (pA + 2 * (ii * ld + (k + q))) by ring.
            assert (Hq' : 0 <= k + q < K) by lia. destruct (EA0 eq_refl ii (k + q) ltac:(lia) ltac:(lia)) as [E [E'|Hw]].
            + rewrite <- E. rewrite E'. rewrite RA by lia. assert (E2 : forall o, o = 0 \/ o = 1 -> m (elA ii (k + q) + o) = m1 (elA ii (k + q) + o)).
              { intros o Ho. symmetry. apply M1. apply NA; auto; lia. }
              apply cell2_ext; [rewrite <- (Z.add_0_r (elA _ _))|]; apply E2; auto.
            + rewrite <- E. assert (E2 : forall o, o = 0 \/ o = 1 -> m2 (pA + 2 * (ii * ld + (k + q)) + o) = m1 (pA + 2 * (ii * ld + (k + q)) + o)).
              { intros o Ho. apply Ag.
                - apply zmbufs_clear. left. apply Hw. exact Ho.
                - intros [(? & H)|(_ & H)]; [discriminate|exact (DAB _ (Hw o Ho) H)]. }
              apply cell2_ext; [rewrite <- (Z.add_0_r (pA + _))|]; apply E2; auto. }
        unfold prep. cbv zeta. destruct (S1 _ eq_refl) as [A1 A2].
        set (m3 := if fa then zgemm_fill gA M K yt xt xt A lda bufA i k m2 else m2) in *. clearbody m3. clear S1.
        (* step 2: B *)
        assert (S2 : forall m4, m4 = (if fb then zgemm_fill gB N K yt xt xt B ldb bufB j k m3 else m3) ->
          (forall a, ~ (fb = true /\ within bufB (2 * lenB) a) -> m4 a = m3 a) /\
          (forall jj q, j <= jj < Z.min N (j + bj) -> 0 <= q < Z.min bk (K - k) -> cell2 m4 (opB i j k jj + 2 * q) = Bval (k + q) jj)).
        { assert (RB : forall kk jj, 0 <= kk < K -> 0 <= jj < N -> cell2 m3 (elB kk jj) = cell2 m (elB kk jj)).
          { intros kk jj Hkk Hjj. assert (E : forall o, o = 0 \/ o = 1 -> m3 (elB kk jj + o) = m (elB kk jj + o)).
            { intros o Ho. rewrite A1 by (intros (_ & H); exact (NB kk jj o Hkk Hjj Ho H)). rewrite Ag.
              - apply M1. apply NB; auto.
              - apply zmuntouched_clear. apply HB; auto.
              - intros [(_ & H)|(_ & H)]; [apply (NB kk jj o Hkk Hjj Ho H)|apply (NB' kk jj o Hkk Hjj Ho H)]. }
            apply cell2_ext; [rewrite <- (Z.add_0_r (elB _ _))|]; apply E; auto. }
          intros m4 E4. unfold opB, bj, bk. destruct fb eqn:Eb.
          - destruct (zgemm_fill_ok gB N K yt xt B ldb bufB j k m3 Z1 XT Hj Hk) as [F1 F2].
            { intros jj kk o Hjj Hkk Ho Hw. rewrite <- EB in Hw by lia. exact (NB' kk jj o Hkk Hjj Ho Hw). }
            rewrite <- E4 in F1, F2. split.
            + intros a Ha. apply F1. intros Hw. apply Ha. split; auto.
            + intros jj q Hjj Hq. rewrite orb_true_r in Hq. rewrite F2 by lia. rewrite <- EB by lia. rewrite VB by lia. f_equal. apply RB; lia.
          - subst m4. split; auto. intros jj q Hjj Hq. replace (B + 2 * (jj * ldb + k) + 2 * q) with (B + 2 * (jj * ldb + (k + q))) by ring.
            rewrite <- EB by lia. rewrite VB by lia. apply RB; lia. }
        destruct (S2 _ eq_refl) as [B1 B2].
        set (m4 := if fb then zgemm_fill gB N K yt xt xt B ldb bufB j k m3 else m3) in *. clearbody m4. clear S2.
        split; [|split].
        + intros a Ha. rewrite B1, A1; auto; intros H; apply Ha; [left|right]; exact H.
        + intros ii q Hii Hq. rewrite <- (A2 ii q Hii Hq).
          assert (E : forall o, o = 0 \/ o = 1 -> m4 (opA i j k ii + 2 * q + o) = m3 (opA i j k ii + 2 * q + o)).
          { intros o Ho. apply B1. intros (Eb & Hw). unfold opA, bi, bk in *. destruct fa eqn:Ea.
            * refine (DAB _ _ Hw). cbn [orb] in Hq. specialize (BX i ii q ltac:(lia) ltac:(lia)). unfold within. lia.
            * assert (Hq' : 0 <= k + q < K) by lia.
              replace (pA + 2 * (ii * ld + k) + 2 * q) with (pA + 2 * (ii * ld + (k + q))) in Hw by ring.
              destruct (EA0 eq_refl ii (k + q) ltac:(lia) ltac:(lia)) as [_ [E'|Hw']].
              -- rewrite E' in Hw. exact (NA' ii (k + q) o ltac:(lia) ltac:(lia) Ho Hw).
              -- exact (DAB _ (Hw' o Ho) Hw). }
          apply cell2_ext; [rewrite <- (Z.add_0_r (opA _ _ _ _ + _))|]; apply E; auto.
        + exact B2.
      - apply zmstart_inv. exact M1.
      - split; [exact G1|]. intros a Ha. etransitivity.
        + apply G2; [apply zmuntouched_clear; exact Ha|]. intros [(_ & H)|(_ & H)]; apply Ha; [right; left|right; right]; exact H.
        + apply M1. intros Hw. apply Ha. right. left. exact Hw.
    Qed.
  End CORE.
End TOPMZ.
