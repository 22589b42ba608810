(** * C91: norms and absolute sums depend on magnitudes only; conjugates and quarter turns of complex vectors *)
From Coq Require Import ZArith Bool List Lia Permutation Reals.
From Flocq Require Import Core BinarySingleNaN.
From Verif Require Import Fp Mem Binned Spec Client FpProofs BitProofs CoreArith SpecProofs WordProofs MemProofs AccProofs SumProofs History ClientProofs ConvProofs RescaleProofs PropsSum PropsAcc ComplexProofs PropsComplex Gen GenProofs Blas LaneProofs ReduceProofs BlasSpec PropsBlas PropsScale PropsSign PropsApi Ssq SsqProofs SsqSpec PropsSsq BlasZ BlasZSpec PropsBlasZ BlasDZ BlasDZSpec PropsBlasDZ GemvZProofs PropsSym PropsZReal.
Import ListNotations.
Open Scope Z_scope.

(** ** Specification *)
(** [y] is the complex number [x] with its parts possibly exchanged and each possibly negated: x, -x, I x, -I x and their conjugates. *)
Definition turned {t} (x y : F t * F t) : Prop :=
  exists a b, (a = fst x \/ a = fneg (fst x)) /\ (b = snd x \/ b = fneg (snd x)) /\ (y = (a, b) \/ y = (b, a)).
(** The complex number stored at an address. *)
Definition zcell {t} (m : mem t) (a : Z) : F t * F t := (m a, m (a + 1)).

(** ** Signs *)
Lemma fdiv_neg_l {t} (x y : F t) : fdiv (fneg x) y = fneg (fdiv x y).
Proof.
  destruct x as [sx|sx| |sx mx ex Hx], y as [sy|sy| |sy my ey Hy]; unfold fdiv, fneg; cbn [Bopp];
    unfold Bdiv; cbn [Bopp]; try reflexivity; try (destruct sx, sy; reflexivity).
  apply B2SF_inj. rewrite B2SF_neg, !B2SF_SF2B.
  destruct (SpecFloat.SFdiv_core_binary (prec t) (emax t) (Z.pos mx) ex (Z.pos my) ey) as [[mz ez] lz]. rewrite <- round_aux_neg. f_equal. destruct sx, sy; reflexivity.
Qed.
Lemma fabs_fneg {t} (x : F t) : fabs (fneg x) = fabs x.
Proof. destruct x; reflexivity. Qed.
Lemma fabs_or {t} (x : F t) : fabs x = x \/ fabs x = fneg x.
Proof. destruct x as [[|]|[|]| |[|] ? ? ?]; cbn; auto. Qed.
Lemma square_fabs {t} (x s : F t) : (let y := fdiv (fabs x) s in fmul y y) = (let y := fdiv x s in fmul y y).
Proof. cbv zeta. destruct (fabs_or x) as [-> | ->]; [reflexivity|]. rewrite fdiv_neg_l, fmul_neg_l, fmul_neg_r, fneg_neg. reflexivity. Qed.
Lemma squares_fabs {t} (s : F t) xs : squares s (map fabs xs) = squares s xs.
Proof. unfold squares. rewrite map_map. apply map_ext. intros x. apply square_fabs. Qed.
Lemma fabs_fabs {t} (x : F t) : fabs (fabs x) = fabs x.
Proof. destruct x; reflexivity. Qed.
Lemma largest_fabs {t} (M : F t) xs : largest M (map fabs xs) <-> largest M xs.
Proof.
  unfold largest. split; intros [H1 H2]; split.
  - intros x Hx. rewrite <- (fabs_fabs x). apply H1. now apply in_map.
  - destruct H2 as [H2|(x & Hx & E)]; [now left|right]. apply in_map_iff in Hx. destruct Hx as (y & <- & Hy). exists y. rewrite E, fabs_fabs. auto.
  - intros x Hx. apply in_map_iff in Hx. destruct Hx as (y & <- & Hy). rewrite fabs_fabs. auto.
  - destruct H2 as [H2|(x & Hx & E)]; [now left|right]. exists (fabs x). rewrite fabs_fabs. split; [now apply in_map|exact E].
Qed.
Lemma sstate_fabs {t} fold (xs : list (F t)) r Y : sstate fold (map fabs xs) r Y <-> sstate fold xs r Y.
Proof.
  unfold sstate. rewrite all_finite_fabs, map_map. rewrite (map_ext (fun x : F t => fabs (fabs x)) fabs) by apply fabs_fabs.
  destruct (all_finite xs); [|reflexivity]. unfold ssq_at. rewrite squares_fabs.
  assert (E : scale_of (fst r) (map fabs xs) <-> scale_of (fst r) xs); [|rewrite E; reflexivity].
  destruct xs as [|x l]; [reflexivity|]. cbn [scale_of map]. split; intros (M & HM & E); exists M; split; auto; apply (largest_fabs M (x :: l)); exact HM.
Qed.

(** ** C91: real vectors *)
Theorem C91_nrm2 t tu tu' fold N X incX X' incX' tmp tmp' (m m' : mem t) :
  2 <= fold <= ssq_fold t -> tuned t tu -> tuned t tu' -> 0 <= N <= CAPACITY t ->
  clear_of X incX N tmp (dbnum fold) -> clear_of X' incX' N tmp' (dbnum fold) ->
  Permutation (magnitudes m X incX N) (magnitudes m' X' incX' N) ->
  rdnrm2 tu fold N X incX tmp m = rdnrm2 tu' fold N X' incX' tmp' m'.
Proof.
  intros Hf HT HT' HN CX CX' HP. rewrite CAPACITY_eq in HN. pose proof (proj2 (proj2 (ssq_fold_ok t fold Hf))) as HM.
  destruct (ssq_fresh fold Hf tu N X incX tmp m HT HN CX) as [S _].
  destruct (ssq_fresh fold Hf tu' N X' incX' tmp' m' HT' HN CX') as [S' _].
  apply sstate_fabs in S. apply sstate_fabs in S'. fold (magnitudes m X incX N) in S. fold (magnitudes m' X' incX' N) in S'.
  apply (sstate_perm fold _ _ _ _ (Permutation_sym HP)) in S'. unfold rdnrm2.
  destruct (dbdssq tu fold N X incX fzero tmp (dbsetzero fold tmp m)) as [sc m1].
  destruct (dbdssq tu' fold N X' incX' fzero tmp' (dbsetzero fold tmp' m')) as [sc' m1'].
  destruct (all_finite (magnitudes m X incX N)) eqn:FX.
  - pose proof (sstate_same fold Hf _ _ _ _ _ FX S S') as [E _]. cbn [fst] in E. subst sc'.
    unfold sstate in S, S'. rewrite FX in S, S'. destruct S as [_ S], S' as [_ S']. cbn [fst snd] in *. f_equal.
    exact (conv_acc fold HM [] _ [] _ _ _ _ _ (perm_nil _) (Permutation_refl _) S S').
  - unfold sstate in S, S'. rewrite FX in S, S'. destruct S as [S E], S' as [S' E']. cbn [fst snd] in *. subst sc sc'. f_equal.
    assert (A : acc_at fold [] (map fabs (magnitudes m X incX N)) m1 tmp) by (unfold acc_at, holds; now rewrite all_finite_fabs, FX, Z.mul_0_l, Z.add_0_r).
    assert (A' : acc_at fold [] (map fabs (magnitudes m X incX N)) m1' tmp') by (unfold acc_at, holds; now rewrite all_finite_fabs, FX, Z.mul_0_l, Z.add_0_r).
    exact (conv_acc fold HM [] _ [] _ _ _ _ _ (perm_nil _) (Permutation_refl _) A A').
Qed.
Print Assumptions C91_nrm2.
(** ** Complex vectors *)
Lemma stored {t} (l : list (F t)) n : Z.of_nat (length l) = n ->
  exists mm : mem t, read mm 0 1 n = l /\ clear_of 0 1 n n (dbnum 2).
Proof.
  intros E. exists (fun a => nth (Z.to_nat a) l fzero). split; [|intros i Hi; unfold dbnum; lia].
  unfold read. replace n with (0 + Z.of_nat (length l)) by lia. apply stored_list.
Qed.
Theorem C91_znrm2 t tu tu' fold N X incX X' incX' Y Y' A A' T T' (m m' : mem t) :
  2 <= fold <= ssq_fold t -> tuned t tu -> tuned t tu' -> 0 <= 2 * N <= CAPACITY t ->
  nrm_layout fold N X incX Y A T -> nrm_layout fold N X' incX' Y' A' T' ->
  Permutation (map fabs (components m X incX N)) (map fabs (components m' X' incX' N)) ->
  rdznrm2 tu fold N X incX Y A T m = rdznrm2 tu' fold N X' incX' Y' A' T' m'.
Proof.
  intros Hf HT HT' HN LY LY' HP.
  destruct (stored (components m X incX N) (2 * N) (components_length m X incX N ltac:(lia))) as (mm & ER & _).
  destruct (stored (components m' X' incX' N) (2 * N) (components_length m' X' incX' N ltac:(lia))) as (mm' & ER' & _).
  assert (CX : clear_of 0 1 (2 * N) (2 * N) (dbnum fold)) by (intros i Hi; lia).
  rewrite (C49_rdznrm2 t tu tu fold N X incX 0 1 Y (2 * N) A T m mm) by (auto; rewrite ER; reflexivity).
  rewrite (C49_rdznrm2 t tu' tu fold N X' incX' 0 1 Y' (2 * N) A' T' m' mm') by (auto; rewrite ER'; reflexivity).
  apply C91_nrm2; auto. unfold magnitudes. now rewrite ER, ER'.
Qed.
Print Assumptions C91_znrm2.
Lemma turned_parts {t} (x y : F t * F t) : turned x y ->
  Permutation [fabs (fst x); fabs (snd x)] [fabs (fst y); fabs (snd y)] /\
  Permutation [fmul (fst x) (fst x); fmul (snd x) (snd x)] [fmul (fst y) (fst y); fmul (snd y) (snd y)].
Proof.
  intros (a & b & Ha & Hb & Hy).
  assert (EA : fabs a = fabs (fst x) /\ fmul a a = fmul (fst x) (fst x)) by (destruct Ha as [-> | ->]; [auto|]; rewrite fabs_fneg, fmul_neg_l, fmul_neg_r, fneg_neg; auto).
  assert (EB : fabs b = fabs (snd x) /\ fmul b b = fmul (snd x) (snd x)) by (destruct Hb as [-> | ->]; [auto|]; rewrite fabs_fneg, fmul_neg_l, fmul_neg_r, fneg_neg; auto).
  destruct EA as [EA1 EA2]. destruct EB as [EB1 EB2]. clear Ha Hb.
  destruct Hy as [-> | ->]; cbn [fst snd]; rewrite EA1, EA2, EB1, EB2; split; try reflexivity; apply perm_swap.
Qed.
Lemma flat_map_perm {A B} (f g : A -> list B) l : (forall i, In i l -> Permutation (f i) (g i)) -> Permutation (flat_map f l) (flat_map g l).
Proof.
  induction l as [|a l IH]; intros H; [constructor|]. cbn [flat_map]. apply Permutation_app; [apply H; now left|]. apply IH. intros i Hi. apply H. now right.
Qed.
(** Turning each element by a multiple of a quarter turn, or conjugating it (each element its own way), changes neither the norm nor
    the absolute sum nor the (real) inner product of the vector with itself. *)
Section TURN.
  Context (t : ty) (tu tu' : tuning) (fold N X incX X' incX' : Z) (m m' : mem t).
  Hypothesis HT : tuned t tu.
  Hypothesis HT' : tuned t tu'.
  Hypothesis HN : 0 <= 2 * N <= CAPACITY t.
  Hypothesis HX : forall i, 0 <= i < N -> turned (zcell m (X + 2 * (i * incX))) (zcell m' (X' + 2 * (i * incX'))).
  Lemma turned_mags : Permutation (map fabs (components m X incX N)) (map fabs (components m' X' incX' N)).
  Proof.
    unfold components, zread. rewrite !flat_map_map, !map_flat. apply flat_map_perm. intros i Hi. apply zseq_In in Hi. apply (turned_parts _ _ (HX i ltac:(lia))).
  Qed.
Theorem C91_turned_norm Y Y' A A' T T' : 2 <= fold <= ssq_fold t ->
    nrm_layout fold N X incX Y A T -> nrm_layout fold N X' incX' Y' A' T' ->
    rdznrm2 tu fold N X incX Y A T m = rdznrm2 tu' fold N X' incX' Y' A' T' m'.
  Proof. intros Hf LY LY'. apply C91_znrm2; auto. exact turned_mags. Qed.
Theorem C91_turned_asum Y Y' A A' : 2 <= fold <= MAXFOLD t ->
    zclear_of X incX N Y (dbnum fold) -> zclear_of X incX N A (zbnum fold) -> blocks_apart A (zbnum fold) Y (dbnum fold) ->
    zclear_of X' incX' N Y' (dbnum fold) -> zclear_of X' incX' N A' (zbnum fold) -> blocks_apart A' (zbnum fold) Y' (dbnum fold) ->
    rdzasum tu fold N X incX Y A m = rdzasum tu' fold N X' incX' Y' A' m'.
  Proof.
    intros Hf C1 C2 C3 C1' C2' C3'.
    rewrite (C48_rdzasum t tu fold N X incX Y A 0 _ m m Hf HT HN C1 C2 C3 (Permutation_refl _)).
    rewrite (C48_rdzasum t tu' fold N X' incX' Y' A' 0 _ m' m Hf HT' HN C1' C2' C3' (Permutation_refl _)).
    apply sequential_perm; [exact Hf| |exact turned_mags].
    rewrite map_length, components_length by lia. lia.
  Qed.
Theorem C91_turned_self tmp tmp' : 2 <= fold <= MAXFOLD t ->
    Z.min N (block_max tu) <= ENDURANCE t / 2 -> Z.min N (block_max tu') <= ENDURANCE t / 2 ->
    zclear_of X incX N tmp (zbnum fold) -> zclear_of X' incX' N tmp' (zbnum fold) ->
    all_finite (map fst (conj_products m X incX X incX N)) = true ->
    fst (rzdotc tu fold N X incX X incX tmp m) = fst (rzdotc tu' fold N X' incX' X' incX' tmp' m').
  Proof.
    intros Hf HB HB' CX CX' FX.
    assert (HP : Permutation (map fst (conj_products m X incX X incX N)) (map fst (conj_products m' X' incX' X' incX' N))).
    { rewrite !conj_fst. unfold pairs. apply flat_map_perm. intros i Hi. apply zseq_In in Hi. apply (turned_parts _ _ (HX i ltac:(lia))). }
    destruct (C29_rzdotc_partial t tu fold N X incX X incX tmp 0 _ m m Hf HT HB HN CX CX (Permutation_refl _)) as [A _].
    destruct (C29_rzdotc_partial t tu' fold N X' incX' X' incX' tmp' 0 _ m' m Hf HT' HB' HN CX' CX' (Permutation_refl _)) as [B _].
    rewrite FX in A. rewrite <- (all_finite_perm _ _ HP), FX in B. rewrite A, B.
    apply sequential_perm; [exact Hf| |exact HP]. rewrite conj_fst, pairs_length, zseq_length. lia.
  Qed.
End TURN.
Print Assumptions C91_turned_norm. Print Assumptions C91_turned_asum. Print Assumptions C91_turned_self.

(** Case: x = (3 + 5 I, -7 + 2 I) and y = (I (3 + 5 I), conj(-7 + 2 I)), stored with gaps. *)
Definition turn_mem : mem Dbl := fun a => if a =? 0 then mkf 3 0 else if a =? 1 then mkf 5 0 else if a =? 2 then mkf (-7) 0 else if a =? 3 then mkf 2 0
  else if a =? 20 then fneg (mkf 5 0) else if a =? 21 then mkf 3 0 else if a =? 24 then mkf (-7) 0 else if a =? 25 then fneg (mkf 2 0) else fzero.
Example C91_case :
  (forall i, 0 <= i < 2 -> turned (zcell turn_mem (0 + 2 * (i * 1))) (zcell turn_mem (20 + 2 * (i * 2)))) /\
  nrm_layout 3 2 0 1 100 200 300 /\ nrm_layout 3 2 20 2 100 200 300 /\
  zclear_of 0 1 2 100 (zbnum 3) /\ zclear_of 20 2 2 100 (zbnum 3) /\ all_finite (map fst (conj_products turn_mem 0 1 0 1 2)) = true /\
  feq (fst (rzdotc half_tuning 3 2 20 2 20 2 100 turn_mem)) (mkf 87 0) = true /\ feq (rdzasum sample_tuning 3 2 20 2 100 200 turn_mem) (mkf 17 0) = true /\
  feq (fst (rzdotc half_tuning 3 2 0 1 20 2 100 turn_mem)) (mkf 45 0) = true.
Proof.
  split.
  { intros i Hi. assert (E : i = 0 \/ i = 1) by lia. destruct E as [-> | ->].
    - exists (mkf 3 0), (fneg (mkf 5 0)). split; [left; reflexivity|]. split; [right; reflexivity|right; reflexivity].
    - exists (mkf (-7) 0), (fneg (mkf 2 0)). split; [left; reflexivity|]. split; [right; reflexivity|left; reflexivity]. }
  split; [unfold nrm_layout, blocks_apart, zclear_of, dbnum, zbnum; repeat split; intros; lia|].
  split; [unfold nrm_layout, blocks_apart, zclear_of, dbnum, zbnum; repeat split; intros; lia|].
  split; [unfold zclear_of, zbnum; intros; lia|]. split; [unfold zclear_of, zbnum; intros; lia|].
  split; [vm_compute; reflexivity|]. split; [vm_compute; reflexivity|]. split; vm_compute; reflexivity.
Qed.
Print Assumptions C91_case.
