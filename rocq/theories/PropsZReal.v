(** * C85, C86: complex inner products and real ones; complex integer data *)
From Coq Require Import ZArith Bool List Lia Permutation Reals Lra.
From Flocq Require Import Core BinarySingleNaN.
From Verif Require Import Fp Mem Binned Spec FpProofs BitProofs CoreArith SpecProofs WordProofs MemProofs AccProofs SumProofs ConvProofs Client History ClientProofs PropsSum PropsAcc ComplexProofs PropsComplex Gen GenProofs Blas LaneProofs ReduceProofs DriverProofs BlasSpec PropsBlas Gemv GemvSpec GemvProofs PropsGemv BlasZ BlasZSpec PropsBlasZ PropsSign PropsApi PropsScale PropsSym Exact PropsExact.
Import ListNotations.
Open Scope Z_scope.

Definition pairs {A B} (f g : A -> B) (l : list A) : list B := flat_map (fun i => [f i; g i]) l.
Lemma conj_fst {t} (m : mem t) X incX Y incY N : map fst (conj_products m X incX Y incY N) =
  pairs (fun i => fmul (m (X + 2 * (i * incX))) (m (Y + 2 * (i * incY)))) (fun i => fmul (m (X + 2 * (i * incX) + 1)) (m (Y + 2 * (i * incY) + 1))) (zseq 0 N).
Proof. unfold conj_products. rewrite zproducts_map, flat_map_map, map_flat. reflexivity. Qed.
Lemma conj_snd {t} (m : mem t) X incX Y incY N : map snd (conj_products m X incX Y incY N) =
  pairs (fun i => fneg (fmul (m (X + 2 * (i * incX) + 1)) (m (Y + 2 * (i * incY))))) (fun i => fmul (m (X + 2 * (i * incX))) (m (Y + 2 * (i * incY) + 1))) (zseq 0 N).
Proof. unfold conj_products. rewrite zproducts_map, flat_map_map, map_flat. reflexivity. Qed.
Lemma plain_fst {t} (m : mem t) X incX Y incY N : map fst (plain_products m X incX Y incY N) =
  pairs (fun i => fmul (m (X + 2 * (i * incX))) (m (Y + 2 * (i * incY)))) (fun i => fneg (fmul (m (X + 2 * (i * incX) + 1)) (m (Y + 2 * (i * incY) + 1)))) (zseq 0 N).
Proof. unfold plain_products. rewrite zproducts_map, flat_map_map, map_flat. reflexivity. Qed.
Lemma plain_snd {t} (m : mem t) X incX Y incY N : map snd (plain_products m X incX Y incY N) =
  pairs (fun i => fmul (m (X + 2 * (i * incX) + 1)) (m (Y + 2 * (i * incY)))) (fun i => fmul (m (X + 2 * (i * incX))) (m (Y + 2 * (i * incY) + 1))) (zseq 0 N).
Proof. unfold plain_products. rewrite zproducts_map, flat_map_map, map_flat. reflexivity. Qed.
Lemma pairs_length {A B} (f g : A -> B) l : Z.of_nat (length (pairs f g l)) = 2 * Z.of_nat (length l).
Proof. induction l as [|a l IH]; [reflexivity|]. unfold pairs in *. cbn [flat_map app length]. lia. Qed.
Lemma double_range {A} (f : Z -> A) n : 0 <= n -> map f (zseq 0 (2 * n)) = pairs (fun i => f (2 * i)) (fun i => f (2 * i + 1)) (zseq 0 n).
Proof.
  intros Hn. revert n Hn. apply natlike_ind; [reflexivity|]. intros n Hn IH.
  replace (2 * Z.succ n) with (2 * n + 2) by lia. replace (Z.succ n) with (n + 1) by lia.
  rewrite !zseq_app by lia. unfold pairs in *. rewrite map_app, flat_map_app, IH. f_equal. rewrite !Z.add_0_l.
  replace (zseq (2 * n) 2) with [2 * n; 2 * n + 1] by (unfold zseq; change (Z.to_nat 2) with 2%nat; cbn [seq map]; change (Z.of_nat 0) with 0; change (Z.of_nat 1) with 1; now rewrite Z.add_0_r).
  replace (zseq n 1) with [n] by (unfold zseq; change (Z.to_nat 1) with 1%nat; cbn [seq map]; change (Z.of_nat 0) with 0; now rewrite Z.add_0_r). reflexivity.
Qed.

(** ** C85 *)
(** The real part of conj(x) . y, for contiguous vectors, is the real inner product of the 2N components. *)
Theorem C85_real_part t tu tu' fold N X Y tmp tmp' (m : mem t) :
  2 <= fold <= MAXFOLD t -> tuned t tu -> tuned t tu' -> Z.min N (block_max tu) <= ENDURANCE t / 2 -> 0 <= N -> 2 * N <= CAPACITY t ->
  zclear_of X 1 N tmp (zbnum fold) -> zclear_of Y 1 N tmp (zbnum fold) ->
  clear_of X 1 (2 * N) tmp' (dbnum fold) -> clear_of Y 1 (2 * N) tmp' (dbnum fold) ->
  all_finite (products m X 1 Y 1 (2 * N)) = true ->
  fst (rzdotc tu fold N X 1 Y 1 tmp m) = rddot tu' fold (2 * N) X 1 Y 1 tmp' m.
Proof.
  intros Hf HT HT' HB HN HC CX CY CX' CY' FX.
  assert (E : map fst (conj_products m X 1 Y 1 N) = products m X 1 Y 1 (2 * N)).
  { rewrite conj_fst, products_map, double_range by exact HN. unfold pairs. apply flat_map_ext. intros i. rewrite !Z.mul_1_r, !Z.add_assoc. reflexivity. }
  destruct (C29_rzdotc_partial t tu fold N X 1 Y 1 tmp 0 _ m m Hf HT HB ltac:(lia) CX CY (Permutation_refl _)) as [A _].
  rewrite E, FX in A. rewrite A. symmetry. apply rddot_value; auto. lia.
Qed.
Print Assumptions C85_real_part.
(** The inner product of a vector with itself is real: the imaginary part is a zero. *)
Theorem C85_self t tu fold N X incX tmp (m : mem t) :
  2 <= fold <= MAXFOLD t -> tuned t tu -> Z.min N (block_max tu) <= ENDURANCE t / 2 -> 0 <= 2 * N <= CAPACITY t ->
  zclear_of X incX N tmp (zbnum fold) -> all_finite (map snd (conj_products m X incX X incX N)) = true ->
  let r := rzdotc tu fold N X incX X incX tmp m in is_finite (snd r) = true /\ toZ (snd r) = 0.
Proof.
  intros Hf HT HB HN CX FI r.
  destruct (C29_rzdotc_partial t tu fold N X incX X incX tmp 0 _ m m Hf HT HB HN CX CX (Permutation_refl _)) as [_ A].
  fold r in A. rewrite FI in A. rewrite A.
  assert (HL : Z.of_nat (length (map snd (conj_products m X incX X incX N))) <= capacity t).
  { rewrite conj_snd, pairs_length, zseq_length, <- CAPACITY_eq. lia. }
  apply (conv_null fold _ _ _ Hf FI HL); [|apply sum_list_at; auto].
  intros j _. rewrite conj_snd. clear.
  apply (cancel_sums _ (map (fun i => fmul (m (X + 2 * (i * incX))) (m (X + 2 * (i * incX) + 1))) (zseq 0 N)) j).
  unfold pairs. induction (zseq 0 N) as [|i l IH]; [constructor|]. cbn [flat_map map app].
  rewrite (fmul_comm (m (X + 2 * (i * incX) + 1))). rewrite IH. rewrite <- Permutation_middle. apply perm_swap.
Qed.
Print Assumptions C85_self.
(** x . y of contiguous vectors: both parts are the sums of the components' products, in any order, of which the
    imaginary one is the real inner product with the exchanged components of y. *)
Theorem C85_imag_part t tu tu' fold N X Y Y' tmp tmp' (m : mem t) :
  2 <= fold <= MAXFOLD t -> tuned t tu -> tuned t tu' -> Z.min N (block_max tu) <= ENDURANCE t / 2 -> 0 <= N -> 2 * N <= CAPACITY t ->
  zclear_of X 1 N tmp (zbnum fold) -> zclear_of Y 1 N tmp (zbnum fold) ->
  clear_of X 1 (2 * N) tmp' (dbnum fold) -> clear_of Y' 1 (2 * N) tmp' (dbnum fold) ->
  (forall i, 0 <= i < N -> m (Y' + 2 * i) = m (Y + 2 * i + 1) /\ m (Y' + 2 * i + 1) = m (Y + 2 * i)) ->
  all_finite (products m X 1 Y' 1 (2 * N)) = true ->
  snd (rzdotu tu fold N X 1 Y 1 tmp m) = rddot tu' fold (2 * N) X 1 Y' 1 tmp' m.
Proof.
  intros Hf HT HT' HB HN HC CX CY CX' CY' HS FX.
  assert (E : Permutation (map snd (plain_products m X 1 Y 1 N)) (products m X 1 Y' 1 (2 * N))).
  { rewrite plain_snd, products_map, double_range by exact HN. unfold pairs.
    assert (G : forall i, In i (zseq 0 N) -> 0 <= i < N) by (intros i Hi; apply zseq_In in Hi; lia).
    induction (zseq 0 N) as [|i l IH]; [constructor|]. cbn [flat_map app].
    destruct (HS i (G i (or_introl eq_refl))) as [E1 E2]. rewrite !Z.mul_1_r, !Z.add_assoc, E1, E2, IH by (intros k Hk; apply G; now right). apply perm_swap. }
  destruct (C29_rzdotu_partial t tu fold N X 1 Y 1 tmp 0 _ m m Hf HT HB ltac:(lia) CX CY (Permutation_refl _)) as [_ A].
  rewrite (fin_perm _ _ E FX) in A. rewrite A. rewrite (rddot_value t tu' fold (2 * N) X 1 Y' 1 tmp' 0 m m) by (auto; lia).
  apply sequential_perm; [exact Hf| |exact E]. rewrite plain_snd, pairs_length, zseq_length. lia.
Qed.
Print Assumptions C85_imag_part.

(** ** C86: complex data with integer parts *)
Lemma isint_neg {t} (x : F t) a : isint x a -> isint (fneg x) (- a).
Proof. intros [Fx Ex]. unfold fneg. split; [now rewrite is_finite_Bopp|]. now rewrite B2R_Bopp, Ex, opp_IZR. Qed.
Lemma pairs_ints {t A} (f g : A -> F t) (p q : A -> Z) l : (forall i, In i l -> isint (f i) (p i) /\ isint (g i) (q i)) -> Forall2 isint (pairs f g l) (pairs p q l).
Proof.
  intros H. unfold pairs. induction l as [|a l IH]; [constructor|]. cbn [flat_map app].
  destruct (H a (or_introl eq_refl)) as [H1 H2]. constructor; [exact H1|]. constructor; [exact H2|]. apply IH. intros i Hi. apply H. now right.
Qed.
Lemma pairs_zsum {A} (p q : A -> Z) l : zsum (pairs p q l) = zsum (map (fun i => p i + q i) l).
Proof. unfold pairs, zsum. induction l as [|a l IH]; [reflexivity|]. cbn [flat_map app map fold_right]. lia. Qed.
Lemma pairs_map {A B C} (h : B -> C) (f g : A -> B) l : map h (pairs f g l) = pairs (fun i => h (f i)) (fun i => h (g i)) l.
Proof. unfold pairs. now rewrite map_flat. Qed.
Lemma pairs_zsum_ext {A} (p q r : A -> Z) l : (forall i, p i + q i = r i) -> zsum (pairs p q l) = zsum (map r l).
Proof. intros H. rewrite pairs_zsum. f_equal. apply map_ext, H. Qed.
(** One part of the result. *)
Lemma pairs_conv {t} fold N (f g : Z -> F t) (p q : Z -> Z) Y (m : mem t) :
  2 <= fold <= MAXFOLD t -> 0 <= 2 * N <= CAPACITY t ->
  (forall i, 0 <= i < N -> isint (f i) (p i) /\ isint (g i) (q i)) -> zsum (map (fun i => Z.abs (p i) + Z.abs (q i)) (zseq 0 N)) <= 2 ^ prec t ->
  all_finite (pairs f g (zseq 0 N)) = true /\
  isint (ddbconv fold Y (sum_list fold Y (pairs f g (zseq 0 N)) m)) (zsum (map (fun i => p i + q i) (zseq 0 N))).
Proof.
  intros Hf HN HI HS. assert (F2 : Forall2 isint (pairs f g (zseq 0 N)) (pairs p q (zseq 0 N))) by (apply pairs_ints; intros i Hi; apply zseq_In in Hi; apply HI; lia).
  split; [exact (ints_finite _ _ F2)|]. rewrite <- pairs_zsum. apply ints_list; auto.
  - rewrite pairs_map, pairs_zsum. exact HS.
  - rewrite pairs_length, zseq_length. lia.
Qed.
Lemma term_le N (f : Z -> Z) i B : 0 <= i < N -> (forall j, 0 <= f j) -> zsum (map f (zseq 0 N)) <= B -> f i <= B.
Proof.
  intros Hi H0 HB. assert (I : In i (zseq 0 N)) by (apply zseq_In; lia). revert I HB. generalize (zseq 0 N). intros l.
  unfold zsum. assert (P : forall l, 0 <= fold_right Z.add 0 (map f l)) by (clear l; induction l as [|a l IH]; cbn; [lia|specialize (H0 a); lia]).
  revert B. induction l as [|a l IH]; intros B I HB; [destruct I|]. cbn [map fold_right] in HB. pose proof (P l). destruct I as [-> |I]; [lia|]. apply IH; auto. specialize (H0 a). lia.
Qed.
Section DOT.
  Context (t : ty) (tu : tuning) (fold N X incX Y incY tmp : Z) (m : mem t) (a b c d : Z -> Z).
  Hypothesis Hf : 2 <= fold <= MAXFOLD t.
  Hypothesis HT : tuned t tu.
  Hypothesis HB : Z.min N (block_max tu) <= ENDURANCE t / 2.
  Hypothesis HN : 0 <= 2 * N <= CAPACITY t.
  Hypothesis CX : zclear_of X incX N tmp (zbnum fold).
  Hypothesis CY : zclear_of Y incY N tmp (zbnum fold).
  (** x_i = a_i + b_i I, y_i = c_i + d_i I. *)
  Hypothesis HX : forall i, 0 <= i < N -> isint (m (X + 2 * (i * incX))) (a i) /\ isint (m (X + 2 * (i * incX) + 1)) (b i).
  Hypothesis HY : forall i, 0 <= i < N -> isint (m (Y + 2 * (i * incY))) (c i) /\ isint (m (Y + 2 * (i * incY) + 1)) (d i).
  Hypothesis HR : zsum (map (fun i => Z.abs (a i * c i) + Z.abs (b i * d i)) (zseq 0 N)) <= 2 ^ prec t.
  Hypothesis HI : zsum (map (fun i => Z.abs (a i * d i) + Z.abs (b i * c i)) (zseq 0 N)) <= 2 ^ prec t.
  Lemma dot_terms i : 0 <= i < N ->
    isint (fmul (m (X + 2 * (i * incX))) (m (Y + 2 * (i * incY)))) (a i * c i) /\
    isint (fmul (m (X + 2 * (i * incX) + 1)) (m (Y + 2 * (i * incY) + 1))) (b i * d i) /\
    isint (fmul (m (X + 2 * (i * incX))) (m (Y + 2 * (i * incY) + 1))) (a i * d i) /\
    isint (fmul (m (X + 2 * (i * incX) + 1)) (m (Y + 2 * (i * incY)))) (b i * c i).
  Proof.
    intros Hi. destruct (HX i Hi) as [X1 X2]. destruct (HY i Hi) as [Y1 Y2].
    pose proof (term_le N (fun i => Z.abs (a i * c i) + Z.abs (b i * d i)) i _ Hi ltac:(intros; lia) HR) as R.
    pose proof (term_le N (fun i => Z.abs (a i * d i) + Z.abs (b i * c i)) i _ Hi ltac:(intros; lia) HI) as I. cbv beta in R, I.
    split; [apply (isint_mul _ _ _ _ X1 Y1); lia|]. split; [apply (isint_mul _ _ _ _ X2 Y2); lia|]. split; [apply (isint_mul _ _ _ _ X1 Y2); lia|apply (isint_mul _ _ _ _ X2 Y1); lia].
  Qed.
Theorem C86_dotc : let r := rzdotc tu fold N X incX Y incY tmp m in
    isint (fst r) (zsum (map (fun i => a i * c i + b i * d i) (zseq 0 N))) /\
    isint (snd r) (zsum (map (fun i => a i * d i - b i * c i) (zseq 0 N))).
  Proof.
    intros r. destruct (C29_rzdotc_partial t tu fold N X incX Y incY tmp 0 _ m m Hf HT HB HN CX CY (Permutation_refl _)) as [A B].
    fold r in A, B. rewrite conj_fst in A. rewrite conj_snd in B.
    match type of A with context [pairs ?f ?g _] => destruct (pairs_conv fold N f g (fun i => a i * c i) (fun i => b i * d i) 0 m Hf HN) as [F1 V1] end.
    { intros i Hi. split; apply dot_terms, Hi. }
    { exact HR. }
    rewrite F1 in A. rewrite A. split; [exact V1|].
    match type of B with context [pairs ?f ?g _] => destruct (pairs_conv fold N f g (fun i => - (b i * c i)) (fun i => a i * d i) 0 m Hf HN) as [F2 V2] end.
    { intros i Hi. split; [apply isint_neg|]; apply dot_terms, Hi. }
    { erewrite map_ext; [exact HI|]. intros i. cbv beta. rewrite Z.abs_opp. lia. }
    rewrite F2 in B. rewrite B. erewrite map_ext; [exact V2|]. intros i. cbv beta. lia.
  Qed.
Theorem C86_dotu : let r := rzdotu tu fold N X incX Y incY tmp m in
    isint (fst r) (zsum (map (fun i => a i * c i - b i * d i) (zseq 0 N))) /\
    isint (snd r) (zsum (map (fun i => a i * d i + b i * c i) (zseq 0 N))).
  Proof.
    intros r. destruct (C29_rzdotu_partial t tu fold N X incX Y incY tmp 0 _ m m Hf HT HB HN CX CY (Permutation_refl _)) as [A B].
    fold r in A, B. rewrite plain_fst in A. rewrite plain_snd in B.
    match type of A with context [pairs ?f ?g _] => destruct (pairs_conv fold N f g (fun i => a i * c i) (fun i => - (b i * d i)) 0 m Hf HN) as [F1 V1] end.
    { intros i Hi. split; [|apply isint_neg]; apply dot_terms, Hi. }
    { erewrite map_ext; [exact HR|]. intros i. cbv beta. rewrite Z.abs_opp. lia. }
    rewrite F1 in A. rewrite A. split; [erewrite map_ext; [exact V1|]; intros i; cbv beta; lia|].
    match type of B with context [pairs ?f ?g _] => destruct (pairs_conv fold N f g (fun i => b i * c i) (fun i => a i * d i) 0 m Hf HN) as [F2 V2] end.
    { intros i Hi. split; apply dot_terms, Hi. }
    { erewrite map_ext; [exact HI|]. intros i. cbv beta. lia. }
    rewrite F2 in B. rewrite B. erewrite map_ext; [exact V2|]. intros i. cbv beta. lia.
  Qed.
End DOT.
Print Assumptions C86_dotc.
Print Assumptions C86_dotu.
(** Sums. *)
Theorem C86_sum t tu fold N X incX tmp (m : mem t) (a b : Z -> Z) :
  2 <= fold <= MAXFOLD t -> tuned t tu -> 0 <= N <= CAPACITY t -> zclear_of X incX N tmp (zbnum fold) ->
  (forall i, 0 <= i < N -> isint (m (X + 2 * (i * incX))) (a i) /\ isint (m (X + 2 * (i * incX) + 1)) (b i)) ->
  zsum (map (fun i => Z.abs (a i)) (zseq 0 N)) <= 2 ^ prec t -> zsum (map (fun i => Z.abs (b i)) (zseq 0 N)) <= 2 ^ prec t ->
  let r := rzsum tu fold N X incX tmp m in
  isint (fst r) (zsum (map a (zseq 0 N))) /\ isint (snd r) (zsum (map b (zseq 0 N))).
Proof.
  intros Hf HT HN CX HX HA HB r.
  destruct (C46_rzsum t tu fold N X incX tmp 0 _ m m Hf HT HN CX (Permutation_refl _)) as [A B]. fold r in A, B.
  assert (E1 : map fst (zread m X incX N) = map (fun i => m (X + 2 * (i * incX))) (zseq 0 N)) by (unfold zread; now rewrite map_map).
  assert (E2 : map snd (zread m X incX N) = map (fun i => m (X + 2 * (i * incX) + 1)) (zseq 0 N)) by (unfold zread; now rewrite map_map).
  rewrite E1 in A. rewrite E2 in B.
  pose proof (map_ints (fun i => m (X + 2 * (i * incX))) a N (fun i Hi => proj1 (HX i Hi))) as F1.
  pose proof (map_ints (fun i => m (X + 2 * (i * incX) + 1)) b N (fun i Hi => proj2 (HX i Hi))) as F2.
  rewrite (ints_finite _ _ F1) in A. rewrite (ints_finite _ _ F2) in B. rewrite A, B.
  split; apply ints_list; auto; try (rewrite map_map; assumption); rewrite map_length, zseq_length; lia.
Qed.
Print Assumptions C86_sum.

(** Case: x_i = (2i-3) + (2i-2)I, y_i = (2i+7) + (2i+8)I, i < 3. *)
Definition c86_mem : mem Dbl := fun a => mkf (a - 3) 0.
Example C86_case : let r := rzdotc half_tuning 3 3 0 1 10 1 100 c86_mem in
  isint (fst r) (-(3*7) - 2*8 + (-1)*9 + 0*10 + 1*11 + 2*12) /\ isint (snd r) (-(3*8) + 2*7 + (-1)*10 - 0*9 + 1*12 - 2*11).
Proof.
  destruct C29_case as (HT & _). cbv zeta.
  change (-(3*7) - 2*8 + (-1)*9 + 0*10 + 1*11 + 2*12) with (zsum (map (fun i => (2 * i - 3) * (2 * i + 7) + (2 * i - 2) * (2 * i + 8)) (zseq 0 3))).
  change (-(3*8) + 2*7 + (-1)*10 - 0*9 + 1*12 - 2*11) with (zsum (map (fun i => (2 * i - 3) * (2 * i + 8) - (2 * i - 2) * (2 * i + 7)) (zseq 0 3))).
  assert (I : forall a k, a - 3 = k -> Z.abs k < 100 -> isint (c86_mem a) k).
  { intros a k <- H. unfold c86_mem. apply isint_mkf. change (2 ^ prec Dbl) with 9007199254740992. lia. }
  apply (C86_dotc Dbl half_tuning 3 3 0 1 10 1 100 c86_mem (fun i => 2 * i - 3) (fun i => 2 * i - 2) (fun i => 2 * i + 7) (fun i => 2 * i + 8)).
  - vm_compute; split; discriminate.
  - exact HT.
  - vm_compute; discriminate.
  - vm_compute; split; discriminate.
  - apply clear_z; lia.
  - apply clear_z; lia.
  - intros i Hi. split; apply I; lia.
  - intros i Hi. split; apply I; lia.
  - vm_compute. discriminate.
  - vm_compute. discriminate.
Qed.
Example C85_case :
  fst (rzdotc half_tuning 3 3 0 1 10 1 100 c86_mem) = rddot sample_tuning 3 6 0 1 10 1 200 c86_mem /\
  toZ (snd (rzdotc half_tuning 3 3 0 1 0 1 100 c86_mem)) = 0 /\
  feq (fst (rzdotc half_tuning 3 3 0 1 0 1 100 c86_mem)) (mkf 19 0) = true.
Proof.
  destruct C29_case as (HT & _). split; [|split].
  - apply C85_real_part; [vm_compute; split; discriminate|exact HT|exact (proj1 C18_case)|vm_compute; discriminate|lia|vm_compute; discriminate|
      apply clear_z; lia|apply clear_z; lia|apply clear_low; lia|apply clear_low; lia|vm_compute; reflexivity].
  - apply (C85_self Dbl half_tuning 3 3 0 1 100 c86_mem); [vm_compute; split; discriminate|exact HT|vm_compute; discriminate|vm_compute; split; discriminate|apply clear_z; lia|vm_compute; reflexivity].
  - vm_compute. reflexivity.
Qed.
