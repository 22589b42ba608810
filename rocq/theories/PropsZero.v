(** * C74: zeros among the data change nothing *)
From Coq Require Import ZArith Bool List Lia Permutation Ascii.
From Flocq Require Import Core BinarySingleNaN.
From Verif Require Import Fp Mem Binned Spec Client FpProofs BitProofs CoreArith SpecProofs WordProofs MemProofs AccProofs SumProofs History ClientProofs ConvProofs RescaleProofs PropsSum Gen GenProofs Blas LaneProofs ReduceProofs BlasSpec PropsBlas PropsScale PropsAcc Gemv GemvSpec GemvProofs PropsGemv PropsApi ScaleProofs Ssq SsqProofs SsqSpec PropsSsq MaddsqProofs BlasZ BlasZSpec.
Import ListNotations.
Open Scope Z_scope.

(** ** Specification: the nonzero elements (neither +0 nor -0), in the order they occur *)
Definition nonzeros {t} (xs : list (F t)) : list (F t) := filter (fun x => negb (feq x fzero)) xs.

(** ** Accumulators depend only on the nonzero data *)
Section nz.
  Context {t : ty}.
  Implicit Types xs ys : list (F t).
  Lemma zero_toZ (x : F t) : feq x fzero = true -> is_finite x = true /\ toZ x = 0.
  Proof. destruct x as [s|[]| |s m e H]; intros E; try discriminate; [split; reflexivity|]. rewrite feq_zero in E by reflexivity. apply Z.eqb_eq in E. split; [reflexivity|exact E]. Qed.
  Lemma lead_nz xs : lead (nonzeros xs) = lead xs.
  Proof.
    induction xs as [|x l IH]; [reflexivity|]. unfold nonzeros in *. cbn [filter]. destruct (feq x fzero) eqn:E; cbn [negb].
    - rewrite IH, lead_cons. destruct (zero_toZ x E) as [F Z0]. pose proof (lead_range l). unfold findex, bin_of. rewrite F, Z0. cbn [Z.eqb]. lia.
    - now rewrite !lead_cons, IH.
  Qed.
  Lemma sums_nz xs j : sums (nonzeros xs) j = sums xs j.
  Proof.
    induction xs as [|x l IH]; [reflexivity|]. unfold nonzeros in *. cbn [filter]. destruct (feq x fzero) eqn:E; cbn [negb].
    - rewrite IH, sums_cons. destruct (zero_toZ x E) as [F Z0]. rewrite Z0, slice_0. ring.
    - now rewrite !sums_cons, IH.
  Qed.
  Lemma finite_nz xs : all_finite (nonzeros xs) = all_finite xs.
  Proof.
    induction xs as [|x l IH]; [reflexivity|]. unfold nonzeros in *. cbn [filter]. destruct (feq x fzero) eqn:E; cbn [negb].
    - rewrite IH, all_finite_cons. destruct (zero_toZ x E) as [-> _]. reflexivity.
    - now rewrite !all_finite_cons, IH.
  Qed.
  Lemma nz_map (f : F t -> F t) xs : (forall x, feq x fzero = true -> feq (f x) fzero = true) -> nonzeros (map f xs) = nonzeros (map f (nonzeros xs)).
  Proof.
    intros Hf. unfold nonzeros. induction xs as [|x l IH]; [reflexivity|]. cbn [map filter]. destruct (feq x fzero) eqn:E; cbn [negb].
    - rewrite (Hf x E). cbn [negb]. exact IH.
    - cbn [map filter]. now rewrite IH.
  Qed.
  Lemma perm_filter (f : F t -> bool) xs ys : Permutation xs ys -> Permutation (filter f xs) (filter f ys).
  Proof.
    induction 1; cbn [filter]; [constructor| | |eapply perm_trans; eassumption].
    - destruct (f x); [now constructor|assumption].
    - destruct (f x), (f y); try reflexivity. constructor.
  Qed.
  Lemma nz_map_perm (f : F t -> F t) xs ys : (forall x, feq x fzero = true -> feq (f x) fzero = true) ->
    Permutation (nonzeros xs) (nonzeros ys) -> Permutation (nonzeros (map f xs)) (nonzeros (map f ys)).
  Proof. intros Hf HP. rewrite (nz_map f xs Hf), (nz_map f ys Hf). apply perm_filter, Permutation_map, HP. Qed.
  Lemma holds_nz fold xs ys P W : all_finite xs = true -> xs <> [] -> ys <> [] -> Permutation (nonzeros xs) (nonzeros ys) ->
    holds t fold [] xs P W -> holds t fold [] ys P W.
  Proof.
    intros FX NX NY HP. assert (FY : all_finite ys = true) by (rewrite <- finite_nz, <- (all_finite_perm _ _ HP), finite_nz; exact FX).
    assert (L : lead ys = lead xs) by (rewrite <- (lead_nz ys), <- (lead_nz xs); symmetry; apply lead_perm, HP).
    assert (S : forall j, sums ys j = sums xs j) by (intros j; rewrite <- (sums_nz ys), <- (sums_nz xs); symmetry; apply sums_perm, HP).
    unfold holds. rewrite FX, FY. destruct xs as [|x xs]; [congruence|]. destruct ys as [|y ys]; [congruence|]. cbn [app]. cbv zeta.
    intros H i Hi. rewrite L, S. exact (H i Hi).
  Qed.
  Lemma nil_zeros xs : nonzeros xs = [] -> xs <> [] -> Permutation (nonzeros xs) (nonzeros [fzero : F t]).
  Proof. intros E _. rewrite E. unfold nonzeros. cbn [filter]. replace (feq (fzero : F t) fzero) with true by (destruct t; reflexivity). constructor. Qed.
End nz.

(** The accumulator of one zero converts to +0, for every fold. *)
Lemma one_zero t fold : 2 <= fold <= MAXFOLD t -> ddbconv fold 0 (sum_list fold 0 [fzero] (fun _ => fzero : F t)) = fzero.
Proof.
  intros Hf.
  assert (G : forallb (fun f => let r := ddbconv f 0 (sum_list f 0 [fzero] (fun _ => fzero : F t)) in is_finite r && (toZ r =? 0) && negb (Bsign r)) (zseq 2 (MAXFOLD t - 1)) = true).
  { destruct t; vm_compute; reflexivity. }
  rewrite forallb_forall in G. specialize (G fold ltac:(apply zseq_In; lia)). cbv zeta in G.
  set (r := ddbconv fold 0 _) in *. clearbody r. apply andb_true_iff in G as [G S]. apply andb_true_iff in G as [F Z0].
  apply Z.eqb_eq in Z0. apply negb_true_iff in S. apply float_ext; auto.
Qed.
Lemma conv_nz t fold (xs ys : list (F t)) Y Y' (m m' : mem t) : 2 <= fold <= MAXFOLD t -> all_finite xs = true ->
  Permutation (nonzeros xs) (nonzeros ys) -> acc_at fold [] xs m Y -> acc_at fold [] ys m' Y' -> ddbconv fold Y m = ddbconv fold Y' m'.
Proof.
  intros Hf FX HP HA HA'.
  assert (FY : all_finite ys = true) by (rewrite <- finite_nz, <- (all_finite_perm _ _ HP), finite_nz; exact FX).
  assert (ZZ : forall (zs : list (F t)) A (m0 : mem t), all_finite zs = true -> nonzeros zs = [] -> acc_at fold [] zs m0 A -> ddbconv fold A m0 = fzero).
  { intros zs A m0 FZ NZ H. destruct zs as [|z zs].
    - unfold ddbconv. apply ddmconv_zero. unfold acc_at, holds in H. cbn [all_finite forallb app] in H. destruct (H 0 ltac:(lia)) as [E _].
      now rewrite Z.mul_0_l, Z.add_0_r in E.
    - rewrite <- (one_zero t fold Hf). set (l := z :: zs) in *. assert (NE : l <> []) by discriminate.
      apply (holds_nz fold l [fzero] _ _ FZ NE ltac:(discriminate) (nil_zeros l NZ NE)) in H.
      apply (conv_acc fold Hf [] [fzero] [] [fzero] m0 _ A 0 (Permutation_refl _) (Permutation_refl _) H).
      apply sum_list_at; [exact Hf|]. destruct t; vm_compute; discriminate. }
  destruct (nonzeros xs) as [|x l] eqn:NX.
  - apply Permutation_nil in HP. rewrite (ZZ xs Y m FX NX HA). symmetry. exact (ZZ ys Y' m' FY HP HA').
  - assert (N1 : xs <> []) by (intros ->; discriminate).
    assert (N2 : ys <> []) by (intros ->; apply Permutation_sym, Permutation_nil in HP; discriminate).
    rewrite <- NX in HP. apply (holds_nz fold xs ys _ _ FX N1 N2 HP) in HA.
    exact (conv_acc fold Hf [] ys [] ys m m' Y Y' (Permutation_refl _) (Permutation_refl _) HA HA').
Qed.

(** ** The theorems *)
(** Accumulators built from lists with the same nonzero elements, in any order: the same words. *)
Theorem C74_accumulator t fold (xs ys : list (F t)) Y Y' (m m' : mem t) :
  2 <= fold <= MAXFOLD t -> all_finite xs = true -> Z.of_nat (length xs) <= CAPACITY t -> Z.of_nat (length ys) <= CAPACITY t ->
  xs <> [] -> ys <> [] -> Permutation (nonzeros xs) (nonzeros ys) ->
  same_words fold (sum_list fold Y xs m) Y (sum_list fold Y' ys m') Y'.
Proof.
  intros Hf FX LX LY NX NY HP. rewrite CAPACITY_eq in LX, LY.
  pose proof (sum_list_at t fold Y xs m Hf LX) as A. pose proof (sum_list_at t fold Y' ys m' Hf LY) as B.
  apply (holds_nz fold xs ys _ _ FX NX NY HP) in A.
  assert (FY : all_finite ys = true) by (rewrite <- finite_nz, <- (all_finite_perm _ _ HP), finite_nz; exact FX).
  eapply same_acc_words; [exact Hf| | | |exact A|exact B]; auto.
Qed.
Print Assumptions C74_accumulator.
Theorem C74_sum t tu tu' fold N N' X incX X' incX' tmp tmp' (m m' : mem t) :
  2 <= fold <= MAXFOLD t -> tuned t tu -> tuned t tu' -> 0 <= N <= CAPACITY t -> 0 <= N' <= CAPACITY t ->
  clear_of X incX N tmp (dbnum fold) -> clear_of X' incX' N' tmp' (dbnum fold) ->
  let xs := read m X incX N in let ys := read m' X' incX' N' in
  all_finite xs = true -> Permutation (nonzeros xs) (nonzeros ys) ->
  rdsum tu fold N X incX tmp m = rdsum tu' fold N' X' incX' tmp' m'.
Proof.
  intros Hf HT HT' HN HN' CX CX' xs ys FX HP.
  assert (FY : all_finite ys = true) by (rewrite <- finite_nz, <- (all_finite_perm _ _ HP), finite_nz; exact FX).
  rewrite (C20_is_scalar_sum t tu fold N X incX tmp 0 m (fun _ => fzero)), (C20_is_scalar_sum t tu' fold N' X' incX' tmp' 0 m' (fun _ => fzero)) by auto.
  pose proof (read_length m X incX N ltac:(lia)). pose proof (read_length m' X' incX' N' ltac:(lia)). rewrite CAPACITY_eq in HN, HN'.
  apply (conv_nz t fold xs ys); auto; apply sum_list_at; auto; unfold xs, ys; lia.
Qed.
Print Assumptions C74_sum.
Theorem C74_asum t tu tu' fold N N' X incX X' incX' tmp tmp' (m m' : mem t) :
  2 <= fold <= MAXFOLD t -> tuned t tu -> tuned t tu' -> 0 <= N <= CAPACITY t -> 0 <= N' <= CAPACITY t ->
  clear_of X incX N tmp (dbnum fold) -> clear_of X' incX' N' tmp' (dbnum fold) ->
  let xs := magnitudes m X incX N in let ys := magnitudes m' X' incX' N' in
  all_finite xs = true -> Permutation (nonzeros xs) (nonzeros ys) ->
  rdasum tu fold N X incX tmp m = rdasum tu' fold N' X' incX' tmp' m'.
Proof.
  intros Hf HT HT' HN HN' CX CX' xs ys FX HP.
  assert (FY : all_finite ys = true) by (rewrite <- finite_nz, <- (all_finite_perm _ _ HP), finite_nz; exact FX).
  rewrite (rdasum_value t tu fold N X incX tmp 0 m (fun _ => fzero)), (rdasum_value t tu' fold N' X' incX' tmp' 0 m' (fun _ => fzero)) by auto.
  pose proof (magnitudes_length m X incX N). pose proof (magnitudes_length m' X' incX' N'). rewrite CAPACITY_eq in HN, HN'.
  apply (conv_nz t fold xs ys); auto; apply sum_list_at; auto; unfold xs, ys; lia.
Qed.
Print Assumptions C74_asum.
Theorem C74_dot t tu tu' fold N N' X incX Y incY X' incX' Y' incY' tmp tmp' (m m' : mem t) :
  2 <= fold <= MAXFOLD t -> tuned t tu -> tuned t tu' -> 0 <= N <= CAPACITY t -> 0 <= N' <= CAPACITY t ->
  clear_of X incX N tmp (dbnum fold) -> clear_of Y incY N tmp (dbnum fold) ->
  clear_of X' incX' N' tmp' (dbnum fold) -> clear_of Y' incY' N' tmp' (dbnum fold) ->
  let xs := products m X incX Y incY N in let ys := products m' X' incX' Y' incY' N' in
  all_finite xs = true -> Permutation (nonzeros xs) (nonzeros ys) ->
  rddot tu fold N X incX Y incY tmp m = rddot tu' fold N' X' incX' Y' incY' tmp' m'.
Proof.
  intros Hf HT HT' HN HN' CX CY CX' CY' xs ys FX HP.
  assert (FY : all_finite ys = true) by (rewrite <- finite_nz, <- (all_finite_perm _ _ HP), finite_nz; exact FX).
  rewrite (rddot_value t tu fold N X incX Y incY tmp 0 m (fun _ => fzero)), (rddot_value t tu' fold N' X' incX' Y' incY' tmp' 0 m' (fun _ => fzero)) by auto.
  rewrite CAPACITY_eq in HN, HN'. apply (conv_nz t fold xs ys); auto; apply sum_list_at; auto; unfold xs, ys; rewrite products_map, map_length, zseq_length; lia.
Qed.
Print Assumptions C74_dot.

(** ** Norms *)
Lemma max_nz {t} (M : F t) xs : is_max M xs <-> is_max M (nonzeros xs).
Proof.
  assert (IN : forall x, In x (nonzeros xs) <-> In x xs /\ feq x fzero = false).
  { intros x. unfold nonzeros. rewrite filter_In. destruct (feq x fzero); cbn; intuition discriminate. }
  unfold is_max. split; intros (A & B & C & D); (split; [exact A|]); (split; [exact B|]); split.
  - intros x Hx. apply C, IN, Hx.
  - destruct D as [->|(x & I & ->)]; [now left|]. destruct (feq x fzero) eqn:E; [|right; exists x; split; [apply IN; auto|reflexivity]].
    left. destruct (zero_toZ x E) as [Fx Zx]. apply float_ext; [unfold fabs; now rewrite is_finite_Babs|reflexivity| |].
    + rewrite toZ_fabs, Zx. reflexivity.
    + right. unfold fabs. now rewrite Bsign_Babs by (destruct x; auto).
  - intros x Hx. destruct (feq x fzero) eqn:E; [|apply C, IN; auto]. destruct (zero_toZ x E) as [Fx Zx]. unfold mag at 1. rewrite Fx, Zx. apply mag_nonneg.
  - destruct D as [->|(x & I & ->)]; [now left|]. right. exists x. split; [apply IN, I|reflexivity].
Qed.
Lemma nan_nz {t} (xs : list (F t)) : existsb f_isnan (nonzeros xs) = existsb f_isnan xs.
Proof.
  unfold nonzeros. induction xs as [|x l IH]; [reflexivity|]. cbn [filter existsb]. destruct (feq x fzero) eqn:E; cbn [negb existsb]; [|now rewrite IH].
  rewrite IH. destruct (zero_toZ x E) as [Fx _]. destruct x; try discriminate; reflexivity.
Qed.
Lemma existsb_perm {A} (f : A -> bool) xs ys : Permutation xs ys -> existsb f xs = existsb f ys.
Proof. induction 1; cbn [existsb]; try congruence. now rewrite !orb_assoc, (orb_comm (f y)). Qed.
Lemma root_zero t : scaled_root (dscale (fzero : F t)) fzero = fzero /\ is_finite (dscale (fzero : F t)) = true /\ toZ (dscale (fzero : F t)) <> 0.
Proof. split; [|split; [destruct t; vm_compute; reflexivity|destruct t; vm_compute; discriminate]]. destruct t; apply float_ext; try (vm_compute; reflexivity); right; vm_compute; reflexivity. Qed.
Lemma nrm2_zeros t tu fold N X incX tmp (m : mem t) : 2 <= fold <= ssq_fold t -> tuned t tu -> 0 <= N <= CAPACITY t -> clear_of X incX N tmp (dbnum fold) ->
  all_finite (read m X incX N) = true -> nonzeros (read m X incX N) = [] -> rdnrm2 tu fold N X incX tmp m = fzero.
Proof.
  intros Hf HT HN CX FX NZ. pose proof (read_length m X incX N ltac:(lia)) as LN.
  destruct (Z.eq_dec N 0) as [->|N0]; [now apply C42_rdnrm2_empty|].
  rewrite CAPACITY_eq in HN. pose proof (proj2 (proj2 (ssq_fold_ok t fold Hf))) as HM.
  destruct (ssq_fresh fold Hf tu N X incX tmp m HT HN CX) as [S _]. unfold rdnrm2.
  destruct (dbdssq tu fold N X incX fzero tmp (dbsetzero fold tmp m)) as [sc m1]. unfold sstate in S. rewrite FX in S. destruct S as [G H]. cbn [fst snd] in *.
  set (xs := read m X incX N) in *.
  assert (FS : all_finite (squares sc xs) = true) by (apply scale_of_good in G; auto; rewrite squares_sq by auto; now apply good_scale_fin).
  destruct (root_zero t) as (R1 & R2 & R3).
  assert (GS : sc = dscale fzero).
  { destruct xs as [|x l] eqn:EX; cbn [scale_of] in G; [cbn in LN; lia|]. destruct G as (M & HL & ->). apply largest_is_max in HL; [|exact FX]. apply max_nz in HL. rewrite NZ in HL.
    now rewrite (is_max_unique _ _ _ HL is_max_nil). }
  replace (ddbconv fold tmp m1) with (@fzero t); [now rewrite GS|]. symmetry.
  assert (A0 : acc_at fold [] [] (dbsetzero fold 0 (fun _ => fzero : F t)) 0) by (destruct (setzero_holds fold HM 0 (fun _ => fzero : F t)) as [A _]; exact A).
  rewrite (conv_nz t fold (squares sc xs) [] tmp 0 m1 (dbsetzero fold 0 (fun _ => fzero)) HM FS); [|  |exact H|exact A0].
  - unfold ddbconv. apply ddmconv_zero. unfold acc_at, holds in A0. cbn [all_finite forallb app] in A0. destruct (A0 0 ltac:(lia)) as [E _]. exact E.
  - unfold squares. rewrite nz_map; [rewrite NZ; constructor|]. intros x Ex. destruct (zero_toZ x Ex) as [Fx Zx]. rewrite <- GS in R2, R3.
    destruct x; try discriminate; [destruct sc as [s'|s'| |s' m' e' H']; try discriminate; [exfalso; apply R3; reflexivity|destruct s, s'; reflexivity]|]. clear - Ex. destruct s; discriminate Ex.
Qed.
Theorem C74_nrm2 t tu tu' fold N N' X incX X' incX' tmp tmp' (m m' : mem t) :
  2 <= fold <= ssq_fold t -> tuned t tu -> tuned t tu' -> 0 <= N <= CAPACITY t -> 0 <= N' <= CAPACITY t ->
  clear_of X incX N tmp (dbnum fold) -> clear_of X' incX' N' tmp' (dbnum fold) ->
  Permutation (nonzeros (read m X incX N)) (nonzeros (read m' X' incX' N')) ->
  rdnrm2 tu fold N X incX tmp m = rdnrm2 tu' fold N' X' incX' tmp' m'.
Proof.
  intros Hf HT HT' HN HN' CX CX' HP.
  assert (FE : all_finite (read m' X' incX' N') = all_finite (read m X incX N)) by (rewrite <- finite_nz, <- (all_finite_perm _ _ HP), finite_nz; reflexivity).
  destruct (all_finite (read m X incX N)) eqn:FX.
  2:{ rewrite (C42_rdnrm2_nonfinite t tu fold N X incX tmp m), (C42_rdnrm2_nonfinite t tu' fold N' X' incX' tmp' m') by auto.
      rewrite <- nan_nz, (existsb_perm _ _ _ HP), nan_nz. reflexivity. }
  destruct (nonzeros (read m X incX N)) as [|z l] eqn:NZ.
  { apply Permutation_nil in HP. rewrite (nrm2_zeros t tu), (nrm2_zeros t tu') by auto. reflexivity. }
  rewrite <- NZ in HP. pose proof (proj2 (proj2 (ssq_fold_ok t fold Hf))) as HM. rewrite CAPACITY_eq in HN, HN'.
  destruct (ssq_fresh fold Hf tu N X incX tmp m HT HN CX) as [S _]. destruct (ssq_fresh fold Hf tu' N' X' incX' tmp' m' HT' HN' CX') as [S' _]. unfold rdnrm2.
  destruct (dbdssq tu fold N X incX fzero tmp (dbsetzero fold tmp m)) as [sc m1]. destruct (dbdssq tu' fold N' X' incX' fzero tmp' (dbsetzero fold tmp' m')) as [sc' m1'].
  unfold sstate in S, S'. rewrite FE in S'. rewrite FX in S. destruct S as [G H], S' as [G' H']. cbn [fst snd] in *.
  set (xs := read m X incX N) in *. set (ys := read m' X' incX' N') in *. clearbody xs ys.
  assert (FS : all_finite (squares sc xs) = true) by (apply scale_of_good in G; auto; rewrite squares_sq by auto; now apply good_scale_fin).
  assert (E : sc = sc').
  { destruct xs as [|x xs]; [discriminate NZ|]. destruct ys as [|y ys]; [apply Permutation_sym, Permutation_nil in HP; rewrite HP in NZ; discriminate|].
    cbn [scale_of] in G, G'. destruct G as (M & HL & ->). destruct G' as (M' & HL' & ->). f_equal.
    apply largest_is_max in HL; [|exact FX]. apply largest_is_max in HL'; [|exact FE]. apply max_nz in HL. apply max_nz in HL'.
    apply (is_max_unique _ _ _ HL). eapply is_max_incl; [exact HL'|]. intros v. split; apply Permutation_in; [symmetry|]; exact HP. }
  subst sc'. f_equal. apply (conv_nz t fold (squares sc xs) (squares sc ys)); auto.
  destruct (feq sc fzero) eqn:ES.
  - exfalso. destruct xs as [|x xs]; [discriminate NZ|]. destruct G as (M & HL & ->). apply largest_is_max in HL; [|exact FX].
    rewrite dscale_eq, scl_pos in ES by apply scale_z_range. discriminate ES.
  - unfold squares. apply nz_map_perm; [|exact HP]. intros x Ex. destruct (zero_toZ x Ex) as [Fx Zx].
    assert (FSc : f_isnan sc = false).
    { destruct xs as [|x0 xs0]; [discriminate NZ|]. destruct G as (M & HL & ->). rewrite dscale_eq. pose proof (scale_exp_range t _ (scale_z_range t M)) as [E1 _]. pose proof (prec_pos t). destruct (mkf_pow2 t (width t * scale_z M) ltac:(lia)) as [A _]. assert (NN : forall v : F t, is_finite v = true -> f_isnan v = false) by (intros []; auto; discriminate). apply NN. exact A. }
    destruct x; try discriminate; [destruct sc as [s'|s'| |s' m'' e' H'']; try discriminate; destruct s, s'; try reflexivity; discriminate ES|]. clear - Ex. destruct s; discriminate Ex.
Qed.
Print Assumptions C74_nrm2.

(** ** Complex sums *)
Theorem C74_zsum t tu tu' fold N N' X incX X' incX' tmp tmp' (m m' : mem t) :
  2 <= fold <= MAXFOLD t -> tuned t tu -> tuned t tu' -> 0 <= N <= CAPACITY t -> 0 <= N' <= CAPACITY t ->
  zclear_of X incX N tmp (zbnum fold) -> zclear_of X' incX' N' tmp' (zbnum fold) ->
  let r := rzsum tu fold N X incX tmp m in let r' := rzsum tu' fold N' X' incX' tmp' m' in
  (all_finite (read m X (2 * incX) N) = true -> Permutation (nonzeros (read m X (2 * incX) N)) (nonzeros (read m' X' (2 * incX') N')) -> fst r = fst r') /\
  (all_finite (read m (X + 1) (2 * incX) N) = true -> Permutation (nonzeros (read m (X + 1) (2 * incX) N)) (nonzeros (read m' (X' + 1) (2 * incX') N')) -> snd r = snd r').
Proof.
  intros Hf HT HT' HN HN' CX CX' r r'.
  assert (CL : forall Z0 i n, 0 <= n -> clear_of Z0 (2 * i) n (Z.abs Z0 + 2 * Z.abs i * n + 1) (dbnum fold)) by (intros Z0 i n Hn k Hk; assert (Z.abs (k * (2 * i)) <= 2 * Z.abs i * n) by (rewrite !Z.abs_mul; change (Z.abs 2) with 2; nia); lia).
  destruct (C54_zsum_parts t tu tu tu fold N X incX tmp (Z.abs X + 2 * Z.abs incX * N + 1) (Z.abs (X + 1) + 2 * Z.abs incX * N + 1) m Hf HT HT HT HN CX (CL _ _ _ (proj1 HN)) (CL _ _ _ (proj1 HN))) as [A B].
  destruct (C54_zsum_parts t tu' tu' tu' fold N' X' incX' tmp' (Z.abs X' + 2 * Z.abs incX' * N' + 1) (Z.abs (X' + 1) + 2 * Z.abs incX' * N' + 1) m' Hf HT' HT' HT' HN' CX' (CL _ _ _ (proj1 HN')) (CL _ _ _ (proj1 HN'))) as [A' B'].
  fold r in A, B. fold r' in A', B'.
  split; intros FX HP; [rewrite (A FX), A'|rewrite (B FX), B'].
  - apply C74_sum; auto; apply CL; lia.
  - rewrite <- finite_nz, <- (all_finite_perm _ _ HP), finite_nz; exact FX.
  - apply C74_sum; auto; apply CL; lia.
  - rewrite <- finite_nz, <- (all_finite_perm _ _ HP), finite_nz; exact FX.
Qed.
Print Assumptions C74_zsum.

(** ** Matrix products: rows and columns padded with zeros, or with zero partners *)
Theorem C74_gemm t tu tu' b b' fold Order TransA TransB Order' TransA' TransB' M N K M' N' K' (alpha beta alpha' : F t) A lda B ldb C ldc CI bufA bufB
    A' lda' B' ldb' C' ldc' CI' bufA' bufB' (m m' : mem t) :
  2 <= fold <= MAXFOLD t -> tuned t tu -> tuned t tu' -> legal_gemm b -> legal_gemm b' -> 0 < M -> 0 < N -> 0 <= K -> 0 < M' -> 0 < N' -> 0 <= K' ->
  feq alpha fzero = false -> feq alpha' fzero = false ->
  let ldi := if is_row Order then N else M in let ldi' := if is_row Order' then N' else M' in
  let lenA := bufA_len b M K in let lenB := mxt_block b * myt_block b in
  let lenA' := bufA_len b' M' K' in let lenB' := mxt_block b' * myt_block b' in
  gemm_layout fold Order TransA TransB M N K A lda B ldb CI ldi bufA lenA bufB lenB -> ldi <= ldc ->
  gemm_layout fold Order' TransA' TransB' M' N' K' A' lda' B' ldb' CI' ldi' bufA' lenA' bufB' lenB' -> ldi' <= ldc' ->
  (forall i j, 0 <= i < M -> 0 <= j < N -> ~ gemm_touched fold Order M N CI ldi bufA lenA bufB lenB (elem_addr Order C ldc i j)) ->
  (forall i j, 0 <= i < M' -> 0 <= j < N' -> ~ gemm_touched fold Order' M' N' CI' ldi' bufA' lenA' bufB' lenB' (elem_addr Order' C' ldc' i j)) ->
  K + 1 <= CAPACITY t -> K' + 1 <= CAPACITY t ->
  (forall i j, 0 <= i < M -> 0 <= j < N -> all_finite (gemm_products m Order TransA TransB A lda alpha B ldb K i j) = true) ->
  (forall i j, 0 <= i < M' -> 0 <= j < N' -> all_finite (gemm_products m' Order' TransA' TransB' A' lda' alpha' B' ldb' K' i j) = true) ->
  forall i j i' j', 0 <= i < M -> 0 <= j < N -> 0 <= i' < M' -> 0 <= j' < N' ->
  (feq beta fzero = false -> is_finite (fmul (m (elem_addr Order C ldc i j)) beta) = true /\ m' (elem_addr Order' C' ldc' i' j') = m (elem_addr Order C ldc i j)) ->
  Permutation (nonzeros (gemm_products m Order TransA TransB A lda alpha B ldb K i j)) (nonzeros (gemm_products m' Order' TransA' TransB' A' lda' alpha' B' ldb' K' i' j')) ->
  rdgemm tu b fold Order TransA TransB M N K alpha A lda B ldb beta C ldc CI bufA bufB m (elem_addr Order C ldc i j) =
  rdgemm tu' b' fold Order' TransA' TransB' M' N' K' alpha' A' lda' B' ldb' beta C' ldc' CI' bufA' bufB' m' (elem_addr Order' C' ldc' i' j').
Proof.
  intros Hf HT HT' LG LG' HM HN HK HM' HN' HK' NA NA' ldi ldi' lenA lenB lenA' lenB' LY LD LY' LD' HY HY' HC HC' FX FX' i j i' j' Hi Hj Hi' Hj' HB HP.
  destruct (C25_gemm t tu b fold Order TransA TransB M N K alpha beta A lda B ldb C ldc CI bufA bufB 0 m Hf HT LG HM HN HK LY LD HY HC FX) as [R _].
  destruct (C25_gemm t tu' b' fold Order' TransA' TransB' M' N' K' alpha' beta A' lda' B' ldb' C' ldc' CI' bufA' bufB' 0 m' Hf HT' LG' HM' HN' HK' LY' LD' HY' HC' FX') as [R' _].
  rewrite (R i j Hi Hj), (R' i' j' Hi' Hj'). cbv zeta. rewrite NA, NA'. clear R R'. specialize (FX i j Hi Hj).
  set (ps := gemm_products m _ _ _ _ _ _ _ _ _ _ _) in *. set (qs := gemm_products m' _ _ _ _ _ _ _ _ _ _ _) in *.
  assert (LP : Z.of_nat (length ps) = K) by (unfold ps, gemm_products; rewrite map_length, zseq_length; lia).
  assert (LQ : Z.of_nat (length qs) = K') by (unfold qs, gemm_products; rewrite map_length, zseq_length; lia).
  clearbody ps qs. set (c := m (elem_addr Order C ldc i j)) in *. set (c' := m' (elem_addr Order' C' ldc' i' j')) in *. clearbody c c'.
  assert (ES : started beta c' = started beta c) by (unfold started; destruct (feq beta fzero) eqn:E; [reflexivity|]; destruct (HB eq_refl) as [_ ->]; reflexivity).
  assert (FS : all_finite (started beta c) = true) by (unfold started; destruct (feq beta fzero) eqn:E; [reflexivity|]; destruct (HB eq_refl) as [F _]; cbn; now rewrite F).
  assert (LS : (length (started beta c) <= 1)%nat) by (unfold started; destruct (feq beta fzero); cbn; lia).
  destruct (start_holds fold Hf 0 beta c m) as [G0 _]. destruct (start_holds fold Hf 0 beta c' m') as [G0' _]. rewrite ES in G0'. rewrite CAPACITY_eq in HC, HC'.
  destruct (add_list_holds fold Hf 0 ps _ [] _ G0) as [G1 _]; [rewrite app_length; lia|].
  destruct (add_list_holds fold Hf 0 qs _ [] _ G0') as [G1' _]; [rewrite app_length; lia|].
  refine (conv_nz t fold (rev ps ++ started beta c) (rev qs ++ started beta c) 0 0 _ _ Hf _ _ G1 G1').
  - rewrite all_finite_app, FS, andb_true_r. now rewrite (all_finite_perm _ _ (Permutation_sym (Permutation_rev ps))).
  - unfold nonzeros in *. rewrite !filter_app. apply Permutation_app_tail. rewrite (perm_filter _ _ _ (Permutation_sym (Permutation_rev ps))), (perm_filter _ _ _ (Permutation_sym (Permutation_rev qs))). exact HP.
Qed.
Print Assumptions C74_gemm.

(** ** Cases meeting the hypotheses: -0, 1, +0, -3, 2^60 against 2^60, 1, -3 *)
Definition padded : mem Dbl := fun a => nth (Z.to_nat a) [B754_zero true; mkf 1 0; fzero; mkf (-3) 0; mkf 1 60] fzero.
Definition bare : mem Dbl := fun a => nth (Z.to_nat a) [mkf 1 60; mkf 1 0; mkf (-3) 0] fzero.
Example C74_case : clear_of 0 1 5 100 (dbnum 3) /\ clear_of 0 1 3 100 (dbnum 3) /\ all_finite (read padded 0 1 5) = true /\
  Permutation (nonzeros (read padded 0 1 5)) (nonzeros (read bare 0 1 3)) /\ length (nonzeros (read bare 0 1 3)) = 3%nat /\
  Permutation (nonzeros (products padded 0 1 0 1 5)) (nonzeros (products bare 0 1 0 1 3)).
Proof.
  split; [intros i Hi; unfold dbnum; lia|]. split; [intros i Hi; unfold dbnum; lia|]. split; [vm_compute; reflexivity|].
  assert (Z1 : feq (B754_zero true : F Dbl) fzero = true) by reflexivity. assert (Z2 : feq (fzero : F Dbl) fzero = true) by reflexivity.
  assert (Z3 : feq (mkf 1 0 : F Dbl) fzero = false) by (vm_compute; reflexivity). assert (Z4 : feq (mkf (-3) 0 : F Dbl) fzero = false) by (vm_compute; reflexivity).
  assert (Z5 : feq (mkf 1 60 : F Dbl) fzero = false) by (vm_compute; reflexivity).
  assert (E1 : read padded 0 1 5 = [B754_zero true; mkf 1 0; fzero; mkf (-3) 0; mkf 1 60]) by reflexivity.
  assert (E2 : read bare 0 1 3 = [mkf 1 60; mkf 1 0; mkf (-3) 0]) by reflexivity.
  assert (P3 : forall (a b c : F Dbl), Permutation [a; b; c] [c; a; b]) by (intros a b c; apply (Permutation_app_comm [a; b] [c])).
  split; [|split].
  - rewrite E1, E2. unfold nonzeros. cbn [filter]. rewrite Z1, Z2, Z3, Z4, Z5. cbn [negb]. apply P3.
  - rewrite E2. unfold nonzeros. cbn [filter]. rewrite Z3, Z4, Z5. reflexivity.
  - assert (Y1 : feq (fmul (B754_zero true) (B754_zero true) : F Dbl) fzero = true) by reflexivity. assert (Y2 : feq (fmul fzero fzero : F Dbl) fzero = true) by reflexivity.
    assert (Y3 : feq (fmul (mkf 1 0) (mkf 1 0) : F Dbl) fzero = false) by (vm_compute; reflexivity). assert (Y4 : feq (fmul (mkf (-3) 0) (mkf (-3) 0) : F Dbl) fzero = false) by (vm_compute; reflexivity).
    assert (Y5 : feq (fmul (mkf 1 60) (mkf 1 60) : F Dbl) fzero = false) by (vm_compute; reflexivity).
    unfold products. rewrite E1, E2. unfold nonzeros. cbn [combine map filter]. rewrite Y1, Y2, Y3, Y4, Y5. cbn [negb]. apply P3.
Qed.
