(** * C16, C17, C30: complex accumulators *)
From Coq Require Import ZArith Bool List Lia Permutation.
From Flocq Require Import Core BinarySingleNaN.
From Verif Require Import Fp Mem Binned Spec FpProofs BitProofs CoreArith SpecProofs WordProofs MemProofs AccProofs SumProofs ConvProofs Client History ClientProofs StrideProofs PropsSum PropsAcc PropsMem ComplexProofs.
Import ListNotations.
Open Scope Z_scope.

(** ** C16 *)
(** Every complex routine leaves, in every cell, what the real routine leaves when
    called on the real part (stride doubled) and then on the imaginary part; for all
    memories, so also when one part is at index 0, zero or not finite. *)
Theorem C16_complex_call t fold (R : nat -> reg) (o : zop t) (m : mem t) :
  2 <= fold -> registers fold (parts R) ->
  forall a, zexec fold R o m a = run fold (parts R) (real_ops o) m a.
Proof. intros Hf HR a. now rewrite zexec_parts. Qed.
Print Assumptions C16_complex_call.
Theorem C16_complex_run t fold (R : nat -> reg) (ops : list (zop t)) (m : mem t) :
  2 <= fold -> registers fold (parts R) ->
  forall a, zrun fold R ops m a = run fold (parts R) (flat_map real_ops ops) m a.
Proof. intros Hf HR a. now rewrite zrun_parts. Qed.
Print Assumptions C16_complex_run.
(** The deposit with its own interleaved loop, without any register file. *)
Theorem C16_deposit t fold (XR XI : F t) (r : reg) (m : mem t) : 2 <= fold ->
  fits_reg fold (re_of r) -> fits_reg fold (im_of r) -> disjoint (cells fold (re_of r)) (cells fold (im_of r)) ->
  forall a, zmzdeposit fold XR XI (rp r) (rip r) m a =
            dmddeposit fold XI (rp r + 1) (2 * rip r) (dmddeposit fold XR (rp r) (2 * rip r) m) a.
Proof. intros Hf L L' D a. rewrite zmzdeposit_parts; auto. Qed.
Print Assumptions C16_deposit.
(** A real accumulator copied into a complex one. *)
Theorem C16_set_real t fold X Y (m : mem t) : 2 <= fold -> X + dbnum fold <= Y \/ Y + zbnum fold <= X ->
  let m' := zbdbset fold X Y m in
  (forall i, 0 <= i < fold -> m' (Y + 2 * i) = m (X + i) /\ m' (Y + 2 * fold + 2 * i) = m (X + fold + i) /\
                              m' (Y + 2 * i + 1) = fzero /\ m' (Y + 2 * fold + 2 * i + 1) = fzero) /\
  unchanged_outside Y (zbnum fold) m m'.
Proof.
  intros Hf A m'. unfold m', zbdbset, zmdmset. rewrite Z.mul_1_r. unfold dbnum, zbnum in *.
  assert (DJ : disjoint (in_acc fold X 1 (X + fold) 1) (in_acc fold Y 2 (Y + 2 * fold) 2)).
  { intros a (i & Hi & E) (j & Hj & E'). lia. }
  pose proof (dmdmset_done (layout_complex_re fold Y ltac:(lia)) ltac:(lia) m DJ) as [D1 D2].
  set (m1 := dmdmset fold X 1 (X + fold) 1 Y 2 (Y + 2 * fold) 2 m) in *. clearbody m1.
  pose proof (dmsetzero_done (layout_complex_im fold Y ltac:(lia)) ltac:(lia) m1) as [E1 E2].
  set (m2 := dmsetzero fold (Y + 1) 2 (Y + 2 * fold + 1) 2 m1) in *. clearbody m2. split.
  - intros i Hi. destruct (D1 i Hi) as [P1 P2]. destruct (E1 i Hi) as [Q1 Q2]. unfold P_of in P1, P2.
    replace (Y + 2 * i + 1) with (Y + 1 + i * 2) by lia.
    replace (Y + 2 * fold + 2 * i + 1) with (Y + 2 * fold + 1 + i * 2) by lia.
    replace (Y + 2 * i) with (Y + i * 2) by lia. replace (Y + 2 * fold + 2 * i) with (Y + 2 * fold + i * 2) by lia.
    rewrite Z.mul_1_r in P1, P2. rewrite <- P1, <- P2.
    split; [apply E2; intros; lia|]. split; [apply E2; intros; lia|]. split; auto.
  - intros a Ha. rewrite E2, D2; auto; intros i Hi; lia.
Qed.
Print Assumptions C16_set_real.
Definition sample_zregs (r : nat) : reg :=   (* fold 3, carries strided by 3 complex numbers *)
  mkreg (Z.of_nat r * 100) 1 (Z.of_nat r * 100 + 50) 3.
Example C16_case : registers 3 (parts sample_zregs).
Proof.
  split.
  - intros r. unfold parts, sample_zregs. destruct (Nat.even r); cbn [re_of im_of rp rip rc ric]; split; intros; lia.
  - intros r r' N a. unfold parts, cells, in_acc, sample_zregs.
    pose proof (Nat.div2_odd r) as E1. pose proof (Nat.div2_odd r') as E2. rewrite <- !Nat.negb_odd.
    destruct (Nat.odd r), (Nat.odd r'); cbn [negb re_of im_of rp rip rc ric Nat.b2n] in *;
    intros (i & Hi & A) (j & Hj & B); apply N; lia.
Qed.

(** ** C17 *)
Definition zfinite {t} (zs : list (F t * F t)) : bool := all_finite (map fst zs) && all_finite (map snd zs).
(** The 4*fold words at Y in m and at Y' in m' are the same. *)
Definition zsame_words {t} (fold : Z) (m : mem t) (Y : Z) (m' : mem t) (Y' : Z) : Prop :=
  forall i, 0 <= i < 4 * fold -> m (Y + i) = m' (Y' + i).
Theorem C17_order_independent t fold Y Y' (zs zs' : list (F t * F t)) (m m' : mem t) :
  2 <= fold <= MAXFOLD t -> zfinite zs = true -> Z.of_nat (length zs) <= CAPACITY t ->
  Permutation zs zs' ->
  zsame_words fold (zsum_list fold Y zs m) Y (zsum_list fold Y' zs' m') Y'.
Proof.
  intros Hf AF HC HP. rewrite CAPACITY_eq in HC. apply andb_true_iff in AF.
  destruct (zsum_list_holds fold Hf Y zs m HC) as [H1 _].
  destruct (zsum_list_holds fold Hf Y' zs' m') as [H2 _].
  { rewrite <- (Permutation_length HP). auto. }
  apply (zholds_perm _ _ zs) in H2; [|symmetry; auto].
  exact (zholds_cells fold Hf zs _ _ _ _ (proj1 AF) (proj2 AF) H1 H2).
Qed.
Print Assumptions C17_order_independent.
Theorem C17_tree_independent t fold (u : ztree t) (zs : list (F t * F t)) n Y m m' :
  2 <= fold <= MAXFOLD t -> zfinite (zleaves u) = true -> Z.of_nat (length (zleaves u)) <= CAPACITY t ->
  Permutation (zleaves u) zs ->
  let '(a, _, r) := zeval fold u n m in zsame_words fold r a (zsum_list fold Y zs m') Y.
Proof.
  intros Hf AF HC HP. rewrite CAPACITY_eq in HC. apply andb_true_iff in AF.
  pose proof (zeval_holds fold Hf u n m HC) as H1.
  destruct (zsum_list_holds fold Hf Y zs m') as [H2 _].
  { rewrite <- (Permutation_length HP). auto. }
  destruct (zeval fold u n m) as [[a e] r]. destruct H1 as (_ & _ & H1 & _).
  apply (zholds_perm _ _ (zleaves u)) in H2; [|symmetry; auto].
  exact (zholds_cells fold Hf (zleaves u) _ _ _ _ (proj1 AF) (proj2 AF) H1 H2).
Qed.
Print Assumptions C17_tree_independent.
(** Each part holds what the real accumulator of that part of the data would hold
    (Spec.holds), and only the accumulator is written; data may be non finite. *)
Theorem C17_parts t fold Y (zs : list (F t * F t)) (m : mem t) :
  2 <= fold <= MAXFOLD t -> Z.of_nat (length zs) <= CAPACITY t ->
  let m' := zsum_list fold Y zs m in
  holds t fold [] (map fst zs) (fun i => m' (Y + i * 2)) (fun i => m' (Y + 2 * fold + i * 2)) /\
  holds t fold [] (map snd zs) (fun i => m' (Y + 1 + i * 2)) (fun i => m' (Y + 2 * fold + 1 + i * 2)) /\
  unchanged_outside Y (zbnum fold) m m'.
Proof.
  intros Hf HC m'. rewrite CAPACITY_eq in HC. destruct (zsum_list_holds fold Hf Y zs m HC) as [[H1 H2] H3].
  split; [exact H1|]. split; [exact H2|exact H3].
Qed.
Print Assumptions C17_parts.
(** Converting gives the conversions of the two real sums; any order, any data. *)
Theorem C17_conversion t fold Y A (zs zs' : list (F t * F t)) (m m1 : mem t) :
  2 <= fold <= MAXFOLD t -> Z.of_nat (length zs) <= CAPACITY t -> Permutation zs zs' ->
  zzbconv_sub fold Y (zsum_list fold Y zs m) =
  (ddbconv fold A (sum_list fold A (map fst zs') m1), ddbconv fold A (sum_list fold A (map snd zs') m1)).
Proof.
  intros Hf HC HP. rewrite CAPACITY_eq in HC. destruct (zsum_list_holds fold Hf Y zs m HC) as [[H1 H2] _].
  assert (HC' : Z.of_nat (length zs') <= capacity t) by (rewrite <- (Permutation_length HP); auto).
  destruct (sum_list_holds fold Hf A (map fst zs') m1 ltac:(rewrite map_length; auto)) as [H3 _].
  destruct (sum_list_holds fold Hf A (map snd zs') m1 ltac:(rewrite map_length; auto)) as [H4 _].
  unfold zzbconv_sub, zzmconv_sub, ddbconv. f_equal.
  - exact (ddmconv_perm fold Y 2 (Y + 2 * fold) 2 A 1 (A + fold) 1 _ _ [] _ _ (proj1 Hf) (Permutation_map fst HP) H1 H3).
  - exact (ddmconv_perm fold (Y + 1) 2 (Y + 2 * fold + 1) 2 A 1 (A + fold) 1 _ _ [] _ _ (proj1 Hf) (Permutation_map snd HP) H2 H4).
Qed.
Print Assumptions C17_conversion.
(** Any interleaving of complex routines on disjoint complex accumulators: see
    [C16_complex_run] with [C02_history_independent]. *)
Theorem C17_history_independent t fold (R R' : nat -> reg) (ops ops' : list (zop t)) m m' s s' r r' :
  2 <= fold <= MAXFOLD t -> registers fold (parts R) -> registers fold (parts R') ->
  ok fold (parts R) m s -> ok fold (parts R') m' s' ->
  legal_all (flat_map real_ops ops) s -> legal_all (flat_map real_ops ops') s' ->
  let g := tracked (flat_map real_ops ops) s r in let g' := tracked (flat_map real_ops ops') s' r' in
  normal g = true -> normal g' = true -> all_finite (summed g) = true ->
  Permutation (summed g) (summed g') -> Permutation (room g) (room g') ->
  forall i, 0 <= i < fold ->
    pri (zrun fold R ops m) (parts R r) i = pri (zrun fold R' ops' m') (parts R' r') i /\
    car (zrun fold R ops m) (parts R r) i = car (zrun fold R' ops' m') (parts R' r') i.
Proof.
  intros Hf HR HR' O O' L L' g g' N N' AF PX PU i Hi. rewrite !zrun_parts by (auto; lia).
  exact (C02_history_independent t fold (parts R) (parts R') _ _ m m' s s' r r' Hf HR HR' O O' L L' N N' AF PX PU i Hi).
Qed.
Print Assumptions C17_history_independent.
Definition zsample : list (F Dbl * F Dbl) := combine sample (rev sample).
Example C17_case : zfinite zsample = true /\ Z.of_nat (length zsample) <= CAPACITY Dbl /\
  zsame_words 3 (zsum_list 3 0 zsample (fun _ => fzero)) 0 (zsum_list 3 7 (rev zsample) (fun _ => fnan)) 7.
Proof.
  assert (A : zfinite zsample = true) by (vm_compute; reflexivity).
  assert (B : Z.of_nat (length zsample) <= CAPACITY Dbl) by (vm_compute; discriminate).
  split; [exact A|]. split; [exact B|].
  apply C17_order_independent; [vm_compute; split; discriminate|exact A|exact B|apply Permutation_rev].
Qed.

(** ** C30 *)
(** Contiguous carries (stride 1): both parts are converted as the real routine does. *)
Theorem C30_unit_stride t fold p ip c (m : mem t) :
  zzmconv_sub fold p ip c 1 m =
  (let r := re_of (mkreg p ip c 1) in ddmconv fold (rp r) (rip r) (rc r) (ric r) m,
   let r := im_of (mkreg p ip c 1) in ddmconv fold (rp r) (rip r) (rc r) (ric r) m).
Proof. unfold zzmconv_sub. cbn [re_of im_of rp rip rc ric]. rewrite Z.mul_comm. reflexivity. Qed.
Print Assumptions C30_unit_stride.
(** With any other carry stride the routine reads the wrong cells (stride inccar+1
    instead of 2*inccar): here the sum of one number is converted to another number. *)
Definition c30_x : F Dbl := mkf (-(2 ^ 52 + 5)) 0.
Theorem C30_refuted :
  let m := zmzadd 3 c30_x fzero 0 1 100 2 (zmsetzero 3 0 1 100 2 (fun _ => fzero)) in
  let re := re_of (mkreg 0 1 100 2) in
  feq (ddmconv 3 (rp re) (rip re) (rc re) (ric re) m) c30_x = true /\
  feq (fst (zzmconv_sub 3 0 1 100 2 m)) c30_x = false.
Proof. vm_compute. split; reflexivity. Qed.
Print Assumptions C30_refuted.
