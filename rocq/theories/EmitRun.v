(** * The bodies of the generated kernels *)
From Coq Require Import ZArith Bool List Lia.
From Flocq Require Import Core BinarySingleNaN.
From Verif Require Import Fp Mem Binned Gen GenProofs Blas BlasZ BlasDZ Ssq LaneProofs Emit EmitBits EmitExec EmitLevels EmitGroup EmitLoad EmitPrep.
Import ListNotations.
Open Scope Z_scope.

(** ** Summands, in the terms of the kernel models *)

(** Real kernels: the summand of an element. *)
Definition rkval {t} (k : kclass t) (X incX Y incY : Z) (m : mem t) : option Z -> F t :=
  match k with
  | KSum => val Sum X incX Y incY m | KASum => val ASum X incX Y incY m | KSSq scl => sqval scl X incX m
  | _ => val Dot X incX Y incY m
  end.
(** Complex kernels: component c of a summand. *)
Definition zkval {t} (k : kclass t) (X incX Y incY : Z) (m : mem t) (c : Z) : src -> F t :=
  match k with
  | KASum => fun s => fabs (part X incX m c s)
  | KSSq scl => fun s => sq scl (part X incX m c s)
  | KDotC => zval ZDotC X incX Y incY m c
  | KDotU => zval ZDotU X incX Y incY m c
  | _ => zval ZSum X incX Y incY m c
  end.
(** Summands per element. *)
Definition nsum {t} (k : kclass t) (cx : bool) : Z := if two_vectors k then dsize cx else 1.
Definition gkval {t} (cx : bool) (k : kclass t) (X incX Y incY : Z) (m : mem t) (c : Z) (s : src) : F t :=
  if cx then zkval k X incX Y incY m c s else rkval k X incX Y incY m (match s with Elem s => Some s | Pad _ => None end).
Lemma nsum_pos {t} (k : kclass t) cx : 0 < nsum k cx.
Proof. unfold nsum. destruct (two_vectors k), cx; reflexivity. Qed.

Lemma incv_branch z : incv (branch_inc z) = z.
Proof. unfold branch_inc. destruct (Z.eqb_spec z 1); [subst; reflexivity|reflexivity]. Qed.

Lemma lv_x {t} cx X incX Y incY acc c (m : mem t) f : lv cx (body_ctx cx X incX Y incY acc c) m PX (branch_inc incX) f =
  if f / dsize cx <? cnt c then m (X + (start c + f / dsize cx) * (incX * dsize cx) + f mod dsize cx) else fzero.
Proof. unfold lv. cbn [left at_ body_ctx]. rewrite index_elems, incv_branch. destruct (_ <? _); [|reflexivity]. f_equal. ring. Qed.
Lemma lv_y {t} cx X incX Y incY acc c (m : mem t) f : lv cx (body_ctx cx X incX Y incY acc c) m PY (branch_inc incY) f =
  if f / dsize cx <? cnt c then m (Y + (start c + f / dsize cx) * (incY * dsize cx) + f mod dsize cx) else fzero.
Proof. unfold lv. cbn [left at_ body_ctx]. rewrite index_elems, incv_branch. destruct (_ <? _); [|reflexivity]. f_equal. ring. Qed.

Lemma pval_val {t} (k : kclass t) cx X incX Y incY acc c (m : mem t) inv f : fits k cx = true ->
  (forall scl, k = KSSq scl -> inv = fdiv (mkf 1 0) scl) ->
  0 <= f < nsum k cx * size c * dsize cx -> cnt c <= size c ->
  pval k cx (size c) (lv cx (body_ctx cx X incX Y incY acc c) m PX (branch_inc incX))
    (lv cx (body_ctx cx X incX Y incY acc c) m PY (branch_inc incY)) inv f =
  gkval cx k X incX Y incY m (f mod dsize cx) (summand (nsum k cx) c (f / dsize cx)).
Proof.
  intros FIT INV Hf Hc. unfold gkval, summand. destruct cx; cbn [dsize] in *.
  - (* complex *)
    set (q := f / 2). set (r := f mod 2). assert (Hr : 0 <= r < 2) by (apply Z.mod_pos_bound; lia).
    assert (Ef : f = 2 * q + r) by (apply Z.div_mod; lia).
    assert (Sq : forall q r, 0 <= r < 2 -> (2 * q + r) / 2 = q /\ (2 * q + r) mod 2 = r).
    { intros q' r' H. split; [symmetry; apply (Z.div_unique _ 2 q' r'); lia|symmetry; apply (Z.mod_unique _ 2 q' r'); lia]. }
    assert (One : nsum k true = 1 -> q mod size c = q /\ q / size c = 0).
    { intros E. rewrite E in Hf. split; [apply Z.mod_small; lia|apply Z.div_small; lia]. }
    clearbody q r. subst f.
    assert (LX : forall q r, 0 <= r < 2 -> lv true (body_ctx true X incX Y incY acc c) m PX (branch_inc incX) (2 * q + r) =
      if q <? cnt c then m (X + (start c + q) * (2 * incX) + r) else fzero).
    { intros q' r' H'. rewrite lv_x. cbn [dsize]. destruct (Sq q' r' H') as [-> ->]. destruct (_ <? _); [|reflexivity]. f_equal. ring. }
    assert (LY : forall q r, 0 <= r < 2 -> lv true (body_ctx true X incX Y incY acc c) m PY (branch_inc incY) (2 * q + r) =
      if q <? cnt c then m (Y + (start c + q) * (2 * incY) + r) else fzero).
    { intros q' r' H'. rewrite lv_y. cbn [dsize]. destruct (Sq q' r' H') as [-> ->]. destruct (_ <? _); [|reflexivity]. f_equal. ring. }
    assert (PART : nsum k true = 1 -> lv true (body_ctx true X incX Y incY acc c) m PX (branch_inc incX) (2 * q + r) =
      zval ZSum X incX Y incY m r (summand (nsum k true) c q) /\ part X incX m r (summand (nsum k true) c q) = zval ZSum X incX Y incY m r (summand (nsum k true) c q)).
    { intros E. destruct (One E) as [E1 E2]. unfold part, summand. rewrite E, E1, E2, LX by auto. unfold zval, zterm. destruct (q <? cnt c).
      - unfold at_elem, nterms. rewrite Z.mul_1_l, Z.add_0_r, Z.div_1_r. destruct (Z.eqb_spec r 0); (split; [|reflexivity]); f_equal; [|assert (r = 1) by lia]; subst r; ring.
      - destruct (r =? 0); split; reflexivity. }
    assert (TWO : nsum k true = 2 -> exists h e, (h = 0 \/ h = 1) /\ 0 <= e < size c /\ q = h * size c + e /\ q mod size c = e /\ q / size c = h).
    { intros E. rewrite E in Hf. exists (q / size c), (q mod size c).
      assert (SC : 0 < size c) by lia. pose proof (Z.div_mod q (size c) ltac:(lia)). pose proof (Z.mod_pos_bound q (size c) SC).
      assert (0 <= q / size c < 2) by (split; [apply Z.div_pos; lia|apply Z.div_lt_upper_bound; lia]).
      split; [lia|]. split; [lia|]. split; [lia|]. auto. }
    assert (SW : forall q r, 0 <= r < 2 -> swapped (2 * q + r) = 2 * q + (1 - r)).
    { intros q' r' H'. unfold swapped. replace (2 * q' + r' + 1) with (r' + 1 + q' * 2) by ring. rewrite Z.mod_add by lia.
      destruct (Sq q' r' H') as [-> _]. assert (C : r' = 0 \/ r' = 1) by lia. destruct C as [-> | ->]; [change ((0 + 1) mod 2) with 1|change ((1 + 1) mod 2) with 0]; ring. }
    change (if (q mod size c <? cnt c) then Elem (nsum k true * (start c + q mod size c) + q / size c) else Pad (q / size c)) with (summand (nsum k true) c q).
    destruct k; cbn [fits two_vectors nsum dsize] in *; try discriminate FIT; cbn [pval zkval];
      unfold nsum in *; cbn [two_vectors dsize] in *.
    + apply PART. reflexivity.
    + destruct (PART eq_refl) as [-> ->]. reflexivity.
    + clear PART One. destruct (TWO eq_refl) as (h & e & Hh & He & Eq & E1 & E2). unfold summand. rewrite E1, E2. subst q.
      destruct Hh as [-> | ->].
      * rewrite Z.mul_0_l, Z.add_0_l in *. destruct (Z.ltb_spec (2 * e + r) (size c * 2)); [|lia]. cbv zeta. destruct (Sq e r Hr) as [-> ->].
        rewrite LX by lia. replace (2 * e) with (2 * e + 0) by lia. rewrite LY by lia. unfold zval, zterm. destruct (e <? cnt c).
        -- unfold at_elem. cbn [nterms]. rewrite !Z.add_0_r. replace (2 * (start c + e)) with ((start c + e) * 2) by ring. rewrite Z.mod_mul, Z.div_mul by lia. cbn [Z.eqb].
           destruct (Z.eqb_spec r 0); [subst r; rewrite ?Z.add_0_r; reflexivity|]. assert (r = 1) by lia. subst r. rewrite ?Z.add_0_r. reflexivity.
        -- cbn [Z.eqb]. destruct (r =? 0); reflexivity.
      * rewrite Z.mul_1_l in *. destruct (Z.ltb_spec (2 * (size c + e) + r) (size c * 2)); [lia|]. cbv zeta.
        replace (2 * (size c + e) + r - size c * 2) with (2 * e + r) by ring. rewrite SW by lia. destruct (Sq e r Hr) as [-> _].
        rewrite LX, LY by lia. unfold zval, zterm. destruct (e <? cnt c).
        -- unfold at_elem. cbn [nterms]. replace (2 * (start c + e) + 1) with (1 + (start c + e) * 2) by ring. rewrite Z.mod_add, Z.div_add by lia.
           change (1 / 2) with 0. change (1 mod 2) with 1. cbn [Z.eqb]. rewrite Z.add_0_l.
           destruct (Z.eqb_spec r 0); [subst r; reflexivity|]. assert (r = 1) by lia. subst r. change (1 - 1) with 0. rewrite !Z.add_0_r. reflexivity.
        -- cbn [Z.eqb]. destruct (r =? 0); reflexivity.
    + clear PART One. destruct (TWO eq_refl) as (h & e & Hh & He & Eq & E1 & E2). unfold summand. rewrite E1, E2. subst q.
      destruct Hh as [-> | ->].
      * rewrite Z.mul_0_l, Z.add_0_l in *. destruct (Z.ltb_spec (2 * e + r) (size c * 2)); [|lia]. cbv zeta. destruct (Sq e r Hr) as [-> _].
        rewrite LX by lia. replace (2 * e) with (2 * e + 0) by lia. rewrite LY by lia. unfold zval, zterm. destruct (e <? cnt c).
        -- unfold at_elem. cbn [nterms]. rewrite !Z.add_0_r. replace (2 * (start c + e)) with ((start c + e) * 2) by ring. rewrite Z.mod_mul, Z.div_mul by lia. cbn [Z.eqb].
           destruct (Z.eqb_spec r 0); [subst r; rewrite ?Z.add_0_r; reflexivity|]. assert (r = 1) by lia. subst r. rewrite ?Z.add_0_r. reflexivity.
        -- cbn [Z.eqb]. destruct (r =? 0); reflexivity.
      * rewrite Z.mul_1_l in *. destruct (Z.ltb_spec (2 * (size c + e) + r) (size c * 2)); [lia|]. cbv zeta.
        replace (2 * (size c + e) + r - size c * 2) with (2 * e + r) by ring. rewrite SW by lia. destruct (Sq e r Hr) as [-> ->].
        rewrite LX, LY by lia. unfold zval, zterm. destruct (e <? cnt c).
        -- unfold at_elem. cbn [nterms]. replace (2 * (start c + e) + 1) with (1 + (start c + e) * 2) by ring. rewrite Z.mod_add, Z.div_add by lia.
           change (1 / 2) with 0. change (1 mod 2) with 1. cbn [Z.eqb]. rewrite Z.add_0_l.
           destruct (Z.eqb_spec r 0); [subst r; reflexivity|]. assert (r = 1) by lia. subst r. change (1 - 1) with 0. rewrite !Z.add_0_r. reflexivity.
        -- cbn [Z.eqb]. assert (C : r = 0 \/ r = 1) by lia. destruct C as [-> | ->]; reflexivity.
    + destruct (PART eq_refl) as [-> ->]. rewrite (INV scl eq_refl). reflexivity.
  - assert (N1 : nsum k false = 1) by (unfold nsum; destruct (two_vectors k); reflexivity). rewrite N1 in *.
    rewrite Z.div_1_r, Z.mod_small, Z.div_small, Z.mul_1_l, Z.add_0_r by lia.
    assert (LX := lv_x false X incX Y incY acc c m f). assert (LY := lv_y false X incX Y incY acc c m f). cbn [dsize] in LX, LY.
    rewrite Z.div_1_r, Z.mod_1_r, Z.mul_1_r, Z.add_0_r in LX, LY.
    destruct k; cbn [fits] in FIT; try discriminate FIT; cbn [pval rkval]; rewrite ?LX, ?LY; destruct (f <? cnt c); try reflexivity.
    + rewrite (INV scl eq_refl). reflexivity.
    + rewrite (INV scl eq_refl). reflexivity.
Qed.

(** ** All groups of a body *)

Definition free {t} (ex : bool) (W reg : Z) (s s' : state t) : Prop :=
  forall r, ~ tmp r -> (forall j i, 0 <= i < reg -> r <> word ex W j i) -> (forall i, r <> RX i) -> (forall i, r <> RY i) -> fst s' r = fst s r.

Lemma word_not_y ex W j i k : word ex W j i <> RY k.
Proof. unfold word. destruct ex; discriminate. Qed.

Section Process.
  Context {t : ty}.
  Variables (v : isa) (cx ex zero : bool) (fold W reg lw : Z) (c : ctx).
  Hypothesis HW : 0 <= reg <= W.
  Hypothesis Hf : (if ex then 2 else 1) <= fold.

  Lemma dep_of_const (s s' : state t) i l : (forall r, (exists j, r = RComp j \/ r = RExp j \/ r = RMask j) -> fst s' r = fst s r) ->
    dep_of v cx zero s' i l = dep_of v cx zero s i l.
  Proof. intros H. unfold dep_of, compr, expan, maskv. rewrite !H by eauto. reflexivity. Qed.
  Lemma const_free (s s' : state t) : free ex W reg s s' -> forall r, (exists j, r = RComp j \/ r = RExp j \/ r = RMask j) -> fst s' r = fst s r.
  Proof using Type. clear Hf HW. intros H r (j & [->|[->| ->]]); apply H; try discriminate; try (intros []); intros; unfold word; destruct ex; discriminate. Qed.

  Lemma groups_ok : forall (G : nat) (s : state t), (reg = W \/ (G <= 1)%nat) -> Z.of_nat G * reg <= lw ->
    let s' := runs c (flat_map (fun g => group v ex W reg (g * reg) (lw - g * reg) cx zero fold) (zseq 0 (Z.of_nat G))) s in
    snd s' = snd s /\
    (forall i l, 0 <= i < reg -> words ex W fold s' i l =
       fold_left (dep_of v cx zero s i l) (map (fun g => fst s (RX (g * reg + i)) l) (zseq 0 (Z.of_nat G))) (words ex W fold s i l)) /\
    (forall i, Z.of_nat G * reg <= i -> reg = W \/ G = O -> fst s' (RX i) = fst s (RX i)) /\
    free ex W reg s s'.
  Proof.
    induction G as [|G IH]; intros s HG HL; cbv zeta.
    { change (zseq 0 (Z.of_nat 0)) with (@nil Z). cbn [flat_map]. split; [reflexivity|]. split; [reflexivity|]. split; [reflexivity|]. intros r _ _ _ _. reflexivity. }
    destruct (IH s) as (I1 & I2 & I3 & I4); [destruct HG; [left; auto|right; lia]|nia|]. clear IH.
    replace (Z.of_nat (S G)) with (Z.of_nat G + 1) by lia. rewrite zseq_app, flat_map_app, runs_app by lia.
    rewrite Z.add_0_l, (zseq_cons (Z.of_nat G)), (zseq_nil _ (1 - 1)) by lia. cbn [flat_map]. rewrite app_nil_r.
    set (s1 := runs c (flat_map _ _) s) in *. clearbody s1.
    destruct (group_ok v c ex W reg (Z.of_nat G * reg) (lw - Z.of_nat G * reg) HW ltac:(nia) cx zero fold s1 Hf) as (G1 & G2 & G3).
    set (s2 := runs c _ s1) in *. clearbody s2.
    split; [congruence|]. split; [|split].
    - intros i l Hi. rewrite G2 by auto. rewrite map_app, fold_left_app. cbn [map fold_left]. rewrite I2 by auto.
      rewrite (dep_of_const s s1) by (apply const_free; auto). f_equal.
      rewrite I3; [reflexivity|nia|destruct HG; [auto|right; lia]].
    - intros i Hi HE. destruct HE as [E|E]; [|discriminate E]. rewrite G3.
      + apply I3; [nia|auto].
      + intros [].
      + intros j i' _ E'. symmetry in E'. revert E'. apply word_not_x.
      + intros i' Hi' E'. injection E' as E'. nia.
    - intros r R1 R2 R3 R4. rewrite G3 by auto. apply I4; auto.
  Qed.

  Lemma process_ok U (s : state t) : let G := Z.max U 1 in (reg = W \/ G = 1) -> G * reg <= lw ->
    let s' := runs c (process v cx ex zero fold lw W reg U) s in
    snd s' = snd s /\
    (forall i l, 0 <= i < reg -> words ex W fold s' i l =
       fold_left (dep_of v cx zero s i l) (map (fun g => fst s (RX (g * reg + i)) l) (zseq 0 G)) (words ex W fold s i l)) /\
    free ex W reg s s'.
  Proof.
    intros G HG HL. cbv zeta.
    assert (E : process (t:=t) v cx ex zero fold lw W reg U = flat_map (fun g => group v ex W reg (g * reg) (lw - g * reg) cx zero fold) (zseq 0 G)).
    { unfold process. fold G. rewrite !flat_map_concat_map. f_equal. apply map_ext_in. intros g Hg. apply zseq_In in Hg.
      unfold group. change (x_vars lw) with (tab RX lw). rewrite from_tab by nia. reflexivity. }
    rewrite E. destruct (groups_ok (Z.to_nat G) s) as (I1 & I2 & _ & I4); [destruct HG; [left; auto|right; lia]|rewrite Z2Nat.id; lia|].
    rewrite Z2Nat.id in * by lia. auto.
  Qed.
End Process.

Lemma lane_app {A} (l : Z) (a b : list (Z * A)) : map snd (filter (fun e => l =? fst e) (a ++ b)) = map snd (filter (fun e => l =? fst e) a) ++ map snd (filter (fun e => l =? fst e) b).
Proof. rewrite filter_app, map_app. reflexivity. Qed.
(** Events of one lane. *)
Definition lane_of {A} (l : Z) (es : list (Z * A)) : list A := map snd (filter (fun e => l =? fst e) es).
Lemma lane_map {A} {t} (f : A -> F t) l es : lane l (map (fun e => (fst e, f (snd e))) es) = map f (lane_of l es).
Proof.
  unfold lane, lane_of. induction es as [|[l' a] es IH]; [reflexivity|]. cbn [map filter fst snd].
  destruct (l =? l'); cbn [map snd]; rewrite IH; reflexivity.
Qed.
Lemma lane_flat {A B} l (f : B -> list (Z * A)) bs : lane_of l (flat_map f bs) = flat_map (fun b => lane_of l (f b)) bs.
Proof. induction bs as [|b bs IH]; [reflexivity|]. cbn [flat_map]. unfold lane_of in *. rewrite filter_app, map_app, IH. reflexivity. Qed.
Lemma lane_row {A} l (f : Z -> A) n : lane_of l (map (fun i => (i, f i)) (zseq 0 n)) = if (0 <=? l) && (l <? n) then [f l] else [].
Proof.
  destruct (Z.le_gt_cases n 0) as [N|N].
  { rewrite zseq_nil by lia. destruct (Z.leb_spec 0 l), (Z.ltb_spec l n); cbn [andb]; try reflexivity; lia. }
  assert (E : n = Z.of_nat (Z.to_nat n)) by lia. revert E. generalize (Z.to_nat n) as k. intros k ->. clear N.
  induction k as [|k IH].
  { change (Z.of_nat 0) with 0. destruct (Z.leb_spec 0 l), (Z.ltb_spec l 0); try lia; reflexivity. }
  replace (Z.of_nat (S k)) with (Z.of_nat k + 1) by lia. rewrite zseq_app, map_app by lia. unfold lane_of in *. rewrite filter_app, map_app, IH.
  rewrite Z.add_0_l, (zseq_cons (Z.of_nat k)), (zseq_nil _ (1 - 1)) by lia. cbn [map filter fst].
  destruct (Z.leb_spec 0 l); cbn [andb].
  - destruct (Z.ltb_spec l (Z.of_nat k)), (Z.ltb_spec l (Z.of_nat k + 1)), (Z.eqb_spec l (Z.of_nat k)); try lia; subst; reflexivity.
  - destruct (Z.eqb_spec l (Z.of_nat k)); [lia|reflexivity].
Qed.
Lemma lane_zdeposit nt pipe c l : lane_of l (zdeposit_events nt pipe c) =
  let reg := nt * Z.min (size c) pipe in
  if (0 <=? l) && (l <? reg) then map (fun g => summand nt c (g * reg + l)) (zseq 0 (Z.max (size c / pipe) 1)) else [].
Proof.
  unfold zdeposit_events. cbv zeta. rewrite lane_flat. set (reg := nt * _).
  rewrite (flat_map_ext _ (fun g => if (0 <=? l) && (l <? reg) then [summand nt c (g * reg + l)] else [])).
  2:{ intros g. apply (lane_row l (fun l => summand nt c (g * reg + l))). }
  destruct (_ && _); [|induction (zseq 0 _); auto]. induction (zseq 0 _) as [|a q IH]; [reflexivity|]. cbn [flat_map map app]. rewrite IH. reflexivity.
Qed.

(** ** One run of the body *)
Lemma tsize_width v t cx : vector_width (tsize v t cx).
Proof. destruct v, t, cx; cbv; try (left; reflexivity); right; first [exists 0; split; [discriminate|reflexivity]|exists 1; split; [discriminate|reflexivity]|exists 2; split; [discriminate|reflexivity]|exists 3; split; [discriminate|reflexivity]]. Qed.
Lemma width_divides ts n : vector_width ts -> (exists b, 0 <= b /\ n = 2 ^ b) -> Z.max ts 1 <= n -> (Z.max ts 1 | n).
Proof.
  intros Ht (b & Hb & ->) Hn. destruct Ht as [->|(a & Ha & ->)]; [exists (2 ^ b); lia|].
  pose proof (Z.pow_pos_nonneg 2 a ltac:(lia) Ha). rewrite Z.max_l in * by lia.
  assert (a <= b) by (apply (Z.pow_le_mono_r_iff 2); lia). exists (2 ^ (b - a)). rewrite <- Z.pow_add_r by lia. f_equal. lia.
Qed.

Section Body.
  Context {t : ty}.
  Variables (v : isa) (cx : bool) (k : kclass t) (ex : bool) (fold pipe unroll : Z).
  Local Notation ts := (tsize v t cx).
  Local Notation bs := (bsize v t).
  Local Notation ds := (dsize cx).
  Local Notation nt := (nsum k cx).
  Hypothesis FIT : fits k cx = true.
  Hypothesis LEGAL : legal_vec (Vec (vector v) ts pipe unroll).
  Hypothesis Hf : (if ex then 2 else 1) <= fold.
  Local Notation W := (reg_width v cx k pipe).

  Lemma pipe_facts : (Z.max ts 1 | pipe) /\ 0 < pipe /\ 1 <= unroll /\ Z.max ts 1 <= pipe.
  Proof.
    destruct LEGAL as (Ht & Hb & Hp & Hu & _). cbn [type_size pipe_width unroll_width] in *.
    split; [apply width_divides; auto|]. lia.
  Qed.
  Lemma rw_mul n : (Z.max ts 1 | n) -> reg_width v cx k n * bs = nt * n * ds.
  Proof. intros H. unfold reg_width, nsum. pose proof (width_mul v t cx n H) as E. set (q := if two_vectors k then _ else _).
    transitivity (q * (n * ds / bs * bs)); [ring|]. rewrite E. ring. Qed.
  Lemma rw_le n n' : 0 <= n <= n' -> 0 <= reg_width v cx k n <= reg_width v cx k n'.
  Proof.
    intros H. unfold reg_width. pose proof (bsize_pos v t) as B. pose proof (dsize_pos cx) as D.
    assert (0 <= (if two_vectors k then ds else 1)) by (destruct (two_vectors k); lia).
    assert (0 <= n * ds / bs) by (apply Z.div_pos; nia).
    assert (n * ds / bs <= n' * ds / bs) by (apply Z.div_le_mono; nia). nia.
  Qed.
  Lemma W_pos : 0 < W.
  Proof.
    destruct pipe_facts as (D & P & _). pose proof (rw_mul pipe D). pose proof (bsize_pos v t). pose proof (dsize_pos cx). pose proof (nsum_pos k cx).
    assert (0 < nt * pipe * ds) by (apply Z.mul_pos_pos; [apply Z.mul_pos_pos|]; auto). nia.
  Qed.
  Lemma shape_facts c : shape ts (pipe * unroll) c -> (Z.max ts 1 | size c) /\ 0 < size c <= pipe * unroll /\
    wf_load v t cx (size c) (negb (cnt c =? size c)) (cnt c).
  Proof.
    destruct pipe_facts as (D & P & U & TP). intros [C S].
    assert (DV : (Z.max ts 1 | size c)).
    { destruct S as [[_ [->|(q & Hq & E & _ & T)]]|[-> L]].
      - apply Z.divide_mul_l. exact D.
      - apply width_divides; [apply tsize_width| |lia]. exists q. auto.
      - rewrite Z.max_l by lia. apply Z.divide_refl. }
    split; [exact DV|]. split.
    { split; [lia|]. destruct S as [[_ [->|(q & Hq & E & L & T)]]|[E L]]; nia. }
    unfold wf_load. split; [lia|]. split; [exact DV|]. destruct (Z.eqb_spec (cnt c) (size c)); cbn [negb]; [assumption|].
    destruct S as [[E _]|[E L]]; [lia|]. lia.
  Qed.

  Variables (X incX Y incY acc : Z).
  Definition inv_ok (s : state t) : Prop := forall scl, k = KSSq scl -> forall l, fst s RInv l = fdiv (mkf 1 0) scl.

  Lemma run_body_ok zero (s : state t) c : shape ts (pipe * unroll) c -> inv_ok s ->
    let s' := run_body v cx k ex zero fold pipe unroll X incX Y incY acc s c in
    snd s' = snd s /\
    (forall i l, 0 <= i < W -> 0 <= l < bs -> words ex W fold s' i l =
       fold_left (dep_of v cx zero s i l)
         (map (gkval cx k X incX Y incY (snd s) ((i * bs + l) mod ds)) (lane_of ((i * bs + l) / ds) (zdeposit_events nt pipe c)))
         (words ex W fold s i l)) /\
    free ex W W s s'.
  Proof.
    intros SH INV. cbv zeta. destruct pipe_facts as (DP & P & U & TP). destruct (shape_facts c SH) as (DV & SZ & WF).
    pose proof (bsize_pos v t) as BP. pose proof (dsize_pos cx) as DSP. pose proof (nsum_pos k cx) as NP.
    destruct (divides_groups ts pipe (pipe * unroll) c) as [G1 G2]; auto.
    { destruct LEGAL as (_ & Hb & _). exact Hb. } { apply Z.divide_factor_l. } { nia. }
    set (n := size c) in *. set (mn := Z.min n pipe) in *. set (G := Z.max (n / pipe) 1) in *.
    assert (DM : (Z.max ts 1 | mn)) by (unfold mn; destruct (Z.min_spec n pipe) as [[_ ->]|[_ ->]]; auto).
    assert (GW : G * reg_width v cx k mn = reg_width v cx k n).
    { pose proof (rw_mul mn DM). pose proof (rw_mul n DV). apply (Z.mul_reg_r _ _ bs); [lia|].
      rewrite <- Z.mul_assoc, H, H0, <- G2. ring. }
    assert (RW : 0 <= reg_width v cx k mn <= W) by (apply rw_le; lia).
    assert (LW : reg_width v cx k n <= W * unroll).
    { pose proof (rw_mul pipe DP) as A1. pose proof (rw_mul n DV) as A2. apply (Z.mul_le_mono_pos_r _ _ bs); [lia|].
      replace (W * unroll * bs) with (nt * pipe * ds * unroll) by (rewrite <- A1; ring). rewrite A2.
      replace (nt * pipe * ds * unroll) with (nt * (pipe * unroll) * ds) by ring.
      apply Z.mul_le_mono_nonneg_r; [lia|]. apply Z.mul_le_mono_nonneg_l; lia. }
    set (part := negb (cnt c =? n)) in *.
    set (cc := body_ctx cx X incX Y incY acc c). change (cnt c) with (left cc) in WF.
    assert (BODY : exists Ug, Z.max Ug 1 = G /\ body v cx k ex zero fold pipe unroll (branch_inc incX) (branch_inc incY) n part =
      map Do (preprocess v cx k (W * unroll) n (branch_inc incX) (branch_inc incY) part) ++
      process v cx ex zero fold (W * unroll) W (reg_width v cx k mn) Ug).
    { unfold body. destruct part eqn:EP.
      - destruct WF as (_ & _ & En & T2 & L). exists 1. rewrite <- En. unfold mn. rewrite Z.min_l by lia. split; [|reflexivity].
        unfold G. destruct (Z.eq_dec n pipe) as [->|N]; [rewrite Z.div_same by lia; reflexivity|rewrite Z.div_small by lia; reflexivity].
      - exists (n / pipe). split; reflexivity. }
    destruct BODY as (Ug & EG & EB). unfold run_body. fold n. fold part. fold cc. rewrite EB, runs_app, runs_do.
    destruct (preprocess_ok v cx n part cc WF k (W * unroll) (branch_inc incX) (branch_inc incY) s FIT LW) as (P1 & P2 & P3).
    { intros -> E. apply andb_true_iff in E. destruct E as [E1 E2]. rewrite E1. unfold reg_width. rewrite E2, (sisd_bs t), Z.div_1_r. cbn [dsize].
      exists (pipe * unroll). ring. }
    set (s1 := execs cc _ s) in *. clearbody s1.
    assert (C1 : forall r, (exists j, r = RComp j \/ r = RExp j \/ r = RMask j) -> fst s1 r = fst s r).
    { intros r (j & [->|[->| ->]]); apply P3; discriminate. }
    destruct (process_ok v cx ex zero fold W (reg_width v cx k mn) (W * unroll) cc RW Hf Ug s1) as (Q1 & Q2 & Q3).
    { rewrite EG. unfold mn, G. destruct (Z.le_gt_cases pipe n); [left; rewrite Z.min_r by lia; reflexivity|right; rewrite Z.div_small by lia; reflexivity]. }
    { rewrite EG, GW. exact LW. }
    set (s2 := runs cc _ s1) in *. clearbody s2. rewrite EG in Q2.
    assert (W1 : forall i l, words ex W fold s1 i l = words ex W fold s i l).
    { intros i l. unfold words. apply map_ext. intros j. rewrite P3; [reflexivity|intros; apply word_not_x|intros; apply word_not_y]. }
    split; [congruence|]. split.
    - intros i l Hi Hl. rewrite lane_zdeposit. cbv zeta. fold n. fold mn. fold G.
      set (f := i * bs + l). assert (RM := rw_mul mn DM).
      assert (FP : 0 <= f / ds) by (apply Z.div_pos; unfold f; nia).
      replace (0 <=? f / ds) with true by (symmetry; apply Z.leb_le; exact FP). cbn [andb].
      destruct (Z.ltb_spec (f / ds) (nt * mn)) as [L|L].
      + assert (Hi' : 0 <= i < reg_width v cx k mn).
        { split; [lia|]. assert (f < nt * mn * ds) by (pose proof (Z.div_mod f ds ltac:(lia)); pose proof (Z.mod_pos_bound f ds DSP); nia). unfold f in *. nia. }
        rewrite Q2 by exact Hi'. rewrite (dep_of_const v cx zero s s1) by exact C1. rewrite W1. f_equal.
        rewrite map_map. apply map_ext_in. intros g Hg. apply zseq_In in Hg.
        set (f' := (g * reg_width v cx k mn + i) * bs + l).
        assert (E' : f' = f + g * (nt * mn) * ds) by (unfold f', f; rewrite <- (Z.mul_assoc g), <- RM; ring).
        rewrite <- (flat_at v (fst s1) RX) by exact Hl. fold f'.
        assert (BF : 0 <= f' < reg_width v cx k n * bs).
        { rewrite <- GW. unfold f'. split; [nia|]. assert ((g * reg_width v cx k mn + i) < G * reg_width v cx k mn) by nia. nia. }
        rewrite P2 by exact BF.
        rewrite (pval_val k cx X incX Y incY acc c (snd s) _ f' FIT).
        * fold n. rewrite E', Z.mod_add, Z.div_add by lia. do 2 f_equal. ring.
        * intros scl E. apply (INV scl E).
        * fold n. rewrite <- rw_mul by exact DV. exact BF.
        * destruct SH. lia.
      + assert (Hi' : ~ i < reg_width v cx k mn).
        { intros A. assert (f < reg_width v cx k mn * bs) by (unfold f; nia). rewrite RM in H.
          assert (f / ds < nt * mn) by (apply Z.div_lt_upper_bound; lia). lia. }
        cbn [map fold_left]. rewrite <- W1. unfold words. apply map_ext. intros j. rewrite Q3; [reflexivity|apply word_not_tmp| |intros; apply word_not_x|intros; apply word_not_y].
        intros j' i' Hi'' E. apply word_inj in E; lia.
    - intros r R1 R2 R3 R4. rewrite Q3, P3; auto. intros j i Hi. apply R2. lia.
  Qed.

  (** All runs of the body. *)
  Lemma run_bodies_ok zero cs : Forall (shape ts (pipe * unroll)) cs -> forall (s : state t), inv_ok s ->
    let s' := fold_left (run_body v cx k ex zero fold pipe unroll X incX Y incY acc) cs s in
    snd s' = snd s /\
    (forall i l, 0 <= i < W -> 0 <= l < bs -> words ex W fold s' i l =
       fold_left (dep_of v cx zero s i l)
         (map (gkval cx k X incX Y incY (snd s) ((i * bs + l) mod ds)) (lane_of ((i * bs + l) / ds) (flat_map (zdeposit_events nt pipe) cs)))
         (words ex W fold s i l)) /\
    free ex W W s s'.
  Proof.
    induction 1 as [|c cs SH SHS IH]; intros s INV; cbv zeta; cbn [fold_left flat_map].
    { split; [reflexivity|]. split; [reflexivity|]. intros r _ _ _ _. reflexivity. }
    destruct (run_body_ok zero s c SH INV) as (A1 & A2 & A3). set (s1 := run_body _ _ _ _ _ _ _ _ _ _ _ _ _ s c) in *. clearbody s1.
    destruct (IH s1) as (B1 & B2 & B3).
    { intros scl E l. rewrite A3; [apply (INV scl E)|intros []| |discriminate|discriminate]. intros; unfold word; destruct ex; discriminate. }
    set (s2 := fold_left _ cs s1) in *. clearbody s2.
    split; [congruence|]. split.
    - intros i l Hi Hl. rewrite B2, A2 by auto. unfold lane_of. rewrite lane_app, map_app, fold_left_app. rewrite A1.
      rewrite (dep_of_const v cx zero s s1) by (eapply const_free; exact A3). reflexivity.
    - intros r R1 R2 R3 R4. rewrite B3, A3; auto.
  Qed.
End Body.
