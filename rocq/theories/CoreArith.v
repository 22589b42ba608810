(** * Slicing and renormalisation of one word *)
From Coq Require Import ZArith Bool Lia Reals Lra.
From Flocq Require Import Core BinarySingleNaN.
From Verif Require Import Fp Spec FpProofs Mem Binned BitProofs.
Open Scope Z_scope.

(** ** Round half away *)
Lemma rhaz_opp a b : rhaz (- a) b = - rhaz a b.
Proof. unfold rhaz. rewrite Z.sgn_opp, Z.abs_opp. ring. Qed.
Lemma rhaz_nonneg a b : 0 <= a -> 0 < b -> rhaz a b = (2 * a + b) / (2 * b).
Proof.
  intros Ha Hb. unfold rhaz. rewrite Z.abs_eq by easy.
  destruct (Z.eq_dec a 0) as [->|N].
  - simpl Z.sgn. rewrite Z.mul_0_l, Z.mul_0_r, Z.add_0_l. symmetry. apply Z.div_small. lia.
  - rewrite Z.sgn_pos by lia. ring.
Qed.
Lemma rhaz_0 b : rhaz 0 b = 0. Proof. reflexivity. Qed.
(** Induct on the sign of a. *)
Lemma rhaz_ind (P : Z -> Z -> Prop) b :
  (forall a r, P a r -> P (- a) (- r)) -> (forall a, 0 <= a -> P a (rhaz a b)) ->
  forall a, P a (rhaz a b).
Proof.
  intros HO HP a. destruct (Z_le_gt_dec 0 a); auto.
  replace a with (- - a) by lia. rewrite rhaz_opp. apply HO, HP. lia.
Qed.
Lemma rhaz_near a b : 0 < b -> 2 * Z.abs (a - rhaz a b * b) <= b.
Proof.
  intros Hb. apply (rhaz_ind (fun a r => 2 * Z.abs (a - r * b) <= b)); intros.
  - replace (- a0 - - r * b) with (- (a0 - r * b)) by ring. now rewrite Z.abs_opp.
  - rewrite rhaz_nonneg by easy. pose proof (Z.div_mod (2 * a0 + b) (2 * b) ltac:(lia)) as D.
    pose proof (Z.mod_pos_bound (2 * a0 + b) (2 * b) ltac:(lia)).
    set (q := (2 * a0 + b) / (2 * b)) in *.
    replace (2 * b * q) with (2 * (q * b)) in D by ring. lia.
Qed.
Lemma rhaz_le a b c : 0 < b -> 0 <= c -> Z.abs a <= c * b -> Z.abs (rhaz a b) <= c.
Proof.
  intros Hb Hc. apply (rhaz_ind (fun a r => Z.abs a <= c * b -> Z.abs r <= c)); intros.
  - rewrite Z.abs_opp in *. auto.
  - rewrite rhaz_nonneg by easy. rewrite Z.abs_eq in * by (try lia; apply Z.div_pos; lia).
    apply Z.lt_succ_r, Z.div_lt_upper_bound; nia.
Qed.
Lemma rhaz_small a b : 2 * Z.abs a < b -> rhaz a b = 0.
Proof.
  intros. assert (0 < b) by lia. destruct (Z_le_gt_dec 0 a).
  - rewrite rhaz_nonneg by lia. apply Z.div_small. lia.
  - replace a with (- - a) by lia. rewrite rhaz_opp, rhaz_nonneg by lia.
    rewrite Z.div_small by lia. reflexivity.
Qed.
Lemma rhaz_rem_le a b : 0 < b -> Z.abs (a - rhaz a b * b) <= Z.abs a.
Proof.
  intros Hb. destruct (Z_lt_dec (2 * Z.abs a) b) as [H|H].
  - rewrite rhaz_small by easy. replace (a - 0 * b) with a by ring. lia.
  - pose proof (rhaz_near a b Hb). lia.
Qed.

Lemma or1_rhaz t (x : F t) E :
  is_finite x = true -> 2 <= E -> Z.abs (toZ x) < 2 ^ (E + mw t - 1) ->
  Z.abs (2 * toZ (or1 x) - 2 * rhaz (toZ x) (2 ^ E) * 2 ^ E) < 2 ^ E.
Proof.
  intros Fx HE HX. pose proof (mw_pos t).
  destruct (or1_val t x Fx) as (mm & e & H1 & H2 & _ & H3 & H4 & H5 & H6).
  pose proof (pow2_pos e H5) as Pe.
  assert (e + 2 <= E).
  { destruct H6 as [H6|H6]; [lia|].
    rewrite H1, abs_cond_Zopp, Z.abs_eq in HX by (apply Z.mul_nonneg_nonneg; lia).
    assert (2 ^ (mw t + e) < 2 ^ (E + mw t - 1)).
    { rewrite Z.pow_add_r by lia. eapply Z.le_lt_trans; [|exact HX]. apply Z.mul_le_mono_nonneg_r; lia. }
    apply Z.pow_lt_mono_r_iff in H0; lia. }
  rewrite H1, H3.
  assert (G : Z.abs (2 * ((mm + 1 - mm mod 2) * 2 ^ e) - 2 * rhaz (mm * 2 ^ e) (2 ^ E) * 2 ^ E) < 2 ^ E).
  { rewrite rhaz_nonneg by (try apply pow2_pos; try lia; apply Z.mul_nonneg_nonneg; lia).
    replace E with (e + (E - e - 1) + 1) by lia. set (k := E - e - 1). assert (1 <= k) by lia.
    rewrite !Z.pow_add_r by lia. change (2 ^ 1) with 2.
    pose proof (pow2_pos k ltac:(lia)) as Pk.
    replace (2 * (mm * 2 ^ e) + 2 ^ e * 2 ^ k * 2) with ((2 * 2 ^ e) * (mm + 2 ^ k)) by ring.
    replace (2 * (2 ^ e * 2 ^ k * 2)) with ((2 * 2 ^ e) * (2 * 2 ^ k)) by ring.
    rewrite Z.div_mul_cancel_l by lia.
    pose proof (Z.div_mod (mm + 2 ^ k) (2 * 2 ^ k) ltac:(lia)) as D.
    pose proof (Z.mod_pos_bound (mm + 2 ^ k) (2 * 2 ^ k) ltac:(lia)) as M.
    set (d := (mm + 2 ^ k) / (2 * 2 ^ k)) in *. set (r := (mm + 2 ^ k) mod (2 * 2 ^ k)) in *.
    assert (EK : 2 ^ k = 2 * 2 ^ (k - 1)).
    { rewrite <- Z.pow_succ_r by lia. f_equal. lia. }
    pose proof (Z.mod_pos_bound mm 2 ltac:(lia)). pose proof (Z.div_mod mm 2 ltac:(lia)).
    assert (R2 : r = 2 * (mm / 2 + 2 ^ (k - 1) - d * 2 ^ k) + mm mod 2) by lia.
    replace (2 * ((mm + 1 - mm mod 2) * 2 ^ e) - 2 * d * (2 ^ e * 2 ^ k * 2))
      with (2 ^ e * (2 * (mm + 1 - mm mod 2 - d * (2 * 2 ^ k)))) by ring.
    rewrite Z.abs_mul, (Z.abs_eq (2 ^ e)) by lia.
    rewrite <- Z.mul_assoc. apply Z.mul_lt_mono_pos_l; [lia|].
    apply Z.abs_lt. lia. }
  destruct (Bsign x); cbn [cond_Zopp]; auto.
  rewrite rhaz_opp.
  match goal with |- Z.abs ?a < _ => match type of G with Z.abs ?b < _ =>
    replace a with (- b) by ring end end. now rewrite Z.abs_opp.
Qed.

(** Unnormalised words: n units of 2^E with n in the binade. *)
Lemma norm_unique a b i j k :
  2 ^ k <= a < 2 ^ (k + 1) -> 2 ^ k <= b < 2 ^ (k + 1) -> 0 <= k -> 0 <= i -> 0 <= j ->
  a * 2 ^ i = b * 2 ^ j -> i = j /\ a = b.
Proof.
  intros Ha Hb Hk Hi Hj E. pose proof (pow2_pos k Hk).
  assert (L : Z.log2 (a * 2 ^ i) = Z.log2 (b * 2 ^ j)) by now rewrite E.
  rewrite !log2_mul_pow in L by lia.
  rewrite (Z.log2_unique a k), (Z.log2_unique b k) in L by (rewrite ?Z.add_1_r in *; lia).
  assert (i = j) by lia. subst. split; auto.
  pose proof (pow2_pos j Hj). nia.
Qed.

Lemma testbit_split a b k n : 0 <= k -> 0 <= b < 2 ^ k -> 0 <= n ->
  Z.testbit (a * 2 ^ k + b) n = if n <? k then Z.testbit b n else Z.testbit a (n - k).
Proof.
  intros Hk Hb Hn. destruct (Z.ltb_spec n k).
  - rewrite <- (Z.mod_pow2_bits_low _ k n) by easy.
    rewrite Z.add_comm, Z.mod_add, Z.mod_small by lia. reflexivity.
  - replace n with ((n - k) + k) at 1 by lia. rewrite <- Z.div_pow2_bits by lia.
    rewrite Z.add_comm, Z.div_add, Z.div_small by lia. reflexivity.
Qed.

Lemma setclear A q r k : 0 <= k -> 0 <= q < 4 -> 0 <= r < 2 ^ k ->
  Z.lor (Z.ldiff ((4 * A + q) * 2 ^ k + r) (Z.shiftl 1 k)) (Z.shiftl 1 (k + 1))
  = (4 * A + 2) * 2 ^ k + r.
Proof.
  intros Hk Hq Hr. rewrite !Z.shiftl_1_l.
  apply Z.bits_inj'. intros n Hn.
  rewrite Z.lor_spec, Z.ldiff_spec, !Z.pow2_bits_eqb, !testbit_split by lia.
  destruct (Z.ltb_spec n k).
  - destruct (Z.eqb_spec k n), (Z.eqb_spec (k + 1) n); try lia.
    now rewrite andb_true_r, orb_false_r.
  - assert (T4 : forall c i, 0 <= i -> 0 <= c < 4 -> Z.testbit (4 * A + c) i =
       if i <? 2 then Z.testbit c i else Z.testbit A (i - 2)).
    { intros c i Hi Hc. rewrite <- testbit_split by (simpl; lia). f_equal. change (2 ^ 2) with 4. ring. }
    rewrite !T4 by lia.
    destruct (Z.eqb_spec k n) as [->|].
    + rewrite Z.sub_diag. destruct (Z.eqb_spec (n + 1) n); [lia|].
      rewrite andb_false_r. reflexivity.
    + destruct (Z.eqb_spec (k + 1) n) as [<-|].
      * replace (k + 1 - k) with 1 by lia. rewrite orb_true_r. reflexivity.
      * destruct (Z.ltb_spec (n - k) 2); [lia|]. now rewrite andb_true_r, orb_false_r.
Qed.

Lemma pos_fields t (p : F t) n E :
  is_finite p = true -> 0 <= E -> 2 ^ mw t <= n < 2 ^ prec t -> toZ p = n * 2 ^ E ->
  bits p = pack t false (E + 1) (n - 2 ^ mw t) /\ E + 1 < expmask t.
Proof.
  intros Fp HE Hn HV. pose proof (mw_pos t). pose proof (pow2_pos (mw t) ltac:(lia)).
  pose proof (pow2_pos E HE).
  destruct (bits_finite t p Fp) as (f & fr & B & H1' & H2 & H3).
  assert (PM : 2 ^ prec t = 2 ^ (mw t + 1)) by (unfold mw; f_equal; lia).
  destruct (Bsign p).
  { exfalso. cbn [cond_Zopp] in H3.
    assert (0 < n * 2 ^ E) by (apply Z.mul_pos_pos; lia).
    assert (0 <= (if f =? 0 then fr else fr + 2 ^ mw t) * 2 ^ (if f =? 0 then 0 else f - 1)).
    { apply Z.mul_nonneg_nonneg; [destruct (f =? 0); lia|]. apply Z.pow_nonneg; lia. } lia. }
  cbn [cond_Zopp] in H3. rewrite H3 in HV.
  destruct (Z.eqb_spec f 0).
  - exfalso. rewrite Z.pow_0_r, Z.mul_1_r in HV.
    assert (n * 1 <= n * 2 ^ E) by (apply Z.mul_le_mono_nonneg_l; lia). lia.
  - apply (norm_unique _ _ _ _ (mw t)) in HV; try lia.
    2:{ rewrite Z.pow_add_r by lia. lia. }
    destruct HV. split; [|lia]. rewrite B. f_equal; lia.
Qed.

(** dmrenorm on one primary word. *)
Lemma renorm_one t (p : F t) n E :
  is_finite p = true -> 0 <= E -> 4 * quarter t <= n < 8 * quarter t -> toZ p = n * 2 ^ E ->
  renorm_carry p = ofZ (n / quarter t - 6) /\
  is_finite (renorm_word p) = true /\
  toZ (renorm_word p) = (6 * quarter t + n mod quarter t) * 2 ^ E.
Proof.
  intros Fp HE Hn HV. pose proof (prec_pos t). pose proof (mw_pos t).
  unfold quarter in *. set (k := prec t - 3) in *. pose proof (pow2_pos k ltac:(lia)) as Pk.
  assert (MW : 2 ^ mw t = 4 * 2 ^ k).
  { unfold mw. replace (prec t - 1) with (2 + k) by lia. rewrite Z.pow_add_r by lia. reflexivity. }
  assert (PR : 2 ^ prec t = 8 * 2 ^ k).
  { replace (prec t) with (3 + k) by lia. rewrite Z.pow_add_r by lia. reflexivity. }
  destruct (pos_fields t p n E) as (B & EB); auto; [lia|].
  pose proof (Z.div_mod n (2 ^ k) ltac:(lia)) as D.
  pose proof (Z.mod_pos_bound n (2 ^ k) ltac:(lia)) as M.
  set (r := n mod 2 ^ k) in *.
  assert (Q : 4 <= n / 2 ^ k < 8).
  { split. apply Z.div_le_lower_bound; lia. apply Z.div_lt_upper_bound; lia. }
  set (q := n / 2 ^ k) in *.
  assert (B' : bits p = (4 * (E + 1) + (q - 4)) * 2 ^ k + r).
  { rewrite B. unfold pack. rewrite MW. lia. }
  assert (S : Z.shiftr (bits p) k = 4 * (E + 1) + (q - 4)).
  { rewrite Z.shiftr_div_pow2, B' by lia. rewrite Z.add_comm, Z.div_add, Z.div_small by lia. lia. }
  split; [|].
  - unfold renorm_carry. fold k. f_equal. rewrite S.
    change 3 with (2 ^ 2 - 1). rewrite land_mask by lia. change (2 ^ 2) with 4.
    rewrite Z.add_comm, Z.mul_comm, Z.mod_add, Z.mod_small by lia. lia.
  - unfold renorm_word. fold k. replace (prec t - 2) with (k + 1) by lia.
    rewrite B', setclear by lia.
    replace ((4 * (E + 1) + 2) * 2 ^ k + r) with (pack t false (E + 1) (2 * 2 ^ k + r))
      by (unfold pack; rewrite MW; ring).
    destruct (of_bits_pack t false (E + 1) (2 * 2 ^ k + r)) as (A & _ & C); try lia.
    split; auto. rewrite C. cbn [cond_Zopp].
    destruct (Z.eqb_spec (E + 1) 0); [lia|].
    rewrite MW. f_equal; [lia|]. f_equal; lia.
Qed.
