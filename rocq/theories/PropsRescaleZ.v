(** * C51: rescaling a complex scaled accumulator *)
From Coq Require Import ZArith Bool List Lia.
From Flocq Require Import Core BinarySingleNaN.
From Verif Require Import Fp Mem Binned Spec FpProofs BitProofs CoreArith SpecProofs WordProofs MemProofs AccProofs SumProofs Client ClientProofs ComplexProofs ScaleProofs RescaleProofs Ssq SsqProofs SsqSpec PropsSsq BlasZSpec PropsBlasZ RescaleZ.
Import ListNotations.
Open Scope Z_scope.

(** zmdrescale (cmsrescale) on a contiguous complex accumulator, compared with dmdrescale on
    its real part followed by dmdrescale on its imaginary part (strides doubled). *)
Definition rescale_parts {t} (fold : Z) (X scaleY : F t) (Y : Z) (m : mem t) : mem t :=
  dmdrescale fold X scaleY (Y + 1) 2 (Y + 2 * fold + 1) 2 (dmdrescale fold X scaleY Y 2 (Y + 2 * fold) 2 m).
(** As long as no primary word is rescaled to zero, the complex routine does to each part what
    the real routine does.  Missing: words that become zero (C51_refuted). *)
Theorem C51_rescale_partial t fold (X scaleY : F t) Y (m : mem t) : 2 <= fold ->
  (forall a, Y <= a < Y + 2 * fold -> feq (fdiv (m a) (fmul (fdiv X scaleY) (fdiv X scaleY))) fzero = false) ->
  forall a, zmdrescale fold X scaleY Y 1 (Y + 2 * fold) 1 m a = rescale_parts fold X scaleY Y m a.
Proof.
  intros Hf NZ a. unfold rescale_parts, zmdrescale, dmdrescale. destruct (_ || _ || _); [reflexivity|]. cbv zeta.
  set (r := fmul (fdiv X scaleY) (fdiv X scaleY)) in *. clearbody r.
  destruct (zrescale_loop_ok fold Y Hf r (Z.to_nat fold) 0 m ltac:(lia) ltac:(lia)) as [Z1 Z2].
  destruct (rescale_loop_ok (layout_complex_re fold Y ltac:(lia)) r (Z.to_nat fold) 0 m ltac:(lia) ltac:(lia)) as [R1 R2].
  set (m1 := rescale_loop (Z.to_nat fold) 0 fold r Y 2 (Y + 2 * fold) 2 m) in *. clearbody m1.
  destruct (rescale_loop_ok (layout_complex_im fold Y ltac:(lia)) r (Z.to_nat fold) 0 m1 ltac:(lia) ltac:(lia)) as [I1 I2].
  set (m2 := rescale_loop (Z.to_nat fold) 0 fold r (Y + 1) 2 (Y + 2 * fold + 1) 2 m1) in *. clearbody m2.
  set (mz := zrescale_loop (Z.to_nat fold) 0 fold r Y 1 (Y + 2 * fold) 1 m) in *. clearbody mz.
  assert (CO : forall i, 0 <= i < 2 * fold -> feq (cell_of Y r 0 m i) fzero = false).
  { intros i Hi. unfold cell_of. destruct (Z.leb_spec 0 (i / 2)); [|pose proof (Z.div_pos i 2); lia]. apply NZ. lia. }
  assert (NM : forall i, 0 <= i < fold -> m1 (Y + 1 + i * 2) = m (Y + 1 + i * 2) /\ m1 (Y + 2 * fold + 1 + i * 2) = m (Y + 2 * fold + 1 + i * 2)).
  { intros i Hi. split; apply R1; intros j Hj; lia. }
  destruct (Z_lt_dec a Y) as [L|L]; [|destruct (Z_le_dec (Y + 4 * fold) a) as [G|G]].
  - rewrite Z1, I1, R1; auto; intros; lia.
  - rewrite Z1, I1, R1; auto; intros; lia.
  - pose proof (Z.div_mod (a - Y) 2 ltac:(lia)) as DM. pose proof (Z.mod_pos_bound (a - Y) 2 ltac:(lia)) as MB.
    set (q := (a - Y) / 2) in *. set (o := (a - Y) mod 2) in *. clearbody q o.
    assert (Ho : o = 0 \/ o = 1) by lia.
    destruct (Z_lt_dec q fold) as [Lq|Lq].
    + destruct (Z2 q o ltac:(lia) Ho) as [E _]; [intros; apply CO; lia|]. replace (Y + 2 * q + o) with a in E by lia. rewrite E.
      destruct Ho as [-> | ->].
      * rewrite I1 by (intros; lia). destruct (R2 q ltac:(lia)) as [E' _]; [intros; apply NZ; lia|]. replace (Y + q * 2) with a in E' by lia. now rewrite E'.
      * destruct (I2 q ltac:(lia)) as [E' _]; [intros i1 Hi1; rewrite (proj1 (NM i1 ltac:(lia))); apply NZ; lia|].
        rewrite (proj1 (NM q ltac:(lia))) in E'. replace (Y + 1 + q * 2) with a in E' by lia. now rewrite E'.
    + set (q' := q - fold). assert (Hq : 0 <= q' < fold) by (unfold q'; lia).
      destruct (Z2 q' o ltac:(lia) Ho) as [_ E]; [intros; apply CO; lia|]. replace (Y + 2 * fold + 2 * q' + o) with a in E by (unfold q'; lia). rewrite E.
      destruct Ho as [-> | ->].
      * rewrite I1 by (intros; lia). destruct (R2 q' ltac:(lia)) as [_ E']; [intros; apply NZ; lia|].
        replace (Y + 2 * fold + q' * 2) with a in E' by (unfold q'; lia). now rewrite E'.
      * destruct (I2 q' ltac:(lia)) as [_ E']; [intros i1 Hi1; rewrite (proj1 (NM i1 ltac:(lia))); apply NZ; lia|].
        rewrite (proj2 (NM q' ltac:(lia))) in E'. replace (Y + 2 * fold + 1 + q' * 2) with a in E' by (unfold q'; lia). now rewrite E'.
Qed.
Print Assumptions C51_rescale_partial.

(** The complex accumulator, of fold 5, of the single square 1 in each part with scale 1. *)
Definition unit_sq : mem Dbl := zbzadd 5 (mkf 1 0) (mkf 1 0) 100 (zbsetzero 5 100 (fun _ => fzero)).
Example C51_case : (* rescaling by 2^40 meets the hypothesis above and changes the words *)
  forallb (fun i => negb (feq (fdiv (unit_sq (100 + i)) (fmul (fdiv (mkf 1 40) (mkf 1 0)) (fdiv (mkf 1 40) (mkf 1 0)))) fzero)) (Gen.zseq 0 10) = true /\
  feq (zmdrescale 5 (mkf 1 40) (mkf 1 0) 100 1 110 1 unit_sq 100) (unit_sq 100) = false.
Proof. vm_compute. auto. Qed.
(** With the scale raised from 1 to 2^480 (both are dscale values) the last word of each part
    becomes zero; the real routine puts an empty bin there, the complex one (which tests cells
    0 to 4, words 0, 0, 1, 1, 2) leaves 0. *)
Theorem C51_underflow_refuted :
  feq (dscale (mkf 1 480 : F Dbl)) (mkf 1 480) = true /\ feq (dscale (mkf 1 0 : F Dbl)) (mkf 1 0) = true /\
  feq (zmdrescale 5 (mkf 1 480) (mkf 1 0) 100 1 110 1 unit_sq 108) fzero = true /\
  feq (rescale_parts 5 (mkf 1 480) (mkf 1 0) 100 unit_sq 108) fzero = false.
Proof. vm_compute. auto. Qed.
Print Assumptions C51_underflow_refuted.
(** A complex accumulator made from the real accumulator of 1 (zbdbset: its imaginary part is
    zero), rescaled from scale 1 to 2^40: the real part should become 2^-80, as with the real
    routine; but the test reads the zero imaginary word, the loop stops there and leaves the
    last real word unscaled, so the converted real part is wrong. *)
Definition real_sq : mem Dbl := zbdbset 3 100 200 (dbdadd 3 (mkf 1 0) 100 (dbsetzero 3 100 (fun _ => fzero))).
Theorem C51_refuted :
  feq (dscale (mkf 1 40 : F Dbl)) (mkf 1 40) = true /\
  feq (fst (zzbconv_sub 3 200 real_sq)) (mkf 1 0) = true /\
  feq (fst (zzbconv_sub 3 200 (rescale_parts 3 (mkf 1 40) (mkf 1 0) 200 real_sq))) (mkf 1 (-80)) = true /\
  feq (fst (zzbconv_sub 3 200 (zmdrescale 3 (mkf 1 40) (mkf 1 0) 200 1 206 1 real_sq))) (mkf 1 (-80)) = false.
Proof. vm_compute. auto. Qed.
Print Assumptions C51_refuted.
