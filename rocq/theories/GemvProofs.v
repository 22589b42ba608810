(** * Proofs about the blocked matrix products *)
From Coq Require Import ZArith Bool List Reals Lra Lia Permutation Ascii.
From Flocq Require Import Core BinarySingleNaN.
From Verif Require Import Fp Mem Binned Spec FpProofs BitProofs CoreArith SpecProofs WordProofs MemProofs AccProofs SumProofs ConvProofs Client History ClientProofs PropsSum PropsAcc Gen GenProofs Blas LaneProofs ReduceProofs DriverProofs BlasSpec PropsBlas Gemv GemvSpec.
Import ListNotations.
Open Scope Z_scope.

(** ** Loops *)
Lemma step_loop_inv {S : Type} (I : Z -> S -> Prop) (f : Z -> S -> S) hi step n : 1 <= step -> forall i s,
  (Z.to_nat (hi - i) <= n)%nat -> I i s ->
  (forall k s, i <= k < hi -> (step | k - i) -> I k s -> I (k + step) (f k s)) ->
  exists e, hi <= e /\ (step | e - i) /\ I e (step_loop n i hi step f s).
Proof.
  intros Hs. induction n as [|n IH]; intros i s Hn H0 HS; cbn [step_loop].
  - exists i. split; [lia|]. split; [exists 0; lia|exact H0].
  - destruct (Z.ltb_spec i hi) as [L|L].
    + destruct (IH (i + step) (f i s)) as (e & E1 & (q & E2) & E3).
      * lia.
      * apply HS; [lia|exists 0; lia|exact H0].
      * intros k s' Hk (q & Hq). apply HS; [lia|]. exists (q + 1). lia.
      * exists e. split; [exact E1|]. split; [exists (q + 1); lia|exact E3].
    + exists i. split; [lia|]. split; [exists 0; lia|exact H0].
Qed.
Lemma for_step_inv {S : Type} (I : Z -> S -> Prop) (f : Z -> S -> S) lo hi step s : 1 <= step -> I lo s ->
  (forall k s, lo <= k < hi -> (step | k - lo) -> I k s -> I (k + step) (f k s)) ->
  exists e, hi <= e /\ (step | e - lo) /\ I e (for_step lo hi step f s).
Proof. intros. unfold for_step. apply step_loop_inv; auto. Qed.
Lemma for_block_inv {S : Type} (I : Z -> S -> Prop) (f : Z -> S -> S) i hi block s : i <= hi -> 0 <= block ->
  I i s -> (forall k s, i <= k < Z.min hi (i + block) -> I k s -> I (k + 1) (f k s)) ->
  I (Z.min hi (i + block)) (for_block i hi block f s).
Proof. intros. unfold for_block. apply for_up_inv; auto. lia. Qed.

(** ** Multiplication by one *)
Lemma is_one_R {t} (a : F t) : is_one a = true -> is_finite a = true /\ B2R a = 1%R /\ Bsign a = false.
Proof.
  intros H. destruct (mkf_pow2 t 0 ltac:(destruct t; vm_compute; split; congruence)) as [F1 R1].
  unfold is_one, feq in H. cbn [bpow] in R1.
  assert (Fa : is_finite a = true).
  { destruct a as [s|s| |s m e He]; try reflexivity; revert F1 H; clear; generalize (mkf 1 0 : F t); intros b Fb Hb;
      destruct b as [sb|sb| |sb mb eb Hb']; try destruct s; try destruct sb; discriminate. }
  rewrite Beqb_correct in H by auto. destruct (Req_bool_spec (B2R a) (B2R (mkf 1 0 : F t))) as [E|]; try discriminate.
  assert (Ra : B2R a = 1%R) by (rewrite E; exact R1). split; auto. split; auto.
  destruct a as [s|s| |s m e He]; try reflexivity; try discriminate.
  - cbn in Ra. lra.
  - destruct s; auto. exfalso. assert (H0 : (B2R (B754_finite true m e He) <= 0)%R).
    { cbn [B2R]. apply F2R_le_0. cbn. lia. }
    unfold F in Ra. lra.
Qed.
Lemma fmul_one {t} (x a : F t) : is_one a = true -> fmul x a = x.
Proof.
  intros H. destruct (is_one_R a H) as (Fa & Ra & Sa).
  destruct (is_finite x) eqn:Fx.
  - pose proof (Bmult_correct _ _ (prec_gt_0 t) (prec_lt_emax t) mode_NE x a) as C. rewrite Ra, Rmult_1_r in C.
    rewrite round_generic in C; [|apply valid_rnd_round_mode|apply generic_format_B2R].
    rewrite Rlt_bool_true in C by apply abs_B2R_lt_emax. destruct C as (C1 & C2 & C3).
    rewrite Fx, Fa in C2. cbn in C2. fold (fmul x a) in C1, C2, C3.
    assert (NF : is_nan (fmul x a) = false) by (destruct (fmul x a); try discriminate; reflexivity).
    specialize (C3 NF). rewrite Sa, xorb_false_r in C3. apply B2R_Bsign_inj; auto.
  - destruct x as [s|s| |s m e He]; try discriminate; destruct a as [sa|sa| |sa ma ea Ha]; try discriminate; try reflexivity.
    + cbn in Ra. exfalso. lra.
    + cbn in Sa. subst sa. unfold fmul. cbn. now rewrite xorb_false_r.
Qed.

Section OUT.
  Context {t : ty} (fold : Z) (Hf : 2 <= fold <= MAXFOLD t).
  Context (I : Type) (dec : forall r r' : I, {r = r'} + {r <> r'}) (ok : I -> Prop) (ad : I -> Z).
  Context (AP : forall r r', ok r -> ok r' -> r <> r' -> apart (dbnum fold) (ad r) (ad r')).
  Context (us zs : I -> list (F t)) (tm : I -> Z -> F t) (K : Z).
  Context (FT : forall r k, ok r -> 0 <= k < K -> is_finite (tm r k) = true).
  Context (HC : forall r, ok r -> K + Z.of_nat (length (zs r)) <= capacity t).

  Definition taken r n := map (tm r) (zseq 0 n).
  Definition inv (c : I -> Z) (m : mem t) := forall r, ok r -> acc_at fold (us r) (taken r (c r) ++ zs r) m (ad r).
  Definition clear a := forall r, ok r -> ~ (ad r <= a < ad r + dbnum fold).

  Lemma acc_at_frame u z (m m' : mem t) Y : (forall a, Y <= a < Y + dbnum fold -> m' a = m a) ->
    acc_at fold u z m Y -> acc_at fold u z m' Y.
  Proof.
    intros E H. unfold acc_at in *. eapply holds_words_ext; [exact (ClientProofs.Hf2 fold Hf)| |exact H]. intros i Hi. split; apply E; unfold dbnum; lia.
  Qed.
  Lemma inv_ext c c' m : (forall r, ok r -> c r = c' r) -> inv c m -> inv c' m.
  Proof. intros E H r Hr. rewrite <- E by auto. auto. Qed.
  Lemma inv_frame c (m m' : mem t) : (forall r a, ok r -> ad r <= a < ad r + dbnum fold -> m' a = m a) ->
    inv c m -> inv c m'.
  Proof. intros E H r Hr. eapply acc_at_frame; [|exact (H r Hr)]. intros a Ha. eapply E; eauto. Qed.

  Lemma dot_step tu n P iP Q iQ r c c' (m : mem t) : tuned t tu -> 0 <= n -> ok r -> 0 <= c r -> c r + n <= K ->
    inv c m ->
    (forall k, 0 <= k < n -> clear (P + k * iP) /\ clear (Q + k * iQ) /\
       fmul (m (P + k * iP)) (m (Q + k * iQ)) = tm r (c r + k)) ->
    c' r = c r + n -> (forall r', ok r' -> r' <> r -> c' r' = c r') ->
    let m' := dbddot tu fold n P iP Q iQ (ad r) m in
    inv c' m' /\ (forall a, clear a -> m' a = m a).
  Proof.
    intros HT Hn Hr C0 C1 HI HD E1 E2 m'.
    assert (ET : terms Dot P iP Q iQ m n = map (tm r) (zseq (c r) n)).
    { unfold terms. rewrite (zseq_from0 (c r)), map_map. apply map_ext_in. intros k Hk. apply zseq_In in Hk.
      destruct (HD k ltac:(lia)) as (_ & _ & E). unfold term. rewrite E. f_equal. lia. }
    assert (ET' : taken r (c r + n) = taken r (c r) ++ map (tm r) (zseq (c r) n)).
    { unfold taken. rewrite zseq_app by lia. rewrite map_app. reflexivity. }
    destruct (reduce_fin fold Hf Dot tu n P iP Q iQ (ad r) m (us r) (taken r (c r) ++ zs r)) as [R1 R2]; auto.
    - intros k Hk. destruct (HD k Hk) as (Cl & _). apply Cl. exact Hr.
    - intros k Hk. destruct (HD k Hk) as (_ & Cl & _). apply Cl. exact Hr.
    - rewrite !app_length, terms_length. unfold taken. rewrite map_length, zseq_length. specialize (HC r Hr). lia.
    - rewrite ET. unfold all_finite. rewrite forallb_forall. intros x Hx. apply in_map_iff in Hx.
      destruct Hx as (k & <- & Hk). apply zseq_In in Hk. apply FT; auto. lia.
    - change (reduce Dot tu fold n P iP Q iQ (ad r) 1 (ad r + fold) 1 m) with m' in R1, R2. clearbody m'. split.
      + intros r' Hr'. destruct (dec r' r) as [-> | NE].
        * rewrite E1, ET'. eapply holds_perm; [reflexivity| |exact R1]. rewrite ET, app_assoc.
          apply Permutation_app_tail. apply Permutation_app_comm.
        * rewrite E2 by auto. eapply acc_at_frame; [|exact (HI r' Hr')]. intros a Ha. apply R2.
          specialize (AP r r' Hr Hr' ltac:(congruence)). unfold apart in AP. lia.
      + intros a Ha. apply R2. apply Ha. exact Hr.
  Qed.
End OUT.

Notation inR R := (fun r => 0 <= r < R).
(** The nest of dbdgemv: R outputs, K terms each. *)
Definition gemv_nest {t} (tu : tuning) (fold R K bi bk : Z) (prep : Z -> Z -> mem t -> mem t) (op : Z -> Z -> Z -> Z)
    (pX iX : Z) (ad : Z -> Z) (m : mem t) : mem t :=
  for_step 0 R bi (fun i m => for_step 0 K bk (fun j m =>
    let m := prep i j m in
    for_block i R bi (fun ii m =>
      dbddot tu fold (Z.min bk (K - j)) (op i j ii) 1 (pX + j * iX) iX (ad ii) m) m) m) m.
Section GEMV.
  Context {t : ty} (fold : Z) (Hf : 2 <= fold <= MAXFOLD t).
  Context (tu : tuning) (HT : tuned t tu) (R K bi bk : Z) (Hbi : 1 <= bi) (Hbk : 1 <= bk) (HK : 0 <= K).
  Context (ad : Z -> Z) (AP : forall r r', 0 <= r < R -> 0 <= r' < R -> r <> r' -> apart (dbnum fold) (ad r) (ad r')).
  Context (us zs : Z -> list (F t)) (Aval : Z -> Z -> F t) (Xval : Z -> F t).
  Let tm r k := fmul (Aval r k) (Xval k).
  Context (FT : forall r k, 0 <= r < R -> 0 <= k < K -> is_finite (tm r k) = true).
  Context (HC : forall r, 0 <= r < R -> K + Z.of_nat (length (zs r)) <= capacity t).
  Context (prep : Z -> Z -> mem t -> mem t) (op : Z -> Z -> Z -> Z) (pX iX : Z) (buf : Z -> Prop) (m1 : mem t).
  Let cl := clear fold Z (inR R) ad.
  Let iv := inv fold Z (inR R) ad us zs tm.
  Definition agree (m : mem t) := forall a, cl a -> ~ buf a -> m a = m1 a.
  Context (BC : forall a, buf a -> cl a).
  Context (HX : forall k, 0 <= k < K -> cl (pX + k * iX) /\ ~ buf (pX + k * iX) /\ m1 (pX + k * iX) = Xval k).
  Context (HO : forall i j ii k, 0 <= i < R -> 0 <= j < K -> i <= ii < Z.min R (i + bi) -> 0 <= k < Z.min bk (K - j) ->
    cl (op i j ii + k)).
  Context (HP : forall i j m, 0 <= i < R -> 0 <= j < K -> agree m ->
    (forall a, ~ buf a -> prep i j m a = m a) /\
    forall ii k, i <= ii < Z.min R (i + bi) -> 0 <= k < Z.min bk (K - j) -> prep i j m (op i j ii + k) = Aval ii (j + k)).

  Lemma gemv_nest_ok : iv (fun _ => 0) m1 ->
    let m' := gemv_nest tu fold R K bi bk prep op pX iX ad m1 in
    iv (fun _ => K) m' /\ agree m'.
  Proof.
    intros I0 m'.
    destruct (for_step_inv (fun i m => iv (fun r => if r <? i then K else 0) m /\ agree m)
      (fun i m => for_step 0 K bk (fun j m =>
        let m := prep i j m in
        for_block i R bi (fun ii m =>
          dbddot tu fold (Z.min bk (K - j)) (op i j ii) 1 (pX + j * iX) iX (ad ii) m) m) m) 0 R bi m1 Hbi)
      as (e & He & _ & G1 & G2).
    - split; [|intros a _ _; reflexivity]. eapply inv_ext; [|exact I0]. intros r Hr. cbv beta. destruct (Z.ltb_spec r 0); lia.
    - intros i m Hi _ (Im & Am).
      destruct (for_step_inv (fun j m => iv (fun r => if r <? i then K else if r <? i + bi then Z.min j K else 0) m /\ agree m)
        (fun j m =>
          let m := prep i j m in
          for_block i R bi (fun ii m =>
            dbddot tu fold (Z.min bk (K - j)) (op i j ii) 1 (pX + j * iX) iX (ad ii) m) m) 0 K bk m Hbk)
        as (e & He & _ & G1 & G2).
      + split; [|exact Am]. eapply inv_ext; [|exact Im]. intros r Hr. cbv beta.
        destruct (Z.ltb_spec r i), (Z.ltb_spec r (i + bi)); lia.
      + clear m Im Am. intros j m Hj _ (Im & Am). cbv zeta.
        destruct (HP i j m Hi Hj Am) as [P1 P2]. set (m2 := prep i j m) in *.
        assert (Im2 : iv (fun r => if r <? i then K else if r <? i + bi then Z.min j K else 0) m2).
        { eapply (inv_frame fold Hf); [|exact Im]. intros r a Hr Ha. apply P1. intros Ba. exact (BC a Ba r Hr Ha). }
        assert (Am2 : agree m2). { intros a Ca Ba. rewrite P1 by exact Ba. apply Am; auto. }
        clearbody m2. clear m Im Am P1.
        pose proof (for_block_inv (fun ii m =>
          iv (fun r => if r <? i then K else if r <? ii then Z.min (j + bk) K else if r <? i + bi then Z.min j K else 0) m /\
          forall a, cl a -> m a = m2 a)
          (fun ii m => dbddot tu fold (Z.min bk (K - j)) (op i j ii) 1 (pX + j * iX) iX (ad ii) m) i R bi m2 ltac:(lia) ltac:(lia)) as B.
        cbv beta in B. destruct B as [B1 B2].
        * split; [|reflexivity]. eapply inv_ext; [|exact Im2]. intros r Hr. cbv beta.
          destruct (Z.ltb_spec r i), (Z.ltb_spec r (i + bi)); lia.
        * intros ii m Hii (Im & Fm).
          destruct (dot_step fold Hf Z Z.eq_dec (inR R) ad AP us zs tm K FT HC tu (Z.min bk (K - j)) (op i j ii) 1 (pX + j * iX) iX ii
            (fun r => if r <? i then K else if r <? ii then Z.min (j + bk) K else if r <? i + bi then Z.min j K else 0)
            (fun r => if r <? i then K else if r <? ii + 1 then Z.min (j + bk) K else if r <? i + bi then Z.min j K else 0) m)
            as [D1 D2]; auto; try lia.
          -- destruct (Z.ltb_spec ii i), (Z.ltb_spec ii ii), (Z.ltb_spec ii (i + bi)); lia.
          -- destruct (Z.ltb_spec ii i), (Z.ltb_spec ii ii), (Z.ltb_spec ii (i + bi)); lia.
          -- intros k Hk. rewrite Z.mul_1_r.
             replace (pX + j * iX + k * iX) with (pX + (j + k) * iX) by lia.
             destruct (HX (j + k) ltac:(lia)) as (X1 & X2 & X3).
             assert (CO : cl (op i j ii + k)) by (apply HO; lia).
             split; [exact CO|]. split; [exact X1|].
             rewrite !Fm by auto. rewrite P2 by lia. rewrite Am2 by auto. rewrite X3.
             destruct (Z.ltb_spec ii i), (Z.ltb_spec ii ii), (Z.ltb_spec ii (i + bi)); try lia.
             rewrite Z.min_l by lia. reflexivity.
          -- cbv beta. destruct (Z.ltb_spec ii i), (Z.ltb_spec ii ii), (Z.ltb_spec ii (i + bi)), (Z.ltb_spec ii (ii + 1)); lia.
          -- intros r Hr NE. cbv beta. destruct (Z.ltb_spec r i), (Z.ltb_spec r ii), (Z.ltb_spec r (ii + 1)); lia.
          -- split; [exact D1|]. intros a Ca. rewrite D2 by exact Ca. apply Fm. exact Ca.
        * split.
          -- eapply inv_ext; [|exact B1]. intros r Hr. cbv beta.
             destruct (Z.ltb_spec r i), (Z.ltb_spec r (i + bi)), (Z.ltb_spec r (Z.min R (i + bi))); lia.
          -- intros a Ca Ba. rewrite B2 by exact Ca. apply Am2; auto.
      + split; [|exact G2]. eapply inv_ext; [|exact G1]. intros r Hr. cbv beta.
        destruct (Z.ltb_spec r i), (Z.ltb_spec r (i + bi)); lia.
    - split; [|exact G2]. eapply inv_ext; [|exact G1]. intros r Hr. cbv beta. destruct (Z.ltb_spec r e); lia.
  Qed.
End GEMV.

(** ** Buffer fills: which cells have been written *)
Section COVER.
  Context {t : ty} (rng : Z -> Z -> Prop) (adr : Z -> Z -> Z) (V : Z -> Z -> F t) (buf : Z -> Prop) (m0 : mem t).
  Context (IN : forall p q, rng p q -> buf (adr p q)).
  Context (INJ : forall p q p' q', rng p q -> rng p' q' -> adr p q = adr p' q' -> p = p' /\ q = q').
  Definition good (S : Z -> Z -> Prop) (m : mem t) :=
    (forall a, ~ buf a -> m a = m0 a) /\ forall p q, S p q -> rng p q -> m (adr p q) = V p q.
  Definition covers (f : mem t -> mem t) (B : Z -> Z -> Prop) :=
    forall S m, good S m -> good (fun p q => S p q \/ B p q) (f m).
  Lemma good_mono (S S' : Z -> Z -> Prop) m : good S m -> (forall p q, S' p q -> S p q) -> good S' m.
  Proof. intros (A & B) H. split; auto. Qed.
  Lemma covers_write a p q v : a = adr p q -> rng p q -> (forall m, (forall b, ~ buf b -> m b = m0 b) -> v m = V p q) ->
    covers (fun m => upd m a (v m)) (fun p' q' => p' = p /\ q' = q).
  Proof.
    intros -> Hr Hv S m (G1 & G2). split.
    - intros a Ha. rewrite upd_other; auto. intros ->. apply Ha. auto.
    - intros p' q' HS Hr'. destruct (Z.eq_dec (adr p' q') (adr p q)) as [E|NE].
      + destruct (INJ _ _ _ _ Hr' Hr E) as [-> ->]. rewrite upd_same. auto.
      + rewrite upd_other by auto. destruct HS as [HS|[-> ->]]; [auto|congruence].
  Qed.
  Lemma covers_for_up lo hi f (B : Z -> Z -> Z -> Prop) : (forall i, lo <= i < hi -> covers (f i) (B i)) ->
    covers (for_up lo hi f) (fun p q => exists i, lo <= i < hi /\ B i p q).
  Proof.
    intros H S m G. destruct (Z_le_gt_dec lo hi) as [L|L].
    - apply (for_up_inv (fun k m => good (fun p q => S p q \/ exists i, lo <= i < k /\ B i p q) m)); auto.
      + eapply good_mono; [exact G|]. intros p q [|(i & ? & _)]; [auto|lia].
      + intros k m' Hk G'. eapply good_mono; [apply (H k Hk); exact G'|]. cbv beta.
        intros p q [|(i & Hi & HB)]; [auto|]. destruct (Z.eq_dec i k) as [-> |]; [auto|]. left. right. exists i. split; auto. lia.
    - rewrite for_up_empty by lia. eapply good_mono; [exact G|]. intros p q [|(i & ? & _)]; [auto|lia].
  Qed.
  Lemma covers_for_block i hi block f (B : Z -> Z -> Z -> Prop) :
    (forall k, i <= k < Z.min hi (i + block) -> covers (f k) (B k)) ->
    covers (for_block i hi block f) (fun p q => exists k, i <= k < Z.min hi (i + block) /\ B k p q).
  Proof. apply covers_for_up. Qed.
  Lemma covers_for_step lo hi step f (B : Z -> Z -> Z -> Prop) : 1 <= step ->
    (forall i, lo <= i < hi -> (step | i - lo) -> covers (f i) (B i)) ->
    covers (for_step lo hi step f) (fun p q => exists i, lo <= i < hi /\ (step | i - lo) /\ B i p q).
  Proof.
    intros Hs H S m G.
    destruct (for_step_inv (fun k m => (step | k - lo) /\ good (fun p q => S p q \/ exists i, lo <= i < k /\ (step | i - lo) /\ B i p q) m) f lo hi step m Hs)
      as (e & He & _ & _ & G').
    - split; [exists 0; lia|]. eapply good_mono; [exact G|]. intros p q [|(i & ? & _)]; [auto|lia].
    - intros k m' Hk Dk (_ & G'). split; [destruct Dk as (z & Dk); exists (z + 1); lia|].
      eapply good_mono; [apply (H k Hk Dk); exact G'|]. cbv beta.
      intros p q [|(i & Hi & Di & HB)]; [auto|]. destruct (Z.eq_dec i k) as [-> |]; [auto|].
      left. right. exists i. split; [|auto]. destruct Dk as (z & Dk), Di as (z' & Di). assert (z' < z + 1) by nia. nia.
    - eapply good_mono; [exact G'|]. intros p q [|(i & Hi & Di & HB)]; [auto|]. right. exists i. split; [lia|auto].
  Qed.
End COVER.

(** A tile of T divides a block of size b, or covers it. *)
Definition tiles (T b : Z) : Prop := b <= T \/ (T | b).
Definition legal_gemv (b : gemv_blocks) : Prop :=
  1 <= y_block b <= xy_block b /\ 1 <= yt_block b <= xyt_block b /\ 1 <= t_block b /\
  tiles (t_block b) (yt_block b) /\ tiles (t_block b) (xt_block b).
Lemma block_div a b : 1 <= a <= b -> 1 <= b / a.
Proof. intros. apply Z.div_le_lower_bound; lia. Qed.

(** Every p < b is in a tile [z*T, z*T + min T b), and tiles stay below b. *)
Lemma tile_in T b x lo z k : 1 <= T -> tiles T b -> z * T < b -> 0 <= k < Z.min T b -> x = lo + z * T + k -> 0 <= z -> lo <= x < lo + b.
Proof.
  intros HT [L|(q & ->)] Hz Hk -> H0.
  - assert (z = 0) by nia. subst. lia.
  - assert (z < q) by nia. nia.
Qed.
Lemma tile_of T b x : 1 <= T -> 1 <= b -> 0 <= x < b -> exists z, 0 <= z /\ z * T <= x < z * T + Z.min T b.
Proof.
  intros HT Hb Hx. destruct (Z_le_gt_dec b T).
  - exists 0. lia.
  - exists (x / T). pose proof (Z.div_mod x T ltac:(lia)). pose proof (Z.mod_pos_bound x T ltac:(lia)).
    assert (0 <= x / T) by (apply Z.div_pos; lia). nia.
Qed.

Section FILL.
  Context {t : ty} (b : gemv_blocks) (LB : legal_gemv b) (M N A lda bufA i j : Z) (Hi : 0 <= i < N) (Hj : 0 <= j < M).
  Context (m : mem t).
  Let xt := xt_block b. Let yt := yt_block b.
  Let buf a := bufA <= a < bufA + xt * yt.
  Context (HA : forall r c, 0 <= r < M -> 0 <= c < N -> ~ buf (A + r * lda + c)).
  Lemma gemv_fill_ok : let m' := gemv_fill b M N A lda bufA i j m in
    (forall a, ~ buf a -> m' a = m a) /\
    forall ii k, i <= ii < Z.min N (i + yt) -> 0 <= k < Z.min xt (M - j) ->
      m' (bufA + (ii - i) * xt + k) = m (A + (j + k) * lda + ii).
  Proof.
    destruct LB as ((Y1 & Y2) & (Z1 & Z2) & T1 & TY & TX).
    assert (X1 : 1 <= xt) by (apply block_div; lia). fold yt in Z1, Z2, TY. fold xt in TX.
    set (rng := fun p q => 0 <= p < Z.min yt (N - i) /\ 0 <= q < Z.min xt (M - j)).
    set (adr := fun p q => bufA + p * xt + q).
    set (V := fun p q => m (A + (j + q) * lda + (i + p))).
    assert (IN : forall p q, rng p q -> buf (adr p q)) by (unfold rng, buf, adr; intros; nia).
    assert (INJ : forall p q p' q', rng p q -> rng p' q' -> adr p q = adr p' q' -> p = p' /\ q = q').
    { unfold rng, adr. intros p q p' q' H H' E. assert (p = p') by nia. subst. lia. }
    assert (C : covers rng adr V buf m (gemv_fill b M N A lda bufA i j)
      (fun p q => exists jj, j <= jj < Z.min M (j + xt) /\ (t_block b | jj - j) /\
        exists ii, i <= ii < Z.min N (i + yt) /\ (t_block b | ii - i) /\
        exists jjj, jj <= jjj < Z.min M (jj + Z.min (t_block b) xt) /\
        exists iii, ii <= iii < Z.min N (ii + Z.min (t_block b) yt) /\
        p = iii - i /\ q = jjj - j)).
    { unfold gemv_fill. fold xt yt. apply covers_for_step; [exact T1|]. intros jj Hjj (zj & Djj).
      apply covers_for_step; [exact T1|]. intros ii Hii (zi & Dii).
      apply covers_for_block. intros jjj Hjjj. apply covers_for_block. intros iii Hiii.
      assert (R : rng (iii - i) (jjj - j)).
      { pose proof (tile_in (t_block b) yt iii i zi (iii - ii) T1 TY ltac:(lia) ltac:(lia) ltac:(lia) ltac:(nia)).
        pose proof (tile_in (t_block b) xt jjj j zj (jjj - jj) T1 TX ltac:(lia) ltac:(lia) ltac:(lia) ltac:(nia)).
        unfold rng. lia. }
      apply covers_write; auto. intros m' Hm'. unfold V. replace (A + jjj * lda + iii) with (A + (j + (jjj - j)) * lda + (i + (iii - i))) by ring.
      apply Hm'. unfold rng in R. apply HA; lia. }
    intros m'. destruct (C (fun _ _ => False) m) as [G1 G2].
    - split; [auto|]. intros p q [].
    - fold m' in G1, G2. clearbody m'. split; [exact G1|]. intros ii k Hii Hk.
      specialize (G2 (ii - i) k). unfold adr, V in G2. rewrite G2.
      + do 2 f_equal. lia.
      + right.
        destruct (tile_of (t_block b) xt k T1 ltac:(lia) ltac:(lia)) as (zj & Hzj & Ej).
        destruct (tile_of (t_block b) yt (ii - i) T1 ltac:(lia) ltac:(lia)) as (zi & Hzi & Ei).
        exists (j + zj * t_block b). split; [lia|]. split; [exists zj; lia|].
        exists (i + zi * t_block b). split; [lia|]. split; [exists zi; lia|].
        exists (j + k). split; [lia|]. exists ii. split; lia.
      + unfold rng. lia.
  Qed.
End FILL.

(** ** The nest of dbdgemm *)
Lemma pair_dec : forall r r' : Z * Z, {r = r'} + {r <> r'}.
Proof. decide equality; apply Z.eq_dec. Qed.
Section GEMM.
  Context {t : ty} (fold : Z) (Hf : 2 <= fold <= MAXFOLD t).
  Context (tu : tuning) (HT : tuned t tu) (by_rows : bool) (M N K bi bj bk : Z).
  Context (Hbi : 1 <= bi) (Hbj : 1 <= bj) (Hbk : 1 <= bk) (HK : 0 <= K).
  Context (C ldc : Z).
  Let ok (r : Z * Z) := 0 <= fst r < M /\ 0 <= snd r < N.
  Let ad (r : Z * Z) := C + (if by_rows then fst r * ldc + snd r else snd r * ldc + fst r) * dbnum fold.
  Context (AP : forall r r', ok r -> ok r' -> r <> r' -> apart (dbnum fold) (ad r) (ad r')).
  Context (us zs : Z * Z -> list (F t)) (Aval Bval : Z -> Z -> F t).
  Let tm (r : Z * Z) k := fmul (Aval (fst r) k) (Bval k (snd r)).
  Context (FT : forall r k, ok r -> 0 <= k < K -> is_finite (tm r k) = true).
  Context (HC : forall r, ok r -> K + Z.of_nat (length (zs r)) <= capacity t).
  Context (prep : Z -> Z -> Z -> mem t -> mem t) (opA opB : Z -> Z -> Z -> Z -> Z) (buf : Z -> Prop) (m1 : mem t).
  Let cl := clear fold (Z * Z) ok ad.
  Let iv := inv fold (Z * Z) ok ad us zs tm.
  Definition magree (m : mem t) := forall a, cl a -> ~ buf a -> m a = m1 a.
  Context (BC : forall a, buf a -> cl a).
  Context (HOA : forall i j k ii q, 0 <= i < M -> 0 <= j < N -> 0 <= k < K -> i <= ii < Z.min M (i + bi) ->
    0 <= q < Z.min bk (K - k) -> cl (opA i j k ii + q)).
  Context (HOB : forall i j k jj q, 0 <= i < M -> 0 <= j < N -> 0 <= k < K -> j <= jj < Z.min N (j + bj) ->
    0 <= q < Z.min bk (K - k) -> cl (opB i j k jj + q)).
  Context (HP : forall i j k m, 0 <= i < M -> 0 <= j < N -> 0 <= k < K -> magree m ->
    (forall a, ~ buf a -> prep i j k m a = m a) /\
    (forall ii q, i <= ii < Z.min M (i + bi) -> 0 <= q < Z.min bk (K - k) -> prep i j k m (opA i j k ii + q) = Aval ii (k + q)) /\
    (forall jj q, j <= jj < Z.min N (j + bj) -> 0 <= q < Z.min bk (K - k) -> prep i j k m (opB i j k jj + q) = Bval (k + q) jj)).

  (** The inner double loop, either order. *)
  Let base i j k (r : Z * Z) := if fst r <? i then K else if fst r <? i + bi then
    (if snd r <? j then K else if snd r <? j + bj then Z.min k K else 0) else 0.
  Let part i j k (D : Z -> Z -> bool) (r : Z * Z) :=
    if ((i <=? fst r) && (fst r <? i + bi) && (j <=? snd r) && (snd r <? j + bj)) && D (fst r) (snd r)
    then Z.min (k + bk) K else base i j k r.
  Let dot i j k ii jj (m : mem t) := dbddot tu fold (Z.min bk (K - k)) (opA i j k ii) 1 (opB i j k jj) 1
      (C + (if by_rows then ii * ldc + jj else jj * ldc + ii) * dbnum fold) m.

  Lemma gemm_dot i j k (m2 m : mem t) ii jj D D' :
    0 <= i < M -> 0 <= j < N -> 0 <= k < K ->
    i <= ii < Z.min M (i + bi) -> j <= jj < Z.min N (j + bj) ->
    (forall ii q, i <= ii < Z.min M (i + bi) -> 0 <= q < Z.min bk (K - k) -> m2 (opA i j k ii + q) = Aval ii (k + q)) ->
    (forall jj q, j <= jj < Z.min N (j + bj) -> 0 <= q < Z.min bk (K - k) -> m2 (opB i j k jj + q) = Bval (k + q) jj) ->
    (iv (part i j k D) m /\ forall a, cl a -> m a = m2 a) ->
    D ii jj = false -> D' ii jj = true ->
    (forall a b, i <= a < Z.min M (i + bi) -> j <= b < Z.min N (j + bj) -> a <> ii \/ b <> jj -> D' a b = D a b) ->
    iv (part i j k D') (dot i j k ii jj m) /\ forall a, cl a -> dot i j k ii jj m a = m2 a.
  Proof.
    intros Hi Hj Hk Hii Hjj PA PB (Im & Fm) D0 D1 DE.
    assert (Cr : part i j k D (ii, jj) = k).
    { unfold part, base. cbn [fst snd]. rewrite D0, andb_false_r.
      destruct (Z.ltb_spec ii i), (Z.ltb_spec ii (i + bi)), (Z.ltb_spec jj j), (Z.ltb_spec jj (j + bj)); lia. }
    destruct (dot_step fold Hf (Z * Z) pair_dec ok ad AP us zs tm K FT HC tu (Z.min bk (K - k)) (opA i j k ii) 1 (opB i j k jj) 1
      (ii, jj) (part i j k D) (part i j k D') m) as [E1 E2]; auto; try lia.
    - split; cbn [fst snd]; lia.
    - intros q Hq. rewrite Cr, !Z.mul_1_r.
      assert (CA : cl (opA i j k ii + q)) by (apply HOA; lia). assert (CB : cl (opB i j k jj + q)) by (apply HOB; lia).
      split; [exact CA|]. split; [exact CB|]. rewrite !Fm by auto. rewrite PA, PB by lia. reflexivity.
    - rewrite Cr. unfold part. cbn [fst snd]. rewrite D1.
      destruct (Z.leb_spec i ii), (Z.ltb_spec ii (i + bi)), (Z.leb_spec j jj), (Z.ltb_spec jj (j + bj)); cbn [andb]; lia.
    - intros (a, b) (Ha & Hb) NE. cbn [fst snd] in Ha, Hb. unfold part. cbn [fst snd].
      destruct (Z.leb_spec i a), (Z.ltb_spec a (i + bi)), (Z.leb_spec j b), (Z.ltb_spec b (j + bj)); cbn [andb]; auto.
      rewrite DE; auto; try lia. destruct (Z.eq_dec a ii), (Z.eq_dec b jj); auto. subst. congruence.
    - split; [exact E1|]. intros a Ca. etransitivity; [apply E2; exact Ca|apply Fm; exact Ca].
  Qed.
  Lemma part_done i j k (D : Z -> Z -> bool) c r : ok r -> 0 <= i -> 0 <= j ->
    (forall a b, i <= a < Z.min M (i + bi) -> j <= b < Z.min N (j + bj) -> D a b = c) ->
    part i j k D r = if c then base i j (k + bk) r else base i j k r.
  Proof.
    intros (Ha & Hb) Hi Hj H. destruct r as (a, b). unfold part, base. cbn [fst snd] in *.
    destruct (Z.leb_spec i a), (Z.ltb_spec a (i + bi)), (Z.leb_spec j b), (Z.ltb_spec b (j + bj)); cbn [andb];
      try (rewrite H by lia); destruct c; auto;
      destruct (Z.ltb_spec a i), (Z.ltb_spec b j); lia.
  Qed.
  Lemma gemm_inner i j k (m2 : mem t) : 0 <= i < M -> 0 <= j < N -> 0 <= k < K ->
    (forall ii q, i <= ii < Z.min M (i + bi) -> 0 <= q < Z.min bk (K - k) -> m2 (opA i j k ii + q) = Aval ii (k + q)) ->
    (forall jj q, j <= jj < Z.min N (j + bj) -> 0 <= q < Z.min bk (K - k) -> m2 (opB i j k jj + q) = Bval (k + q) jj) ->
    iv (base i j k) m2 ->
    let m' := if by_rows
      then for_block i M bi (fun ii m => for_block j N bj (fun jj m => dot i j k ii jj m) m) m2
      else for_block j N bj (fun jj m => for_block i M bi (fun ii m => dot i j k ii jj m) m) m2 in
    iv (base i j (k + bk)) m' /\ forall a, cl a -> m' a = m2 a.
  Proof.
    intros Hi Hj Hk PA PB I0.
    assert (H : forall (D0 D1 : Z -> Z -> bool) m',
      (iv (part i j k D0) m2 /\ (forall a, cl a -> m2 a = m2 a) -> iv (part i j k D1) m' /\ forall a, cl a -> m' a = m2 a) ->
      (forall a b, i <= a < Z.min M (i + bi) -> j <= b < Z.min N (j + bj) -> D0 a b = false) ->
      (forall a b, i <= a < Z.min M (i + bi) -> j <= b < Z.min N (j + bj) -> D1 a b = true) ->
      iv (base i j (k + bk)) m' /\ forall a, cl a -> m' a = m2 a).
    { intros D0 D1 m' H1 H2 H3. destruct H1 as [A B].
      - split; [|reflexivity]. eapply inv_ext; [|exact I0]. intros r Hr. symmetry. apply (part_done i j k D0 false r Hr); auto; lia.
      - split; [|exact B]. eapply inv_ext; [|exact A]. intros r Hr. apply (part_done i j k D1 true r Hr); auto; lia. }
    cbv zeta. case by_rows.
    - apply (H (fun a b => a <? i) (fun a b => a <? Z.min M (i + bi))); [|intros; apply Z.ltb_ge; lia|intros; apply Z.ltb_lt; lia].
      intros G0. apply (for_block_inv (fun ii m => iv (part i j k (fun a b => a <? ii)) m /\ forall a, cl a -> m a = m2 a)); auto; try lia.
      intros ii m Hii G.
      assert (G' : iv (part i j k (fun a b => (a <? ii) || (a =? ii) && (b <? Z.min N (j + bj)))) (for_block j N bj (fun jj m => dot i j k ii jj m) m) /\
        forall a, cl a -> for_block j N bj (fun jj m => dot i j k ii jj m) m a = m2 a).
      { apply (for_block_inv (fun jj m => iv (part i j k (fun a b => (a <? ii) || (a =? ii) && (b <? jj))) m /\ forall a, cl a -> m a = m2 a)); auto; try lia.
        - destruct G as [G1 G2]. split; [|exact G2]. eapply inv_ext; [|exact G1]. intros (a, b) Hr. unfold part. cbn [fst snd].
          destruct (Z.leb_spec i a), (Z.ltb_spec a (i + bi)), (Z.leb_spec j b), (Z.ltb_spec b (j + bj)); cbn [andb]; auto.
          replace (b <? j) with false by (symmetry; apply Z.ltb_ge; lia). now rewrite andb_false_r, orb_false_r.
        - intros jj m' Hjj G'. apply (gemm_dot i j k m2 m' ii jj (fun a b => (a <? ii) || (a =? ii) && (b <? jj))
            (fun a b => (a <? ii) || (a =? ii) && (b <? jj + 1)) Hi Hj Hk Hii Hjj PA PB G').
          + rewrite Z.ltb_irrefl, Z.eqb_refl, Z.ltb_irrefl. reflexivity.
          + rewrite Z.eqb_refl. replace (jj <? jj + 1) with true by (symmetry; apply Z.ltb_lt; lia). apply orb_true_r.
          + intros a b Ha Hb NE. destruct (Z.ltb_spec a ii), (Z.eqb_spec a ii), (Z.ltb_spec b (jj + 1)), (Z.ltb_spec b jj); cbn; auto; lia. }
      destruct G' as [G1 G2]. split; [|exact G2]. eapply inv_ext; [|exact G1]. intros (a, b) Hr. unfold part. cbn [fst snd].
      destruct Hr as (Ra & Rb). cbn [fst snd] in Ra, Rb.
      destruct (Z.leb_spec i a), (Z.ltb_spec a (i + bi)), (Z.leb_spec j b), (Z.ltb_spec b (j + bj)); cbn [andb]; auto.
      destruct (Z.ltb_spec a ii), (Z.eqb_spec a ii), (Z.ltb_spec b (Z.min N (j + bj))), (Z.ltb_spec a (ii + 1)); cbn; auto; lia.
    - apply (H (fun a b => b <? j) (fun a b => b <? Z.min N (j + bj))); [|intros; apply Z.ltb_ge; lia|intros; apply Z.ltb_lt; lia].
      intros G0. apply (for_block_inv (fun jj m => iv (part i j k (fun a b => b <? jj)) m /\ forall a, cl a -> m a = m2 a)); auto; try lia.
      intros jj m Hjj G.
      assert (G' : iv (part i j k (fun a b => (b <? jj) || (b =? jj) && (a <? Z.min M (i + bi)))) (for_block i M bi (fun ii m => dot i j k ii jj m) m) /\
        forall a, cl a -> for_block i M bi (fun ii m => dot i j k ii jj m) m a = m2 a).
      { apply (for_block_inv (fun ii m => iv (part i j k (fun a b => (b <? jj) || (b =? jj) && (a <? ii))) m /\ forall a, cl a -> m a = m2 a)); auto; try lia.
        - destruct G as [G1 G2]. split; [|exact G2]. eapply inv_ext; [|exact G1]. intros (a, b) Hr. unfold part. cbn [fst snd].
          destruct (Z.leb_spec i a), (Z.ltb_spec a (i + bi)), (Z.leb_spec j b), (Z.ltb_spec b (j + bj)); cbn [andb]; auto.
          replace (a <? i) with false by (symmetry; apply Z.ltb_ge; lia). now rewrite andb_false_r, orb_false_r.
        - intros ii m' Hii G'. apply (gemm_dot i j k m2 m' ii jj (fun a b => (b <? jj) || (b =? jj) && (a <? ii))
            (fun a b => (b <? jj) || (b =? jj) && (a <? ii + 1)) Hi Hj Hk Hii Hjj PA PB G').
          + rewrite Z.ltb_irrefl, Z.eqb_refl, Z.ltb_irrefl. reflexivity.
          + rewrite Z.eqb_refl. replace (ii <? ii + 1) with true by (symmetry; apply Z.ltb_lt; lia). apply orb_true_r.
          + intros a b Ha Hb NE. destruct (Z.ltb_spec b jj), (Z.eqb_spec b jj), (Z.ltb_spec a (ii + 1)), (Z.ltb_spec a ii); cbn; auto; lia. }
      destruct G' as [G1 G2]. split; [|exact G2]. eapply inv_ext; [|exact G1]. intros (a, b) Hr. unfold part. cbn [fst snd].
      destruct Hr as (Ra & Rb). cbn [fst snd] in Ra, Rb.
      destruct (Z.leb_spec i a), (Z.ltb_spec a (i + bi)), (Z.leb_spec j b), (Z.ltb_spec b (j + bj)); cbn [andb]; auto.
      destruct (Z.ltb_spec b jj), (Z.eqb_spec b jj), (Z.ltb_spec a (Z.min M (i + bi))), (Z.ltb_spec b (jj + 1)); cbn; auto; lia.
  Qed.

  Lemma gemm_nest_ok : iv (fun _ => 0) m1 ->
    let m' := gemm_nest tu by_rows fold M N K bi bj bk prep opA opB C ldc m1 in
    iv (fun _ => K) m' /\ magree m'.
  Proof.
    intros I0 m'. unfold gemm_nest in m'.
    destruct (for_step_inv (fun i m => iv (fun r => if fst r <? i then K else 0) m /\ magree m)
      (fun i m => for_step 0 N bj (fun j m => for_step 0 K bk (fun k m =>
        let m := prep i j k m in
        if by_rows
        then for_block i M bi (fun ii m => for_block j N bj (fun jj m => dot i j k ii jj m) m) m
        else for_block j N bj (fun jj m => for_block i M bi (fun ii m => dot i j k ii jj m) m) m) m) m) 0 M bi m1 Hbi)
      as (e & He & _ & G1 & G2).
    - split; [|intros a _ _; reflexivity]. eapply inv_ext; [|exact I0]. intros (a, b) (Ha & _). cbn [fst snd] in *. destruct (Z.ltb_spec a 0); lia.
    - intros i m Hi _ (Im & Am).
      destruct (for_step_inv (fun j m => iv (fun r => if fst r <? i then K else if fst r <? i + bi then (if snd r <? j then K else 0) else 0) m /\ magree m)
        (fun j m => for_step 0 K bk (fun k m =>
        let m := prep i j k m in
        if by_rows
        then for_block i M bi (fun ii m => for_block j N bj (fun jj m => dot i j k ii jj m) m) m
        else for_block j N bj (fun jj m => for_block i M bi (fun ii m => dot i j k ii jj m) m) m) m) 0 N bj m Hbj)
        as (e & He & _ & G1 & G2).
      + split; [|exact Am]. eapply inv_ext; [|exact Im]. intros (a, b) (Ha & Hb). cbn [fst snd] in *.
        destruct (Z.ltb_spec a i), (Z.ltb_spec a (i + bi)), (Z.ltb_spec b 0); lia.
      + clear m Im Am. intros j m Hj _ (Im & Am).
        destruct (for_step_inv (fun k m => iv (base i j k) m /\ magree m)
          (fun k m =>
          let m := prep i j k m in
          if by_rows
          then for_block i M bi (fun ii m => for_block j N bj (fun jj m => dot i j k ii jj m) m) m
          else for_block j N bj (fun jj m => for_block i M bi (fun ii m => dot i j k ii jj m) m) m) 0 K bk m Hbk)
          as (e & He & _ & G1 & G2).
        * split; [|exact Am]. eapply inv_ext; [|exact Im]. intros (a, b) (Ha & Hb). unfold base. cbn [fst snd] in *.
          destruct (Z.ltb_spec a i), (Z.ltb_spec a (i + bi)), (Z.ltb_spec b j), (Z.ltb_spec b (j + bj)); lia.
        * clear m Im Am. intros k m Hk _ (Im & Am). cbv zeta.
          destruct (HP i j k m Hi Hj Hk Am) as (P1 & P2 & P3). set (m2 := prep i j k m) in *.
          assert (Im2 : iv (base i j k) m2).
          { eapply (inv_frame fold Hf); [|exact Im]. intros r a Hr Ha. apply P1. intros Ba. exact (BC a Ba r Hr Ha). }
          assert (Am2 : magree m2). { intros a Ca Ba. rewrite P1 by exact Ba. apply Am; auto. }
          clearbody m2. clear m Im Am P1.
          destruct (gemm_inner i j k m2 Hi Hj Hk P2 P3 Im2) as [B1 B2].
          split; [exact B1|]. intros a Ca Ba. rewrite B2 by exact Ca. apply Am2; auto.
        * split; [|exact G2]. eapply inv_ext; [|exact G1]. intros (a, b) (Ha & Hb). unfold base. cbn [fst snd] in *.
          destruct (Z.ltb_spec a i), (Z.ltb_spec a (i + bi)), (Z.ltb_spec b j), (Z.ltb_spec b (j + bj)); lia.
      + split; [|exact G2]. eapply inv_ext; [|exact G1]. intros (a, b) (Ha & Hb). cbn [fst snd] in *.
        destruct (Z.ltb_spec a i), (Z.ltb_spec a (i + bi)), (Z.ltb_spec b e); lia.
    - split; [|exact G2]. eapply inv_ext; [|exact G1]. intros (a, b) (Ha & Hb). cbn [fst snd] in *. destruct (Z.ltb_spec a e); lia.
  Qed.
End GEMM.

(** ** dbdgemv *)
Lemma scale_vector_ok {t} n (alpha : F t) X incX bufX (m : mem t) :
  (forall j, 0 <= j < n -> ~ within bufX n (X + j * incX)) ->
  let '(pX, iX, m1) := scale_vector n alpha X incX bufX m in
  (forall a, ~ within bufX n a -> m1 a = m a) /\
  (forall j, 0 <= j < n -> m1 (pX + j * iX) = fmul (m (X + j * incX)) alpha /\
     (pX + j * iX = X + j * incX \/ within bufX n (pX + j * iX))).
Proof.
  intros HX. unfold scale_vector. destruct (is_one alpha) eqn:E1.
  - split; auto. intros j Hj. split; auto. symmetry. apply fmul_one. exact E1.
  - destruct (Z_le_gt_dec 0 n) as [L|L].
    2:{ rewrite for_up_empty by lia. split; auto. intros; lia. }
    pose proof (for_up_inv (fun k m1 => (forall a, ~ within bufX n a -> m1 a = m a) /\
      forall j, 0 <= j < k -> m1 (bufX + j) = fmul (m (X + j * incX)) alpha)
      (fun j m => upd m (bufX + j) (fmul (m (X + j * incX)) alpha)) 0 n m L) as G. cbv beta in G.
    destruct G as [G1 G2].
    + split; auto. intros; lia.
    + intros k m' Hk (G1 & G2). split.
      * intros a Ha. rewrite upd_other; auto. unfold within in Ha. lia.
      * intros j Hj. destruct (Z.eq_dec j k) as [-> |].
        -- rewrite upd_same, G1; auto.
        -- rewrite upd_other by lia. apply G2. lia.
    + split; [exact G1|]. intros j Hj. rewrite Z.mul_1_r. split; [now apply G2|]. right. unfold within. lia.
Qed.
Section TOPV.
  Context {t : ty} (fold : Z) (Hf : 2 <= fold <= MAXFOLD t).
  Context (tu : tuning) (HT : tuned t tu) (b : gemv_blocks) (LB : legal_gemv b).
  Context (R K : Z) (HK : 0 <= K) (alpha : F t) (X incX Y incY bufX bufA : Z) (el : Z -> Z -> Z) (m : mem t).
  Let lenA := xt_block b * yt_block b.
  Let touched := gemv_touched fold R Y incY bufX K bufA lenA.
  Context (NY : incY <> 0) (HA : forall i j, 0 <= i < R -> 0 <= j < K -> ~ touched (el i j)).
  Context (HX : forall j, 0 <= j < K -> ~ touched (X + j * incX)).
  Context (DXA : forall a, within bufX K a -> ~ within bufA lenA a).
  Context (DB : forall a i, within bufX K a \/ within bufA lenA a -> 0 <= i < R -> ~ within (y_at fold Y incY i) (dbnum fold) a).
  Context (us zs : Z -> list (F t)).
  Let tm i j := fmul (m (el i j)) (fmul (m (X + j * incX)) alpha).
  Context (FT : forall i j, 0 <= i < R -> 0 <= j < K -> is_finite (tm i j) = true).
  Context (HC : forall i, 0 <= i < R -> K + Z.of_nat (length (zs i)) <= capacity t).
  Context (H0 : forall i, 0 <= i < R -> acc_at fold (us i) (zs i) m (y_at fold Y incY i)).

  Lemma y_apart r r' : 0 <= r < R -> 0 <= r' < R -> r <> r' -> apart (dbnum fold) (y_at fold Y incY r) (y_at fold Y incY r').
  Proof. intros Hr Hr' NE. unfold apart, y_at, dbnum. assert (r * incY + 1 <= r' * incY \/ r' * incY + 1 <= r * incY) by nia. nia. Qed.
  Let cl := clear fold Z (fun r => 0 <= r < R) (y_at fold Y incY).
  Lemma untouched_clear a : ~ touched a -> cl a.
  Proof. intros H r Hr Hw. apply H. left. exists r. split; auto. Qed.
  Lemma bufs_clear a : within bufX K a \/ within bufA lenA a -> cl a.
  Proof. intros H r Hr Hw. exact (DB a r H Hr Hw). Qed.
  Definition result (m' : mem t) := 
    (forall i, 0 <= i < R -> acc_at fold (us i) (map (tm i) (zseq 0 K) ++ zs i) m' (y_at fold Y incY i)) /\
    (forall a, ~ touched a -> m' a = m a).
  Lemma start_inv (m1 : mem t) : (forall a, ~ within bufX K a -> m1 a = m a) ->
    inv fold Z (fun r => 0 <= r < R) (y_at fold Y incY) us zs tm (fun _ => 0) m1.
  Proof.
    intros E r Hr. unfold taken. rewrite zseq_nil by lia. cbn [map app].
    eapply (acc_at_frame fold Hf); [|exact (H0 r Hr)]. intros a Ha. apply E. intros Hw. exact (DB a r (or_introl Hw) Hr Ha).
  Qed.
  Lemma notrans_ok A lda : (forall i j, 0 <= i < R -> 0 <= j < K -> el i j = A + i * lda + j) ->
    result (gemv_notrans tu b fold R K alpha A lda X incX Y incY bufX m).
  Proof.
    intros EL. unfold gemv_notrans.
    assert (HX' : forall j, 0 <= j < K -> ~ within bufX K (X + j * incX)).
    { intros j Hj Hw. apply (HX j Hj). right. left. exact Hw. }
    pose proof (scale_vector_ok K alpha X incX bufX m HX') as SV.
    destruct (scale_vector K alpha X incX bufX m) as [[pX iX] m1]. destruct SV as [S1 S2].
    destruct LB as ((Y1 & Y2) & _). assert (X1 : 1 <= x_block b) by (apply block_div; lia).
    destruct (gemv_nest_ok fold Hf tu HT R K (y_block b) (x_block b) Y1 X1 HK (y_at fold Y incY) y_apart
      us zs (fun i j => m (el i j)) (fun j => fmul (m (X + j * incX)) alpha) FT HC
      (fun i j m => m) (fun i j ii => A + ii * lda + j) pX iX (fun _ => False) m1) as [G1 G2].
    - intros a [].
    - intros k Hk. destruct (S2 k Hk) as [S3 S4]. split; [|auto]. destruct S4 as [-> |S4].
      + apply untouched_clear. auto.
      + apply bufs_clear. auto.
    - intros i j ii k Hi Hj Hii Hk. apply untouched_clear. rewrite <- Z.add_assoc, <- EL by lia. apply HA; lia.
    - intros i j m2 Hi Hj Ag. split; auto. intros ii k Hii Hk.
      rewrite <- Z.add_assoc, <- EL by lia. unfold agree in Ag. assert (NT : ~ touched (el ii (j + k))) by (apply HA; lia).
      rewrite Ag; [|apply untouched_clear; exact NT|auto]. apply S1. intros Hw. apply NT. right. left. exact Hw.
    - apply start_inv. exact S1.
    - split; [exact G1|]. intros a Ha. etransitivity; [apply G2; [apply untouched_clear; exact Ha|auto]|].
      apply S1. intros Hw. apply Ha. right. left. exact Hw.
  Qed.
  Lemma trans_ok A lda : (forall i j, 0 <= i < R -> 0 <= j < K -> el i j = A + j * lda + i) ->
    result (gemv_trans tu b fold K R alpha A lda X incX Y incY bufX bufA m).
  Proof.
    intros EL. unfold gemv_trans.
    assert (HX' : forall j, 0 <= j < K -> ~ within bufX K (X + j * incX)).
    { intros j Hj Hw. apply (HX j Hj). right. left. exact Hw. }
    pose proof (scale_vector_ok K alpha X incX bufX m HX') as SV.
    destruct (scale_vector K alpha X incX bufX m) as [[pX iX] m1]. destruct SV as [S1 S2].
    assert (LB' := LB). destruct LB' as (_ & (Z1 & Z2) & _). assert (X1 : 1 <= xt_block b) by (apply block_div; lia).
    destruct (gemv_nest_ok fold Hf tu HT R K (yt_block b) (xt_block b) Z1 X1 HK (y_at fold Y incY) y_apart
      us zs (fun i j => m (el i j)) (fun j => fmul (m (X + j * incX)) alpha) FT HC
      (fun i j m => gemv_fill b K R A lda bufA i j m) (fun i j ii => bufA + (ii - i) * xt_block b) pX iX (within bufA lenA) m1) as [G1 G2].
    - intros a Ha. apply bufs_clear. auto.
    - intros k Hk. destruct (S2 k Hk) as [S3 S4]. split; [|split; [|auto]]; destruct S4 as [-> |S4].
      + apply untouched_clear. auto.
      + apply bufs_clear. auto.
      + intros Hw. apply (HX k Hk). right. right. exact Hw.
      + apply DXA. exact S4.
    - intros i j ii k Hi Hj Hii Hk. apply bufs_clear. right. unfold within, lenA. nia.
    - intros i j m2 Hi Hj Ag.
      assert (NB : forall r c, 0 <= r < K -> 0 <= c < R -> ~ (bufA <= A + r * lda + c < bufA + xt_block b * yt_block b)).
      { intros r c Hr Hc Hw. rewrite <- EL in Hw by lia. apply (HA c r Hc Hr). right. right. exact Hw. }
      destruct (gemv_fill_ok b LB K R A lda bufA i j ltac:(lia) ltac:(lia) m2 NB) as [F1 F2].
      split; [exact F1|]. intros ii k Hii Hk. etransitivity; [apply F2; lia|]. rewrite <- EL by lia.
      assert (NT : ~ touched (el ii (j + k))) by (apply HA; lia). unfold agree in Ag.
      rewrite Ag; [|apply untouched_clear; exact NT|intros Hw; apply NT; right; right; exact Hw].
      apply S1. intros Hw. apply NT. right. left. exact Hw.
    - apply start_inv. exact S1.
    - split; [exact G1|]. intros a Ha. etransitivity.
      + apply G2; [apply untouched_clear; exact Ha|]. intros Hw. apply Ha. right. right. exact Hw.
      + apply S1. intros Hw. apply Ha. right. left. exact Hw.
  Qed.
End TOPV.

(** ** dbdgemm *)
Definition legal_gemm (b : gemm_blocks) : Prop := 1 <= my_block b <= mxy_block b /\ 1 <= myt_block b <= mxyt_block b.
Lemma times_mul {t} (alpha x : F t) : times alpha x = fmul x alpha.
Proof. unfold times. destruct (is_one alpha) eqn:E; auto. symmetry. now apply fmul_one. Qed.
Lemma scale_matrix_ok {t} M K (alpha : F t) A lda bufA len (m : mem t) : 0 <= M -> 0 <= K -> M * K <= len ->
  (forall i k, 0 <= i < M -> 0 <= k < K -> ~ within bufA len (A + i * lda + k)) ->
  let '(pA, ld, m1) := scale_matrix M K alpha A lda bufA m in
  (forall a, ~ within bufA len a -> m1 a = m a) /\
  (forall i k, 0 <= i < M -> 0 <= k < K -> m1 (pA + i * ld + k) = fmul (m (A + i * lda + k)) alpha /\
     (pA + i * ld + k = A + i * lda + k \/ within bufA len (pA + i * ld + k))).
Proof.
  intros HM HK HL HA. unfold scale_matrix. destruct (is_one alpha) eqn:E1.
  - split; auto. intros i k Hi Hk. split; auto. symmetry. apply fmul_one. exact E1.
  - pose proof (for_up_inv (fun n m1 => (forall a, ~ within bufA len a -> m1 a = m a) /\
      forall i k, 0 <= i < n -> 0 <= k < K -> m1 (bufA + i * K + k) = fmul (m (A + i * lda + k)) alpha)
      (fun i m => for_up 0 K (fun k m => upd m (bufA + (i * K + k)) (fmul (m (A + (i * lda + k))) alpha)) m) 0 M m HM) as G.
    cbv beta in G. destruct G as [G1 G2].
    + split; auto. intros; lia.
    + intros i m' Hi (G1 & G2).
      pose proof (for_up_inv (fun n m1 => (forall a, ~ within bufA len a -> m1 a = m a) /\
        (forall i' k, 0 <= i' < i -> 0 <= k < K -> m1 (bufA + i' * K + k) = fmul (m (A + i' * lda + k)) alpha) /\
        (forall k, 0 <= k < n -> m1 (bufA + i * K + k) = fmul (m (A + i * lda + k)) alpha))
        (fun k m => upd m (bufA + (i * K + k)) (fmul (m (A + (i * lda + k))) alpha)) 0 K m' HK) as G.
      cbv beta in G. destruct G as (G3 & G4 & G5).
      * split; auto. split; auto. intros; lia.
      * intros k m2 Hk (G3 & G4 & G5). split; [|split].
        -- intros a Ha. rewrite upd_other; auto. unfold within in Ha. nia.
        -- intros i' k' Hi' Hk'. rewrite upd_other; [apply G4; lia|]. nia.
        -- intros k' Hk'. destruct (Z.eq_dec k' k) as [-> |].
           ++ rewrite !Z.add_assoc, upd_same, G3; auto.
           ++ rewrite upd_other by lia. apply G5. lia.
      * split; [exact G3|]. intros i' k Hi' Hk. destruct (Z.eq_dec i' i) as [-> |]; [apply G5; lia|apply G4; lia].
    + split; [exact G1|]. intros i k Hi Hk. split; [now apply G2|]. right. unfold within. nia.
Qed.
Lemma gemm_fill_ok {t} (f : F t -> F t) J K yt xt B ld buf j k (m : mem t) : 1 <= yt -> 1 <= xt -> 0 <= j < J -> 0 <= k < K ->
  (forall jj kk, 0 <= jj < J -> 0 <= kk < K -> ~ within buf (xt * yt) (B + kk * ld + jj)) ->
  let m' := gemm_fill f J K yt xt xt B ld buf j k m in
  (forall a, ~ within buf (xt * yt) a -> m' a = m a) /\
  forall jj q, j <= jj < Z.min J (j + yt) -> 0 <= q < Z.min xt (K - k) ->
    m' (buf + (jj - j) * xt + q) = f (m (B + (k + q) * ld + jj)).
Proof.
  intros Hy Hx Hj Hk HB.
  set (rng := fun p q => 0 <= p < Z.min yt (J - j) /\ 0 <= q < Z.min xt (K - k)).
  set (adr := fun p q => buf + p * xt + q).
  set (V := fun p q => f (m (B + (k + q) * ld + (j + p)))).
  assert (IN : forall p q, rng p q -> within buf (xt * yt) (adr p q)) by (unfold rng, within, adr; intros; nia).
  assert (INJ : forall p q p' q', rng p q -> rng p' q' -> adr p q = adr p' q' -> p = p' /\ q = q').
  { unfold rng, adr. intros p q p' q' H H' E. assert (p = p') by nia. subst. lia. }
  assert (C : covers rng adr V (within buf (xt * yt)) m (gemm_fill f J K yt xt xt B ld buf j k)
    (fun p q => exists kk, k <= kk < Z.min K (k + xt) /\ exists jj, j <= jj < Z.min J (j + yt) /\ p = jj - j /\ q = kk - k)).
  { unfold gemm_fill. apply covers_for_block. intros kk Hkk. apply covers_for_block. intros jj Hjj.
    assert (R : rng (jj - j) (kk - k)) by (unfold rng; lia).
    apply covers_write; auto; [unfold adr; lia|]. intros m' Hm'. unfold V.
    replace (B + (kk * ld + jj)) with (B + (k + (kk - k)) * ld + (j + (jj - j))) by ring.
    f_equal. apply Hm'. apply HB; lia. }
  intros m'. destruct (C (fun _ _ => False) m) as [G1 G2].
  - split; [auto|]. intros p q [].
  - fold m' in G1, G2. clearbody m'. split; [exact G1|]. intros jj q Hjj Hq.
    specialize (G2 (jj - j) q). unfold adr, V in G2. rewrite G2.
    + do 3 f_equal. lia.
    + right. exists (k + q). split; [lia|]. exists jj. lia.
    + unfold rng. lia.
Qed.

Section TOPM.
  Context {t : ty} (fold : Z) (Hf : 2 <= fold <= MAXFOLD t).
  Context (tu : tuning) (HT : tuned t tu) (b : gemm_blocks) (LB : legal_gemm b) (by_rows : bool).
  Context (M N K : Z) (HM : 0 <= M) (HN : 0 <= N) (HK : 0 <= K) (alpha : F t) (A lda B ldb C ldc bufA bufB : Z).
  Context (elA elB : Z -> Z -> Z) (m : mem t).
  Let yt := myt_block b. Let xt := mxt_block b.
  Let lenA := bufA_len b M K. Let lenB := xt * yt.
  Let cad (r : Z * Z) := C + (if by_rows then fst r * ldc + snd r else snd r * ldc + fst r) * dbnum fold.
  Let ok (r : Z * Z) := 0 <= fst r < M /\ 0 <= snd r < N.
  Let touched a := (exists i j, 0 <= i < M /\ 0 <= j < N /\ within (cad (i, j)) (dbnum fold) a) \/
    within bufA lenA a \/ within bufB lenB a.
  Context (NC : if by_rows then N <= ldc else M <= ldc).
  Context (HA : forall i k, 0 <= i < M -> 0 <= k < K -> ~ touched (elA i k)).
  Context (HB : forall k j, 0 <= k < K -> 0 <= j < N -> ~ touched (elB k j)).
  Context (DAB : forall a, within bufA lenA a -> ~ within bufB lenB a).
  Context (DC : forall a i j, within bufA lenA a \/ within bufB lenB a -> 0 <= i < M -> 0 <= j < N ->
    ~ within (cad (i, j)) (dbnum fold) a).
  Context (us zs : Z * Z -> list (F t)).
  Let Aval i k := fmul (m (elA i k)) alpha.
  Let Bval k j := m (elB k j).
  Let tm (r : Z * Z) k := fmul (Aval (fst r) k) (Bval k (snd r)).
  Context (FT : forall r k, ok r -> 0 <= k < K -> is_finite (tm r k) = true).
  Context (HC : forall r, ok r -> K + Z.of_nat (length (zs r)) <= capacity t).
  Context (H0 : forall r, ok r -> acc_at fold (us r) (zs r) m (cad r)).
  Let cl := clear fold (Z * Z) ok cad.

  Lemma c_apart r r' : ok r -> ok r' -> r <> r' -> apart (dbnum fold) (cad r) (cad r').
  Proof.
    destruct r as (a, c), r' as (a', c'). intros (Ha & Hc) (Ha' & Hc') NE. cbn [fst snd] in *. unfold apart, cad. cbn [fst snd].
    assert (E : forall x y L, 0 <= x < L -> 0 <= y < L -> L <= ldc -> forall p q, p * ldc + x <> q * ldc + y \/ (p = q /\ x = y)).
    { intros x y L Hx Hy HL p q. destruct (Z.eq_dec p q); [subst; lia|left; nia]. }
    revert NC. case by_rows; intros NC'.
    - destruct (E c c' N Hc Hc' NC' a a') as [H|[-> ->]]; [|congruence]. unfold dbnum. nia.
    - destruct (E a a' M Ha Ha' NC' c c') as [H|[-> ->]]; [|congruence]. unfold dbnum. nia.
  Qed.
  Lemma muntouched_clear a : ~ touched a -> cl a.
  Proof. intros H (i, j) (Hi & Hj) Hw. apply H. left. exists i, j. auto. Qed.
  Lemma mbufs_clear a : within bufA lenA a \/ within bufB lenB a -> cl a.
  Proof. intros H (i, j) (Hi & Hj) Hw. exact (DC a i j H Hi Hj Hw). Qed.
  Definition mresult (m' : mem t) :=
    (forall r, ok r -> acc_at fold (us r) (map (tm r) (zseq 0 K) ++ zs r) m' (cad r)) /\
    (forall a, ~ touched a -> m' a = m a).
  Lemma mstart_inv (m1 : mem t) : (forall a, ~ within bufA lenA a -> m1 a = m a) ->
    inv fold (Z * Z) ok cad us zs tm (fun _ => 0) m1.
  Proof.
    intros E r Hr. unfold taken. rewrite zseq_nil by lia. cbn [map app].
    eapply (acc_at_frame fold Hf); [|exact (H0 r Hr)]. intros a Ha. apply E. intros Hw.
    destruct r as (i, j), Hr as (Hi & Hj). exact (DC a i j (or_introl Hw) Hi Hj Ha).
  Qed.

  (** fa, fb: whether A, B go through the block buffers. *)
  Section CORE.
    Context (fa fb : bool) (pA ld : Z) (m1 : mem t).
    Let bi := if fa then yt else my_block b. Let bj := if fb then yt else my_block b.
    Let bk := if fa || fb then xt else mx_block b.
    Let prep i j k m := let m := if fa then gemm_fill (times alpha) M K yt xt xt A lda bufA i k m else m in
      if fb then gemm_fill (fun x => x) N K yt xt xt B ldb bufB j k m else m.
    Let opA i (j : Z) k ii := if fa then bufA + (ii - i) * xt else pA + ii * ld + k.
    Let opB (i : Z) j k jj := if fb then bufB + (jj - j) * xt else B + jj * ldb + k.
    Context (EA1 : fa = true -> forall i k, 0 <= i < M -> 0 <= k < K -> elA i k = A + k * lda + i).
    Context (M1 : forall a, ~ within bufA lenA a -> m1 a = m a).
    Context (EA0 : fa = false -> forall i k, 0 <= i < M -> 0 <= k < K -> m1 (pA + i * ld + k) = Aval i k /\
      (pA + i * ld + k = elA i k \/ within bufA lenA (pA + i * ld + k))).
    Context (EB : forall k j, 0 <= k < K -> 0 <= j < N -> elB k j = if fb then B + k * ldb + j else B + j * ldb + k).
    Lemma gemm_core_ok : mresult (gemm_nest tu by_rows fold M N K bi bj bk prep opA opB C ldc m1).
    Proof.
      destruct LB as ((Y1 & Y2) & (Z1 & Z2)).
      assert (XT : 1 <= xt) by (apply block_div; lia). assert (XB : 1 <= mx_block b) by (apply block_div; lia).
      fold yt in Z1, Z2.
      assert (LA : xt * yt <= lenA) by (unfold lenA, bufA_len; fold xt yt; lia).
      assert (NA : forall i k, 0 <= i < M -> 0 <= k < K -> ~ within bufA lenA (elA i k)).
      { intros i k Hi Hk Hw. apply (HA i k Hi Hk). right. left. exact Hw. }
      assert (NA' : forall i k, 0 <= i < M -> 0 <= k < K -> ~ within bufB lenB (elA i k)).
      { intros i k Hi Hk Hw. apply (HA i k Hi Hk). right. right. exact Hw. }
      assert (NB : forall k j, 0 <= k < K -> 0 <= j < N -> ~ within bufA lenA (elB k j)).
      { intros k j Hk Hj Hw. apply (HB k j Hk Hj). right. left. exact Hw. }
      assert (NB' : forall k j, 0 <= k < K -> 0 <= j < N -> ~ within bufB lenB (elB k j)).
      { intros k j Hk Hj Hw. apply (HB k j Hk Hj). right. right. exact Hw. }
      set (buf := fun a => (fa = true /\ within bufA lenA a) \/ (fb = true /\ within bufB lenB a)).
      destruct (gemm_nest_ok fold Hf tu HT by_rows M N K bi bj bk) with (C := C) (ldc := ldc) (us := us) (zs := zs) (Aval := Aval) (Bval := Bval)
        (prep := prep) (opA := opA) (opB := opB) (buf := buf) (m1 := m1) as [G1 G2].
      - unfold bi. destruct fa; lia.
      - unfold bj. destruct fb; lia.
      - unfold bk. destruct (fa || fb); lia.
      - exact HK.
      - exact c_apart.
      - exact FT.
      - exact HC.
      - intros a [(_ & H)|(_ & H)]; apply mbufs_clear; auto.
      - intros i j k ii q Hi Hj Hk Hii Hq. unfold opA, bi, bk in *. destruct fa eqn:Ea.
        + apply mbufs_clear. left. cbn [orb] in Hq. unfold within. nia.
        + rewrite <- Z.add_assoc. assert (Hq' : 0 <= k + q < K) by lia. destruct (EA0 eq_refl ii (k + q) ltac:(lia) ltac:(lia)) as [_ [-> |Hw]].
          * apply muntouched_clear. apply HA; lia.
          * apply mbufs_clear. left. exact Hw.
      - intros i j k jj q Hi Hj Hk Hjj Hq. unfold opB, bj, bk in *. specialize (EB (k + q) jj). destruct fb eqn:Eb.
        + apply mbufs_clear. right. rewrite orb_true_r in Hq. unfold within, lenB. nia.
        + rewrite <- Z.add_assoc, <- EB by lia. apply muntouched_clear. apply HB; lia.
      - intros i j k m2 Hi Hj Hk Ag.
        (* step 1: A *)
        assert (S1 : forall m3, m3 = (if fa then gemm_fill (times alpha) M K yt xt xt A lda bufA i k m2 else m2) ->
          (forall a, ~ (fa = true /\ within bufA lenA a) -> m3 a = m2 a) /\
          (forall ii q, i <= ii < Z.min M (i + bi) -> 0 <= q < Z.min bk (K - k) -> m3 (opA i j k ii + q) = Aval ii (k + q))).
        { intros m3 E3. unfold opA, bi, bk. destruct fa eqn:Ea.
          - destruct (gemm_fill_ok (times alpha) M K yt xt A lda bufA i k m2 Z1 XT Hi Hk) as [F1 F2].
            { intros ii kk Hii Hkk Hw. rewrite <- EA1 in Hw by (auto; lia). apply (NA ii kk Hii Hkk). unfold within in *. lia. }
            rewrite <- E3 in F1, F2. split.
            + intros a Ha. apply F1. intros Hw. apply Ha. split; auto. unfold within in *. lia.
            + intros ii q Hii Hq. cbn [orb] in Hq. rewrite F2 by lia. rewrite times_mul, <- EA1 by (auto; lia). unfold Aval. f_equal.
              unfold magree in Ag. rewrite Ag.
              * apply M1. apply NA; lia.
              * apply muntouched_clear. apply HA; lia.
              * intros [(_ & H)|(_ & H)]; [apply (NA ii (k + q) ltac:(lia) ltac:(lia) H)|apply (NA' ii (k + q) ltac:(lia) ltac:(lia) H)].
          - subst m3. split; auto. intros ii q Hii Hq. rewrite <- Z.add_assoc.
            assert (Hq' : 0 <= k + q < K) by lia. destruct (EA0 eq_refl ii (k + q) ltac:(lia) ltac:(lia)) as [E [E'|Hw]].
            + rewrite <- E. apply Ag.
              * rewrite E'. apply muntouched_clear. apply HA; lia.
              * rewrite E'. intros [(? & H)|(_ & H)]; [discriminate|apply (NA' ii (k + q) ltac:(lia) ltac:(lia) H)].
            + rewrite <- E. apply Ag.
              * apply mbufs_clear. left. exact Hw.
              * intros [(? & H)|(_ & H)]; [discriminate|exact (DAB _ Hw H)]. }
        unfold prep. cbv zeta. destruct (S1 _ eq_refl) as [A1 A2].
        set (m3 := if fa then gemm_fill (times alpha) M K yt xt xt A lda bufA i k m2 else m2) in *. clearbody m3. clear S1.
        (* step 2: B *)
        assert (S2 : forall m4, m4 = (if fb then gemm_fill (fun x => x) N K yt xt xt B ldb bufB j k m3 else m3) ->
          (forall a, ~ (fb = true /\ within bufB lenB a) -> m4 a = m3 a) /\
          (forall jj q, j <= jj < Z.min N (j + bj) -> 0 <= q < Z.min bk (K - k) -> m4 (opB i j k jj + q) = Bval (k + q) jj)).
        { assert (RB : forall kk jj, 0 <= kk < K -> 0 <= jj < N -> m3 (elB kk jj) = Bval kk jj).
          { intros kk jj Hkk Hjj. rewrite A1 by (intros (_ & H); exact (NB kk jj Hkk Hjj H)). unfold magree in Ag. rewrite Ag.
            - apply M1. apply NB; auto.
            - apply muntouched_clear. apply HB; auto.
            - intros [(_ & H)|(_ & H)]; [apply (NB kk jj Hkk Hjj H)|apply (NB' kk jj Hkk Hjj H)]. }
          intros m4 E4. unfold opB, bj, bk. destruct fb eqn:Eb.
          - destruct (gemm_fill_ok (fun x => x) N K yt xt B ldb bufB j k m3 Z1 XT Hj Hk) as [F1 F2].
            { intros jj kk Hjj Hkk Hw. rewrite <- EB in Hw by lia. exact (NB' kk jj Hkk Hjj Hw). }
            rewrite <- E4 in F1, F2. split.
            + intros a Ha. apply F1. intros Hw. apply Ha. split; auto.
            + intros jj q Hjj Hq. rewrite orb_true_r in Hq. rewrite F2 by lia. rewrite <- EB by lia. apply RB; lia.
          - subst m4. split; auto. intros jj q Hjj Hq. rewrite <- Z.add_assoc, <- EB by lia. apply RB; lia. }
        destruct (S2 _ eq_refl) as [B1 B2].
        set (m4 := if fb then gemm_fill (fun x => x) N K yt xt xt B ldb bufB j k m3 else m3) in *. clearbody m4. clear S2.
        split; [|split].
        + intros a Ha. rewrite B1, A1; auto; intros H; apply Ha; [left|right]; exact H.
        + intros ii q Hii Hq. rewrite <- (A2 ii q Hii Hq). apply B1. intros (Eb & Hw).
          unfold opA, bi, bk in *. destruct fa eqn:Ea.
          * refine (DAB _ _ Hw). cbn [orb] in Hq. unfold within. nia.
          * assert (Hq' : 0 <= k + q < K) by lia.
            destruct (EA0 eq_refl ii (k + q) ltac:(lia) ltac:(lia)) as [_ [E'|Hw']]; rewrite <- Z.add_assoc in Hw.
            -- rewrite E' in Hw. exact (NA' ii (k + q) ltac:(lia) ltac:(lia) Hw).
            -- exact (DAB _ Hw' Hw).
        + exact B2.
      - apply mstart_inv. exact M1.
      - split; [exact G1|]. intros a Ha. etransitivity.
        + apply G2; [apply muntouched_clear; exact Ha|]. intros [(_ & H)|(_ & H)]; apply Ha; [right; left|right; right]; exact H.
        + apply M1. intros Hw. apply Ha. right. left. exact Hw.
    Qed.
  End CORE.
End TOPM.
