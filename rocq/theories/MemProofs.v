(** * Memory-level lemmas: layouts, loops and frames *)
From Coq Require Import ZArith Bool List Lia.
From Flocq Require Import Core BinarySingleNaN.
From Verif Require Import Fp Mem Binned.
Open Scope Z_scope.

(** ** Loops *)
Lemma loop_inv {S : Type} (I : Z -> S -> Prop) (f : Z -> S -> S) n : forall i s,
  I i s -> (forall k s, i <= k < i + Z.of_nat n -> I k s -> I (k + 1) (f k s)) ->
  I (i + Z.of_nat n) (loop n i f s).
Proof.
  induction n as [|n IH]; intros i s H0 HS; cbn [loop].
  - replace (i + Z.of_nat 0) with i by lia. exact H0.
  - replace (i + Z.of_nat (Datatypes.S n)) with ((i + 1) + Z.of_nat n) by lia.
    apply IH; [apply HS; [lia|exact H0]|]. intros k s' Hk. apply HS. lia.
Qed.
Lemma for_up_inv {S : Type} (I : Z -> S -> Prop) (f : Z -> S -> S) lo hi s :
  lo <= hi -> I lo s -> (forall k s, lo <= k < hi -> I k s -> I (k + 1) (f k s)) ->
  I hi (for_up lo hi f s).
Proof.
  intros H H0 HS. unfold for_up.
  replace hi with (lo + Z.of_nat (Z.to_nat (hi - lo))) at 1 by lia.
  apply loop_inv; auto. intros k s' Hk. apply HS. lia.
Qed.
Lemma for_up_empty {S : Type} lo hi (f : Z -> S -> S) s : hi <= lo -> for_up lo hi f s = s.
Proof. intros. unfold for_up. replace (Z.to_nat (hi - lo)) with O by lia. reflexivity. Qed.
(** The invariant is indexed by the next value of the counter. *)
Lemma for_down_inv {S : Type} (I : Z -> S -> Prop) (f : Z -> S -> S) hi lo s :
  lo - 1 <= hi -> I hi s -> (forall k s, lo <= k <= hi -> I k s -> I (k - 1) (f k s)) ->
  I (lo - 1) (for_down hi lo f s).
Proof.
  intros H H0 HS. unfold for_down.
  replace (lo - 1) with (hi - (0 + Z.of_nat (Z.to_nat (hi - lo + 1)))) at 1 by lia.
  apply (loop_inv (fun d => I (hi - d))).
  - rewrite Z.sub_0_r. exact H0.
  - intros k s' Hk HI. replace (hi - (k + 1)) with (hi - k - 1) by lia. apply HS; auto. lia.
Qed.
Lemma for_down_empty {S : Type} hi lo (f : Z -> S -> S) s : hi < lo -> for_down hi lo f s = s.
Proof. intros. unfold for_down. replace (Z.to_nat (hi - lo + 1)) with O by lia. reflexivity. Qed.

Lemma upd_same {t} (m : mem t) a v : upd m a v a = v.
Proof. unfold upd. now rewrite Z.eqb_refl. Qed.
Lemma upd_other {t} (m : mem t) a v b : b <> a -> upd m a v b = m b.
Proof. intros. unfold upd. destruct (Z.eqb_spec b a); congruence. Qed.

(** ** Layout of an accumulator: 2*fold distinct cells *)
Record layout (fold p ip c ic : Z) : Prop := {
  lay_p : forall i j, 0 <= i < fold -> 0 <= j < fold -> p + i * ip = p + j * ip -> i = j;
  lay_c : forall i j, 0 <= i < fold -> 0 <= j < fold -> c + i * ic = c + j * ic -> i = j;
  lay_pc : forall i j, 0 <= i < fold -> 0 <= j < fold -> p + i * ip <> c + j * ic
}.
(** Address a is a cell of the accumulator. *)
Definition in_acc (fold p ip c ic a : Z) : Prop :=
  exists i, 0 <= i < fold /\ (a = p + i * ip \/ a = c + i * ic).
Lemma in_pri fold p ip c ic i : 0 <= i < fold -> in_acc fold p ip c ic (p + i * ip).
Proof. exists i; auto. Qed.
Lemma in_car fold p ip c ic i : 0 <= i < fold -> in_acc fold p ip c ic (c + i * ic).
Proof. exists i; auto. Qed.
Definition disjoint (A B : Z -> Prop) : Prop := forall a, A a -> B a -> False.

Lemma layout_contig fold X : 0 <= fold -> layout fold X 1 (X + fold) 1.
Proof. intros; constructor; lia. Qed.
Lemma layout_complex_re fold X : 0 <= fold -> layout fold X 2 (X + 2 * fold) 2.
Proof. intros; constructor; lia. Qed.
Lemma layout_complex_im fold X : 0 <= fold -> layout fold (X + 1) 2 (X + 2 * fold + 1) 2.
Proof. intros; constructor; lia. Qed.

Section LAY.
  Context {t : ty} {fold p ip c ic : Z} (L : layout fold p ip c ic).

  (** Positions lo..k-1 of the accumulator hold G, H; all other cells as in m0. *)
  Definition done (m0 m : mem t) (lo k : Z) (G H : Z -> F t) : Prop :=
    (forall i, lo <= i < k -> m (p + i * ip) = G i /\ m (c + i * ic) = H i) /\
    (forall a, (forall i, lo <= i < k -> a <> p + i * ip /\ a <> c + i * ic) -> m a = m0 a).

  Lemma done_pri m0 m lo k G H i : done m0 m lo k G H -> 0 <= lo -> k <= fold -> 0 <= i < fold ->
    ~ (lo <= i < k) -> m (p + i * ip) = m0 (p + i * ip).
  Proof.
    intros [_ D] Hlo Hk Hi N. apply D. intros j Hj. split; intros E.
    - apply (lay_p _ _ _ _ _ L) in E; lia.
    - apply (lay_pc _ _ _ _ _ L) in E; lia.
  Qed.
  Lemma done_car m0 m lo k G H i : done m0 m lo k G H -> 0 <= lo -> k <= fold -> 0 <= i < fold ->
    ~ (lo <= i < k) -> m (c + i * ic) = m0 (c + i * ic).
  Proof.
    intros [_ D] Hlo Hk Hi N. apply D. intros j Hj. split; intros E.
    - symmetry in E. apply (lay_pc _ _ _ _ _ L) in E; lia.
    - apply (lay_c _ _ _ _ _ L) in E; lia.
  Qed.
  Lemma done_out m0 m lo k G H a : done m0 m lo k G H -> 0 <= lo -> k <= fold ->
    ~ in_acc fold p ip c ic a -> m a = m0 a.
  Proof.
    intros [_ D] Hlo Hk N. apply D. intros j Hj. split; intros ->; apply N; exists j; split; auto; lia.
  Qed.

  Lemma done_step m0 m lo k G H : done m0 m lo k G H -> 0 <= lo <= k -> k < fold ->
    done m0 (upd (upd m (p + k * ip) (G k)) (c + k * ic) (H k)) lo (k + 1) G H.
  Proof.
    intros [D1 D2] Hk Hf. split.
    - intros i Hi. destruct (Z.eq_dec i k) as [->|N].
      + rewrite upd_same, upd_other, upd_same by (apply (lay_pc _ _ _ _ _ L); lia). auto.
      + rewrite !upd_other.
        * apply D1; lia.
        * intros E. symmetry in E. apply (lay_pc _ _ _ _ _ L) in E; lia.
        * intros E. apply (lay_c _ _ _ _ _ L) in E; lia.
        * intros E. apply (lay_p _ _ _ _ _ L) in E; lia.
        * apply (lay_pc _ _ _ _ _ L); lia.
    - intros a Ha. destruct (Ha k ltac:(lia)). rewrite !upd_other by auto.
      apply D2. intros i Hi. apply Ha. lia.
  Qed.
  Lemma done_ext m0 m m' lo k G H : (forall a, m' a = m a) -> done m0 m lo k G H -> done m0 m' lo k G H.
  Proof.
    intros E [D1 D2]. split.
    - intros i Hi. rewrite !E. auto.
    - intros a Ha. rewrite E. auto.
  Qed.
  Lemma done_refl m lo G H : done m m lo lo G H.
  Proof. split; [lia|auto]. Qed.

  Lemma for_up_done m0 lo hi (G H : Z -> F t) body :
    0 <= lo <= hi -> hi <= fold ->
    (forall k m, lo <= k < hi -> done m0 m lo k G H ->
       forall a, body k m a = upd (upd m (p + k * ip) (G k)) (c + k * ic) (H k) a) ->
    done m0 (for_up lo hi body m0) lo hi G H.
  Proof.
    intros Hl Hh HB. apply (for_up_inv (fun k m => done m0 m lo k G H)); [lia|apply done_refl|].
    intros k m Hk HD. eapply done_ext; [intros a; apply HB; auto|]. apply done_step; auto; lia.
  Qed.

  (** Downward: positions k+1..hi done. *)
  Lemma done_step_down m0 m k hi G H : done m0 m (k + 1) hi G H -> 0 <= k < hi -> hi <= fold ->
    done m0 (upd (upd m (p + k * ip) (G k)) (c + k * ic) (H k)) k hi G H.
  Proof.
    intros [D1 D2] Hk Hf. split.
    - intros i Hi. destruct (Z.eq_dec i k) as [->|N].
      + rewrite upd_same, upd_other, upd_same by (apply (lay_pc _ _ _ _ _ L); lia). auto.
      + rewrite !upd_other.
        * apply D1; lia.
        * intros E. symmetry in E. apply (lay_pc _ _ _ _ _ L) in E; lia.
        * intros E. apply (lay_c _ _ _ _ _ L) in E; lia.
        * intros E. apply (lay_p _ _ _ _ _ L) in E; lia.
        * apply (lay_pc _ _ _ _ _ L); lia.
    - intros a Ha. destruct (Ha k ltac:(lia)). rewrite !upd_other by auto.
      apply D2. intros i Hi. apply Ha. lia.
  Qed.
  Lemma for_down_done m0 lo hi (G H : Z -> F t) body :
    0 <= lo <= hi -> hi <= fold ->
    (forall k m, lo <= k < hi -> done m0 m (k + 1) hi G H ->
       forall a, body k m a = upd (upd m (p + k * ip) (G k)) (c + k * ic) (H k) a) ->
    done m0 (for_down (hi - 1) lo body m0) lo hi G H.
  Proof.
    intros Hl Hh HB.
    assert (X : done m0 (for_down (hi - 1) lo body m0) (lo - 1 + 1) hi G H).
    { apply (for_down_inv (fun k m => done m0 m (k + 1) hi G H)); [lia| |].
      - replace (hi - 1 + 1) with hi by lia. apply done_refl.
      - intros k m Hk HD. eapply done_ext; [intros a; apply HB; [lia|auto]|]. replace (k - 1 + 1) with k by lia.
        apply done_step_down; auto; lia. }
    now replace (lo - 1 + 1) with lo in X by lia.
  Qed.
  (** Two phases. *)
  Lemma done_join m0 m1 m2 lo k hi G H :
    done m0 m1 k hi G H -> done m1 m2 lo k G H -> 0 <= lo <= k -> k <= hi -> hi <= fold ->
    done m0 m2 lo hi G H.
  Proof.
    intros D1 D2 H1 H2 H3. split.
    - intros i Hi. destruct (Z_lt_dec i k).
      + apply D2. lia.
      + rewrite (done_pri _ _ _ _ _ _ i D2), (done_car _ _ _ _ _ _ i D2) by lia. apply D1. lia.
    - intros a Ha. destruct D2 as [_ D2], D1 as [_ D1]. rewrite D2 by (intros; apply Ha; lia).
      apply D1. intros; apply Ha; lia.
  Qed.
End LAY.
Arguments done {t} p ip c ic m0 m lo k G H.

(** ** The words of each routine, as functions of the words before *)

Definition P_of {t} (m : mem t) (p ip : Z) : Z -> F t := fun i => m (p + i * ip).

Ltac lay_neq L := let E := fresh in
  intros E; first [ apply (lay_p _ _ _ _ _ L) in E | apply (lay_c _ _ _ _ _ L) in E
                  | apply (lay_pc _ _ _ _ _ L) in E | symmetry in E; apply (lay_pc _ _ _ _ _ L) in E ]; lia.

Section CHAR.
  Context {t : ty} {fold p ip c ic : Z} (L : layout fold p ip c ic) (Hf : 1 <= fold).
  Notation DONE := (@done t p ip c ic).

  Lemma car_neq_pri i : 0 <= i < fold -> c + i * ic <> p + i * ip.
  Proof. intros Hi. lay_neq L. Qed.

  Lemma dmsetzero_done m : DONE m (dmsetzero fold p ip c ic m) 0 fold (fun _ => fzero) (fun _ => fzero).
  Proof. apply (for_up_done L); try lia. reflexivity. Qed.

  Definition renorm_P (P : Z -> F t) i := renorm_word (P i).
  Definition renorm_C (P C : Z -> F t) i := fadd (C i) (renorm_carry (P i)).
  Lemma dmrenorm_done m : feq (m p) fzero = false -> ISNANINF (m p) = false ->
    DONE m (dmrenorm fold p ip c ic m) 0 fold
      (renorm_P (P_of m p ip)) (renorm_C (P_of m p ip) (P_of m c ic)).
  Proof.
    intros Z0 I0. unfold dmrenorm. rewrite Z0, I0. cbn [orb].
    apply (for_up_done L); try lia. intros k m' Hk D a. cbn zeta.
    rewrite !(done_pri L _ _ _ _ _ _ k D), !(done_car L _ _ _ _ _ _ k D) by lia.
    unfold renorm_P, renorm_C, P_of, upd. pose proof (car_neq_pri k ltac:(lia)).
    destruct (Z.eqb_spec a (p + k * ip)), (Z.eqb_spec a (c + k * ic)); auto; congruence.
  Qed.

  Lemma dmnegate_done m : feq (m p) fzero = false ->
    DONE m (dmnegate fold p ip c ic m) 0 fold
      (fun i => let b := dmbins t (dmindex (m p)) i in fsub b (fsub (m (p + i * ip)) b))
      (fun i => fneg (m (c + i * ic))).
  Proof.
    intros Z0. unfold dmnegate. rewrite Z0.
    apply (for_up_done L); try lia. intros k m' Hk D a. cbn zeta.
    rewrite (upd_other m' _ _ (c + k * ic)) by (apply car_neq_pri; lia).
    rewrite !(done_pri L _ _ _ _ _ _ k D), !(done_car L _ _ _ _ _ _ k D) by lia.
    reflexivity.
  Qed.

  Lemma upd_zero_done m X : ISNANINF (m p) = false -> feq (m p) fzero = true ->
    DONE m (dmdupdate fold X p ip c ic m) 0 fold (fun i => dmbins t (dindex X) i) (fun _ => fzero).
  Proof.
    intros I0 Z0. unfold dmdupdate. rewrite I0, Z0. apply (for_up_done L); try lia. reflexivity.
  Qed.

  (** Contents after a shift by s > 0 positions. *)
  Lemma upd_shift_done m X :
    let s := dmindex (m p) - dindex X in
    ISNANINF (m p) = false -> feq (m p) fzero = false -> 0 < s ->
    DONE m (dmdupdate fold X p ip c ic m) 0 fold
      (fun i => if i <? s then dmbins t (dindex X) i else m (p + (i - s) * ip))
      (fun i => if i <? s then fzero else m (c + (i - s) * ic)).
  Proof.
    intros s I0 Z0 Hs. unfold dmdupdate. rewrite I0, Z0. fold s.
    destruct (Z.ltb_spec 0 s) as [_|]; [|lia]. cbn zeta.
    replace (Z.min (fold - 1) (s - 1) + 1) with (Z.min fold s) by lia.
    destruct (Z_lt_dec s fold) as [Hlt|Hge].
    - rewrite Z.min_r by lia.
      match goal with |- done _ _ _ _ _ (for_up _ _ _ ?m1) _ _ ?G ?H =>
        assert (D1 : DONE m m1 s fold G H); [|apply (done_join L m m1 _ 0 s fold); auto; try lia] end.
      + apply (for_down_done L m s fold); try lia.
        intros k m' Hk D a. rewrite (upd_other m' _ _ (c + (k - s) * ic)) by lay_neq L.
        rewrite (done_pri L _ _ _ _ _ _ (k - s) D), (done_car L _ _ _ _ _ _ (k - s) D) by lia.
        cbv beta. destruct (Z.ltb_spec k s); [lia|]. reflexivity.
      + apply (for_up_done L); try lia. intros k m' Hk D a. cbv beta.
        destruct (Z.ltb_spec k s); [|lia]. reflexivity.
    - rewrite Z.min_l by lia. rewrite for_down_empty by lia.
      apply (for_up_done L); try lia. intros k m' Hk D a. cbv beta.
      destruct (Z.ltb_spec k s); [|lia]. reflexivity.
  Qed.
  Lemma upd_noop (m : mem t) X :
    ISNANINF (m p) = true \/ (feq (m p) fzero = false /\ dmindex (m p) <= dindex X) ->
    dmdupdate fold X p ip c ic m = m.
  Proof.
    unfold dmdupdate. destruct (ISNANINF (m p)); auto. intros [|[Z0 H]]; [discriminate|].
    rewrite Z0. cbn zeta. destruct (Z.ltb_spec 0 (dmindex (m p) - dindex X)); [lia|reflexivity].
  Qed.

  (** ** Two accumulators *)
  Context {pX ipX cX icX : Z}.
  Notation apart := (disjoint (in_acc fold pX ipX cX icX) (in_acc fold p ip c ic)).
  Lemma done_X_pri m0 m lo k G H i : apart -> DONE m0 m lo k G H -> 0 <= lo -> k <= fold -> 0 <= i < fold ->
    m (pX + i * ipX) = m0 (pX + i * ipX).
  Proof.
    intros A D Hlo Hk Hi. apply (@done_out t fold p ip c ic _ _ _ _ _ _ _ D); auto.
    intros E. apply (A _) in E; auto. exists i; auto.
  Qed.
  Lemma done_X_car m0 m lo k G H i : apart -> DONE m0 m lo k G H -> 0 <= lo -> k <= fold -> 0 <= i < fold ->
    m (cX + i * icX) = m0 (cX + i * icX).
  Proof.
    intros A D Hlo Hk Hi. apply (@done_out t fold p ip c ic _ _ _ _ _ _ _ D); auto.
    intros E. apply (A _) in E; auto. exists i; auto.
  Qed.
  Lemma apart_pri_p i j : apart -> 0 <= i < fold -> 0 <= j < fold -> pX + i * ipX <> p + j * ip /\ cX + i * icX <> p + j * ip.
  Proof.
    intros A Hi Hj. split; intros E; [apply (A (pX + i * ipX))|apply (A (cX + i * icX))];
      auto using in_pri, in_car; rewrite E; auto using in_pri, in_car.
  Qed.
  Lemma apart_pri_c i j : apart -> 0 <= i < fold -> 0 <= j < fold -> pX + i * ipX <> c + j * ic /\ cX + i * icX <> c + j * ic.
  Proof.
    intros A Hi Hj. split; intros E; [apply (A (pX + i * ipX))|apply (A (cX + i * icX))];
      auto using in_pri, in_car; rewrite E; auto using in_pri, in_car.
  Qed.

  Lemma copy_done m : apart ->
    DONE m (for_up 0 fold (fun i m =>
      let m := upd m (p + i * ip) (m (pX + i * ipX)) in
      upd m (c + i * ic) (m (cX + i * icX))) m) 0 fold
      (P_of m pX ipX) (P_of m cX icX).
  Proof.
    intros A. apply (for_up_done L); try lia. intros k m' Hk D a. cbn zeta.
    rewrite (upd_other m' _ _ (cX + k * icX)) by (apply apart_pri_p; auto; lia).
    rewrite (done_X_pri _ _ _ _ _ _ k A D), (done_X_car _ _ _ _ _ _ k A D) by lia. reflexivity.
  Qed.
  Lemma dmdmset_done m : apart ->
    DONE m (dmdmset fold pX ipX cX icX p ip c ic m) 0 fold (P_of m pX ipX) (P_of m cX icX).
  Proof. apply copy_done. Qed.

  (** Merge, before the final renormalisation. *)
  Definition merge_raw (m : mem t) : mem t :=
    let X_index := dmindex (m pX) in
    let Y_index := dmindex (m p) in
    let shift := Y_index - X_index in
      if 0 <? shift then
        let m := for_down (fold - 1) shift (fun i m =>
          let m := upd m (p + i * ip)
            (fadd (m (pX + i * ipX))
                  (fsub (m (p + (i - shift) * ip)) (dmbins t Y_index (i - shift)))) in
          upd m (c + i * ic)
            (fadd (m (cX + i * icX)) (m (c + (i - shift) * ic)))) m in
        for_up 0 (Z.min shift fold) (fun i m =>
          let m := upd m (p + i * ip) (m (pX + i * ipX)) in
          upd m (c + i * ic) (m (cX + i * icX))) m
      else
        for_up (0 - shift) fold (fun i m =>
          let m := upd m (p + i * ip)
            (fadd (m (p + i * ip))
                  (fsub (m (pX + (i + shift) * ipX)) (dmbins t X_index (i + shift)))) in
          upd m (c + i * ic)
            (fadd (m (c + i * ic)) (m (cX + (i + shift) * icX)))) m.

  Lemma merge_pos m : let s := dmindex (m p) - dmindex (m pX) in
    apart -> 0 < s ->
    DONE m (merge_raw m) 0 fold
      (fun i => if i <? s then m (pX + i * ipX) else
         fadd (m (pX + i * ipX)) (fsub (m (p + (i - s) * ip)) (dmbins t (dmindex (m p)) (i - s))))
      (fun i => if i <? s then m (cX + i * icX) else
         fadd (m (cX + i * icX)) (m (c + (i - s) * ic))).
  Proof.
    intros s A Hs. unfold merge_raw. fold s. destruct (Z.ltb_spec 0 s) as [_|]; [|lia]. cbn zeta.
    assert (UP : forall m1, (forall i, 0 <= i < fold -> m1 (pX + i * ipX) = m (pX + i * ipX) /\
                                               m1 (cX + i * icX) = m (cX + i * icX)) ->
      DONE m1 (for_up 0 (Z.min s fold) (fun i m =>
          let m := upd m (p + i * ip) (m (pX + i * ipX)) in
          upd m (c + i * ic) (m (cX + i * icX))) m1) 0 (Z.min s fold)
      (fun i => if i <? s then m (pX + i * ipX) else
         fadd (m (pX + i * ipX)) (fsub (m (p + (i - s) * ip)) (dmbins t (dmindex (m p)) (i - s))))
      (fun i => if i <? s then m (cX + i * icX) else
         fadd (m (cX + i * icX)) (m (c + (i - s) * ic)))).
    { intros m1 H1. apply (for_up_done L); try lia. intros k m' Hk D a. cbn zeta.
      rewrite (upd_other m' _ _ (cX + k * icX)) by (apply apart_pri_p; auto; lia).
      rewrite (done_X_pri _ _ _ _ _ _ k A D), (done_X_car _ _ _ _ _ _ k A D) by lia.
      destruct (H1 k ltac:(lia)) as [-> ->].
      destruct (Z.ltb_spec k s); [|lia]. reflexivity. }
    destruct (Z_lt_dec s fold) as [Hlt|Hge].
    - match goal with |- done _ _ _ _ _ (for_up _ _ _ ?m1) _ _ ?G ?H =>
        assert (D1 : DONE m m1 s fold G H); [|apply (done_join L m m1 _ 0 s fold); auto; try lia] end.
      + apply (for_down_done L m s fold); try lia.
        intros k m' Hk D a. cbn zeta.
        rewrite (upd_other m' _ _ (c + (k - s) * ic)) by lay_neq L.
        rewrite (upd_other m' _ _ (cX + k * icX)) by (apply apart_pri_p; auto; lia).
        rewrite (done_X_pri _ _ _ _ _ _ k A D), (done_X_car _ _ _ _ _ _ k A D) by lia.
        rewrite (done_pri L _ _ _ _ _ _ (k - s) D), (done_car L _ _ _ _ _ _ (k - s) D) by lia.
        cbv beta. destruct (Z.ltb_spec k s); [lia|]. reflexivity.
      + replace (Z.min s fold) with s in * by lia. apply UP.
        intros i Hi. rewrite (done_X_pri _ _ _ _ _ _ i A D1), (done_X_car _ _ _ _ _ _ i A D1) by lia. auto.
    - rewrite Z.min_r in * by lia. rewrite for_down_empty by lia. apply UP. auto.
  Qed.
  Lemma merge_neg m : let s := dmindex (m pX) - dmindex (m p) in
    apart -> 0 <= s ->
    DONE m (merge_raw m) 0 fold
      (fun i => if i <? s then m (p + i * ip) else
         fadd (m (p + i * ip)) (fsub (m (pX + (i - s) * ipX)) (dmbins t (dmindex (m pX)) (i - s))))
      (fun i => if i <? s then m (c + i * ic) else
         fadd (m (c + i * ic)) (m (cX + (i - s) * icX))).
  Proof.
    intros s A Hs. unfold merge_raw.
    destruct (Z.ltb_spec 0 (dmindex (m p) - dmindex (m pX))) as [|_]; [lia|].
    replace (0 - (dmindex (m p) - dmindex (m pX))) with s by (unfold s; lia).
    replace (dmindex (m p) - dmindex (m pX)) with (- s) by (unfold s; lia).
    set (G := fun i => if i <? s then m (p + i * ip) else _).
    set (H := fun i => if i <? s then m (c + i * ic) else _).
    assert (K : forall hi m', s <= hi -> DONE m m' s hi G H -> hi <= fold -> DONE m m' 0 hi G H).
    { intros hi m' Hhi D Hf'. split.
      - intros i Hi. destruct (Z_lt_dec i s); [|apply D; lia].
        rewrite (done_pri L _ _ _ _ _ _ i D), (done_car L _ _ _ _ _ _ i D) by lia.
        unfold G, H. destruct (Z.ltb_spec i s); [auto|lia].
      - intros a Ha. apply D. intros; apply Ha; lia. }
    destruct (Z_lt_dec s fold) as [Hlt|Hge].
    - apply K; try lia. apply (for_up_done L); try lia. intros k m' Hk D a. cbn zeta.
      replace (k + - s) with (k - s) by lia.
      rewrite (upd_other m' _ _ (c + k * ic)) by lay_neq L.
      rewrite (upd_other m' _ _ (cX + (k - s) * icX)) by (apply apart_pri_p; auto; lia).
      rewrite (done_X_pri _ _ _ _ _ _ (k - s) A D), (done_X_car _ _ _ _ _ _ (k - s) A D) by lia.
      rewrite (done_pri L _ _ _ _ _ _ k D), (done_car L _ _ _ _ _ _ k D) by lia.
      unfold G, H. destruct (Z.ltb_spec k s); [lia|]. reflexivity.
    - rewrite for_up_empty by lia. split.
      + intros i Hi. unfold G, H. destruct (Z.ltb_spec i s); [auto|lia].
      + auto.
  Qed.
  Lemma dmdmadd_raw m : feq (m pX) fzero = false -> feq (m p) fzero = false ->
    ISNANINF (m pX) = false -> ISNANINF (m p) = false ->
    dmdmadd fold pX ipX cX icX p ip c ic m = dmrenorm fold p ip c ic (merge_raw m).
  Proof. intros Z1 Z2 I1 I2. unfold dmdmadd. rewrite Z1, Z2, I1, I2. reflexivity. Qed.
End CHAR.
Arguments merge_raw {t}.

(** ** Deposit as a function on the list of primary words *)
Fixpoint words {t} (m : mem t) (p ip i : Z) (n : nat) : list (F t) :=
  match n with O => nil | S n' => m (p + i * ip) :: words m p ip (i + 1) n' end.

Lemma words_ext {t} (m m' : mem t) p ip n : forall i,
  (forall j, i <= j < i + Z.of_nat n -> m (p + j * ip) = m' (p + j * ip)) ->
  words m p ip i n = words m' p ip i n.
Proof.
  induction n as [|n IH]; intros i H; cbn [words]; auto. f_equal.
  - apply H. lia.
  - apply IH. intros j Hj. apply H. lia.
Qed.

(** The deposit kernel on one lane: every word but the last takes a slice, the last
    word takes what is left (dmddeposit.c:52-62). *)
Fixpoint dep_list {t} (Ms : list (F t)) (x : F t) : list (F t) :=
  match Ms with
  | nil => nil
  | M :: Ms' =>
      match Ms' with
      | nil => fadd M (or1 x) :: nil
      | _ => let q := fadd (or1 x) M in q :: dep_list Ms' (fadd x (fsub M q))
      end
  end.
(** First word in bin 0 (dmddeposit.c:34-49). *)
Definition dep0_list {t} (Ms : list (F t)) (x : F t) : list (F t) :=
  match Ms with
  | nil => nil
  | M :: Ms' =>
      let q := fadd (or1 (fmul x (COMPRESSION t))) M in
      let M' := fmul (fsub M q) (fmul (EXPANSION t) (mkf 1 (-1))) in
      q :: dep_list Ms' (fadd (fadd x M') M')
  end.

Lemma dep_mem {t} p ip n : forall i (m : mem t) x,
  (forall j k, i <= j <= i + Z.of_nat n -> i <= k <= i + Z.of_nat n -> p + j * ip = p + k * ip -> j = k) ->
  let '(m1, x1) := loop n i (deposit_step p ip) (m, x) in
  let a1 := p + (i + Z.of_nat n) * ip in
  let m2 := upd m1 a1 (fadd (m1 a1) (or1 x1)) in
  words m2 p ip i (S n) = dep_list (words m p ip i (S n)) x /\
  (forall a, (forall j, i <= j <= i + Z.of_nat n -> a <> p + j * ip) -> m2 a = m a).
Proof.
  induction n as [|n IH]; intros i m x Inj.
  - cbn [loop words dep_list Z.of_nat]. cbv zeta. rewrite Z.add_0_r, upd_same. split; auto.
    intros a Ha. apply upd_other, Ha. lia.
  - cbn [loop]. unfold deposit_step at 2. cbv zeta.
    set (M := m (p + i * ip)). set (q := fadd (or1 x) M).
    set (m' := upd m (p + i * ip) q).
    specialize (IH (i + 1) m' (fadd x (fsub M q))).
    destruct (loop n (i + 1) (deposit_step p ip) (m', fadd x (fsub M q))) as [m1 x1] eqn:EL.
    cbv zeta in IH |- *.
    replace (i + Z.of_nat (S n)) with (i + 1 + Z.of_nat n) in * by lia.
    destruct IH as [IH1 IH2]; [intros; apply Inj; auto; lia|].
    set (m2 := upd m1 _ _) in *. split.
    + cbn [words]. cbn [words] in IH1. fold M.
      assert (W : words m p ip (i + 1 + 1) n = words m' p ip (i + 1 + 1) n).
      { apply words_ext. intros j Hj. unfold m'. rewrite upd_other; auto.
        intros E. apply Inj in E; lia. }
      rewrite W. assert (Q1 : m (p + (i + 1) * ip) = m' (p + (i + 1) * ip)).
      { unfold m'. rewrite upd_other; auto. intros E. apply Inj in E; lia. }
      rewrite Q1.
      change (dep_list (M :: m' (p + (i + 1) * ip) :: words m' p ip (i + 1 + 1) n) x)
        with (q :: dep_list (m' (p + (i + 1) * ip) :: words m' p ip (i + 1 + 1) n) (fadd x (fsub M q))).
      rewrite <- IH1. f_equal. rewrite IH2.
      * unfold m'. apply upd_same.
      * intros j Hj E. apply Inj in E; lia.
    + intros a Ha. rewrite IH2.
      * unfold m'. apply upd_other, Ha. lia.
      * intros j Hj. apply Ha. lia.
Qed.

Section DEP.
  Context {t : ty} {fold p ip : Z}.
  Hypothesis Inj : forall i j, 0 <= i < fold -> 0 <= j < fold -> p + i * ip = p + j * ip -> i = j.

  Lemma dmddeposit_words (m : mem t) X : 1 <= fold ->
    ISNANINF X = false -> ISNANINF (m p) = false -> dmindex0 (m p) = false ->
    let m2 := dmddeposit fold X p ip m in
    words m2 p ip 0 (Z.to_nat fold) = dep_list (words m p ip 0 (Z.to_nat fold)) X /\
    (forall a, (forall j, 0 <= j < fold -> a <> p + j * ip) -> m2 a = m a).
  Proof.
    intros Hf I1 I2 N0 m2. unfold m2, dmddeposit. rewrite I1, I2, N0. cbn [orb].
    unfold for_up. rewrite Z.sub_0_r.
    pose proof (dep_mem p ip (Z.to_nat (fold - 1)) 0 m X) as D.
    destruct (loop (Z.to_nat (fold - 1)) 0 (deposit_step p ip) (m, X)) as [m1 x1].
    cbv zeta in *. rewrite Z.max_l by lia.
    replace (0 + Z.of_nat (Z.to_nat (fold - 1))) with (fold - 1) in D by lia.
    replace (S (Z.to_nat (fold - 1))) with (Z.to_nat fold) in D by lia.
    destruct D as [D1 D2]; [intros; apply Inj; auto; lia|]. split; [exact D1|].
    intros a Ha. apply D2. intros j Hj. apply Ha. lia.
  Qed.
  Lemma dmddeposit_words0 (m : mem t) X : 2 <= fold ->
    ISNANINF X = false -> ISNANINF (m p) = false -> dmindex0 (m p) = true ->
    let m2 := dmddeposit fold X p ip m in
    words m2 p ip 0 (Z.to_nat fold) = dep0_list (words m p ip 0 (Z.to_nat fold)) X /\
    (forall a, (forall j, 0 <= j < fold -> a <> p + j * ip) -> m2 a = m a).
  Proof.
    intros Hf I1 I2 N0 m2. unfold m2, dmddeposit. rewrite I1, I2, N0. cbn [orb]. cbv zeta.
    set (q := fadd (or1 (fmul X (COMPRESSION t))) (m p)).
    set (M' := fmul (fsub (m p) q) (fmul (EXPANSION t) (mkf 1 (-1)))).
    set (m' := upd m p q). set (x := fadd (fadd X M') M').
    unfold for_up. replace (fold - 1 - 1) with (fold - 2) by lia.
    pose proof (dep_mem p ip (Z.to_nat (fold - 2)) 1 m' x) as D.
    destruct (loop (Z.to_nat (fold - 2)) 1 (deposit_step p ip) (m', x)) as [m1 x1].
    cbv zeta in *. rewrite Z.max_l by lia.
    replace (1 + Z.of_nat (Z.to_nat (fold - 2))) with (fold - 1) in D by lia.
    replace (S (Z.to_nat (fold - 2))) with (Z.to_nat (fold - 1)) in D by lia.
    destruct D as [D1 D2]; [intros; apply Inj; auto; lia|].
    set (mm := upd m1 _ _) in *.
    replace (Z.to_nat fold) with (S (Z.to_nat (fold - 1))) by lia.
    assert (P0 : p + 0 * ip = p) by lia.
    split.
    - cbn [words]. unfold dep0_list. rewrite P0. fold q. change (0 + 1) with 1. cbv zeta. fold M'. fold x. rewrite D1. f_equal.
      + rewrite D2; [unfold m'; apply upd_same|]. intros j Hj E. rewrite <- P0 in E at 1. apply Inj in E; lia.
      + f_equal. apply words_ext. intros j Hj. unfold m'. rewrite upd_other; auto.
        intros E. rewrite <- P0 in E at 2. apply Inj in E; lia.
    - intros a Ha. rewrite D2 by (intros; apply Ha; lia). unfold m'. apply upd_other. intros ->.
      apply (Ha 0); lia.
  Qed.
End DEP.

Lemma words_nth {t} (m m' : mem t) p ip n : forall i, words m p ip i n = words m' p ip i n ->
  forall j, i <= j < i + Z.of_nat n -> m (p + j * ip) = m' (p + j * ip).
Proof.
  induction n as [|n IH]; intros i H j Hj; [lia|].
  cbn [words] in H. injection H as H1 H2.
  destruct (Z.eq_dec i j) as [->|]; auto. apply (IH (i + 1)); auto. lia.
Qed.
Lemma words_length {t} (m : mem t) p ip n : forall i, length (words m p ip i n) = n.
Proof. induction n; intros; cbn [words length]; auto. Qed.
