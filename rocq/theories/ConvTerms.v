(** * The terms added by the conversion of an accumulator, and the size of the rounding errors *)
From Coq Require Import ZArith Bool List Lia Reals Lra.
From Flocq Require Import Core Relative BinarySingleNaN.
From Verif Require Import Fp Spec FpProofs SpecProofs ScaleProofs SumError.
Import ListNotations.
Open Scope R_scope.

(** A list on which [decays] can be checked term by term. *)
Fixpoint okl (t : ty) (n : nat) (qp : Z) (l : list (R * Z)) : Prop :=
  match l with
  | [] => True
  | (x, q) :: l2 =>
      (emin t <= q <= qp)%Z /\ ismul q x /\ asum (map fst l2) <= bpow radix2 (q + prec t - 10) /\
      asum (skipn n (map fst l2)) <= bpow radix2 (q - 10) /\ okl t n q l2
  end.
Lemma okl_mul t n l : forall qp y r, okl t n qp l -> In (y, r) l -> ismul (emin t) y.
Proof.
  induction l as [|[x q] l IH]; intros qp y r H I; [destruct I|]. destruct H as (A & B & _ & _ & D). destruct I as [I|I].
  - injection I as <- <-. apply (ismul_le q); auto; lia.
  - eapply IH; eauto.
Qed.
Lemma okl_decays t n l : forall qp l0, (forall y r, In (y, r) l0 -> ismul qp y) -> okl t n qp l ->
  forall l1 x q l2, l = l1 ++ (x, q) :: l2 ->
    (emin t <= q)%Z /\ (forall y r, In (y, r) (l0 ++ l1 ++ [(x, q)]) -> ismul q y) /\ (forall y r, In (y, r) l2 -> ismul (emin t) y) /\
    asum (map fst l2) <= bpow radix2 (q + prec t - 10) /\ asum (skipn n (map fst l2)) <= bpow radix2 (q - 10).
Proof.
  induction l as [|[x' q'] l IH]; intros qp l0 H0 H l1 x q l2 E; [destruct l1; discriminate|].
  destruct H as (A & B & D1 & D2 & D).
  assert (H0' : forall y r, In (y, r) (l0 ++ [(x', q')]) -> ismul q' y).
  { intros y r I. apply in_app_or in I. destruct I as [I|[I|[]]]; [apply (ismul_le qp); [lia|eauto]|]. injection I as <- <-. exact B. }
  destruct l1 as [|z l1]; cbn [app] in E.
  - injection E as -> -> ->. cbn [app]. split; [lia|]. split; [exact H0'|]. split; [|split; auto].
    intros y r I. eapply okl_mul; eauto.
  - injection E as <- E. destruct (IH q' (l0 ++ [(x', q')]) H0' D l1 x q l2 E) as (K1 & K2 & K3).
    split; auto. split; auto. intros y r I. apply (K2 y r). rewrite <- app_assoc. exact I.
Qed.
Lemma okl_ok t n qp l : okl t n qp l -> decays t n l.
Proof. intros H l1 x q l2 E. apply (okl_decays t n l qp [] (fun y r I => match I with end) H l1 x q l2 E). Qed.

Lemma okl_le t n q q' l : (q <= q')%Z -> okl t n q l -> okl t n q' l.
Proof. destruct l as [|[x r] l]; cbn [okl]; auto. intros H (A & B). split; [lia|exact B]. Qed.

Definition ux (t : ty) (j : Z) : Z := (emax t - width t + 1 - j * width t)%Z.
Lemma ux_unit t j : (j <= jmax t)%Z -> (unit_exp t j + emin t)%Z = ux t j.
Proof. intros H. unfold unit_exp, ux. rewrite Z.min_l by auto. lia. Qed.
Lemma ux_succ t j : ux t (j + 1) = (ux t j - width t)%Z. Proof. unfold ux. lia. Qed.
Lemma ux_min t : (emin t <= ux t (jmax t))%Z. Proof. destruct t; cbv; discriminate. Qed.

(** Number of additions after the first rounded one that can still matter. *)
Definition nhalf (t : ty) : nat := match t with Dbl => 1 | Flt => 2 end.
Definition nadd (t : ty) : nat := 2 * nhalf t + 1.
Definition cfac (t : ty) : R := match t with Dbl => 41 / 10 | Flt => 61 / 10 end.
Lemma cfac_ok t : 0 < cfac t <= 7 /\ (INR (nadd t) + 1 + INR (nadd t) * bpow radix2 (-8) + bpow radix2 (-8)) * (1 + bpow radix2 (-9)) <= cfac t.
Proof.
  replace (bpow radix2 (-8)) with (/ 256) by (cbn; lra). replace (bpow radix2 (-9)) with (/ 512) by (cbn; lra).
  unfold cfac, nadd, nhalf. destruct t; [replace (INR (2 * 1 + 1)) with 3 by (cbn; lra)|replace (INR (2 * 2 + 1)) with 5 by (cbn; lra)]; lra.
Qed.

Section terms.
  Context (t : ty) (V C : Z -> Z).
  Definition cterm (j : Z) : R * Z := (IZR (C j) * bpow radix2 (ux t j + prec t - 3), Z.max (ux t j + prec t - 3) (ux t (jmax t))).
  Definition pterm (j : Z) : R * Z := (IZR (V j) * bpow radix2 (ux t j), Z.max (ux t j) (ux t (jmax t))).
  (** What follows the carry of bin j when n more bins follow. *)
  Fixpoint rest (n : nat) (j : Z) : list (R * Z) :=
    match n with O => [pterm j] | S n' => cterm (j + 1) :: pterm j :: rest n' (j + 1) end.

  Hypothesis HV : forall j, (0 <= V j < quarter t)%Z.
  Hypothesis HC : forall j, (Z.abs (C j) <= 2 ^ prec t)%Z.
  Hypothesis HZ : forall j, (jmax t < j)%Z -> V j = 0%Z /\ C j = 0%Z.

  Lemma c_size j : Rabs (fst (cterm j)) <= bpow radix2 (ux t j + 2 * prec t - 3).
  Proof.
    unfold cterm. cbn [fst]. rewrite Rabs_mult, (Rabs_pos_eq (bpow _ _)) by apply bpow_ge_0.
    replace (ux t j + 2 * prec t - 3)%Z with (prec t + (ux t j + prec t - 3))%Z by lia. rewrite bpow_plus.
    apply Rmult_le_compat_r; [apply bpow_ge_0|]. rewrite <- abs_IZR, bpow_IZR by (pose proof (prec_pos t); lia). apply IZR_le, HC.
  Qed.
  Lemma p_size j : Rabs (fst (pterm j)) <= bpow radix2 (ux t j + prec t - 3).
  Proof.
    unfold pterm. cbn [fst]. rewrite Rabs_mult, (Rabs_pos_eq (bpow _ _)) by apply bpow_ge_0.
    replace (ux t j + prec t - 3)%Z with ((prec t - 3) + ux t j)%Z by lia. rewrite bpow_plus.
    apply Rmult_le_compat_r; [apply bpow_ge_0|]. rewrite <- abs_IZR, bpow_IZR by (pose proof (prec_pos t); lia). apply IZR_le.
    specialize (HV j). unfold quarter in HV. lia.
  Qed.
  Lemma rest_size n : forall j, asum (map fst (rest n j)) <= bpow radix2 (ux t j + 2 * prec t - 2 - width t).
  Proof.
    assert (E : (ux t 0 = ux t 0)%Z) by reflexivity.
    induction n as [|n IH]; intros j; cbn [rest map asum fold_right].
    - pose proof (p_size j) as P. eapply Rle_trans; [|apply (bpow_le radix2 (ux t j + prec t - 3)); destruct t; cbn [prec width]; lia]. lra.
    - pose proof (c_size (j + 1)) as SC. pose proof (p_size j) as SP. specialize (IH (j + 1)%Z). unfold asum in IH. rewrite ux_succ in *.
      set (g := (ux t j + 2 * prec t - 4 - width t)%Z).
      assert (bpow radix2 (ux t j - width t + 2 * prec t - 3) = 2 * bpow radix2 g).
      { replace (ux t j - width t + 2 * prec t - 3)%Z with (1 + g)%Z by (unfold g; lia). rewrite bpow_plus. reflexivity. }
      assert (bpow radix2 (ux t j + 2 * prec t - 2 - width t) = 4 * bpow radix2 g).
      { replace (ux t j + 2 * prec t - 2 - width t)%Z with (2 + g)%Z by (unfold g; lia). rewrite bpow_plus. reflexivity. }
      assert (bpow radix2 (ux t j + prec t - 3) <= bpow radix2 g) by (apply bpow_le; unfold g; destruct t; cbn [prec width]; lia).
      assert (bpow radix2 (ux t j - width t + 2 * prec t - 2 - width t) <= bpow radix2 g) by (apply bpow_le; unfold g; destruct t; cbn [prec width]; lia).
      lra.
  Qed.
  Lemma skip_size m : forall n j, asum (skipn (2 * m) (map fst (rest n j))) <= bpow radix2 (ux t (j + Z.of_nat m) + 2 * prec t - 2 - width t).
  Proof.
    induction m as [|m IH]; intros n j.
    - rewrite Z.add_0_r. apply rest_size.
    - replace (2 * S m)%nat with (S (S (2 * m))) by lia. destruct n as [|n]; cbn [rest map skipn].
      + destruct (2 * m)%nat; cbn [skipn asum fold_right]; apply bpow_ge_0.
      + eapply Rle_trans; [apply IH|]. right. do 2 f_equal. do 2 f_equal. f_equal. lia.
  Qed.
  Lemma skip_odd m : forall n j, asum (skipn (2 * m + 1) (map fst (rest n j))) <= bpow radix2 (ux t (j + Z.of_nat m) + prec t - 2).
  Proof.
    induction m as [|m IH]; intros n j.
    - rewrite Z.add_0_r. destruct n as [|n]; cbn [rest map skipn Nat.mul Nat.add asum fold_right]; [apply bpow_ge_0|].
      pose proof (p_size j) as SP. pose proof (rest_size n (j + 1)) as S1. unfold asum in S1. rewrite ux_succ in S1.
      replace (ux t j + prec t - 2)%Z with (1 + (ux t j + prec t - 3))%Z by lia. rewrite bpow_plus. change (bpow radix2 1) with 2.
      assert (bpow radix2 (ux t j - width t + 2 * prec t - 2 - width t) <= bpow radix2 (ux t j + prec t - 3)) by (apply bpow_le; destruct t; cbn [prec width]; lia).
      lra.
    - replace (2 * S m + 1)%nat with (S (S (2 * m + 1))) by lia. destruct n as [|n]; cbn [rest map skipn].
      + rewrite ?skipn_nil. replace (2 * m + 1)%nat with (S (2 * m)) by lia. cbn [skipn]. rewrite ?skipn_nil. apply bpow_ge_0.
      + eapply Rle_trans; [apply IH|]. right. f_equal. f_equal. f_equal. f_equal. lia.
  Qed.
  Lemma c_mul j : ismul (snd (cterm j)) (fst (cterm j)).
  Proof.
    unfold cterm. cbn [fst snd]. destruct (Z_le_dec j (jmax t)) as [H|H].
    - rewrite Z.max_l; [eexists; reflexivity|]. assert (ux t (jmax t) <= ux t j)%Z by (unfold ux; pose proof (width_pos t); nia). pose proof (prec_pos t). lia.
    - destruct (HZ j ltac:(lia)) as [_ ->]. rewrite Rmult_0_l. apply ismul_0.
  Qed.
  Lemma p_mul j : ismul (snd (pterm j)) (fst (pterm j)).
  Proof.
    unfold pterm. cbn [fst snd]. destruct (Z_le_dec j (jmax t)) as [H|H].
    - rewrite Z.max_l; [eexists; reflexivity|]. unfold ux; pose proof (width_pos t); nia.
    - destruct (HZ j ltac:(lia)) as [-> _]. rewrite Rmult_0_l. apply ismul_0.
  Qed.

  Lemma rest_ok n : forall j, okl Dbl (nadd t) (Z.max (ux t j + width t) (ux t (jmax t))) (rest n j).
  Proof.
    assert (M0 : (emin Dbl <= ux t (jmax t))%Z) by (destruct t; cbv; discriminate).
    induction n as [|n IH]; intros j; cbn [rest].
    - cbn [okl pterm]. split; [pose proof (width_pos t); lia|]. split; [apply (p_mul j)|]. cbn [map]. rewrite skipn_nil. cbn [asum fold_right].
      split; [apply bpow_ge_0|]. split; [apply bpow_ge_0|]. exact I.
    - assert (S1 := rest_size n (j + 1)). assert (SP := p_size j). assert (SO := skip_odd (nhalf t) n (j + 1)). assert (SE := skip_size (nhalf t) n (j + 1)).
      assert (UH : ux t (j + 1 + Z.of_nat (nhalf t)) = (ux t j - width t - Z.of_nat (nhalf t) * width t)%Z) by (unfold ux; lia). rewrite UH in SO, SE.
      specialize (IH (j + 1)%Z). rewrite !ux_succ in *. replace (ux t j - width t + width t)%Z with (ux t j) in IH by lia.
      set (M := ux t (jmax t)) in *.
      assert (B1 : asum (map fst (pterm j :: rest n (j + 1))) <= bpow radix2 (Z.max (ux t j - width t + prec t - 3) M + prec Dbl - 10)).
      { cbn [map asum fold_right]. unfold asum in S1. set (g := (ux t j - width t + prec t - 3 + prec Dbl - 11)%Z).
        assert (H : bpow radix2 (1 + g) <= bpow radix2 (Z.max (ux t j - width t + prec t - 3) M + prec Dbl - 10)) by (apply bpow_le; unfold g; lia).
        rewrite bpow_plus in H. change (bpow radix2 1) with 2 in H.
        assert (bpow radix2 (ux t j + prec t - 3) <= bpow radix2 g) by (apply bpow_le; unfold g; destruct t; cbn [prec width]; lia).
        assert (bpow radix2 (ux t j - width t + 2 * prec t - 2 - width t) <= bpow radix2 g) by (apply bpow_le; unfold g; destruct t; cbn [prec width]; lia).
        lra. }
      assert (B2 : asum (skipn (nadd t) (map fst (pterm j :: rest n (j + 1)))) <= bpow radix2 (Z.max (ux t j - width t + prec t - 3) M - 10)).
      { cbn [map]. unfold nadd. rewrite (Nat.add_1_r (2 * (nhalf t))). cbn [skipn].
        eapply Rle_trans; [exact SE|]. apply bpow_le. unfold nhalf. destruct t; cbn [prec width Z.of_nat Pos.of_succ_nat Pos.succ]; lia. }
      assert (B3 : asum (map fst (rest n (j + 1))) <= bpow radix2 (Z.max (ux t j) M + prec Dbl - 10)).
      { eapply Rle_trans; [exact S1|]. apply bpow_le. destruct t; cbn [prec width]; lia. }
      assert (B4 : asum (skipn (nadd t) (map fst (rest n (j + 1)))) <= bpow radix2 (Z.max (ux t j) M - 10)).
      { eapply Rle_trans; [exact SO|]. apply bpow_le. unfold nhalf. destruct t; cbn [prec width Z.of_nat Pos.of_succ_nat Pos.succ]; lia. }
      change (cterm (j + 1)) with (fst (cterm (j + 1)), snd (cterm (j + 1))). change (pterm j) with (fst (pterm j), snd (pterm j)) at 1. cbn [okl].
      pose proof (prec_pos t). pose proof (width_pos t).
      split; [cbn [cterm snd]; rewrite ux_succ; fold M; destruct t; cbn [prec width]; lia|]. split; [apply c_mul|].
      split; [cbn [cterm snd]; rewrite ux_succ; fold M; exact B1|]. split; [cbn [cterm snd]; rewrite ux_succ; fold M; exact B2|].
      split; [cbn [cterm pterm snd]; rewrite ux_succ; fold M; destruct t; cbn [prec width]; lia|]. split; [apply p_mul|]. split; [exact B3|]. split; [exact B4|].
      exact IH.
  Qed.
  Definition all_terms (n : nat) (k : Z) : list (R * Z) := cterm k :: rest n k.
  Lemma terms_decay n k : (0 <= k)%Z -> decays Dbl (nadd t) (all_terms n k).
  Proof.
    intros Hk. apply (okl_ok _ _ (Z.max (ux t k + prec t - 3) (ux t (jmax t)))). unfold all_terms.
    assert (M0 : (emin Dbl <= ux t (jmax t))%Z) by (destruct t; cbv; discriminate).
    pose proof (rest_ok n k) as RO. pose proof (rest_size n k) as S1. pose proof (skip_odd (nhalf t) n k) as SO.
    assert (UH : ux t (k + Z.of_nat (nhalf t)) = (ux t k - Z.of_nat (nhalf t) * width t)%Z) by (unfold ux; lia). rewrite UH in SO.
    change (cterm k) with (fst (cterm k), snd (cterm k)). cbn [okl]. pose proof (c_mul k) as CM. cbn [cterm snd] in *. set (M := ux t (jmax t)) in *.
    split; [|split; [exact CM|split; [|split]]].
    - split; [lia|]. apply Z.le_refl.
    - eapply Rle_trans; [exact S1|]. apply bpow_le. destruct t; cbn [prec width]; lia.
    - eapply Rle_trans; [exact SO|]. apply bpow_le. unfold nhalf. destruct t; cbn [prec width Z.of_nat Pos.of_succ_nat Pos.succ]; lia.
    - eapply okl_le; [|exact RO]. destruct t; cbn [prec width]; lia.
  Qed.
  Lemma rest_last n : forall j x q, In (x, q) (rest n j) -> (Z.max (ux t (j + Z.of_nat n)) (ux t (jmax t)) <= q)%Z.
  Proof.
    pose proof (width_pos t). pose proof (prec_pos t).
    induction n as [|n IH]; intros j x q I; cbn [rest] in I.
    - destruct I as [I|[]]. injection I as _ <-. rewrite Z.add_0_r. lia.
    - replace (j + Z.of_nat (S n))%Z with (j + 1 + Z.of_nat n)%Z by lia.
      assert (UL : forall i, (0 <= i)%Z -> (ux t (j + i) <= ux t j)%Z) by (intros i Hi; unfold ux; nia).
      assert (UL' : (ux t (j + 1 + Z.of_nat n) <= ux t (j + 1))%Z) by (unfold ux; nia).
      destruct I as [I|[I|I]]; [injection I as _ <-|injection I as _ <-|now apply IH with (x := x)].
      + lia.
      + pose proof (UL (1 + Z.of_nat n)%Z ltac:(lia)). rewrite Z.add_assoc in H1. lia.
  Qed.
  Lemma terms_last n k x q : In (x, q) (all_terms n k) -> (Z.max (ux t (k + Z.of_nat n)) (ux t (jmax t)) <= q)%Z.
  Proof.
    intros [I|I]; [|apply (rest_last n k x q I)]. injection I as _ <-. pose proof (width_pos t). pose proof (prec_pos t).
    assert (ux t (k + Z.of_nat n) <= ux t k)%Z by (unfold ux; nia). lia.
  Qed.

  Lemma rest_mul n : forall j x, In x (map fst (rest n j)) -> ismul (ux t (jmax t)) x.
  Proof.
    induction n as [|n IH]; intros j x I; cbn [rest map] in I.
    - destruct I as [<-|[]]. eapply ismul_le; [|apply p_mul]. cbn [pterm snd]. lia.
    - destruct I as [<-|[<-|I]]; [| |eapply IH; eauto].
      + eapply ismul_le; [|apply c_mul]. cbn [cterm snd]. lia.
      + eapply ismul_le; [|apply p_mul]. cbn [pterm snd]. lia.
  Qed.
  Lemma terms_mul n k x : In x (map fst (all_terms n k)) -> ismul (ux t (jmax t)) x.
  Proof.
    intros [<-|I]; [|eapply rest_mul; eauto]. eapply ismul_le; [|apply c_mul]. cbn [cterm snd]. lia.
  Qed.

  (** What the terms add up to. *)
  Definition cval (j : Z) : R := IZR (C j * quarter t + V j) * bpow radix2 (ux t j).
  Fixpoint total (n : nat) (j : Z) : R := match n with O => 0 | S n' => cval j + total n' (j + 1) end.
  Lemma cval_eq j : cval j = fst (cterm j) + fst (pterm j).
  Proof.
    unfold cval, cterm, pterm. cbn [fst]. rewrite plus_IZR, mult_IZR. unfold quarter.
    replace (ux t j + prec t - 3)%Z with ((prec t - 3) + ux t j)%Z by lia. rewrite bpow_plus, (bpow_IZR (prec t - 3)) by (pose proof (prec_pos t); lia). ring.
  Qed.
  Lemma rest_total n : forall j, fsum (map fst (rest n j)) = fst (pterm j) + total n (j + 1).
  Proof.
    induction n as [|n IH]; intros j; cbn [rest map fsum fold_right total]; [lra|].
    specialize (IH (j + 1)%Z). unfold fsum in IH. rewrite IH, cval_eq. ring.
  Qed.
  Lemma terms_total n k : fsum (map fst (all_terms n k)) = total (S n) k.
  Proof. unfold all_terms. cbn [map fsum fold_right total]. fold (fsum (map fst (rest n k))). rewrite rest_total, cval_eq. ring. Qed.

  Lemma conv_error n k l1 l2 : (0 <= k)%Z -> all_terms n k = l1 ++ l2 ->
    rsum Dbl 0 (map fst l1) = fsum (map fst l1) /\ fmt Dbl (fsum (map fst l1)) \/
    bpow radix2 (Z.max (ux t (k + Z.of_nat n)) (ux t (jmax t)) + 53) * (1 - bpow radix2 (-10)) <= Rabs (fsum (map fst l1)) /\
    fmt Dbl (rsum Dbl 0 (map fst l1)) /\
    Rabs (rsum Dbl 0 (map fst l1) - fsum (map fst l1)) <= (cfac t) * u_ Dbl * Rabs (fsum (map fst l1)).
  Proof.
    intros Hk E. pose proof (terms_decay n k Hk) as D. rewrite E in D. apply decays_app in D.
    destruct (rsum_error Dbl (nadd t) l1 D) as [H|((la & x & q & lb & El & LB) & F & B)]; [left; exact H|right].
    split; [|split; [exact F|]].
    - eapply Rle_trans; [|exact LB]. apply Rmult_le_compat_r; [cbn; lra|]. apply bpow_le. cbn [prec].
      assert (I : In (x, q) (all_terms n k)) by (rewrite E, El; apply in_or_app; left; apply in_or_app; right; now left).
      apply terms_last in I. lia.
    - eapply Rle_trans; [exact B|]. apply Rmult_le_compat_r; [apply Rabs_pos|]. apply Rmult_le_compat_r; [apply bpow_ge_0|]. apply cfac_ok.
  Qed.
End terms.
