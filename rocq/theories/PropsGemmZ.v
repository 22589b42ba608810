(** * C47: complex matrix-matrix products *)
From Coq Require Import ZArith Bool List Lia Permutation Ascii.
From Flocq Require Import Core BinarySingleNaN.
From Verif Require Import Fp Mem Binned Spec FpProofs BitProofs CoreArith SpecProofs WordProofs MemProofs AccProofs SumProofs ConvProofs Client History ClientProofs StrideProofs PropsSum PropsAcc PropsMem ComplexProofs PropsComplex Gen GenProofs Params ParamsProofs PropsGen Blas LaneProofs ReduceProofs DriverProofs BlasSpec PropsBlas BlasZ ZEvents ZKernel ZDriver ZLoop BlasZSpec PropsBlasZ Gemv GemvSpec GemvProofs PropsGemv GemvZ GemvZSpec GemvZProofs PropsGemvZ.
Import ListNotations.
Open Scope Z_scope.

Section MMZ.
  Context {t : ty} (fold : Z) (Hf : 2 <= fold <= MAXFOLD t).
  Lemma zgemm_holds tu b Order TransA TransB M N K (alpha : F t * F t) A lda B ldb C ldc bufA bufB us vs zs (m : mem t) :
    tuned t tu -> legal_gemm b -> 0 <= M -> 0 <= N -> 0 <= K -> right_scaling Order TransA alpha ->
    2 * Z.min (Z.min K (Z.max (mx_block b) (mxt_block b))) (block_max tu) <= endurance t ->
    zgemm_layout fold Order TransA TransB M N K A lda B ldb C ldc bufA (bufA_len b M K) bufB (mxt_block b * myt_block b) ->
    is_complex alpha fzero = false ->
    (forall i j, 0 <= i < M -> 0 <= j < N -> zacc_at fold (us i j) (vs i j) (zs i j) m (zc_at fold Order C ldc i j) /\
       2 * K + Z.of_nat (length (zs i j)) <= capacity t) ->
    let m' := zbzgemm tu b fold Order TransA TransB M N K alpha A lda B ldb C ldc bufA bufB m in
    (forall i j, 0 <= i < M -> 0 <= j < N ->
       zout fold (us i j) (vs i j) (zgemm_products m Order TransA TransB A lda alpha B ldb K i j ++ zs i j) m' (zc_at fold Order C ldc i j)) /\
    (forall a, ~ zgemm_touched fold Order M N C ldc bufA (bufA_len b M K) bufB (mxt_block b * myt_block b) a -> m' a = m a).
  Proof.
    intros HT LB HM HN HK RS HE (L1 & L2 & L3 & L4 & L5) Al H. cbv zeta. unfold zbzgemm. rewrite z_zero, Al, orb_false_r. cbv zeta.
    destruct (Z.eqb_spec M 0) as [-> |NM].
    { cbn [orb]. split; auto. intros; lia. }
    destruct (Z.eqb_spec N 0) as [-> |NN].
    { cbn [orb]. split; auto. intros; lia. }
    destruct (Z.eqb_spec K 0) as [-> |NK].
    { cbn [orb]. split; auto. intros i j Hi Hj. unfold zgemm_products. rewrite zseq_nil by lia. apply zacc_out, (H i j Hi Hj). }
    cbn [orb].
    set (elA := zop_addr Order TransA A lda) in *. set (elB := zop_addr Order TransB B ldb) in *.
    set (tm := fun (r : Z * Z) k => summands (times_complex alpha (zop m Order TransA A lda (fst r) k)) (zop m Order TransB B ldb k (snd r))).
    assert (KEY : forall m', zmresult fold b (is_row Order) M N K C ldc bufA bufB m (fun r => us (fst r) (snd r)) (fun r => vs (fst r) (snd r)) (fun r => zs (fst r) (snd r)) tm m' ->
      (forall i j, 0 <= i < M -> 0 <= j < N ->
       zout fold (us i j) (vs i j) (zgemm_products m Order TransA TransB A lda alpha B ldb K i j ++ zs i j) m' (zc_at fold Order C ldc i j)) /\
      (forall a, ~ zgemm_touched fold Order M N C ldc bufA (bufA_len b M K) bufB (mxt_block b * myt_block b) a -> m' a = m a)).
    { intros m' [R1 R2]. split; [|exact R2]. intros i j Hi Hj. exact (R1 (i, j) (conj Hi Hj)). }
    apply KEY. clear KEY.
    assert (LT : forall r k, length (tm r k) = 2%nat) by reflexivity.
    assert (HC : forall r, 0 <= fst r < M /\ 0 <= snd r < N -> 2 * K + Z.of_nat (length (zs (fst r) (snd r))) <= capacity t).
    { intros (i, j) (Hi & Hj). apply (H i j Hi Hj). }
    assert (H0 : forall r, 0 <= fst r < M /\ 0 <= snd r < N -> zacc_at fold (us (fst r) (snd r)) (vs (fst r) (snd r)) (zs (fst r) (snd r)) m (zc_at fold Order C ldc (fst r) (snd r))).
    { intros (i, j) (Hi & Hj). apply (H i j Hi Hj). }
    clear H.
    pose proof (zgemm_core_ok fold Hf tu HT b LB (is_row Order) M N K HK A lda B ldb C ldc bufA bufB elA elB m L1 L2 L3 L4 L5
      (fun r => us (fst r) (snd r)) (fun r => vs (fst r) (snd r)) (fun r => zs (fst r) (snd r)) tm LT HC H0) as CORE.
    assert (HLn : M * K <= bufA_len b M K) by (unfold bufA_len; lia).
    assert (NA : forall i k o, 0 <= i < M -> 0 <= k < K -> o = 0 \/ o = 1 -> ~ within bufA (2 * bufA_len b M K) (elA i k + o)).
    { intros i k o Hi Hk Ho Hw. apply (L2 i k o Hi Hk Ho). right. left. exact Hw. }
    assert (HEX : 2 * Z.min (Z.min K (mx_block b)) (block_max tu) <= endurance t) by lia.
    assert (HET : 2 * Z.min (Z.min K (mxt_block b)) (block_max tu) <= endurance t) by lia.
    assert (EA : forall i k, elA i k = if Bool.eqb (is_row Order) (is_notrans TransA) then A + 2 * (i * lda + k) else A + 2 * (k * lda + i)).
    { intros i k. unfold elA, zop_addr, op_addr, elem_addr. destruct (is_row Order), (is_notrans TransA); cbn [Bool.eqb]; lia. }
    assert (EB : forall k j, elB k j = if Bool.eqb (is_row Order) (is_notrans TransB) then B + 2 * (k * ldb + j) else B + 2 * (j * ldb + k)).
    { intros k j. unfold elB, zop_addr, op_addr, elem_addr. destruct (is_row Order), (is_notrans TransB); cbn [Bool.eqb]; lia. }
    set (ca := is_conj TransA) in *. set (cb := is_conj TransB) in *.
    assert (ETM : forall r k, tm r k = summands (times_complex alpha (conj_if ca (cell2 m (elA (fst r) k)))) (conj_if cb (cell2 m (elB k (snd r))))).
    { intros r k. unfold tm, zop, conj_if, ca, cb. reflexivity. }
    assert (ONE : forall z, is_complex alpha (mkf 1 0) = true -> times_complex alpha z = z).
    { intros z E. unfold times_complex. now rewrite E. }
    assert (NONE : forall z, is_complex alpha (mkf 1 0) = false -> times_complex alpha z = mul_plain alpha z).
    { intros z E. unfold times_complex. now rewrite E. }
    rewrite !z_one. unfold right_scaling in RS.
    clearbody elA elB tm. clear HC H0 L1 L2 L3 L4 L5 LT.
    (* one of the two ways of reading A in place *)
    assert (SM : forall f m1 pA ld, (forall i k, elA i k = A + 2 * (i * lda + k)) ->
      (forall z, is_complex alpha (mkf 1 0) = false -> f z = times_complex alpha (conj_if ca z)) ->
      (pA, ld, m1) = (if is_complex alpha (mkf 1 0) then (A, lda, m) else (bufA, K, zscale_matrix f M K A lda bufA m)) ->
      (forall a, ~ within bufA (2 * bufA_len b M K) a -> m1 a = m a) /\
      (forall i k, 0 <= i < M -> 0 <= k < K -> cell2 m1 (pA + 2 * (i * ld + k)) = (if is_complex alpha (mkf 1 0) then cell2 m (elA i k) else times_complex alpha (conj_if ca (cell2 m (elA i k)))) /\
        (pA + 2 * (i * ld + k) = elA i k \/ forall o, o = 0 \/ o = 1 -> within bufA (2 * bufA_len b M K) (pA + 2 * (i * ld + k) + o)))).
    { intros f m1 pA ld EL HF E. destruct (is_complex alpha (mkf 1 0)).
      - injection E as -> -> ->. split; auto. intros i k Hi Hk. rewrite EL. auto.
      - injection E as -> -> ->. destruct (zscale_matrix_ok f M K A lda bufA (bufA_len b M K) m HM HK HLn) as (S1 & S2 & S3).
        { intros i k o Hi Hk Ho Hw. rewrite <- EL in Hw. exact (NA i k o Hi Hk Ho Hw). }
        cbv zeta in S1, S2. split; [exact S1|]. intros i k Hi Hk. rewrite (S2 i k Hi Hk), EL, HF by auto. split; auto. }
    destruct (is_row Order) eqn:EO, (is_notrans TransA) eqn:EAN; cbn [Bool.eqb] in EA.
    - (* row, A not transposed *)
      assert (ECA : ca = false) by (unfold ca; now apply notrans_conj). rewrite ECA in *.
      destruct (if is_complex alpha (mkf 1 0) then (A, lda, m) else (bufA, K, zscale_matrix (mul_plain alpha) M K A lda bufA m)) as [[pA ld] m1] eqn:EM.
      destruct (SM (mul_plain alpha) m1 pA ld EA) as [S1 S2]; [intros z E; rewrite NONE by exact E; reflexivity|congruence|].
      set (Aval := fun i k => times_complex alpha (cell2 m (elA i k))).
      assert (S2' : forall i k, 0 <= i < M -> 0 <= k < K -> cell2 m1 (pA + 2 * (i * ld + k)) = Aval i k /\
        (pA + 2 * (i * ld + k) = elA i k \/ forall o, o = 0 \/ o = 1 -> within bufA (2 * bufA_len b M K) (pA + 2 * (i * ld + k) + o))).
      { intros i k Hi Hk. destruct (S2 i k Hi Hk) as [E1 E2]. split; [|exact E2]. rewrite E1. unfold Aval. destruct (is_complex alpha (mkf 1 0)) eqn:E; [now rewrite ONE|reflexivity]. }
      clear S2 EM. destruct (is_notrans TransB) eqn:EBN; cbn [Bool.eqb] in EB.
      + refine (CORE UAB false true same same pA ld m1 Aval (fun k j => cell2 m (elB k j)) _ HET ltac:(discriminate) S1 (fun _ => S2') (fun k j _ _ => EB k j) (fun _ _ _ _ => eq_refl)).
        intros r k _ _. rewrite ETM. unfold cb. rewrite notrans_conj by exact EBN. apply alike_refl.
      + destruct (is_trans TransB) eqn:EBT.
        * refine (CORE UAB false false same same pA ld m1 Aval (fun k j => cell2 m (elB k j)) _ HEX ltac:(discriminate) S1 (fun _ => S2') (fun k j _ _ => EB k j) (fun _ _ _ _ => eq_refl)).
          intros r k _ _. rewrite ETM. unfold cb. rewrite not_conj by exact EBT. apply alike_refl.
        * refine (CORE CBA false false same same pA ld m1 Aval (fun k j => cell2 m (elB k j)) _ HEX ltac:(discriminate) S1 (fun _ => S2') (fun k j _ _ => EB k j) (fun _ _ _ _ => eq_refl)).
          intros r k _ _. rewrite ETM. unfold cb. rewrite yes_conj by auto. apply terms_cba.
    - (* row, A transposed or conjugate transposed *)
      assert (FILL : forall d fb gA gB Aval Bval, (forall r k, alike (call_terms d (Aval (fst r) k) (Bval k (snd r))) (tm r k)) ->
        (forall i k, Aval i k = gA (cell2 m (elA i k))) -> fb = Bool.eqb true (is_notrans TransB) ->
        (forall k j, Bval k j = if fb then gB (cell2 m (elB k j)) else cell2 m (elB k j)) ->
        zmresult fold b true M N K C ldc bufA bufB m (fun r => us (fst r) (snd r)) (fun r => vs (fst r) (snd r)) (fun r => zs (fst r) (snd r)) tm
          (zgemm_nest d tu true fold M N K (myt_block b) (if fb then myt_block b else my_block b) (mxt_block b)
            (fun i j k m => if fb then zgemm_fill gB N K (myt_block b) (mxt_block b) (mxt_block b) B ldb bufB j k (zgemm_fill gA M K (myt_block b) (mxt_block b) (mxt_block b) A lda bufA i k m)
               else zgemm_fill gA M K (myt_block b) (mxt_block b) (mxt_block b) A lda bufA i k m)
            (fun i j k ii => bufA + 2 * (ii - i) * mxt_block b) (fun i j k jj => if fb then bufB + 2 * (jj - j) * mxt_block b else B + 2 * (jj * ldb + k)) C ldc m)).
      { intros d fb gA gB Aval Bval HTM HA' -> HB'.
        refine (CORE d true _ gA gB 0 0 m Aval Bval (fun r k _ _ => HTM r k) HET (fun _ i k _ _ => Logic.conj (EA i k) (HA' i k)) (fun _ _ => eq_refl) ltac:(discriminate) _ (fun k j _ _ => HB' k j)).
        intros k j _ _. rewrite EB. reflexivity. }
      clear CORE SM.
      destruct (is_trans TransA) eqn:EAT.
      + assert (ECA : ca = false) by (unfold ca; now apply not_conj). rewrite ECA in *.
        assert (HG : forall z, (if is_complex alpha (mkf 1 0) then same else mul_plain alpha) z = times_complex alpha z).
        { intros z. destruct (is_complex alpha (mkf 1 0)) eqn:E; [now rewrite ONE|now rewrite NONE]. }
        set (g := if is_complex alpha (mkf 1 0) then same else mul_plain alpha) in *. clearbody g.
        destruct (is_notrans TransB) eqn:EBN.
        * refine (FILL UAB true g same (fun i k => g (cell2 m (elA i k))) (fun k j => cell2 m (elB k j)) _ (fun _ _ => eq_refl) eq_refl (fun _ _ => eq_refl)).
          intros r k. rewrite ETM, HG. unfold cb. rewrite notrans_conj by exact EBN. apply alike_refl.
        * destruct (is_trans TransB) eqn:EBT.
          -- refine (FILL UAB false g same (fun i k => g (cell2 m (elA i k))) (fun k j => cell2 m (elB k j)) _ (fun _ _ => eq_refl) eq_refl (fun _ _ => eq_refl)).
             intros r k. rewrite ETM, HG. unfold cb. rewrite not_conj by exact EBT. apply alike_refl.
          -- refine (FILL CBA false g same (fun i k => g (cell2 m (elA i k))) (fun k j => cell2 m (elB k j)) _ (fun _ _ => eq_refl) eq_refl (fun _ _ => eq_refl)).
             intros r k. rewrite ETM, HG. unfold cb. rewrite yes_conj by auto. apply terms_cba.
      + assert (ECA : ca = true) by (unfold ca; now apply yes_conj). rewrite ECA in *. cbn [conj_if] in ETM.
        assert (MC : forall z, is_complex alpha (mkf 1 0) = false -> mul_conj alpha z = times_complex alpha (conjugate z)).
        { intros z E. rewrite NONE by exact E. apply mul_conj_eq. }
        destruct (is_notrans TransB) eqn:EBN; [|destruct (is_trans TransB) eqn:EBT].
        * assert (ECB : cb = false) by (unfold cb; now apply notrans_conj). rewrite ECB in *.
          destruct (is_complex alpha (mkf 1 0)) eqn:E1.
          -- refine (FILL CAB true same same (fun i k => cell2 m (elA i k)) (fun k j => cell2 m (elB k j)) _ (fun _ _ => eq_refl) eq_refl (fun _ _ => eq_refl)).
             intros r k. rewrite ETM, ONE by auto. apply terms_cab.
          -- refine (FILL UAB true (mul_conj alpha) same (fun i k => mul_conj alpha (cell2 m (elA i k))) (fun k j => cell2 m (elB k j)) _ (fun _ _ => eq_refl) eq_refl (fun _ _ => eq_refl)).
             intros r k. rewrite ETM, MC by auto. apply alike_refl.
        * assert (ECB : cb = false) by (unfold cb; now apply not_conj). rewrite ECB in *.
          destruct (is_complex alpha (mkf 1 0)) eqn:E1.
          -- refine (FILL CAB false same same (fun i k => cell2 m (elA i k)) (fun k j => cell2 m (elB k j)) _ (fun _ _ => eq_refl) eq_refl (fun _ _ => eq_refl)).
             intros r k. rewrite ETM, ONE by auto. apply terms_cab.
          -- refine (FILL UAB false (mul_conj alpha) same (fun i k => mul_conj alpha (cell2 m (elA i k))) (fun k j => cell2 m (elB k j)) _ (fun _ _ => eq_refl) eq_refl (fun _ _ => eq_refl)).
             intros r k. rewrite ETM, MC by auto. apply alike_refl.
        * assert (ECB : cb = true) by (unfold cb; now apply yes_conj). rewrite ECB in *.
          assert (HG : forall z, (if is_complex alpha (mkf 1 0) then neg_imag else mul_conj alpha) z = times_complex alpha (conjugate z)).
          { intros z. destruct (is_complex alpha (mkf 1 0)) eqn:E; [now rewrite ONE|now rewrite MC]. }
          set (g := if is_complex alpha (mkf 1 0) then neg_imag else mul_conj alpha) in *. clearbody g.
          refine (FILL CBA false g same (fun i k => g (cell2 m (elA i k))) (fun k j => cell2 m (elB k j)) _ (fun _ _ => eq_refl) eq_refl (fun _ _ => eq_refl)).
          intros r k. rewrite ETM, HG. apply terms_cba.
    - (* column, A not transposed *)
      assert (FILL : forall d fb gA gB Aval Bval, (forall r k, alike (call_terms d (Aval (fst r) k) (Bval k (snd r))) (tm r k)) ->
        (forall i k, Aval i k = gA (cell2 m (elA i k))) -> fb = Bool.eqb false (is_notrans TransB) ->
        (forall k j, Bval k j = if fb then gB (cell2 m (elB k j)) else cell2 m (elB k j)) ->
        zmresult fold b false M N K C ldc bufA bufB m (fun r => us (fst r) (snd r)) (fun r => vs (fst r) (snd r)) (fun r => zs (fst r) (snd r)) tm
          (zgemm_nest d tu false fold M N K (myt_block b) (if fb then myt_block b else my_block b) (mxt_block b)
            (fun i j k m => if fb then zgemm_fill gB N K (myt_block b) (mxt_block b) (mxt_block b) B ldb bufB j k (zgemm_fill gA M K (myt_block b) (mxt_block b) (mxt_block b) A lda bufA i k m)
               else zgemm_fill gA M K (myt_block b) (mxt_block b) (mxt_block b) A lda bufA i k m)
            (fun i j k ii => bufA + 2 * (ii - i) * mxt_block b) (fun i j k jj => if fb then bufB + 2 * (jj - j) * mxt_block b else B + 2 * (jj * ldb + k)) C ldc m)).
      { intros d fb gA gB Aval Bval HTM HA' -> HB'.
        refine (CORE d true _ gA gB 0 0 m Aval Bval (fun r k _ _ => HTM r k) HET (fun _ i k _ _ => Logic.conj (EA i k) (HA' i k)) (fun _ _ => eq_refl) ltac:(discriminate) _ (fun k j _ _ => HB' k j)).
        intros k j _ _. rewrite EB. reflexivity. }
      clear CORE SM.
      assert (ECA : ca = false) by (unfold ca; now apply notrans_conj). rewrite ECA in *.
      assert (HG : forall z, (if is_complex alpha (mkf 1 0) then same else mul_plain alpha) z = times_complex alpha z).
      { intros z. destruct (is_complex alpha (mkf 1 0)) eqn:E; [now rewrite ONE|now rewrite NONE]. }
      set (g := if is_complex alpha (mkf 1 0) then same else mul_plain alpha) in *. clearbody g.
      destruct (is_notrans TransB) eqn:EBN.
      + refine (FILL UAB false g same (fun i k => g (cell2 m (elA i k))) (fun k j => cell2 m (elB k j)) _ (fun _ _ => eq_refl) eq_refl (fun _ _ => eq_refl)).
        intros r k. rewrite ETM, HG. unfold cb. rewrite notrans_conj by exact EBN. apply alike_refl.
      + destruct (is_trans TransB) eqn:EBT.
        * refine (FILL UAB true g same (fun i k => g (cell2 m (elA i k))) (fun k j => cell2 m (elB k j)) _ (fun _ _ => eq_refl) eq_refl (fun _ _ => eq_refl)).
          intros r k. rewrite ETM, HG. unfold cb. rewrite not_conj by exact EBT. apply alike_refl.
        * refine (FILL CBA true g same (fun i k => g (cell2 m (elA i k))) (fun k j => cell2 m (elB k j)) _ (fun _ _ => eq_refl) eq_refl (fun _ _ => eq_refl)).
          intros r k. rewrite ETM, HG. unfold cb. rewrite yes_conj by auto. apply terms_cba.
    - (* column, A transposed or conjugate transposed, alpha = 1 *)
      assert (E1 : is_complex alpha (mkf 1 0) = true) by (destruct RS as [?|[?|?]]; congruence).
      rewrite E1. assert (EAV : forall i k, 0 <= i < M -> 0 <= k < K -> cell2 m (A + 2 * (i * lda + k)) = cell2 m (elA i k) /\
        (A + 2 * (i * lda + k) = elA i k \/ forall o, o = 0 \/ o = 1 -> within bufA (2 * bufA_len b M K) (A + 2 * (i * lda + k) + o))).
      { intros i k _ _. rewrite EA. auto. }
      clear SM. assert (T1 : forall r k, tm r k = summands (conj_if ca (cell2 m (elA (fst r) k))) (conj_if cb (cell2 m (elB k (snd r))))).
      { intros r k. rewrite ETM, ONE by exact E1. reflexivity. }
      destruct (is_trans TransA) eqn:EAT.
      + assert (ECA : ca = false) by (unfold ca; now apply not_conj). rewrite ECA in *.
        destruct (is_notrans TransB) eqn:EBN; cbn [Bool.eqb] in EB; [|destruct (is_trans TransB) eqn:EBT].
        * refine (CORE UAB false false same same A lda m (fun i k => cell2 m (elA i k)) (fun k j => cell2 m (elB k j)) _ HEX ltac:(discriminate) (fun _ _ => eq_refl) (fun _ => EAV) (fun k j _ _ => EB k j) (fun _ _ _ _ => eq_refl)).
          intros r k _ _. rewrite T1. unfold cb. rewrite notrans_conj by exact EBN. apply alike_refl.
        * refine (CORE UAB false true same same A lda m (fun i k => cell2 m (elA i k)) (fun k j => cell2 m (elB k j)) _ HET ltac:(discriminate) (fun _ _ => eq_refl) (fun _ => EAV) (fun k j _ _ => EB k j) (fun _ _ _ _ => eq_refl)).
          intros r k _ _. rewrite T1. unfold cb. rewrite not_conj by exact EBT. apply alike_refl.
        * refine (CORE CBA false true same same A lda m (fun i k => cell2 m (elA i k)) (fun k j => cell2 m (elB k j)) _ HET ltac:(discriminate) (fun _ _ => eq_refl) (fun _ => EAV) (fun k j _ _ => EB k j) (fun _ _ _ _ => eq_refl)).
          intros r k _ _. rewrite T1. unfold cb. rewrite yes_conj by auto. apply terms_cba.
      + assert (ECA : ca = true) by (unfold ca; now apply yes_conj). rewrite ECA in *.
        destruct (is_notrans TransB) eqn:EBN; cbn [Bool.eqb] in EB; [|destruct (is_trans TransB) eqn:EBT].
        * refine (CORE CAB false false same same A lda m (fun i k => cell2 m (elA i k)) (fun k j => cell2 m (elB k j)) _ HEX ltac:(discriminate) (fun _ _ => eq_refl) (fun _ => EAV) (fun k j _ _ => EB k j) (fun _ _ _ _ => eq_refl)).
          intros r k _ _. rewrite T1. unfold cb. rewrite notrans_conj by exact EBN. apply terms_cab.
        * refine (CORE CAB false true same same A lda m (fun i k => cell2 m (elA i k)) (fun k j => cell2 m (elB k j)) _ HET ltac:(discriminate) (fun _ _ => eq_refl) (fun _ => EAV) (fun k j _ _ => EB k j) (fun _ _ _ _ => eq_refl)).
          intros r k _ _. rewrite T1. unfold cb. rewrite not_conj by exact EBT. apply terms_cab.
        * refine (CORE CAB false true same neg_imag A lda m (fun i k => cell2 m (elA i k)) (fun k j => conjugate (cell2 m (elB k j))) _ HET ltac:(discriminate) (fun _ _ => eq_refl) (fun _ => EAV) (fun k j _ _ => EB k j) (fun _ _ _ _ => eq_refl)).
          intros r k _ _. rewrite T1. unfold cb. rewrite yes_conj by auto. apply terms_cab.
  Qed.
End MMZ.

(** ** C47 *)
(** zbzgemm leaves in each part of C_ij the words left by adding the products (alpha * op(A)_ik) * op(B)_kj
    (two complex summands each) with zbzadd, when that part is finite throughout; nothing but the accumulators
    and the buffers changes.  Missing: column major with A transposed or conjugate transposed and alpha <> 1
    (C47_refuted), and dot products of more than ENDURANCE / 2 elements (C29_refuted). *)
Theorem C47_gemm_is_adds_partial t tu b fold Order TransA TransB M N K (alpha : F t * F t) A lda B ldb C ldc bufA bufB us vs zs (m : mem t) :
  2 <= fold <= MAXFOLD t -> tuned t tu -> legal_gemm b -> 0 <= M -> 0 <= N -> 0 <= K ->
  let lenA := bufA_len b M K in let lenB := mxt_block b * myt_block b in
  right_scaling Order TransA alpha ->
  Z.min (Z.min K (Z.max (mx_block b) (mxt_block b))) (block_max tu) <= ENDURANCE t / 2 ->
  zgemm_layout fold Order TransA TransB M N K A lda B ldb C ldc bufA lenA bufB lenB ->
  is_complex alpha fzero = false ->
  (forall i j, 0 <= i < M -> 0 <= j < N -> zacc_at fold (us i j) (vs i j) (zs i j) m (zc_at fold Order C ldc i j) /\
     2 * K + Z.of_nat (length (zs i j)) <= CAPACITY t) ->
  let m' := zbzgemm tu b fold Order TransA TransB M N K alpha A lda B ldb C ldc bufA bufB m in
  (forall i j, 0 <= i < M -> 0 <= j < N ->
     let ps := zgemm_products m Order TransA TransB A lda alpha B ldb K i j in
     let Cij := zc_at fold Order C ldc i j in
     (all_finite (map fst (ps ++ zs i j)) = true -> re_words fold m' Cij (zadd_list fold Cij ps m) Cij) /\
     (all_finite (map snd (ps ++ zs i j)) = true -> im_words fold m' Cij (zadd_list fold Cij ps m) Cij)) /\
  (forall a, ~ zgemm_touched fold Order M N C ldc bufA lenA bufB lenB a -> m' a = m a).
Proof.
  intros Hf HT LB HM HN HK lenA lenB RS HE HL Al H m'. rewrite CAPACITY_eq in H. apply half_dots in HE.
  destruct (zgemm_holds fold Hf tu b Order TransA TransB M N K alpha A lda B ldb C ldc bufA bufB us vs zs m HT LB HM HN HK RS HE HL Al H) as [G1 G2].
  split; [|exact G2]. intros i j Hi Hj. cbv zeta. destruct (H i j Hi Hj) as (H1 & H2).
  refine (zout_words fold (us i j) (vs i j) _ (zs i j) m _ _ Hf H1 _ (G1 i j Hi Hj)).
  unfold zgemm_products. rewrite flat_two by auto. exact H2.
Qed.
Print Assumptions C47_gemm_is_adds_partial.
Theorem C47_alpha_zero t tu b fold Order TransA TransB M N K (alpha : F t * F t) A lda B ldb C ldc bufA bufB (m : mem t) :
  is_complex alpha fzero = true -> zbzgemm tu b fold Order TransA TransB M N K alpha A lda B ldb C ldc bufA bufB m = m.
Proof. intros H. unfold zbzgemm. now rewrite z_zero, H, !orb_true_r. Qed.
Print Assumptions C47_alpha_zero.
(** Two computations with the same op(A) and op(B): the same words. *)
Theorem C47_independent_partial t tu tu' b b' fold Order Order' TransA TransB TransA' TransB' M N K (alpha : F t * F t)
    A lda B ldb C ldc A' lda' B' ldb' C' ldc' bufA bufB bufA' bufB' us vs zs (m m' : mem t) :
  2 <= fold <= MAXFOLD t -> tuned t tu -> tuned t tu' -> legal_gemm b -> legal_gemm b' -> 0 <= M -> 0 <= N -> 0 <= K ->
  right_scaling Order TransA alpha -> right_scaling Order' TransA' alpha ->
  Z.min (Z.min K (Z.max (mx_block b) (mxt_block b))) (block_max tu) <= ENDURANCE t / 2 ->
  Z.min (Z.min K (Z.max (mx_block b') (mxt_block b'))) (block_max tu') <= ENDURANCE t / 2 ->
  zgemm_layout fold Order TransA TransB M N K A lda B ldb C ldc bufA (bufA_len b M K) bufB (mxt_block b * myt_block b) ->
  zgemm_layout fold Order' TransA' TransB' M N K A' lda' B' ldb' C' ldc' bufA' (bufA_len b' M K) bufB' (mxt_block b' * myt_block b') ->
  (forall i k, 0 <= i < M -> 0 <= k < K -> zop m Order TransA A lda i k = zop m' Order' TransA' A' lda' i k) ->
  (forall k j, 0 <= k < K -> 0 <= j < N -> zop m Order TransB B ldb k j = zop m' Order' TransB' B' ldb' k j) ->
  (forall i j, 0 <= i < M -> 0 <= j < N -> zacc_at fold (us i j) (vs i j) (zs i j) m (zc_at fold Order C ldc i j) /\
     zacc_at fold (us i j) (vs i j) (zs i j) m' (zc_at fold Order' C' ldc' i j) /\
     2 * K + Z.of_nat (length (zs i j)) <= CAPACITY t /\
     zfinite (zgemm_products m Order TransA TransB A lda alpha B ldb K i j ++ zs i j) = true) ->
  forall i j, 0 <= i < M -> 0 <= j < N ->
  let r := zbzgemm tu b fold Order TransA TransB M N K alpha A lda B ldb C ldc bufA bufB m in
  let r' := zbzgemm tu' b' fold Order' TransA' TransB' M N K alpha A' lda' B' ldb' C' ldc' bufA' bufB' m' in
  re_words fold r (zc_at fold Order C ldc i j) r' (zc_at fold Order' C' ldc' i j) /\
  im_words fold r (zc_at fold Order C ldc i j) r' (zc_at fold Order' C' ldc' i j).
Proof.
  intros Hf HT HT' LB LB' HM HN HK RS RS' HE HE' HL HL' EA EB H i j Hi Hj r r'. rewrite CAPACITY_eq in H.
  apply half_dots in HE, HE'.
  assert (EP : zgemm_products m Order TransA TransB A lda alpha B ldb K i j = zgemm_products m' Order' TransA' TransB' A' lda' alpha B' ldb' K i j).
  { unfold zgemm_products. rewrite !flat_map_concat_map. f_equal. apply map_ext_in. intros k Hk. apply zseq_In in Hk.
    rewrite (EA i k), (EB k j) by lia. reflexivity. }
  destruct (H i j Hi Hj) as (H1 & H2 & H3 & H4). apply andb_true_iff in H4. destruct H4 as [F0 F1].
  unfold r, r'. destruct (is_complex alpha fzero) eqn:Al.
  - rewrite !C47_alpha_zero by exact Al. apply zacc_out in H1, H2.
    destruct (zout_same fold _ _ _ _ m m' _ _ Hf eq_refl H1 H2) as [G1 G2].
    split; [apply G1|apply G2]; [revert F0|revert F1]; rewrite map_app, all_finite_app; intros F; apply andb_true_iff in F; apply F.
  - destruct (zgemm_holds fold Hf tu b Order TransA TransB M N K alpha A lda B ldb C ldc bufA bufB us vs zs m HT LB HM HN HK RS HE HL Al) as [G1 _].
    { intros a c Ha Hc. destruct (H a c Ha Hc) as (? & ? & ? & ?). auto. }
    destruct (zgemm_holds fold Hf tu' b' Order' TransA' TransB' M N K alpha A' lda' B' ldb' C' ldc' bufA' bufB' us vs zs m' HT' LB' HM HN HK RS' HE' HL' Al) as [G2 _].
    { intros a c Ha Hc. destruct (H a c Ha Hc) as (? & ? & ? & ?). auto. }
    specialize (G1 i j Hi Hj). specialize (G2 i j Hi Hj). rewrite <- EP in G2.
    destruct (zout_same fold _ _ _ _ _ _ _ _ Hf eq_refl G1 G2) as [W1 W2]. auto.
Qed.
Print Assumptions C47_independent_partial.

(** ** reproBLAS_rzgemm *)
(** First cell of C_ij in an ordinary complex matrix. *)
Definition zelem_addr (Order : ascii) (C ldc i j : Z) : Z := C + 2 * elem_addr Order 0 ldc i j.
(** Each part of each output is the reproducible sum of that part of the products and of beta * c. *)
Theorem C47_rzgemm_partial t tu b fold Order TransA TransB M N K (alpha beta : F t * F t) A lda B ldb C ldc CI bufA bufB T (m : mem t) :
  2 <= fold <= MAXFOLD t -> tuned t tu -> legal_gemm b -> 0 < M -> 0 < N -> 0 <= K ->
  let ldi := if is_row Order then N else M in
  let lenA := bufA_len b M K in let lenB := mxt_block b * myt_block b in
  right_scaling Order TransA alpha ->
  Z.min (Z.min K (Z.max (mx_block b) (mxt_block b))) (block_max tu) <= ENDURANCE t / 2 ->
  zgemm_layout fold Order TransA TransB M N K A lda B ldb CI ldi bufA lenA bufB lenB -> ldi <= ldc ->
  (forall i j o, 0 <= i < M -> 0 <= j < N -> o = 0 \/ o = 1 -> ~ zgemm_touched fold Order M N CI ldi bufA lenA bufB lenB (zelem_addr Order C ldc i j + o)) ->
  2 * K + 1 <= CAPACITY t ->
  let m' := rzgemm tu b fold Order TransA TransB M N K alpha A lda B ldb beta C ldc CI bufA bufB m in
  (forall i j, 0 <= i < M -> 0 <= j < N ->
     let products := if is_complex alpha fzero then [] else zgemm_products m Order TransA TransB A lda alpha B ldb K i j in
     let Cij := zelem_addr Order C ldc i j in
     let all := products ++ zstarted beta (complex_at m Cij) in
     sum_value fold T (map fst all) m (m' Cij) /\ sum_value fold T (map snd all) m (m' (Cij + 1))) /\
  (forall a, (forall i j, 0 <= i < M -> 0 <= j < N -> a <> zelem_addr Order C ldc i j /\ a <> zelem_addr Order C ldc i j + 1) ->
     ~ zgemm_touched fold Order M N CI ldi bufA lenA bufB lenB a -> m' a = m a).
Proof.
  intros Hf HT LB HM HN HK ldi lenA lenB RS HE HL Hld HY HC. cbv zeta. rewrite CAPACITY_eq in HC. apply half_dots in HE.
  set (prods := fun i j => if is_complex alpha fzero then [] else zgemm_products m Order TransA TransB A lda alpha B ldb K i j).
  set (all := fun i j => prods i j ++ zstarted beta (complex_at m (zelem_addr Order C ldc i j))).
  assert (LP : forall i j, Z.of_nat (length (all i j)) <= capacity t).
  { intros i j. unfold all, prods. rewrite app_length. assert (E : Z.of_nat (length (if is_complex alpha fzero then [] else zgemm_products m Order TransA TransB A lda alpha B ldb K i j)) <= 2 * K).
    { destruct (is_complex alpha fzero); [cbn [length]; lia|]. unfold zgemm_products. rewrite flat_two by auto. lia. }
    unfold zstarted. destruct (is_complex beta fzero); cbn [length]; lia. }
  (* the accumulators *)
  assert (G : forall m1, (forall a, ~ zgemm_touched fold Order M N CI ldi bufA lenA bufB lenB a -> m1 a = m a) ->
    (forall i j, 0 <= i < M -> 0 <= j < N -> zacc_at fold [] [] (zstarted beta (complex_at m (zelem_addr Order C ldc i j))) m1 (zc_at fold Order CI ldi i j)) ->
    let m2 := zbzgemm tu b fold Order TransA TransB M N K alpha A lda B ldb CI ldi bufA bufB m1 in
    (forall i j, 0 <= i < M -> 0 <= j < N -> zout fold [] [] (all i j) m2 (zc_at fold Order CI ldi i j)) /\
    (forall a, ~ zgemm_touched fold Order M N CI ldi bufA lenA bufB lenB a -> m2 a = m a)).
  { intros m1 Hm1 HA1.
    assert (Hm2 : forall a, (forall o, o = 0 \/ o = 1 -> ~ zgemm_touched fold Order M N CI ldi bufA lenA bufB lenB (a + o)) -> complex_at m1 a = complex_at m a).
    { intros a Ha. unfold complex_at. f_equal; apply Hm1; [rewrite <- (Z.add_0_r a)|]; apply Ha; auto. }
    assert (EP : forall i j, 0 <= i < M -> 0 <= j < N -> zgemm_products m1 Order TransA TransB A lda alpha B ldb K i j = zgemm_products m Order TransA TransB A lda alpha B ldb K i j).
    { destruct HL as (_ & HA & HB & _). intros i j Hi Hj. unfold zgemm_products. rewrite !flat_map_concat_map. f_equal. apply map_ext_in. intros k Hk. apply zseq_In in Hk.
      unfold zop. rewrite (Hm2 (zop_addr Order TransA A lda i k)) by (intros o Ho; apply HA; auto; lia).
      rewrite (Hm2 (zop_addr Order TransB B ldb k j)) by (intros o Ho; apply HB; auto; lia). reflexivity. }
    unfold all, prods. destruct (is_complex alpha fzero) eqn:Al.
    - rewrite C47_alpha_zero by exact Al. cbn [app]. split; auto. intros i j Hi Hj. apply zacc_out. auto.
    - destruct (zgemm_holds fold Hf tu b Order TransA TransB M N K alpha A lda B ldb CI ldi bufA bufB (fun _ _ => []) (fun _ _ => []) (fun i j => zstarted beta (complex_at m (zelem_addr Order C ldc i j))) m1 HT LB ltac:(lia) ltac:(lia) HK RS HE HL Al) as [G1 G2].
      + intros i j Hi Hj. split; [apply HA1; auto|]. unfold zstarted. destruct (is_complex beta fzero); cbn [length]; lia.
      + cbv zeta. split.
        * intros i j Hi Hj. specialize (G1 i j Hi Hj). rewrite (EP i j Hi Hj) in G1. exact G1.
        * intros a Ha. rewrite G2 by exact Ha. apply Hm1. exact Ha. }
  unfold rzgemm. replace ((M =? 0) || (N =? 0)) with false by (symmetry; apply orb_false_iff; split; apply Z.eqb_neq; lia).
  assert (YT : forall a, within CI (M * N * zbnum fold) a -> zgemm_touched fold Order M N CI ldi bufA lenA bufB lenB a).
  { intros a Ha. left. unfold within, zc_at, zbnum, ldi in *.
    pose proof (Z.div_mod (a - CI) (4 * fold) ltac:(lia)). pose proof (Z.mod_pos_bound (a - CI) (4 * fold) ltac:(lia)).
    assert (Hq0 : 0 <= (a - CI) / (4 * fold)) by (apply Z.div_pos; lia). set (q := (a - CI) / (4 * fold)) in *.
    assert (Hq : q < M * N) by nia. clearbody q. destruct (is_row Order).
    - exists (q / N), (q mod N). pose proof (Z.div_mod q N ltac:(lia)). pose proof (Z.mod_pos_bound q N ltac:(lia)).
      assert (0 <= q / N) by (apply Z.div_pos; lia). split; [nia|]. split; [lia|]. nia.
    - exists (q mod M), (q / M). pose proof (Z.div_mod q M ltac:(lia)). pose proof (Z.mod_pos_bound q M ltac:(lia)).
      assert (0 <= q / M) by (apply Z.div_pos; lia). split; [lia|]. split; nia. }
  assert (APP : forall R S, S <= ldc -> forall i j i' j', 0 <= i < R -> 0 <= j < S -> 0 <= i' < R -> 0 <= j' < S -> (i, j) <> (i', j') ->
    apart 2 (C + 2 * (i * ldc + j)) (C + 2 * (i' * ldc + j'))).
  { intros R S HS i j i' j' Hi Hj Hi' Hj' NE. assert (i * ldc + j <> i' * ldc + j').
    { destruct (Z.eq_dec i i') as [-> |]; [|nia]. intros E. apply NE. f_equal; lia. }
    unfold apart. lia. }
  clear HL HT LB HC RS HE.
  unfold zelem_addr, elem_addr, zc_at, ldi in *. destruct (is_row Order).
  - cbv zeta. set (src := fun i j => C + 2 * (i * ldc + j)).
    assert (SY : forall i j o, 0 <= i < M -> 0 <= j < N -> o = 0 \/ o = 1 -> ~ within CI (M * N * zbnum fold) (src i j + o)).
    { intros i j o Hi Hj Ho Hw. apply (HY i j o Hi Hj Ho). apply YT. exact Hw. }
    assert (LD : let m1 := zload_matrix fold M N beta C ldc CI m in
      (forall i j, 0 <= i < M -> 0 <= j < N -> zacc_at fold [] [] (zstarted beta (complex_at m (src i j))) m1 (CI + (i * N + j) * zbnum fold)) /\
      (forall a, ~ within CI (M * N * zbnum fold) a -> m1 a = m a)).
    { unfold zload_matrix. rewrite z_zero. destruct (is_complex beta fzero) eqn:EB.
      - destruct (zmemset_holds fold Hf (M * N) CI m ltac:(nia)) as [M1 M2]. unfold zstarted. rewrite EB. split; [|exact M2].
        intros i j Hi Hj. apply M1. nia.
      - exact (zload_ok fold Hf M N beta src CI m ltac:(lia) ltac:(lia) EB SY). }
    cbv zeta in LD. destruct LD as [L1 L2]. set (m1 := zload_matrix fold M N beta C ldc CI m) in *. clearbody m1.
    destruct (G m1) as [G1 G2].
    { intros a Ha. apply L2. intros Hw. apply Ha. apply YT. exact Hw. }
    { exact L1. }
    set (m2 := zbzgemm _ _ _ _ _ _ _ _ _ _ _ _ _ _ _ _ _ _ _) in *. clearbody m2.
    destruct (zstore_ok fold Hf M N src CI all T m m2 ltac:(lia) ltac:(lia)) as [S1 S2].
    { apply APP. exact Hld. } { exact SY. } { intros i j Hi Hj. split; [exact (G1 i j Hi Hj)|apply LP]. }
    change (for_up 0 M _ m2) with (zstore_matrix fold M N C ldc CI m2) in S1, S2.
    set (m' := zstore_matrix fold M N C ldc CI m2) in *. clearbody m'. split.
    + exact S1.
    + intros a Ha Hn. rewrite S2; [apply G2; exact Hn|]. exact Ha.
  - cbv zeta. set (src := fun j i => C + 2 * (j * ldc + i)).
    assert (SY : forall j i o, 0 <= j < N -> 0 <= i < M -> o = 0 \/ o = 1 -> ~ within CI (N * M * zbnum fold) (src j i + o)).
    { intros j i o Hj Hi Ho Hw. apply (HY i j o Hi Hj Ho). apply YT. rewrite (Z.mul_comm M). exact Hw. }
    assert (LD : let m1 := zload_matrix fold N M beta C ldc CI m in
      (forall j i, 0 <= j < N -> 0 <= i < M -> zacc_at fold [] [] (zstarted beta (complex_at m (src j i))) m1 (CI + (j * M + i) * zbnum fold)) /\
      (forall a, ~ within CI (N * M * zbnum fold) a -> m1 a = m a)).
    { unfold zload_matrix. rewrite z_zero. destruct (is_complex beta fzero) eqn:EB.
      - destruct (zmemset_holds fold Hf (N * M) CI m ltac:(nia)) as [M1 M2]. unfold zstarted. rewrite EB. split; [|exact M2].
        intros j i Hj Hi. apply M1. nia.
      - exact (zload_ok fold Hf N M beta src CI m ltac:(lia) ltac:(lia) EB SY). }
    cbv zeta in LD. destruct LD as [L1 L2]. set (m1 := zload_matrix fold N M beta C ldc CI m) in *. clearbody m1.
    destruct (G m1) as [G1 G2].
    { intros a Ha. apply L2. intros Hw. apply Ha. apply YT. rewrite (Z.mul_comm M). exact Hw. }
    { intros i j Hi Hj. exact (L1 j i Hj Hi). }
    set (m2 := zbzgemm _ _ _ _ _ _ _ _ _ _ _ _ _ _ _ _ _ _ _) in *. clearbody m2.
    destruct (zstore_ok fold Hf N M src CI (fun j i => all i j) T m m2 ltac:(lia) ltac:(lia)) as [S1 S2].
    { apply APP. exact Hld. } { exact SY. } { intros j i Hj Hi. split; [exact (G1 i j Hi Hj)|apply LP]. }
    change (for_up 0 N _ m2) with (zstore_matrix fold N M C ldc CI m2) in S1, S2.
    set (m' := zstore_matrix fold N M C ldc CI m2) in *. clearbody m'. split.
    + intros i j Hi Hj. exact (S1 j i Hj Hi).
    + intros a Ha Hn. rewrite S2; [apply G2; exact Hn|]. intros j i Hj Hi. exact (Ha i j Hi Hj).
Qed.
Print Assumptions C47_rzgemm_partial.
Theorem C47_rzgemm_empty t tu b fold Order TransA TransB M N K (alpha beta : F t * F t) A lda B ldb C ldc CI bufA bufB (m : mem t) :
  M = 0 \/ N = 0 -> rzgemm tu b fold Order TransA TransB M N K alpha A lda B ldb beta C ldc CI bufA bufB m = m.
Proof. intros [-> | ->]; unfold rzgemm; rewrite ?orb_true_r; reflexivity. Qed.
Print Assumptions C47_rzgemm_empty.

(** *** Cases *)
Definition zgemm_run (Order TransA TransB : ascii) (M N K : Z) (alpha beta : F Dbl * F Dbl) (m : mem Dbl) : mem Dbl :=
  rzgemm sample_tuning sample_mblocks 3 Order TransA TransB M N K alpha 0 6 100 6 beta 200 4 1000 2000 3000 m.
(** Column major, A transposed, alpha = 2, A = (i), B = (1): the product is 2i, rzgemm returns 0. *)
Definition unit_mem : mem Dbl := fun a => if (a =? 1) || (a =? 100) then mkf 1 0 else fzero.
Theorem C47_refuted :
  let alpha : F Dbl * F Dbl := (mkf 2 0, mkf 0 0) in let zero : F Dbl * F Dbl := (mkf 0 0, mkf 0 0) in let T := 5000 in
  complex_at unit_mem 0 = (mkf 0 0, mkf 1 0) /\ complex_at unit_mem 100 = (mkf 1 0, mkf 0 0) /\
  forall TransA, In TransA ["t"; "T"; "c"; "C"]%char ->
  let m' := zgemm_run "C" TransA "n" 1 1 1 alpha zero unit_mem in
  let all := zgemm_products unit_mem "C" TransA "n" 0 6 alpha 100 6 1 0 0 in
  all_finite (map snd all) = true /\ feq (m' 201) fzero = true /\
  Z.abs (toZ (ddbconv 3 T (sum_list 3 T (map snd all) unit_mem))) = toZ (mkf 2 0 : F Dbl) /\
  ~ sum_value 3 T (map snd all) unit_mem (m' 201).
Proof.
  cbv zeta. split; [reflexivity|]. split; [reflexivity|]. intros TransA HT.
  assert (E : let m' := zgemm_run "C" TransA "n" 1 1 1 (mkf 2 0, mkf 0 0) (mkf 0 0, mkf 0 0) unit_mem in
    let all := zgemm_products unit_mem "C" TransA "n" 0 6 (mkf 2 0, mkf 0 0) 100 6 1 0 0 in
    all_finite (map snd all) && feq (m' 201) fzero && (Z.abs (toZ (ddbconv 3 5000 (sum_list 3 5000 (map snd all) unit_mem))) =? toZ (mkf 2 0 : F Dbl)) && (toZ (m' 201) =? 0) = true).
  { destruct HT as [<-|[<-|[<-|[<-|[]]]]]; vm_compute; reflexivity. }
  cbv zeta in E. apply andb_true_iff in E. destruct E as [E E4]. apply andb_true_iff in E. destruct E as [E E3]. apply andb_true_iff in E. destruct E as [E1 E2].
  apply Z.eqb_eq in E3, E4. split; [exact E1|]. split; [exact E2|]. split; [exact E3|].
  unfold sum_value. rewrite E1. intros E. apply (f_equal toZ) in E. rewrite E4 in E. rewrite <- E in E3. revert E3. vm_compute. discriminate.
Qed.
Print Assumptions C47_refuted.
Example C47_case :
  (forall Order TransA TransB, zgemm_layout 3 Order TransA TransB 2 3 4 0 6 100 6 1000 (if is_row Order then 3 else 2) 2000
     (bufA_len sample_mblocks 2 4) 3000 (mxt_block sample_mblocks * myt_block sample_mblocks)) /\
  Z.min (Z.min 4 (Z.max (mx_block sample_mblocks) (mxt_block sample_mblocks))) (block_max sample_tuning) <= ENDURANCE Dbl / 2 /\
  (forall Order i j o, 0 <= i < 2 -> 0 <= j < 3 -> o = 0 \/ o = 1 ->
     ~ zgemm_touched 3 Order 2 3 1000 (if is_row Order then 3 else 2) 2000 (bufA_len sample_mblocks 2 4) 3000
        (mxt_block sample_mblocks * myt_block sample_mblocks) (zelem_addr Order 200 4 i j + o)) /\
  (forall Order TransA, right_scaling Order TransA (mkf 1 0 : F Dbl, mkf 0 0) /\ right_scaling "R" TransA (mkf 1 1 : F Dbl, mkf 3 0) /\
     right_scaling Order "n" (mkf 1 1 : F Dbl, mkf 3 0)) /\
  map (fun f => let '(Order, TransA, TransB) := f in
      let alpha := if is_row Order || is_notrans TransA then (mkf 1 1, mkf 3 0) else (mkf 1 0, mkf 0 0) in
      let m' := zgemm_run Order TransA TransB 2 3 4 alpha (mkf (-3) 0, mkf 1 0) sample_mem in
      flat_map (fun i => flat_map (fun j => map (fun o => Z.shiftr (toZ (m' (zelem_addr Order 200 4 i j + o))) 1074) [0; 1]) [0; 1; 2]) [0; 1])
    [("R", "N", "T"); ("r", "n", "c"); ("r", "t", "N"); ("R", "c", "n"); ("r", "C", "T"); ("R", "c", "C");
     ("C", "n", "N"); ("c", "N", "c"); ("C", "T", "n"); ("c", "c", "C")]%char =
    [[-19784775234562; 13189871813626; -6622823820288; 4359379284992; 6614287379462; -4358329604098; 17195582470; -16141770756; 23660070915; 35421938689; -45125466130; -25708983284];
     [-19784819293186; 13217763947514; -6566991330304; 4443168887808; 6575613799430; -4444216367106; -30055347194; -3252711428; -27923589117; -41858104319; 49414162414; 32239545356];
     [8621385726; 12862872570; 22078446; 37706725; 3219100627; -2150669280; -39552386377728; 26433322772480; 19318972440; -12897469453; -17592148295668; -26388303183854];
     [-8589940738; -12885959686; -15731730; -18875419; -3223292973; 2144384032; -39552327583744; 26433410803712; 19318960122; -12897487865; -17592198627340; -26388269629458];
     [11826893826; -3205482496; 18228436988; 20429430778; -20388542470; -23657982996; 13215650000872; 19781492140009; -2192583939045; 11004782051339; 5473952607250; -13187657226252];
     [7519380482; -9694068736; -11760844804; -24718069766; 13914548218; 27973915628; 13176961757196; 19807293425695; 11001593342979; 2208691126247; -14278610392046; -19300104204];
     [-11845764094; 3216027648; -18303937540; -20379075590; 20470327275; 23603403761; 13215603889176; 19781555072023; -2192590248969; 11004813520879; 5473966216175; -13187683461105];
     [-8596232194; -12881765382; -22032402; -37742619; 3219160106; -2150577183; 39612515830784; -26343128404992; -19335745512; 12872315891; -17592164024331; -26388291649551];
     [2094078; 6594928571386; -12891181056; 2199007531008; 11814305783; -2196886248445; -1073751040; -6441396226; 11814304777; -10481665; -12869172223; 6457131017];
     [-6590628361218; -2206543642630; 4306492419; -1041408; -1100604253193; 2195804136448; 7513035776; -6593837009920; -9432051; -2105349; -3297451691003; -3214934005]].
Proof.
  assert (E1 : bufA_len sample_mblocks 2 4 = 8) by reflexivity.
  assert (E2 : mxt_block sample_mblocks * myt_block sample_mblocks = 4) by reflexivity.
  assert (CA : forall Order i j, 0 <= i < 2 -> 0 <= j < 3 -> 1000 <= zc_at 3 Order 1000 (if is_row Order then 3 else 2) i j <= 1060).
  { intros Order i j Hi Hj. unfold zc_at, zbnum. destruct (is_row Order); lia. }
  rewrite E1, E2. split; [|split; [vm_compute; discriminate|split; [|split; [|vm_compute; reflexivity]]]].
  - intros Order TransA TransB. specialize (CA Order).
    unfold zgemm_layout, zgemm_touched, within, zbnum. split; [destruct (is_row Order); lia|]. split; [|split; [|split]].
    + intros i k o Hi Hk Ho. assert (OA : 0 <= zop_addr Order TransA 0 6 i k < 60) by (unfold zop_addr, op_addr, elem_addr; destruct (is_row Order), (is_notrans TransA); lia).
      intros [(r & s & Hr & Hs & H)|[H|H]]; try lia. specialize (CA r s Hr Hs). lia.
    + intros k j o Hk Hj Ho. assert (OA : 100 <= zop_addr Order TransB 100 6 k j < 160) by (unfold zop_addr, op_addr, elem_addr; destruct (is_row Order), (is_notrans TransB); lia).
      intros [(r & s & Hr & Hs & H)|[H|H]]; try lia. specialize (CA r s Hr Hs). lia.
    + intros; lia.
    + intros a i j Ha Hi Hj. specialize (CA i j Hi Hj). lia.
  - intros Order i j o Hi Hj Ho. assert (OA : 200 <= zelem_addr Order 200 4 i j < 230) by (unfold zelem_addr, elem_addr; destruct (is_row Order); lia).
    unfold zgemm_touched, within, zbnum. intros [(r & s & Hr & Hs & H)|[H|H]]; try lia. specialize (CA Order r s Hr Hs). lia.
  - intros Order TransA. unfold right_scaling. split; [right; right; vm_compute; reflexivity|]. split; [left; reflexivity|right; left; reflexivity].
Qed.
