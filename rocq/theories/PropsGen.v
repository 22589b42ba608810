(** * C37, C38: the code generator *)
From Coq Require Import ZArith List Bool String Lia Permutation.
From Verif Require Import Gen GenProofs Params ParamsProofs.
Import ListNotations.
Open Scope string_scope.
Open Scope list_scope.
Open Scope Z_scope.

(** ** C37: every element exactly once

    A vector size is 0 (plain C, complex) or a power of two, as in
    vectorizations.py:124-700. *)

(** The emitted main loop, halving remainders and padded tail: the calls of the body, in
    program order, cover 0, 1, ..., n-1, and the pointers end after the last element. *)
Theorem C37_unrolled_loop (vector_size unroll n : Z) :
  vector_width vector_size -> 0 < unroll -> (Z.max vector_size 1 | unroll) -> 0 <= n ->
  let '(calls, p) := run_unrolled vector_size unroll n in
  p = n /\ flat_map (fun c => zseq (start c) (cnt c)) calls = zseq 0 n.
Proof.
  intros H1 H2 H3 H4. pose proof (unrolled_cover vector_size unroll n H1 H2 H3 H4) as U.
  destruct (run_unrolled vector_size unroll n) as [cs p]. destruct U as (U1 & U2 & _). auto.
Qed.
Print Assumptions C37_unrolled_loop.

(** Each index occurs exactly once among the non-padding events of a deposit kernel, none
    is out of range, whatever integers the argument file holds. *)
Definition times (i : Z) (es : list (Z * option Z)) : nat :=
  List.length (filter (fun e => match snd e with Some k => Z.eqb k i | None => false end) es).
Lemma times_elems i es : times i es = count_occ Z.eq_dec (elems es) i.
Proof.
  unfold times, elems. induction es as [|[l [k|]] es IH]; cbn; [reflexivity| |exact IH].
  destruct (Z.eqb_spec k i) as [->|N]; cbn.
  - destruct (Z.eq_dec i i); [|congruence]. rewrite IH. reflexivity.
  - destruct (Z.eq_dec k i); [congruence|]. exact IH.
Qed.
Lemma zseq_nodup lo n : NoDup (zseq lo n).
Proof.
  unfold zseq. apply FinFun.Injective_map_NoDup; [|apply seq_NoDup]. intros a b H. lia.
Qed.
Lemma zseq_count lo n i : count_occ Z.eq_dec (zseq lo n) i = if (lo <=? i) && (i <? lo + n) then 1%nat else 0%nat.
Proof.
  assert (In i (zseq lo n) <-> (lo <= i /\ i < lo + n)) as H.
  { rewrite zseq_In. lia. }
  destruct (Z.leb_spec lo i); destruct (Z.ltb_spec i (lo + n)); cbn.
  - apply NoDup_count_occ'; [apply zseq_nodup|]. apply H. auto.
  - apply count_occ_not_In. rewrite H. lia.
  - apply count_occ_not_In. rewrite H. lia.
  - apply count_occ_not_In. rewrite H. lia.
Qed.
Theorem C37_deposit_kernel (vector : bool) (vector_size pipe unroll n i : Z) :
  vector_width vector_size -> (vector = true -> 1 <= vector_size) -> 0 <= n ->
  let '(es, p) := kernel_events (read_vec vector vector_size pipe unroll) n in
  p = n /\ times i es = if (0 <=? i) && (i <? n) then 1%nat else 0%nat.
Proof.
  intros H1 H2 H3. pose proof (read_vec_legal vector vector_size pipe unroll H1 H2) as L.
  pose proof (kernel_events_ok _ n L H3) as K.
  destruct (kernel_events _ n) as [es p]. destruct K as (K1 & K2 & _). split; [exact K1|].
  rewrite times_elems, K2, zseq_count. reflexivity.
Qed.
Print Assumptions C37_deposit_kernel.
Theorem C37_amax_scan (vector_size unroll n i : Z) :
  vector_width vector_size -> 0 <= n ->
  times i (scan_events (read_avec vector_size unroll) n) = if (0 <=? i) && (i <? n) then 1%nat else 0%nat.
Proof.
  intros H1 H3. destruct (scan_events_ok _ n (read_avec_legal vector_size unroll H1) H3) as [K _].
  rewrite times_elems, K, zseq_count. reflexivity.
Qed.
Print Assumptions C37_amax_scan.
(** AVX double (4 lanes), pipe 8, unroll 3 on 61 elements: one full turn, then 16, 8, 8,
    4 and a padded single element. *)
Example C37_case :
  vector_width 4 /\
  run_unrolled 4 24 61 =
    ([Call 0 24 24; Call 24 24 24; Call 48 8 8; Call 56 4 4; Call 60 4 1], 61) /\
  List.length (fst (kernel_events (read_vec true 4 8 3) 61)) = 64%nat.
Proof. split; [right; exists 2; split; [lia|reflexivity]|]. vm_compute. auto. Qed.

(** ** C38: parameters stay legal *)

(** IntegerParameter(minimum, maximum, step).parse_value(v): in range, a multiple of the
    step, the value itself when it is legal, otherwise the nearest multiple or the bound
    that was exceeded. *)
Theorem C38_integer (minimum maximum step v : Z) :
  0 < step -> minimum mod step = 0 -> maximum mod step = 0 -> minimum <= maximum ->
  let r := int_parse minimum maximum step v in
  minimum <= r <= maximum /\ r mod step = 0 /\
  (minimum <= v <= maximum -> v mod step = 0 -> r = v) /\
  (2 * Z.abs (r - v) <= step \/ r = minimum \/ r = maximum).
Proof.
  intros S L H LE r. split; [apply int_parse_range; exact LE|]. split; [apply int_parse_step; assumption|].
  split; [apply int_parse_id|].
  unfold r, int_parse. cbv zeta.
  destruct (clamp_cases minimum maximum (if v mod step =? 0 then v else py_round_div v step * step)) as [E|[E|E]];
    rewrite E; [left|auto|auto].
  destruct (v mod step =? 0); [rewrite Z.sub_diag; cbn; lia|].
  pose proof (py_round_near v step S). lia.
Qed.
Print Assumptions C38_integer.
(** PowerOfTwoParameter(minimum, maximum).parse_value(v). *)
Theorem C38_power_of_two (minimum maximum v : Z) :
  (exists a, 0 <= a /\ minimum = 2 ^ a) -> (exists b, 0 <= b /\ maximum = 2 ^ b) -> minimum <= maximum ->
  let r := pow_parse minimum maximum v in
  minimum <= r <= maximum /\ (exists k, 0 <= k /\ r = 2 ^ k) /\
  (minimum <= v <= maximum -> (exists k, 0 <= k /\ v = 2 ^ k) -> r = v).
Proof.
  intros L H LE r. split; [apply pow_parse_range; exact LE|]. split.
  - apply is_pow_iff. apply pow_parse_pow; apply is_pow_iff; assumption.
  - intros R P. apply pow_parse_id; [exact R|]. apply is_pow_iff. exact P.
Qed.
Print Assumptions C38_power_of_two.
(** So every argument file gives a tuning the kernels and drivers accept. *)
Theorem C38_legal_tuning (vector : bool) (vector_size pipe unroll unroll' block : Z) (e : Z) :
  vector_width vector_size -> (vector = true -> 1 <= vector_size) -> 5 <= e ->
  legal_vec (read_vec vector vector_size pipe unroll) /\
  legal_avec (read_avec vector_size unroll') /\
  1 <= read_block (2 ^ e) block <= 2 ^ e.
Proof.
  intros H1 H2 H3. split; [apply read_vec_legal; assumption|]. split; [apply read_avec_legal; assumption|].
  unfold read_block. pose proof (pow_parse_range 32 (2 ^ e) block) as R.
  assert (32 <= 2 ^ e) by (change 32 with (2 ^ 5); apply Z.pow_le_mono_r; lia). lia.
Qed.
Print Assumptions C38_legal_tuning.

(** Writing a parameter space to the params file (keys sorted) and reading it back gives
    the same parameters and the same dependency sets.  [space_ok]: no duplicate
    dictionary key, parameters as the constructors make them. *)
Theorem C38_space_round_trip (s : space) : space_ok s ->
  exists s', dec_space (dumped (enc_space s)) = Some s' /\
    (forall k, get k (parameters s') = get k (parameters s)) /\
    (forall k x, member k x (forward_dependencies s') <-> member k x (forward_dependencies s)) /\
    (forall k x, member k x (backward_dependencies s') <-> member k x (backward_dependencies s)) /\
    (forall k x, member k x (forward_metrics s') <-> member k x (forward_metrics s)) /\
    (forall k x, member k x (backward_metrics s') <-> member k x (backward_metrics s)).
Proof.
  intros O. destruct (space_roundtrip s O) as (s' & D & _ & (S1 & S2 & S3 & S4 & S5)).
  exists s'. split; [exact D|]. split; [intros k; symmetry; apply S5|].
  assert (M : forall d d', same_sets d d' -> forall k x, member k x d' <-> member k x d).
  { intros d d' S k x. specialize (S k). unfold member. destruct (get k d), (get k d'); try easy; rewrite S; reflexivity. }
  auto 8.
Qed.
Print Assumptions C38_space_round_trip.
Theorem C38_parameter_round_trip (n : string) (tags : dict string) (lo hi step : Z) (d : json) (p : param) :
  NoDup (keys tags) ->
  mk_bool n tags d = Some p \/ mk_int n tags lo hi step d = Some p \/ mk_pow n tags lo hi d = Some p ->
  dec_param (dumped (enc_param p)) = Some p.
Proof.
  intros N [E|[E|E]]; apply param_roundtrip; [eapply mk_bool_wf|eapply mk_int_wf|eapply mk_pow_wf]; eassumption.
Qed.
Print Assumptions C38_parameter_round_trip.
(** The params pass: starting without a params file, every target in turn reads the file,
    adds itself and writes it back.  It fails exactly when two targets declare the same
    parameter; otherwise the file finally holds all the parameters declared, and says of
    every file which arguments it uses and of every argument which files use it. *)
Theorem C38_params_pass (targets : list (string * target)) (f : string) (t : target) :
  targets_ok ((f, t) :: targets) ->
  let declared := flat_map (fun ft => own_parameters (snd ft)) ((f, t) :: targets) in
  match generate_all ((f, t) :: targets) None with
  | None => ~ NoDup (map pname declared)
  | Some None => False
  | Some (Some j) =>
      exists s, dec_space j = Some s /\ NoDup (map pname declared) /\
        (forall k p, get k (parameters s) = Some p <-> In p declared /\ pname p = k) /\
        (forall g a, member g a (forward_dependencies s) <->
           exists u, In (g, u) ((f, t) :: targets) /\ In a (arguments u)) /\
        (forall g a, member a g (backward_dependencies s) <-> member g a (forward_dependencies s))
  end.
Proof.
  intros W declared.
  pose proof (generate_all_ok _ W None empty_space empty_ok eq_refl) as G.
  assert (P : forall s, add_all ((f, t) :: targets) empty_space = Some s ->
     parameters s = map (fun p => (pname p, p)) declared /\ NoDup (map pname declared)).
  { intros s A. pose proof (add_all_params _ W _ _ empty_ok A) as E. cbn [parameters empty_space app] in E.
    fold declared in E. split; [exact E|].
    pose proof (add_all_ok _ W _ _ empty_ok A) as (_ & _ & _ & _ & N & _). rewrite E in N.
    unfold keys in N. rewrite map_map in N. exact N. }
  assert (Q : add_all ((f, t) :: targets) empty_space = None -> ~ NoDup (map pname declared)).
  { clear. unfold declared. intros A N.
    assert (X : forall ts s, NoDup (map fst (parameters s) ++ map pname (flat_map (fun ft => own_parameters (snd ft)) ts)) ->
              add_all ts s <> None).
    { clear. induction ts as [|[f t] ts IH]; intros s N; cbn; [discriminate|].
      cbn in N. rewrite map_app, app_assoc in N.
      assert (Y : forall ps d r, NoDup ((map fst d ++ map pname ps) ++ r) ->
                 exists d', add_params ps d = Some d' /\ map fst d' = map fst d ++ map pname ps).
      { clear. induction ps as [|p ps IH]; intros d r N; cbn.
        - exists d. rewrite app_nil_r. auto.
        - cbn in N. assert (E : get (pname p) d = None).
          { apply get_none. unfold keys. rewrite <- app_assoc in N. cbn in N. apply NoDup_remove_2 in N.
            rewrite in_app_iff in N. tauto. }
          rewrite E. rewrite set_app by exact E.
          destruct (IH (d ++ [(pname p, p)]) r) as (d' & D1 & D2).
          { rewrite map_app. cbn. rewrite <- (app_assoc (map fst d)). exact N. }
          exists d'. split; [exact D1|]. rewrite D2, map_app. cbn. rewrite <- app_assoc. reflexivity. }
      unfold add_target. destruct (Y _ _ _ N) as (d' & -> & D2). cbn. apply IH. cbn [parameters]. rewrite D2. exact N. }
    exact (X _ empty_space N A). }
  destruct (generate_all ((f, t) :: targets) None) as [[j|]|], (add_all ((f, t) :: targets) empty_space) as [s0|] eqn:A; try easy.
  - destruct G as (s & D & (S1 & S2 & _ & _ & S5)). destruct (P _ eq_refl) as [P1 P2].
    assert (M : forall d d', same_sets d d' -> forall k x, member k x d' <-> member k x d).
    { intros d d' S k x. specialize (S k). unfold member. destruct (get k d), (get k d'); try easy; rewrite S; reflexivity. }
    destruct (add_all_deps _ _ _ A) as [D1 D2].
    exists s. split; [exact D|]. split; [exact P2|]. split; [|split].
    + intros k p. rewrite <- S5, P1. split.
      * intros E. apply get_in in E. apply in_map_iff in E. destruct E as (q & [= <- <-] & I). auto.
      * intros [I <-]. apply in_get.
        -- unfold keys. rewrite map_map. exact P2.
        -- apply in_map_iff. exists p. auto.
    + intros g a. rewrite (M _ _ S1), D1. cbn. tauto.
    + intros g a. rewrite (M _ _ S1), (M _ _ S2), D1, D2. cbn. tauto.
  - apply Q. reflexivity.
Qed.
Print Assumptions C38_params_pass.
(** Two targets sharing the argument "b". *)
Example C38_case :
  let p := PowP "b" [("vectorization", "AVX")] 32 2048 2048 in
  let q := IntP "u" [] 1 8 1 1 in
  let ts := [("x.c", Target ["b"; "u"] [("b", ["m"])] [p; q]); ("y.c", Target ["b"] [] [])] in
  targets_ok ts /\
  (exists j, generate_all ts None = Some (Some j)) /\
  generate_all (ts ++ [("z.c", Target [] [] [q])]) None = None /\
  read_block 2048 1000 = 1024 /\ int_parse 4 32 4 10 = 8 /\ pow_parse 32 2048 5000 = 2048.
Proof.
  cbv zeta. split; [|split; [eexists; vm_compute; reflexivity|vm_compute; auto]].
  repeat constructor; cbn; try lia; try (intros []; discriminate); try tauto.
  exists 2048. reflexivity.
Qed.
