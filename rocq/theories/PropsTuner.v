(** * C78: tuning never writes an argument file the build would change or reject, nor one that changes a result *)
From Coq Require Import ZArith List Bool String Lia Permutation.
From Verif Require Import Fp Mem Binned Spec Client Gen GenProofs Params ParamsProofs PropsGen Blas BlasSpec PropsBlas Tuner.
Import ListNotations.
Open Scope string_scope.
Open Scope list_scope.
Open Scope Z_scope.

(** What the manipulator allows OpenTuner to propose. *)
Definition legal_config (s : space) (vec benchmark : string) (c : config) : Prop :=
  forall a v, In (a, v) c -> searched s vec benchmark a /\ exists p, get a (parameters s) = Some p /\ proposable p v.
Definition legal_run (s : space) (vec : string) (r : tuning_run) : Prop :=
  (forall cs, In cs (run_trials r) -> Forall2 (fun b c => forall c', c = Some c' -> legal_config s vec b c') (run_benchmarks r) cs) /\
  Forall2 (legal_config s vec) (run_benchmarks r) (run_best r).
(** The file holds a value for every parameter, which parse_value returns as it is. *)
Definition json_of (v : value) : json := match v with VBool b => JBool b | VInt z => JInt z end.
Definition accepted (s : space) (file : json) : Prop :=
  exists d, deserialize_arguments file = Some d /\
    forall a p, get a (parameters s) = Some p -> exists v, get a d = Some (json_of v) /\ get_value s d a = Some v.
(** What the file holds under a name. *)
Definition entry (a : string) (file : json) : option json := match deserialize_arguments file with Some d => get a d | None => None end.
Definition json_of_proposal (p : param) (v : proposal) : json :=
  match p, v with IntP _ _ _ _ st _, PInt z => JInt (z * st) | _, PInt z => JInt z | _, PBool b => JBool b end.

Section tune.
  Context (s : space) (vec : string).
  Hypothesis HS : space_ok s.
  Definition fine (d : dict json) : Prop :=
    NoDup (keys d) /\ forall a p, get a (parameters s) = Some p -> exists v, get a d = Some (json_of v) /\ parse_value p (json_of v) = Some v.
  Lemma param_wf a p : get a (parameters s) = Some p -> well_formed p /\ a = pname p.
  Proof.
    intros H. destruct HS as (_ & _ & _ & _ & _ & F). rewrite Forall_forall in F. apply get_in in H. exact (F _ H).
  Qed.
  Lemma fine_set a p v d : fine d -> get a (parameters s) = Some p -> parse_value p (json_of v) = Some v -> fine (set a (json_of v) d).
  Proof.
    intros [N F] G P. split; [now apply nodup_set|]. intros b q Hb. rewrite get_set. destruct (String.eqb_spec b a) as [->|NE]; [|now apply F].
    exists v. split; [reflexivity|]. rewrite G in Hb. injection Hb as <-. exact P.
  Qed.
  (** One argument of a proposal. *)
  Lemma put_ok a v p d : get a (parameters s) = Some p -> proposable p v -> fine d ->
    exists d', put s (a, v) (Some d) = Some d' /\ fine d' /\ (forall b, get b d' = if String.eqb b a then Some (json_of_proposal p v) else get b d).
  Proof.
    intros G P F. destruct (param_wf a p G) as [W E]. unfold put. cbn [fst snd]. rewrite G.
    destruct p as [n ts df|n ts lo hi st df|n ts lo hi df], v as [b|z]; cbn [proposable] in P; try contradiction; cbn [pname] in E; subst n.
    - exists (set a (JBool b) d). split; [reflexivity|]. split; [|intros; apply get_set]. apply (fine_set a _ (VBool b) d F G). reflexivity.
    - exists (set a (JInt (z * st)) d). split; [reflexivity|]. split; [|intros; apply get_set]. apply (fine_set a _ (VInt (z * st)) d F G).
      destruct W as (_ & S & L & H & _ & _). cbn. rewrite int_parse_id; [reflexivity| |apply Z.mod_mul; lia].
      pose proof (Z.div_mod lo st ltac:(lia)). pose proof (Z.div_mod hi st ltac:(lia)). rewrite L in *. rewrite H in *. nia.
    - exists (set a (JInt z) d). split; [reflexivity|]. split; [|intros; apply get_set]. apply (fine_set a _ (VInt z) d F G).
      destruct P as [R K]. cbn. rewrite pow_parse_id; [reflexivity|exact R|]. apply is_pow_iff. exact K.
  Qed.
  (** The value a configuration leaves under a name: the last one, if it names it. *)
  Fixpoint last_named (b : string) (c : config) : option (string * proposal) :=
    match c with [] => None | kv :: c => match last_named b c with Some r => Some r | None => if String.eqb b (fst kv) then Some kv else None end end.
  Definition chosen (b : string) (c : config) (old : option json) : option json :=
    match last_named b c, get b (parameters s) with Some kv, Some p => Some (json_of_proposal p (snd kv)) | _, _ => old end.
  Lemma put_all_ok bench c : legal_config s vec bench c -> forall d, fine d ->
    exists d', put_all s c (Some d) = Some d' /\ fine d' /\ (forall b, get b d' = chosen b c (get b d)) /\
      (forall b, ~ searched s vec bench b -> get b d' = get b d).
  Proof.
    unfold put_all. induction c as [|[a v] c IH]; intros L d F.
    - exists d. split; [reflexivity|]. split; [exact F|]. split; [|intros; reflexivity]. intros b. unfold chosen. cbn [last_named]. reflexivity.
    - destruct (L a v (or_introl eq_refl)) as (SR & p & G & P). destruct (put_ok a v p d G P F) as (d1 & E1 & F1 & G1).
      destruct (IH (fun a v H => L a v (or_intror H)) d1 F1) as (d2 & E2 & F2 & G2 & U2).
      exists d2. cbn [fold_left]. rewrite E1. split; [exact E2|]. split; [exact F2|]. split.
      + intros b. rewrite G2, G1. unfold chosen. cbn [last_named fst]. destruct (last_named b c) as [kv|] eqn:EL.
        * destruct (get b (parameters s)) eqn:Eb; [reflexivity|]. destruct (String.eqb_spec b a) as [->|]; [congruence|reflexivity].
        * destruct (String.eqb_spec b a) as [->|]; [|reflexivity]. rewrite G. reflexivity.
      + intros b NB. rewrite U2, G1 by exact NB. destruct (String.eqb_spec b a) as [->|]; [contradiction|reflexivity].
  Qed.
  (** Several configurations, the later ones overriding. *)
  Fixpoint overridden (b : string) (cs : list (option config)) (old : option json) : option json :=
    match cs with [] => old | Some c :: cs => overridden b cs (chosen b c old) | None :: cs => overridden b cs old end.
  Lemma overlay_ok benches cs : Forall2 (fun b c => forall c', c = Some c' -> legal_config s vec b c') benches cs -> forall d, fine d ->
    exists d', overlay s d cs = Some d' /\ fine d' /\ (forall b, get b d' = overridden b cs (get b d)) /\
      (forall b, (forall be, In be benches -> ~ searched s vec be b) -> get b d' = get b d).
  Proof.
    unfold overlay. induction 1 as [|be c benches cs Hc HF IH]; intros d F.
    - exists d. split; [reflexivity|]. split; [exact F|]. split; intros; reflexivity.
    - cbn [fold_left overridden]. destruct c as [c|].
      + destruct (put_all_ok be c (Hc c eq_refl) d F) as (d1 & E1 & F1 & G1 & U1). rewrite E1. destruct (IH d1 F1) as (d2 & E2 & F2 & G2 & U2).
        exists d2. split; [exact E2|]. split; [exact F2|]. split; [intros b; now rewrite G2, G1|].
        intros b NB. rewrite U2 by (intros x Hx; apply NB; now right). apply U1, NB. now left.
      + destruct (IH d F) as (d2 & E2 & F2 & G2 & U2). exists d2. split; [exact E2|]. split; [exact F2|]. split; [exact G2|]. intros b NB. apply U2. intros x Hx. apply NB. now right.
  Qed.
  Lemma json_dumped v : dumped (json_of v) = json_of v. Proof. destruct v; reflexivity. Qed.
  Lemma get_stored d a : NoDup (keys d) -> get a (sort fst (map (fun kv : string * json => match kv with (k, v) => (k, dumped v) end) d)) = option_map dumped (get a d).
  Proof.
    intros N. set (l := map _ d). assert (E : l = map (fun kv => (fst kv, dumped (snd kv))) d) by (apply map_ext; intros []; reflexivity).
    rewrite (get_perm a l (sort fst l)); [|rewrite E, keys_map; exact N|apply sort_perm]. rewrite E. apply get_map.
  Qed.
  Lemma nodup_stored d : NoDup (keys d) -> NoDup (keys (sort fst (map (fun kv : string * json => match kv with (k, v) => (k, dumped v) end) d))).
  Proof.
    intros N. set (l := map _ d). assert (E : l = map (fun kv => (fst kv, dumped (snd kv))) d) by (apply map_ext; intros []; reflexivity).
    unfold keys. apply (Permutation_NoDup (Permutation_map fst (sort_perm fst l))). rewrite E. fold (keys (map (fun kv => (fst kv, dumped (snd kv))) d)). rewrite keys_map. exact N.
  Qed.
  Lemma stored_fine d : fine d -> exists d', deserialize_arguments (serialize_arguments d) = Some d' /\ fine d' /\ forall a, get a d' = option_map dumped (get a d).
  Proof.
    intros [N F]. eexists. split; [reflexivity|]. split; [split; [now apply nodup_stored|]|intros; now apply get_stored].
    intros a p G. destruct (F a p G) as (v & E & P). exists v. rewrite get_stored by exact N. rewrite E. cbn [option_map]. rewrite json_dumped. auto.
  Qed.
  Lemma fine_accepted d file : deserialize_arguments file = Some d -> fine d -> accepted s file.
  Proof.
    intros E [N F]. exists d. split; [exact E|]. intros a p G. destruct (F a p G) as (v & Ev & P). exists v. split; [exact Ev|]. unfold get_value. now rewrite Ev, G.
  Qed.
  (** The defaults. *)
  Lemma defaults_get l : NoDup (keys l) -> Forall (fun kp => fst kp = pname (snd kp)) l -> forall d a,
    get a (fold_left (fun d kp => set (pname (snd kp)) (default_of (snd kp)) d) l d) = match get a l with Some p => Some (default_of p) | None => get a d end.
  Proof.
    induction l as [|[k p] l IH]; intros N F d a; [reflexivity|]. inversion N as [|? ? N1 N2]. subst. inversion F as [|? ? F1 F2]. subst. cbn [fst snd] in *.
    cbn [fold_left snd get]. rewrite IH by assumption. rewrite get_set, <- F1. destruct (String.eqb_spec a k) as [->|NE]; [|reflexivity].
    apply get_none in N1. rewrite N1. reflexivity.
  Qed.
  Lemma defaults_nodup l : forall d : dict json, NoDup (keys d) -> NoDup (keys (fold_left (fun d (kp : string * param) => set (pname (snd kp)) (default_of (snd kp)) d) l d)).
  Proof. induction l as [|kp l IH]; intros d N; [exact N|]. cbn [fold_left]. apply IH. now apply nodup_set. Qed.
  Lemma default_fine : fine (default_arguments s).
  Proof.
    pose proof HS as (_ & _ & _ & _ & N & F). split; [apply defaults_nodup; constructor|]. intros a p G. unfold default_arguments.
    rewrite defaults_get; [|exact N|eapply Forall_impl; [|exact F]; intros ? []; assumption]. rewrite G. destruct (param_wf a p G) as [W _].
    destruct p as [n ts df|n ts lo hi st df|n ts lo hi df]; cbn [default_of well_formed] in *.
    - exists (VBool df). split; reflexivity.
    - exists (VInt df). split; [reflexivity|]. cbn. destruct W as (_ & _ & _ & _ & R & M). now rewrite int_parse_id.
    - exists (VInt df). split; [reflexivity|]. cbn. destruct W as (_ & L & H & _ & v & E). now rewrite E, pow_parse_idem.
  Qed.
  Definition from (file : option json) : option (dict json) := match file with Some j => deserialize_arguments j | None => Some (default_arguments s) end.
  Definition fine_file (file : option json) : Prop := exists d, from file = Some d /\ fine d.

  Lemma trials_ok benches d : fine d -> forall ts, (forall cs, In cs ts -> Forall2 (fun b c => forall c', c = Some c' -> legal_config s vec b c') benches cs) ->
    exists l, trials s d ts = Some l /\ forall j, In j l -> fine_file (Some j) /\
      forall a p, get a (parameters s) = Some p -> (forall be, In be benches -> ~ searched s vec be a) -> entry a j = get a d.
  Proof.
    intros F. induction ts as [|cs ts IH]; intros H; [exists []; split; [reflexivity|intros j []]|].
    destruct IH as (l & El & Hl); [intros; apply H; now right|]. cbn [trials].
    destruct (overlay_ok benches cs (H cs (or_introl eq_refl)) d F) as (d1 & E1 & F1 & _ & U1). rewrite E1, El.
    destruct (existsb _ cs); eexists; (split; [reflexivity|]); [|exact Hl]. intros j [<-|Hj]; [|now apply Hl].
    destruct (stored_fine d1 F1) as (d2 & E2 & F2 & G2). split; [exists d2; split; assumption|].
    intros a p G NB. unfold entry. rewrite E2, G2, U1 by exact NB. destruct F as [_ F]. destruct (F a p G) as (v & -> & _). cbn [option_map]. now rewrite json_dumped.
  Qed.
  Lemma run_ok r file d : legal_run s vec r -> from file = Some d -> fine d ->
    exists l last, run s r file = Some (l ++ [last]) /\
      (forall j, In j (l ++ [last]) -> fine_file (Some j) /\
         forall a p, get a (parameters s) = Some p -> (forall be, In be (run_benchmarks r) -> ~ searched s vec be a) -> entry a j = get a d) /\
      (forall a p, get a (parameters s) = Some p -> entry a last = overridden a (map Some (run_best r)) (get a d)).
  Proof.
    intros [L1 L2] E F. unfold run. change (match file with Some j => deserialize_arguments j | None => Some (default_arguments s) end) with (from file). rewrite E.
    destruct (trials_ok (run_benchmarks r) d F (run_trials r) L1) as (l & El & Hl). rewrite El.
    assert (L2' : Forall2 (fun b c => forall c', c = Some c' -> legal_config s vec b c') (run_benchmarks r) (map Some (run_best r))).
    { clear -L2. induction L2; cbn [map]; constructor; auto. intros c' [= <-]. assumption. }
    destruct (overlay_ok _ _ L2' d F) as (d1 & E1 & F1 & G1 & U1). rewrite E1. destruct (stored_fine d1 F1) as (d2 & E2 & F2 & G2).
    assert (EN : forall a p, get a (parameters s) = Some p -> entry a (serialize_arguments d1) = get a d1).
    { intros a p G. unfold entry. rewrite E2, G2. destruct F1 as [_ F1]. destruct (F1 a p G) as (v & -> & _). cbn [option_map]. now rewrite json_dumped. }
    exists l, (serialize_arguments d1). split; [reflexivity|]. split.
    - intros j Hj. apply in_app_or in Hj. destruct Hj as [Hj|[<-|[]]]; [now apply Hl|]. split; [exists d2; split; assumption|].
      intros a p G NB. rewrite (EN a p G). now apply U1.
    - intros a p G. rewrite (EN a p G). apply G1.
  Qed.
  Lemma tune_ok rs : (forall r, In r rs -> legal_run s vec r) -> forall file d, from file = Some d -> fine d ->
    exists l, tune s rs file = Some l /\ forall j, In j l -> fine_file (Some j) /\
      forall a p, get a (parameters s) = Some p -> (forall r be, In r rs -> In be (run_benchmarks r) -> ~ searched s vec be a) -> entry a j = get a d.
  Proof.
    induction rs as [|r rs IH]; intros H file d E F; [exists []; split; [reflexivity|intros j []]|].
    destruct (run_ok r file d (H r (or_introl eq_refl)) E F) as (l & lst & E1 & H1 & _). cbn [tune]. rewrite E1.
    assert (EL : last (map Some (l ++ [lst])) None = Some lst) by (rewrite map_app; apply last_last). rewrite EL.
    destruct (H1 lst (in_or_app l [lst] lst (or_intror (or_introl eq_refl)))) as ((d1 & E2 & F2) & U1).
    destruct (IH (fun r Hr => H r (or_intror Hr)) (Some lst) d1 E2 F2) as (l2 & E3 & H3). rewrite E3. eexists. split; [reflexivity|].
    intros j Hj. apply in_app_or in Hj. destruct Hj as [Hj|Hj].
    - destruct (H1 j Hj) as [A B]. split; [exact A|]. intros a p G NB. apply (B a p G). intros be Hbe. apply (NB r be); [now left|exact Hbe].
    - destruct (H3 j Hj) as [A B]. split; [exact A|]. intros a p G NB. rewrite (B a p G) by (intros r' be Hr Hbe; apply (NB r' be); [now right|exact Hbe]).
      specialize (U1 a p G (fun be Hbe => NB r be (or_introl eq_refl) Hbe)). unfold entry in U1. cbn [from] in E2. rewrite E2 in U1. exact U1.
  Qed.
End tune.

(** A file the build accepts unchanged, if it exists, with each name once. *)
Definition good_start (s : space) (file : option json) : Prop :=
  forall j, file = Some j -> accepted s j /\ exists d, j = JObj d /\ NoDup (keys d).
Lemma start_fine s file : space_ok s -> good_start s file -> exists d, from s file = Some d /\ fine s d.
Proof.
  intros HS H. destruct file as [j|]; [|exists (default_arguments s); split; [reflexivity|now apply default_fine]].
  destruct (H j eq_refl) as ((d & E & A) & d' & -> & N). cbn in E. injection E as <-. exists d'. split; [reflexivity|]. split; [exact N|].
  intros a p G. destruct (A a p G) as (v & E1 & E2). exists v. split; [exact E1|]. unfold get_value in E2. now rewrite E1, G in E2.
Qed.
(** Whatever is proposed and however far tuning gets, tuning does not fail, every file written holds a value for every parameter that
    the build uses as it is, and parameters not searched (other benchmarks, other instruction sets) keep their values. *)
Theorem C78_accepted s vec rs file : space_ok s -> (forall r, In r rs -> legal_run s vec r) -> good_start s file ->
  exists files, tune s rs file = Some files /\ forall j, In j files -> accepted s j.
Proof.
  intros HS HR HG. destruct (start_fine s file HS HG) as (d & E & F). destruct (tune_ok s vec HS rs HR file d E F) as (l & El & Hl).
  exists l. split; [exact El|]. intros j Hj. destruct (Hl j Hj) as [(d1 & E1 & F1) _]. apply (fine_accepted s d1); assumption.
Qed.
Print Assumptions C78_accepted.
Theorem C78_untouched s vec rs j0 files a p : space_ok s -> (forall r, In r rs -> legal_run s vec r) -> good_start s (Some j0) ->
  tune s rs (Some j0) = Some files -> get a (parameters s) = Some p ->
  (forall r be, In r rs -> In be (run_benchmarks r) -> ~ searched s vec be a) ->
  forall j, In j files -> entry a j = entry a j0.
Proof.
  intros HS HR HG ET G NB j Hj. destruct (start_fine s (Some j0) HS HG) as (d & E & F). destruct (tune_ok s vec HS rs HR (Some j0) d E F) as (l & El & Hl).
  rewrite ET in El. injection El as ->. destruct (Hl j Hj) as [_ U]. rewrite (U a p G NB). unfold entry. cbn [from] in E. now rewrite E.
Qed.
Print Assumptions C78_untouched.
(** At the end of a run: the best value found for the last benchmark that chose one (an integer times its step), else the old value. *)
Theorem C78_best s vec r j0 a p : space_ok s -> legal_run s vec r -> good_start s (Some j0) -> get a (parameters s) = Some p ->
  exists files final, run s r (Some j0) = Some (files ++ [final]) /\
    ((forall c v, In c (run_best r) -> ~ In (a, v) c) /\ entry a final = entry a j0 \/
     exists before c after, run_best r = before ++ c :: after /\ (forall c' v, In c' after -> ~ In (a, v) c') /\
       exists v, In (a, v) c /\ entry a final = Some (json_of_proposal p v)).
Proof.
  intros HS HR HG G. destruct (start_fine s (Some j0) HS HG) as (d & E & F). destruct (run_ok s vec HS r (Some j0) d HR E F) as (l & lst & E1 & _ & H).
  exists l, lst. split; [exact E1|]. rewrite (H a p G). unfold entry. cbn [from] in E. rewrite E. clear -G.
  assert (LN : forall c, match last_named a c with Some kv => fst kv = a /\ In (a, snd kv) c | None => forall v, ~ In (a, v) c end).
  { induction c as [|[k v] c IH]; cbn [last_named]; [intros v []|]. destruct (last_named a c) as [kv|]; [split; [apply IH|right; apply IH]|].
    cbn [fst]. destruct (String.eqb_spec a k) as [->|NE]; [split; [reflexivity|now left]|]. intros w [X|X]; [congruence|exact (IH w X)]. }
  generalize (get a d). clear d. induction (run_best r) as [|c cs IH] using rev_ind; intros old; [left; split; [intros c v []|reflexivity]|].
  assert (OA : forall l1 c0 o, overridden s a (map Some (l1 ++ [c0])) o = chosen s a c0 (overridden s a (map Some l1) o)).
  { induction l1 as [|x l1 IH1]; intros c0 o; [reflexivity|]. cbn [app map overridden]. apply IH1. }
  rewrite OA. unfold chosen. specialize (LN c). rewrite G. destruct (last_named a c) as [kv|] eqn:EK.
  - right. exists cs, c, []. split; [reflexivity|]. split; [intros c' v []|]. exists (snd kv). split; [apply LN|reflexivity].
  - destruct (IH old) as [[N1 N2]|(bf & c1 & af & E1 & N1 & v & I1 & V1)].
    + left. split; [|exact N2]. intros c' v Hc'. apply in_app_or in Hc'. destruct Hc' as [Hc'|[<-|[]]]; [now apply N1|apply LN].
    + right. exists bf, c1, (af ++ [c]). split; [now rewrite E1, <- app_assoc|]. split; [|exists v; auto].
      intros c' w Hc'. apply in_app_or in Hc'. destruct Hc' as [Hc'|[<-|[]]]; [now apply N1|apply LN].
Qed.
Print Assumptions C78_best.
(** Any two builds, made with files written at any time during tuning (or the default file), compute the same sums. *)
Definition reduction_space (t : ty) (s : space) (n : reduction_names) (ts ts' : Z) : Prop :=
  (exists tg d, get (n_block n) (parameters s) = Some (PowP (n_block n) tg 32 (ENDURANCE t) d)) /\
  (exists tg d, let st := Z.max 1 ts' in get (n_scan n) (parameters s) = Some (IntP (n_scan n) tg st (st * 8) st d)) /\
  (exists tg d, let lo := Z.max 1 ts in get (n_pipe n) (parameters s) = Some (PowP (n_pipe n) tg lo (lo * 8) d)) /\
  (exists tg d, get (n_unroll n) (parameters s) = Some (IntP (n_unroll n) tg 1 8 1 d)).
Lemma build_ok t s n vector ts ts' file : reduction_space t s n ts ts' -> vector_width ts -> vector_width ts' -> (vector = true -> 1 <= ts) ->
  accepted s file -> exists tu, build_tuning s n vector ts ts' file = Some tu /\ tuned t tu.
Proof.
  intros ((t1 & d1 & G1) & (t2 & d2 & G2) & (t3 & d3 & G3) & (t4 & d4 & G4)) V V' HV (d & E & A).
  assert (I : forall a p, get a (parameters s) = Some p -> (forall b, parse_value p (JBool b) <> Some (VBool b)) ->
     exists z, int_value s file a = Some z /\ parse_value p (JInt z) = Some (VInt z)).
  { intros a p G NB. destruct (A a p G) as (v & E1 & E2). unfold int_value. rewrite E. rewrite E2. unfold get_value in E2. rewrite E1, G in E2.
    destruct v as [b|z]; [exfalso; exact (NB b E2)|]. exists z. split; [reflexivity|exact E2]. }
  destruct (I _ _ G1 ltac:(intros b; cbn; discriminate)) as (z1 & I1 & P1). destruct (I _ _ G2 ltac:(intros b; cbn; discriminate)) as (z2 & I2 & P2).
  destruct (I _ _ G3 ltac:(intros b; cbn; discriminate)) as (z3 & I3 & P3). destruct (I _ _ G4 ltac:(intros b; cbn; discriminate)) as (z4 & I4 & P4).
  unfold build_tuning. rewrite I1, I2, I3, I4. eexists. split; [reflexivity|]. cbn [parse_value as_int option_map] in P1, P2, P3, P4.
  injection P1 as P1. injection P2 as P2. injection P3 as P3. injection P4 as P4.
  pose proof (C18_argument_files t vector ts ts' z1 z3 z4 z2 V V' HV) as T. unfold file_tuning, read_block, read_avec, read_vec in T.
  rewrite P1, P3, P4 in T. cbv zeta in T. rewrite P2 in T. exact T.
Qed.
Theorem C78_results t s vec rs file files n vector ts ts' fold N X incX tmp (m : mem t) :
  space_ok s -> (forall r, In r rs -> legal_run s vec r) -> good_start s file -> tune s rs file = Some files ->
  reduction_space t s n ts ts' -> vector_width ts -> vector_width ts' -> (vector = true -> 1 <= ts) ->
  2 <= fold <= MAXFOLD t -> 0 <= N <= CAPACITY t -> clear_of X incX N tmp (dbnum fold) -> all_finite (read m X incX N) = true ->
  forall j j', In j files -> In j' files ->
  exists tu tu', build_tuning s n vector ts ts' j = Some tu /\ build_tuning s n vector ts ts' j' = Some tu' /\
    rdsum tu fold N X incX tmp m = rdsum tu' fold N X incX tmp m.
Proof.
  intros HS HR HG ET RS V V' HV Hf HN CX FX j j' Hj Hj'. destruct (C78_accepted s vec rs file HS HR HG) as (l & El & Hl). rewrite ET in El. injection El as ->.
  destruct (build_ok t s n vector ts ts' j RS V V' HV (Hl j Hj)) as (tu & B1 & T1). destruct (build_ok t s n vector ts ts' j' RS V V' HV (Hl j' Hj')) as (tu' & B2 & T2).
  exists tu, tu'. split; [exact B1|]. split; [exact B2|]. now apply C20_order_independent.
Qed.
Print Assumptions C78_results.

(** A case: the parameters of one reduction for AVX and one for SSE; two benchmarks, two trials (the second benchmark finishes early). *)
Definition avx : dict string := [("vectorization", "AVX")].
Definition sample_space : space := Space [] [] [("bench_rdsum", ["B"; "P"; "U"; "Q"]); ("bench_damax", ["S"])] []
  [("B", PowP "B" [] 32 (ENDURANCE Dbl) 2048); ("P", PowP "P" avx 4 32 4); ("U", IntP "U" avx 1 8 1 1); ("S", IntP "S" avx 4 32 4 4);
   ("Q", IntP "Q" [("vectorization", "SSE")] 1 8 1 1)].
Definition sample_run : tuning_run :=
  Run ["bench_rdsum"; "bench_damax"] [[Some [("B", PInt 64); ("U", PInt 3)]; Some [("S", PInt 8)]]; [Some [("B", PInt 512); ("P", PInt 16)]; None]]
    [[("B", PInt 64); ("P", PInt 8)]; [("S", PInt 5)]].
Definition sample_names : reduction_names := Names "B" "S" "P" "U".
Lemma sample_searched a be : searched sample_space "AVX" be a <-> (be = "bench_rdsum" /\ In a ["B"; "P"; "U"] \/ be = "bench_damax" /\ a = "S").
Proof.
  unfold searched. cbn [forward_metrics sample_space get]. split.
  - intros (names & p & G & I & P & T). destruct (String.eqb_spec be "bench_rdsum") as [->|].
    + injection G as <-. left. split; [reflexivity|]. destruct I as [<-|[<-|[<-|[<-|[]]]]]; try (cbn; tauto). exfalso. cbn in P. injection P as <-. cbn in T. destruct T; discriminate.
    + destruct (String.eqb_spec be "bench_damax") as [->|]; [|discriminate]. injection G as <-. right. split; [reflexivity|]. destruct I as [<-|[]]. reflexivity.
  - intros [[-> I]|[-> ->]].
    + destruct I as [<-|[<-|[<-|[]]]]; eexists; eexists; (split; [reflexivity|]); cbn; (split; [tauto|]); (split; [reflexivity|]); cbn; tauto.
    + eexists; eexists; (split; [reflexivity|]); cbn; (split; [tauto|]); (split; [reflexivity|]); cbn; tauto.
Qed.
Lemma sample_config be c : Forall (fun kv => (be = "bench_rdsum" /\ In (fst kv) ["B"; "P"; "U"] \/ be = "bench_damax" /\ fst kv = "S") /\
    exists p, get (fst kv) (parameters sample_space) = Some p /\ proposable p (snd kv)) c -> legal_config sample_space "AVX" be c.
Proof. intros H a v I. rewrite Forall_forall in H. specialize (H _ I). cbn [fst snd] in H. rewrite sample_searched. exact H. Qed.
Ltac proposal := eexists; split; [reflexivity|]; cbn; repeat split; try lia; first [exists 3; split; [lia|reflexivity]|exists 4; split; [lia|reflexivity]|exists 6; split; [lia|reflexivity]|exists 9; split; [lia|reflexivity]|idtac].
Ltac conf := apply sample_config; repeat (apply Forall_cons || apply Forall_nil); (split; [cbn; tauto|proposal]).
Example C78_case : space_ok sample_space /\ legal_run sample_space "AVX" sample_run /\ good_start sample_space None /\
  reduction_space Dbl sample_space sample_names 4 4 /\
  (exists files, tune sample_space [sample_run; sample_run] None = Some files /\ List.length files = 6%nat /\
     map (build_tuning sample_space sample_names true 4 4) files =
       let a := Some (Tuning 64 (AVec 4 32) (Vec true 4 4 3)) in let b := Some (Tuning 512 (AVec 4 4) (Vec true 4 16 1)) in
       let c := Some (Tuning 64 (AVec 4 20) (Vec true 4 8 1)) in let a' := Some (Tuning 64 (AVec 4 32) (Vec true 4 8 3)) in
       let b' := Some (Tuning 512 (AVec 4 20) (Vec true 4 16 1)) in [a; b; c; a'; b'; c]) /\
  (forall be, In be (run_benchmarks sample_run) -> ~ searched sample_space "AVX" be "Q").
Proof.
  split; [|split; [|split; [|split; [|split]]]].
  - unfold space_ok. split; [constructor|]. split; [constructor|]. split; [repeat constructor; cbn; intuition discriminate|]. split; [constructor|].
    split; [repeat constructor; cbn; intuition discriminate|].
    repeat (apply Forall_cons || apply Forall_nil); (split; [|reflexivity]); cbn; repeat split; try lia; try reflexivity; repeat constructor; try (cbn; tauto).
    exists 2048. reflexivity. exists 4. reflexivity.
  - split.
    + intros cs [<-|[<-|[]]]; cbn [run_benchmarks sample_run]; refine (Forall2_cons _ _ _ (Forall2_cons _ _ _ (Forall2_nil _))); intros c' E; first [discriminate E|injection E as <-; conf].
    + cbn [run_benchmarks run_best sample_run]. refine (Forall2_cons _ _ _ (Forall2_cons _ _ _ (Forall2_nil _))); conf.
  - intros j [=].
  - unfold reduction_space. cbn. repeat split; eexists; eexists; reflexivity.
  - eexists. split; [vm_compute; reflexivity|]. split; vm_compute; reflexivity.
  - intros be _ H. apply sample_searched in H. destruct H as [[_ [H|[H|[H|[]]]]]|[_ H]]; discriminate.
Qed.
