(** * C52: MPI datatypes and operators are created once and describe the accumulators *)
From Coq Require Import ZArith Bool List Lia.
From Verif Require Import Fp Mem Binned Registry.
Import ListNotations.
Open Scope Z_scope.

(** ** Specification *)
(** The number of reals in an element of each datatype, and their type. *)
Definition reals_of (f : tfun) (fold : Z) : Z * base :=
  match f with
  | DOUBLE_BINNED => (2 * fold, MPI_Double)
  | DOUBLE_BINNED_SCALED => (1 + 2 * fold, MPI_Double)
  | DOUBLE_COMPLEX_BINNED => (2 * (2 * fold), MPI_Double)
  | FLOAT_BINNED => (2 * fold, MPI_Float)
  | FLOAT_BINNED_SCALED => (1 + 2 * fold, MPI_Float)
  | FLOAT_COMPLEX_BINNED => (2 * (2 * fold), MPI_Float)
  end.
Definition double_type (f : tfun) : bool := match snd (reals_of f 0) with MPI_Double => true | MPI_Float => false end.
Definition double_op (f : ofun) : bool := match f with DBDBADD | DBDBADDSQ | ZBZBADD => true | _ => false end.
(** Requests with a fold for which the library works: accumulators of at most MAXFOLD bins,
    operators for 2 .. MAXINDEX bins. *)
Definition sensible (r : request) : Prop :=
  match r with
  | Type_of f fold => 0 <= fold <= MAXFOLD (if double_type f then Dbl else Flt)
  | Op_of f fold => 2 <= fold <= MAXINDEX (if double_op f then Dbl else Flt)
  end.
Definition is_type (r : request) : bool := match r with Type_of _ _ => true | _ => false end.
(** What the object behind a handle must be. *)
Definition denotes (p : process) (r : request) (h : nat) : Prop :=
  match r with
  | Type_of f fold => nth_error (mpi_types p) h = Some (reals_of f fold) /\ In h (mpi_committed p)
  | Op_of f fold => nth_error (mpi_ops p) h = Some (f, fold)
  end.

(** ** Invariant *)
Definition regok (p : process) : Prop :=
  (forall f n, types_initialized p f n = true -> denotes p (Type_of f n) (types p f n)) /\
  (forall f n, ops_initialized p f n = true -> denotes p (Op_of f n) (ops p f n)) /\
  (forall f n f' n', types_initialized p f n = true -> types_initialized p f' n' = true -> types p f n = types p f' n' -> f = f' /\ n = n') /\
  (forall f n, types_initialized p f n = true -> (types p f n < length (mpi_types p))%nat).
Definition known (p : process) (r : request) (h : nat) : Prop :=
  match r with
  | Type_of f n => types_initialized p f n = true /\ types p f n = h
  | Op_of f n => ops_initialized p f n = true /\ ops p f n = h
  end.
Definition keeps (p p' : process) : Prop := forall r h, known p r h -> known p' r h.
Lemma set_same {K} eq {A} (tab : K -> Z -> A) k i v : set eq tab k i v k i = v.
Proof. unfold set. destruct (eq k k); [|congruence]. now rewrite Z.eqb_refl. Qed.
Lemma set_other {K} eq {A} (tab : K -> Z -> A) k i v k' i' : (k, i) <> (k', i') -> set eq tab k i v k' i' = tab k' i'.
Proof. unfold set. destruct (eq k k') as [<- |]; auto. destruct (Z.eqb_spec i i') as [<- |]; auto. congruence. Qed.
Lemma case_in {K} (eq : forall a b : K, {a = b} + {a <> b}) (k k' : K) (i i' : Z) : {(k, i) = (k', i')} + {(k, i) <> (k', i')}.
Proof. destruct (eq k k') as [<- |]; [|right; congruence]. destruct (Z.eq_dec i i') as [<- |]; [left; auto|right; congruence]. Qed.

Lemma type_step fails f n p : regok p -> sensible (Type_of f n) ->
  let '(o, p') := get_type fails f n p in
  match o with
  | Handle h => regok p' /\ keeps p p' /\ known p' (Type_of f n) h /\
      mpi_ops p' = mpi_ops p /\ (if types_initialized p f n then p' = p else h = length (mpi_types p) /\ length (mpi_types p') = S h)
  | Abort => regok p' /\ keeps p p' /\ exists c, fails c = true
  | Undefined => False
  end.
Proof.
  intros (R1 & R2 & R3 & R4) HS. unfold get_type.
  replace ((n <? 0) || (ttable f <=? n)) with false.
  2:{ symmetry. unfold sensible in HS. destruct f; cbn [double_type reals_of snd ttable] in *; apply orb_false_iff; split; lia. }
  destruct (types_initialized p f n) eqn:HI.
  { split; [exact (conj R1 (conj R2 (conj R3 R4)))|]. split; [now intros r h|]. cbn. auto. }
  unfold type_contiguous. destruct (fails (mpi_calls p)) eqn:F1.
  { split; [exact (conj R1 (conj R2 (conj R3 R4)))|]. split; [now intros [] h|eauto]. }
  unfold type_commit. cbn [mpi_calls types mpi_types mpi_committed mpi_ops types_initialized ops ops_initialized].
  set (L := length (mpi_types p)) in *.
  assert (OT : forall f' n', types_initialized p f' n' = true -> set tfun_eq (types p) f n L f' n' = types p f' n').
  { intros f' n' H. apply set_other. intros E. inversion E; subst. congruence. }
  destruct (fails (S (mpi_calls p))) eqn:F2.
  { split.
    - split; [|split; [exact R2|split]]; cbn.
      + intros f' n' H. rewrite OT by exact H. destruct (R1 f' n' H) as [E C]. split; [|exact C].
        rewrite nth_error_app1 by (apply R4; exact H). exact E.
      + intros f1 n1 f2 n2 H1 H2. rewrite !OT by assumption. auto.
      + intros f' n' H. rewrite OT by exact H. rewrite app_length. specialize (R4 _ _ H). lia.
    - split; [|eauto]. intros [f' n'|f' n'] h [K1 K2]; cbn; auto. rewrite OT by exact K1. auto. }
  cbn [mpi_calls types mpi_types mpi_committed mpi_ops types_initialized ops ops_initialized].
  rewrite set_same.
  assert (IN : forall f' n', set tfun_eq (types_initialized p) f n true f' n' = true -> (f, n) = (f', n') \/ types_initialized p f' n' = true).
  { intros f' n'. destruct (case_in tfun_eq f f' n n'); [auto|]. rewrite set_other; auto. }
  split; [|split; [|split; [|split]]].
  - split; [|split; [|split]].
    + intros f' n' H. apply IN in H. destruct H as [E|H].
      * inversion E; subst. cbn. rewrite set_same. rewrite nth_error_app2, Nat.sub_diag by (unfold L; lia). cbn. split; auto.
        unfold tcount, tbase, reals_of, dbnum, zbnum. destruct f'; do 2 f_equal; ring.
      * cbn. rewrite OT by exact H. destruct (R1 f' n' H) as [E C]. split; [|now right].
        rewrite nth_error_app1 by (apply R4; exact H). exact E.
    + exact R2.
    + cbn. intros f1 n1 f2 n2 H1 H2. apply IN in H1. apply IN in H2. destruct H1 as [E1|H1], H2 as [E2|H2].
      * inversion E1; inversion E2; subst. auto.
      * inversion E1; subst. rewrite set_same, OT by exact H2. intros E. specialize (R4 _ _ H2). unfold L in E. lia.
      * inversion E2; subst. rewrite set_same, OT by exact H1. intros E. specialize (R4 _ _ H1). unfold L in E. lia.
      * rewrite !OT by assumption. auto.
    + cbn. intros f' n' H. rewrite app_length. cbn [length]. apply IN in H. destruct H as [E|H].
      * inversion E; subst. rewrite set_same. unfold L. lia.
      * rewrite OT by exact H. specialize (R4 _ _ H). lia.
  - intros [f' n'|f' n'] h [K1 K2]; cbn; [|auto]. rewrite OT by exact K1. split; [|exact K2].
    destruct (case_in tfun_eq f f' n n') as [E|NE]; [inversion E; apply set_same|]. rewrite set_other; auto.
  - cbn. rewrite !set_same. auto.
  - reflexivity.
  - split; [reflexivity|]. rewrite app_length. cbn [length]. unfold L. lia.
Qed.
(** The same for operators; distinctness follows from what they denote. *)
Definition opsok (p : process) : Prop :=
  forall f n, ops_initialized p f n = true -> nth_error (mpi_ops p) (ops p f n) = Some (f, n).
Lemma op_step fails f n p : regok p -> sensible (Op_of f n) ->
  let '(o, p') := get_op fails f n p in
  match o with
  | Handle h => regok p' /\ keeps p p' /\ known p' (Op_of f n) h /\
      mpi_types p' = mpi_types p /\ (if ops_initialized p f n then p' = p else h = length (mpi_ops p) /\ length (mpi_ops p') = S h)
  | Abort => regok p' /\ keeps p p' /\ exists c, fails c = true
  | Undefined => False
  end.
Proof.
  intros (R1 & R2 & R3 & R4) HS. unfold get_op.
  assert (MM : forall t, MAXINDEX t < MAXFOLD t + 1) by (intros []; reflexivity).
  assert (HR : 2 <= n <= ocases f /\ n < otable f).
  { specialize (MM (if double_op f then Dbl else Flt)). unfold sensible in HS. destruct f; cbn [double_op otable ocases] in *; lia. }
  replace ((n <? 0) || (otable f <=? n)) with false by (symmetry; apply orb_false_iff; lia).
  destruct (ops_initialized p f n) eqn:HI.
  { split; [exact (conj R1 (conj R2 (conj R3 R4)))|]. split; [now intros r h|]. cbn. auto. }
  replace ((2 <=? n) && (n <? ocases f + 1)) with true by (symmetry; apply andb_true_iff; lia).
  unfold op_create. destruct (fails (mpi_calls p)) eqn:F1.
  { split; [exact (conj R1 (conj R2 (conj R3 R4)))|]. split; [now intros [] h|eauto]. }
  cbn [mpi_calls types mpi_types mpi_committed mpi_ops types_initialized ops ops_initialized].
  rewrite set_same. set (L := length (mpi_ops p)) in *.
  assert (OT : forall f' n', ops_initialized p f' n' = true -> set ofun_eq (ops p) f n L f' n' = ops p f' n').
  { intros f' n' H. apply set_other. intros E. inversion E; subst. congruence. }
  assert (IN : forall f' n', set ofun_eq (ops_initialized p) f n true f' n' = true -> (f, n) = (f', n') \/ ops_initialized p f' n' = true).
  { intros f' n'. destruct (case_in ofun_eq f f' n n'); [auto|]. rewrite set_other; auto. }
  split; [|split; [|split; [|split]]].
  - split; [|split; [|split]]; auto. intros f' n' H. apply IN in H. cbn. destruct H as [E|H].
    + inversion E; subst. rewrite set_same, nth_error_app2, Nat.sub_diag by (unfold L; lia). reflexivity.
    + rewrite OT by exact H. rewrite nth_error_app1; [exact (R2 _ _ H)|]. apply nth_error_Some.
      pose proof (R2 _ _ H) as E. cbn in E. rewrite E. discriminate.
  - intros [f' n'|f' n'] h [K1 K2]; cbn; [auto|]. rewrite OT by exact K1. split; [|exact K2].
    destruct (case_in ofun_eq f f' n n') as [E|NE]; [inversion E; apply set_same|]. rewrite set_other; auto.
  - cbn. rewrite !set_same. auto.
  - reflexivity.
  - split; [reflexivity|]. rewrite app_length. cbn [length]. unfold L. lia.
Qed.
Definition made (p : process) (ty : bool) (h : nat) : Prop := (h < length (if ty then map fst (mpi_types p) else map snd (mpi_ops p)))%nat.
Lemma get_step fails r p : regok p -> sensible r ->
  let '(o, p') := get fails r p in
  match o with
  | Handle h => regok p' /\ keeps p p' /\ known p' r h /\
      (forall ty h', made p' ty h' -> made p ty h' \/ is_type r = ty /\ h' = h)
  | Abort => regok p' /\ keeps p p' /\ exists c, fails c = true
  | Undefined => False
  end.
Proof.
  intros R HS. destruct r as [f n|f n]; cbn [get].
  - pose proof (type_step fails f n p R HS) as H. destruct get_type as [[h| |] p']; try tauto.
    destruct H as (H1 & H2 & H3 & H4 & H5). split; [exact H1|]. split; [exact H2|]. split; [exact H3|].
    intros [|] h'; unfold made; cbn [is_type]; rewrite ?map_length.
    + destruct (types_initialized p f n); [subst p'; auto|]. destruct H5. lia.
    + rewrite H4. auto.
  - pose proof (op_step fails f n p R HS) as H. destruct get_op as [[h| |] p']; try tauto.
    destruct H as (H1 & H2 & H3 & H4 & H5). split; [exact H1|]. split; [exact H2|]. split; [exact H3|].
    intros [|] h'; unfold made; cbn [is_type]; rewrite ?map_length.
    + rewrite H4. auto.
    + destruct (ops_initialized p f n); [subst p'; auto|]. destruct H5. lia.
Qed.
Lemma start_ok : regok start.
Proof. repeat split; cbn; discriminate. Qed.
Lemma denotes_known p r h : regok p -> known p r h -> denotes p r h.
Proof. intros (R1 & R2 & _) K. destruct r as [f n|f n]; destruct K as [K1 <-]; auto. Qed.
Lemma known_injective p r r' h : regok p -> known p r h -> known p r' h -> is_type r = is_type r' -> r = r'.
Proof.
  intros (R1 & R2 & R3 & _) K K' E. destruct r as [f n|f n], r' as [f' n'|f' n']; try discriminate; destruct K as [K1 K2], K' as [K1' K2'].
  - destruct (R3 f n f' n' K1 K1') as [-> ->]; congruence.
  - pose proof (R2 _ _ K1) as D. pose proof (R2 _ _ K1') as D'. cbn in D, D'. rewrite K2 in D. rewrite K2' in D'. congruence.
Qed.
Lemma requests_ok fails rs : forall p, regok p -> Forall sensible rs ->
  let '(os, p') := requests fails rs p in
  regok p' /\ keeps p p' /\ ~ In Undefined os /\ (In Abort os -> exists c, fails c = true) /\
  (forall i r h, nth_error rs i = Some r -> nth_error os i = Some (Handle h) -> known p' r h) /\
  (~ In Abort os -> length os = length rs /\
     forall ty h, made p' ty h -> made p ty h \/ exists i r, nth_error rs i = Some r /\ nth_error os i = Some (Handle h) /\ is_type r = ty).
Proof.
  induction rs as [|r rs IH]; intros p R FS; cbn [requests].
  - split; [exact R|]. split; [now intros ? ?|]. split; [easy|]. split; [easy|]. split; [intros [|]; easy|]. split; auto.
  - inversion FS; subst. pose proof (get_step fails r p R ltac:(assumption)) as S. destruct (get fails r p) as [[h| |] p1].
    + destruct S as (S1 & S2 & S3 & S4). specialize (IH p1 S1 ltac:(assumption)). destruct (requests fails rs p1) as [os p2].
      destruct IH as (I1 & I2 & I3 & I4 & I5 & I6).
      split; [exact I1|]. split; [intros ? ? K; apply I2, S2, K|]. split; [intros [|]; [discriminate|auto]|].
      split; [intros [|]; [discriminate|auto]|]. split.
      * intros [|i] r' h' E1 E2; cbn in *; [|eauto]. inversion E1; inversion E2; subst. apply I2, S3.
      * intros NA. destruct I6 as [L M]; [intros K; apply NA; now right|]. split; [cbn; lia|].
        intros ty h' K. destruct (M ty h' K) as [K'|(i & r' & K')].
        -- destruct (S4 ty h' K') as [?|[E1 ->]]; [now left|]. right. exists 0%nat, r. auto.
        -- right. exists (Datatypes.S i), r'. exact K'.
    + destruct S as (S1 & S2 & S3). split; [exact S1|]. split; [exact S2|]. split; [intros [|[]]; discriminate|]. split; [auto|].
      split; [intros [|[|i]]; cbn; discriminate|]. intros NA. exfalso. apply NA. now left.
    + destruct S.
Qed.

(** Any program that asks for datatypes and operators in any order and any number of times, on any
    MPI library ([fails n]: the n-th MPI call fails): nothing is undefined; every handle denotes a
    committed datatype with exactly the reals of the accumulators of that fold, or the operator of
    that fold; asking twice gives the same handle and two different requests never share one; the
    process aborts only if an MPI call failed; otherwise every request is answered and no object is
    created that is not handed out. *)
Theorem C52_registry fails rs : Forall sensible rs ->
  let '(os, p) := requests fails rs start in
  ~ In Undefined os /\
  (forall i r h, nth_error rs i = Some r -> nth_error os i = Some (Handle h) -> denotes p r h) /\
  (forall i j r r' h h', nth_error rs i = Some r -> nth_error rs j = Some r' ->
     nth_error os i = Some (Handle h) -> nth_error os j = Some (Handle h') ->
     is_type r = is_type r' -> (h = h' <-> r = r')) /\
  (In Abort os -> exists c, fails c = true) /\
  (~ In Abort os -> length os = length rs /\
     (forall h, (h < length (mpi_types p))%nat -> exists i f n, nth_error rs i = Some (Type_of f n) /\ nth_error os i = Some (Handle h)) /\
     (forall h, (h < length (mpi_ops p))%nat -> exists i f n, nth_error rs i = Some (Op_of f n) /\ nth_error os i = Some (Handle h))).
Proof.
  intros FS. pose proof (requests_ok fails rs start start_ok FS) as H. destruct requests as [os p].
  destruct H as (I1 & I2 & I3 & I4 & I5 & I6). split; [exact I3|]. split; [|split; [|split; [exact I4|]]].
  - intros i r h E1 E2. eapply denotes_known; eauto.
  - intros i j r r' h h' E1 E2 E3 E4 ET. pose proof (I5 _ _ _ E1 E3) as K. pose proof (I5 _ _ _ E2 E4) as K'. split.
    + intros ->. eapply known_injective; eauto.
    + intros ->. destruct r' as [f n|f n]; destruct K as [_ <-], K' as [_ <-]; reflexivity.
  - intros NA. destruct (I6 NA) as [L M]. split; [exact L|]. split; intros h Hh.
    + destruct (M true h) as [K|(i & r & K1 & K2 & K3)]; [unfold made; now rewrite map_length|unfold made in K; cbn in K; lia|].
      destruct r as [f n|]; [|discriminate]. eauto.
    + destruct (M false h) as [K|(i & r & K1 & K2 & K3)]; [unfold made; now rewrite map_length|unfold made in K; cbn in K; lia|].
      destruct r as [|f n]; [discriminate|]. eauto.
Qed.
Print Assumptions C52_registry.
(** The element of a datatype is what the library allocates for one accumulator (and, for the
    scaled types, the scale in front of it). *)
Theorem C52_element_size f n : reals_of f n =
  match f with
  | DOUBLE_BINNED => (dbnum n, MPI_Double) | DOUBLE_BINNED_SCALED => (dbnum n + 1, MPI_Double) | DOUBLE_COMPLEX_BINNED => (zbnum n, MPI_Double)
  | FLOAT_BINNED => (dbnum n, MPI_Float) | FLOAT_BINNED_SCALED => (dbnum n + 1, MPI_Float) | FLOAT_COMPLEX_BINNED => (zbnum n, MPI_Float)
  end.
Proof. unfold reals_of, dbnum, zbnum. destruct f; f_equal; ring. Qed.
Print Assumptions C52_element_size.
(** Not for every fold the tables have room for: without a case in the switch the result of
    MPI_Op_create is used without having been called. *)
Theorem C52_operator_cases_refuted fails f : forall fold, In fold [0; 1; otable f - 1] ->
  0 <= fold < otable f /\ fst (get_op fails f fold start) = Undefined.
Proof.
  intros fold H. cbn [In] in H. unfold get_op, start. cbn [ops_initialized].
  assert (ocases f + 1 = otable f - 1 /\ 0 <= ocases f) as [E1 E2] by (destruct f; vm_compute; split; congruence || discriminate).
  split; [lia|]. replace ((fold <? 0) || (otable f <=? fold)) with false by (symmetry; apply orb_false_iff; lia).
  replace ((2 <=? fold) && (fold <? ocases f + 1)) with false; [reflexivity|].
  symmetry. apply andb_false_iff. destruct H as [<- |[<- |[<- |[]]]]; [left|left|right]; try reflexivity. lia.
Qed.
Print Assumptions C52_operator_cases_refuted.
(** A program with repeated requests; in the second run the fourth MPI call fails. *)
Definition sample_requests : list request :=
  [Type_of DOUBLE_BINNED 3; Op_of DBDBADD 3; Type_of DOUBLE_BINNED 3; Type_of FLOAT_COMPLEX_BINNED 21; Op_of DBDBADD 51; Op_of DBDBADD 3; Type_of DOUBLE_BINNED 4].
Example C52_case : Forall sensible sample_requests /\
  fst (requests (fun _ => false) sample_requests start) = [Handle 0; Handle 0; Handle 0; Handle 1; Handle 1; Handle 0; Handle 2] /\
  mpi_types (snd (requests (fun _ => false) sample_requests start)) = [(6, MPI_Double); (84, MPI_Float); (8, MPI_Double)] /\
  fst (requests (fun n => Nat.eqb n 3) sample_requests start) = [Handle 0; Handle 0; Handle 0; Abort].
Proof.
  split; [|split; [|split]]; try (vm_compute; reflexivity).
  repeat constructor; cbn; vm_compute; discriminate.
Qed.
