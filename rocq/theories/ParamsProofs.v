(** * Lemmas about the parameter files *)
From Coq Require Import ZArith List Bool String Lia Permutation.
From Verif Require Import Gen GenProofs Params.
Import ListNotations.
Open Scope string_scope.
Open Scope list_scope.
Open Scope Z_scope.

(** ** parse_value *)
Lemma int_parse_range lo hi st v : lo <= hi -> lo <= int_parse lo hi st v <= hi.
Proof. intros H. apply clamp_range; exact H. Qed.
Lemma int_parse_step lo hi st v : 0 < st -> lo mod st = 0 -> hi mod st = 0 -> int_parse lo hi st v mod st = 0.
Proof.
  intros S L H. unfold int_parse. cbv zeta.
  destruct (clamp_cases lo hi (if v mod st =? 0 then v else py_round_div v st * st)) as [E|[E|E]]; rewrite E; auto.
  destruct (Z.eqb_spec (v mod st) 0); [assumption|]. apply Z.mod_mul. lia.
Qed.
Lemma int_parse_id lo hi st v : lo <= v <= hi -> v mod st = 0 -> int_parse lo hi st v = v.
Proof. intros H E. unfold int_parse. rewrite E. cbn. apply clamp_id. exact H. Qed.
(** The chosen multiple is a nearest one. *)
Lemma py_round_near a b : 0 < b -> Z.abs (2 * (py_round_div a b * b - a)) <= b.
Proof.
  intros B. unfold py_round_div. pose proof (Z.div_mod a b ltac:(lia)). pose proof (Z.mod_pos_bound a b B).
  set (q := a / b) in *. set (r := a mod b) in *. clearbody q r. cbv zeta.
  destruct (Z.ltb_spec (2 * r) b); [nia|]. destruct (Z.ltb_spec b (2 * r)); [nia|].
  destruct (Z.even q); nia.
Qed.

Lemma bit_length_pow k : 0 <= k -> bit_length (2 ^ k) = k + 1.
Proof.
  intros H. unfold bit_length. pose proof (Z.pow_pos_nonneg 2 k ltac:(lia) H).
  destruct (Z.eqb_spec (2 ^ k) 0); [lia|]. rewrite Z.abs_eq, Z.log2_pow2 by lia. reflexivity.
Qed.
Lemma is_pow_iff v : is_pow v = true <-> exists k, 0 <= k /\ v = 2 ^ k.
Proof.
  unfold is_pow. split.
  - intros H. apply andb_true_iff in H. destruct H as [A B]. apply Z.eqb_eq in B.
    exists (bit_length v - 1). split; [|exact B]. unfold bit_length.
    destruct (Z.eqb_spec v 0) as [E|]; [subst v; cbn in A; discriminate|].
    pose proof (Z.log2_nonneg (Z.abs v)). lia.
  - intros (k & K & ->). rewrite bit_length_pow by lia. replace (k + 1 - 1) with k by lia.
    rewrite Z.eqb_refl. pose proof (Z.pow_pos_nonneg 2 k ltac:(lia) K).
    destruct (Z.eqb_spec (2 ^ k) 0); [lia|reflexivity].
Qed.
Lemma pow_parse_alt lo hi v : pow_parse lo hi v = clamp lo hi (if is_pow v then v else 2 ^ bit_length v).
Proof. reflexivity. Qed.
Lemma pow_parse_range lo hi v : lo <= hi -> lo <= pow_parse lo hi v <= hi.
Proof. intros H. apply clamp_range; exact H. Qed.
Lemma pow_parse_pow lo hi v : is_pow lo = true -> is_pow hi = true -> is_pow (pow_parse lo hi v) = true.
Proof.
  intros L H. rewrite pow_parse_alt.
  destruct (clamp_cases lo hi (if is_pow v then v else 2 ^ bit_length v)) as [E|[E|E]]; rewrite E; auto.
  destruct (is_pow v) eqn:P; [exact P|]. apply is_pow_iff. exists (bit_length v). split; [|reflexivity].
  unfold bit_length. destruct (v =? 0); [lia|]. pose proof (Z.log2_nonneg (Z.abs v)). lia.
Qed.
Lemma pow_parse_id lo hi v : lo <= v <= hi -> is_pow v = true -> pow_parse lo hi v = v.
Proof. intros H E. rewrite pow_parse_alt, E. apply clamp_id. exact H. Qed.

(** ** Tunings read from a file are legal *)
Lemma read_vec_legal vector ts pipe unroll : vector_width ts -> (vector = true -> 1 <= ts) ->
  legal_vec (read_vec vector ts pipe unroll).
Proof.
  intros Ht Hv. unfold legal_vec, read_vec. cbn [simd type_size pipe_width unroll_width].
  assert (exists k, 0 <= k /\ Z.max 1 ts = 2 ^ k) as (k & K & E).
  { destruct Ht as [->|(a & A & ->)]; [exists 0; auto with zarith|].
    exists a. pose proof (Z.pow_pos_nonneg 2 a ltac:(lia) A). split; [lia|lia]. }
  rewrite E. replace (2 ^ k * 8) with (2 ^ (k + 3)) by (rewrite Z.pow_add_r by lia; reflexivity).
  assert (LE : 2 ^ k <= 2 ^ (k + 3)) by (apply Z.pow_le_mono_r; lia).
  pose proof (pow_parse_range (2 ^ k) (2 ^ (k + 3)) pipe LE) as R.
  pose proof (pow_parse_pow (2 ^ k) (2 ^ (k + 3)) pipe) as P.
  rewrite !is_pow_iff in P. specialize (P ltac:(eauto) ltac:(exists (k + 3); auto with zarith)).
  pose proof (int_parse_range 1 8 1 unroll ltac:(lia)).
  split; [exact Ht|]. split; [exact P|]. split; [lia|]. split; [lia|exact Hv].
Qed.
Lemma read_avec_legal ts unroll : vector_width ts -> legal_avec (read_avec ts unroll).
Proof.
  intros Ht. unfold legal_avec, read_avec. cbn [a_type_size a_unroll].
  set (s := Z.max 1 ts). assert (S : 0 < s) by (unfold s; lia).
  pose proof (int_parse_range s (s * 8) s unroll ltac:(lia)).
  split; [exact Ht|]. split; [lia|]. replace (Z.max ts 1) with s by (unfold s; lia).
  apply Z.mod_divide; [lia|]. apply int_parse_step; [lia|apply Z.mod_same; lia|].
  rewrite Z.mul_comm. apply Z.mod_mul. lia.
Qed.

(** ** Sorting and dictionaries *)
Lemma insert_perm {A} (key : A -> string) x l : Permutation (x :: l) (insert key x l).
Proof.
  induction l as [|y l IH]; cbn; [reflexivity|]. destruct (String.leb _ _); [reflexivity|].
  rewrite perm_swap, IH. reflexivity.
Qed.
Lemma sort_perm {A} (key : A -> string) l : Permutation l (sort key l).
Proof. induction l as [|x l IH]; cbn; [reflexivity|]. rewrite <- insert_perm. constructor. exact IH. Qed.

Definition keys {A} (d : dict A) : list string := map fst d.
Lemma get_in {A} k v (d : dict A) : get k d = Some v -> In (k, v) d.
Proof.
  induction d as [|[k' v'] d IH]; cbn; [discriminate|]. destruct (String.eqb_spec k k') as [->|].
  - intros [= ->]. left. reflexivity.
  - intros H. right. auto.
Qed.
Lemma in_get {A} k v (d : dict A) : NoDup (keys d) -> In (k, v) d -> get k d = Some v.
Proof.
  induction d as [|[k' v'] d IH]; cbn; [easy|]. intros N [E|I].
  - injection E as -> ->. rewrite String.eqb_refl. reflexivity.
  - inversion N as [|? ? N1 N2]. subst. destruct (String.eqb_spec k k') as [->|].
    + exfalso. apply N1. apply (in_map fst) in I. exact I.
    + auto.
Qed.
Lemma get_perm {A} k (d d' : dict A) : NoDup (keys d) -> Permutation d d' -> get k d' = get k d.
Proof.
  intros N P. assert (N' : NoDup (keys d')) by (unfold keys in *; rewrite <- P; exact N).
  destruct (get k d) eqn:E.
  - apply in_get; [exact N'|]. rewrite <- P. apply get_in. exact E.
  - destruct (get k d') eqn:E'; [|reflexivity]. apply get_in in E'. rewrite <- P in E'.
    rewrite (in_get k a d N E') in E. discriminate.
Qed.
Lemma get_map {A B} (f : A -> B) k (d : dict A) :
  get k (map (fun kv => (fst kv, f (snd kv))) d) = option_map f (get k d).
Proof. induction d as [|[k' v'] d IH]; cbn; [reflexivity|]. destruct (String.eqb k k'); [reflexivity|exact IH]. Qed.
Lemma get_set {A} k k' (v : A) d : get k (set k' v d) = if String.eqb k k' then Some v else get k d.
Proof.
  induction d as [|[k0 v0] d IH]; cbn.
  - destruct (String.eqb_spec k k'); reflexivity.
  - destruct (String.eqb_spec k' k0) as [->|N]; cbn.
    + destruct (String.eqb_spec k k0); reflexivity.
    + rewrite IH. destruct (String.eqb_spec k k0) as [->|]; [|reflexivity].
      destruct (String.eqb_spec k0 k'); [congruence|reflexivity].
Qed.
Lemma keys_set {A} k (v : A) d : keys (set k v d) = match get k d with Some _ => keys d | None => keys d ++ [k] end.
Proof.
  induction d as [|[k0 v0] d IH]; cbn; [reflexivity|].
  destruct (String.eqb_spec k k0) as [->|]; [reflexivity|]. cbn.
  change (map fst (set k v d)) with (keys (set k v d)). rewrite IH.
  destruct (get k d); reflexivity.
Qed.
Lemma get_none {A} k (d : dict A) : get k d = None <-> ~ In k (keys d).
Proof.
  induction d as [|[k0 v0] d IH]; cbn; [tauto|]. destruct (String.eqb_spec k k0) as [->|N].
  - split; [discriminate|]. intros H. exfalso. apply H. auto.
  - rewrite IH. split; [|tauto]. intros H [E|I]; [congruence|auto].
Qed.
Lemma nodup_set {A} k (v : A) d : NoDup (keys d) -> NoDup (keys (set k v d)).
Proof.
  intros N. rewrite keys_set. destruct (get k d) eqn:E; [exact N|].
  apply get_none in E. apply (Permutation_NoDup (Permutation_cons_append _ _)). constructor; assumption.
Qed.
Lemma set_app {A} k (v : A) d : get k d = None -> set k v d = d ++ [(k, v)].
Proof.
  induction d as [|[k0 v0] d IH]; cbn; [reflexivity|]. destruct (String.eqb k k0); [discriminate|].
  intros H. rewrite IH by exact H. reflexivity.
Qed.

Lemma has_in x l : has x l = true <-> In x l.
Proof.
  unfold has. rewrite existsb_exists. split.
  - intros (y & I & E). apply String.eqb_eq in E. subst. exact I.
  - intros I. exists x. split; [exact I|apply String.eqb_refl].
Qed.
Lemma sadd_in x y l : In x (sadd y l) <-> x = y \/ In x l.
Proof.
  unfold sadd. destruct (has y l) eqn:E.
  - apply has_in in E. split; [tauto|]. intros [->|]; assumption.
  - rewrite in_app_iff. cbn. split; [intros [|[|[]]]; auto|intros [|]; auto].
Qed.
Lemma to_set_in x l : In x (to_set l) <-> In x l.
Proof.
  unfold to_set. enough (H : forall s, In x (fold_left (fun s x => sadd x s) l s) <-> In x s \/ In x l).
  { rewrite H. cbn. tauto. }
  induction l as [|y l IH]; intros s; cbn; [tauto|]. rewrite IH, sadd_in.
  split; [intros [[->|]|]|intros [|[->|]]]; auto.
Qed.

(** ** Round trip of a parameter *)

(** What the constructors guarantee. *)
Definition well_formed (p : param) : Prop :=
  match p with
  | BoolP _ ts _ => NoDup (keys ts)
  | IntP _ ts lo hi st d =>
      NoDup (keys ts) /\ 0 < st /\ lo mod st = 0 /\ hi mod st = 0 /\ lo <= d <= hi /\ d mod st = 0
  | PowP _ ts lo hi d =>
      NoDup (keys ts) /\ is_pow lo = true /\ is_pow hi = true /\ is_pow d = true /\
      (exists v, d = pow_parse lo hi v)
  end.
Lemma dec_tags_enc ts : forall d, NoDup (keys (d ++ ts)) ->
  dec_tags (map (fun kv => JList [JStr (fst kv); JStr (snd kv)]) ts) d = Some (d ++ ts).
Proof.
  induction ts as [|[k v] ts IH]; intros d N; cbn; [rewrite app_nil_r; reflexivity|].
  rewrite set_app.
  - rewrite IH; rewrite <- app_assoc; [reflexivity|exact N].
  - apply get_none. unfold keys in *. rewrite map_app in N. cbn in N.
    apply NoDup_remove_2 in N. rewrite in_app_iff in N. tauto.
Qed.
Lemma dumped_tags ts : dumped (enc_tags ts) = enc_tags ts.
Proof. cbn. f_equal. rewrite map_map. reflexivity. Qed.
Lemma pow_parse_idem lo hi v : is_pow lo = true -> is_pow hi = true ->
  pow_parse lo hi (pow_parse lo hi v) = pow_parse lo hi v.
Proof.
  intros L H. pose proof (pow_parse_pow lo hi v L H) as P. rewrite (pow_parse_alt lo hi (pow_parse lo hi v)), P.
  rewrite pow_parse_alt. set (w := if is_pow v then v else _). clearbody w. unfold clamp.
  repeat (cbv beta iota zeta; match goal with
    | |- context [?a <? ?b] =>
        lazymatch a with context [if _ then _ else _] => fail | _ =>
        lazymatch b with context [if _ then _ else _] => fail | _ => destruct (Z.ltb_spec a b) end end
    end); lia.
Qed.
Lemma param_roundtrip p : well_formed p -> dec_param (dumped (enc_param p)) = Some p.
Proof.
  intros W. destruct p as [n ts d|n ts lo hi st d|n ts lo hi d].
  - cbn [well_formed] in W.
    change (dumped (enc_param (BoolP n ts d))) with
      (JObj [("default", JBool d); ("flavor", JStr "boolean"); ("name", JStr n); ("tags", dumped (enc_tags ts))]).
    rewrite dumped_tags. cbn -[dec_tags mk_bool map]. rewrite dec_tags_enc by exact W. reflexivity.
  - destruct W as (N & S & L & H & R & D).
    change (dumped (enc_param (IntP n ts lo hi st d))) with
      (JObj [("default", JInt d); ("flavor", JStr "integer"); ("maximum", JInt hi); ("minimum", JInt lo);
             ("name", JStr n); ("step", JInt st); ("tags", dumped (enc_tags ts))]).
    rewrite dumped_tags. cbn -[dec_tags mk_int map]. rewrite dec_tags_enc by exact N.
    unfold mk_int. rewrite L, H. cbn [app].
    destruct (Z.ltb_spec 0 st); [|lia]. destruct (Z.leb_spec lo hi); [|lia]. cbn.
    rewrite int_parse_id by assumption. reflexivity.
  - destruct W as (N & L & H & D & v & E).
    change (dumped (enc_param (PowP n ts lo hi d))) with
      (JObj [("default", JInt d); ("flavor", JStr "poweroftwo"); ("maximum", JInt hi); ("minimum", JInt lo);
             ("name", JStr n); ("tags", dumped (enc_tags ts))]).
    rewrite dumped_tags. cbn -[dec_tags mk_pow map]. rewrite dec_tags_enc by exact N.
    unfold mk_pow. rewrite L, H. cbn. rewrite E, pow_parse_idem by assumption. reflexivity.
Qed.
Lemma mk_bool_wf n ts d p : NoDup (keys ts) -> mk_bool n ts d = Some p -> well_formed p.
Proof. intros N [= <-]. exact N. Qed.
Lemma mk_int_wf n ts lo hi st d p : NoDup (keys ts) -> mk_int n ts lo hi st d = Some p -> well_formed p.
Proof.
  intros N. unfold mk_int. destruct (_ && _) eqn:B; [|discriminate].
  rewrite !andb_true_iff, !Z.eqb_eq, Z.ltb_lt, Z.leb_le in B. destruct B as (((S & L) & H) & LE).
  destruct (as_int d) as [z|]; [|discriminate]. intros [= <-]. cbn.
  pose proof (int_parse_range lo hi st z LE). pose proof (int_parse_step lo hi st z S L H). tauto.
Qed.
Lemma mk_pow_wf n ts lo hi d p : NoDup (keys ts) -> mk_pow n ts lo hi d = Some p -> well_formed p.
Proof.
  intros N. unfold mk_pow. destruct (_ && _) eqn:B; [|discriminate]. rewrite andb_true_iff in B. destruct B as [L H].
  destruct (as_int d) as [z|]; [|discriminate]. intros [= <-]. cbn.
  pose proof (pow_parse_pow lo hi z L H). eauto 8.
Qed.

(** ** Round trip of a parameter space *)
Definition same_sets (d d' : dict (list string)) : Prop :=
  forall k, match get k d, get k d' with
            | Some l, Some l' => forall x, In x l <-> In x l'
            | None, None => True
            | _, _ => False
            end.
Definition same_space (s s' : space) : Prop :=
  same_sets (forward_dependencies s) (forward_dependencies s') /\
  same_sets (backward_dependencies s) (backward_dependencies s') /\
  same_sets (forward_metrics s) (forward_metrics s') /\
  same_sets (backward_metrics s) (backward_metrics s') /\
  forall k, get k (parameters s) = get k (parameters s').
Definition space_ok (s : space) : Prop :=
  NoDup (keys (forward_dependencies s)) /\ NoDup (keys (backward_dependencies s)) /\
  NoDup (keys (forward_metrics s)) /\ NoDup (keys (backward_metrics s)) /\
  NoDup (keys (parameters s)) /\ Forall (fun kp => well_formed (snd kp) /\ fst kp = pname (snd kp)) (parameters s).

Lemma dict_map_sort {A B} (f : A -> option B) (g : A -> B) (d : dict A) :
  Forall (fun kv => f (snd kv) = Some (g (snd kv))) d -> dict_map f d = Some (map (fun kv => (fst kv, g (snd kv))) d).
Proof.
  induction 1 as [|[k v] d H F IH]; cbn; [reflexivity|]. cbn in H. rewrite H, IH. reflexivity.
Qed.
Lemma strings_map l : strings (map JStr l) = Some l.
Proof. induction l as [|x l IH]; cbn; [reflexivity|]. rewrite IH. reflexivity. Qed.
Lemma map_dump_str l : map dumped (map JStr l) = map JStr l.
Proof. rewrite map_map. apply map_ext. reflexivity. Qed.

Lemma keys_map {A B} (f : A -> B) (d : dict A) : keys (map (fun kv => (fst kv, f (snd kv))) d) = keys d.
Proof. unfold keys. rewrite map_map. reflexivity. Qed.

Lemma sets_roundtrip d : NoDup (keys d) ->
  exists d', dec_sets (Some (dumped (enc_sets d))) = Some d' /\ NoDup (keys d') /\ same_sets d d'.
Proof.
  intros N. unfold enc_sets. cbn [dumped dec_sets]. rewrite map_map. cbn [fst snd].
  set (f := fun v => match v with JList l => option_map to_set (strings l) | _ => None end).
  set (enc := fun l : list string => JList (map JStr (sort (fun x => x) l))).
  set (back := fun j => match f j with Some l => l | None => [] end).
  assert (E : map (fun x : string * list string => (fst x, dumped (enc (snd x)))) d =
              map (fun x => (fst x, enc (snd x))) d).
  { apply map_ext. intros [k l]. unfold enc. cbn. rewrite map_dump_str. reflexivity. }
  change (map (fun x : string * list string => (fst x, dumped (JList (map JStr (sort (fun x0 : string => x0) (snd x)))))) d)
    with (map (fun x : string * list string => (fst x, dumped (enc (snd x)))) d).
  rewrite E. clear E.
  assert (P : Permutation (map (fun x => (fst x, enc (snd x))) d) (sort fst (map (fun x => (fst x, enc (snd x))) d)))
    by apply sort_perm.
  set (o := sort fst _) in *.
  exists (map (fun kv => (fst kv, back (snd kv))) o). split; [|split].
  - apply dict_map_sort. rewrite Forall_forall. intros [k v] I. cbn.
    rewrite <- P in I. apply in_map_iff in I. destruct I as ([k' l] & [= <- <-] & I).
    unfold back, enc, f. cbn [snd]. rewrite strings_map. reflexivity.
  - rewrite keys_map. unfold keys. rewrite <- P. fold (keys (map (fun x => (fst x, enc (snd x))) d)).
    rewrite keys_map. exact N.
  - intros k. rewrite get_map. rewrite (get_perm k _ o) with (2 := P) by (rewrite keys_map; exact N).
    rewrite get_map. destruct (get k d) as [l|]; cbn; [|exact I].
    intros x. unfold back, enc, f. rewrite strings_map. cbn. rewrite to_set_in. rewrite <- (sort_perm (fun x => x) l). reflexivity.
Qed.
Lemma params_roundtrip (d : dict param) : NoDup (keys d) ->
  Forall (fun kp => well_formed (snd kp) /\ fst kp = pname (snd kp)) d ->
  exists d', match dumped (JObj (map (fun kv => (fst kv, enc_param (snd kv))) d)) with
             | JObj p => dict_map dec_param p | _ => None end = Some d' /\
    Permutation d d'.
Proof.
  intros N F. cbn [dumped]. rewrite map_map. cbn [fst snd].
  set (g := fun x : string * param => (fst x, dumped (enc_param (snd x)))).
  set (back := fun j => match dec_param j with Some p => p | None => BoolP "" [] false end).
  assert (P : Permutation (map g d) (sort fst (map g d))) by apply sort_perm.
  exists (map (fun kv => (fst kv, back (snd kv))) (sort fst (map g d))). split.
  - apply dict_map_sort. rewrite Forall_forall in *. intros [k v] I. cbn.
    rewrite <- P in I. apply in_map_iff in I. destruct I as ([k' p] & [= <- <-] & I).
    destruct (F _ I) as [W _]. cbn in W. unfold back. cbn [snd]. rewrite param_roundtrip by exact W. reflexivity.
  - rewrite <- P, map_map. erewrite map_ext_in; [rewrite map_id; reflexivity|].
    intros [k p] I. rewrite Forall_forall in F. destruct (F _ I) as [W _]. cbn in W.
    unfold g, back. cbn. rewrite param_roundtrip by exact W. reflexivity.
Qed.
Lemma space_roundtrip s : space_ok s ->
  exists s', dec_space (dumped (enc_space s)) = Some s' /\ space_ok s' /\ same_space s s'.
Proof.
  intros (N1 & N2 & N3 & N4 & N5 & F).
  destruct (sets_roundtrip _ N1) as (a & A1 & A2 & A3). destruct (sets_roundtrip _ N2) as (b & B1 & B2 & B3).
  destruct (sets_roundtrip _ N3) as (c & C1 & C2 & C3). destruct (sets_roundtrip _ N4) as (d & D1 & D2 & D3).
  destruct (params_roundtrip _ N5 F) as (p & P1 & P2).
  set (jp := JObj (map (fun kv => (fst kv, enc_param (snd kv))) (parameters s))) in *.
  exists (Space a b c d p). split; [|split].
  - change (dumped (enc_space s)) with
      (JObj [("backward_dependencies", dumped (enc_sets (backward_dependencies s)));
             ("backward_metrics", dumped (enc_sets (backward_metrics s)));
             ("forward_dependencies", dumped (enc_sets (forward_dependencies s)));
             ("forward_metrics", dumped (enc_sets (forward_metrics s)));
             ("parameters", dumped jp)]).
    unfold dec_space. cbn [get String.eqb Ascii.eqb Bool.eqb].
    rewrite A1, B1, C1, D1. rewrite P1. reflexivity.
  - unfold space_ok. cbn. repeat (split; [assumption|]). split.
    + unfold keys in *. rewrite <- P2. exact N5.
    + rewrite <- P2. exact F.
  - unfold same_space. cbn. repeat (split; [assumption|]). intros k. symmetry. apply get_perm; assumption.
Qed.

(** ** add_target *)
Lemma link_nodup k x d : NoDup (keys d) -> NoDup (keys (link k x d)).
Proof. apply nodup_set. Qed.
Lemma ensure_nodup k d : NoDup (keys d) -> NoDup (keys (ensure k d)).
Proof. intros N. unfold ensure. destruct (get k d); [exact N|]. apply nodup_set. exact N. Qed.
Lemma fold_inv {A B} (P : A -> Prop) (f : A -> B -> A) l : (forall a b, P a -> P (f a b)) -> forall a, P a -> P (fold_left f l a).
Proof. intros H. induction l as [|b l IH]; cbn; auto. Qed.
Lemma add_params_ok ps : Forall well_formed ps -> forall d d', NoDup (keys d) ->
  Forall (fun kp => well_formed (snd kp) /\ fst kp = pname (snd kp)) d ->
  add_params ps d = Some d' ->
  NoDup (keys d') /\ Forall (fun kp => well_formed (snd kp) /\ fst kp = pname (snd kp)) d' /\
  d' = d ++ map (fun p => (pname p, p)) ps.
Proof.
  induction 1 as [|p ps W F IH]; intros d d' N G; cbn [add_params].
  - intros [= <-]. cbn. rewrite app_nil_r. auto.
  - destruct (get (pname p) d) eqn:E; [discriminate|]. intros H.
    apply IH in H; [|apply nodup_set; exact N|].
    + destruct H as (H1 & H2 & H3). split; [exact H1|]. split; [exact H2|].
      rewrite H3, set_app by exact E. rewrite <- app_assoc. reflexivity.
    + rewrite set_app by exact E. apply Forall_app. split; [exact G|]. constructor; [|constructor]. cbn. auto.
Qed.
Lemma add_target_ok f t s s' : Forall well_formed (own_parameters t) -> space_ok s -> add_target f t s = Some s' -> space_ok s'.
Proof.
  intros W (N1 & N2 & N3 & N4 & N5 & F). unfold add_target.
  destruct (add_params _ _) as [ps|] eqn:E; [|discriminate]. cbn. intros [= <-].
  destruct (add_params_ok _ W _ _ N5 F E) as (H1 & H2 & _).
  unfold space_ok; cbn. split; [|split; [|split; [|split]]].
  - apply fold_inv; [intros; apply link_nodup; assumption|]. apply ensure_nodup. exact N1.
  - apply fold_inv; [intros; apply link_nodup; assumption|exact N2].
  - apply fold_inv; [intros a b H; apply fold_inv; [intros; apply link_nodup; assumption|exact H]|exact N3].
  - apply fold_inv; [intros a b H; apply fold_inv; [intros; apply link_nodup; assumption|apply ensure_nodup; exact H]|exact N4].
  - auto.
Qed.

Lemma link_same k x d d' : same_sets d d' -> same_sets (link k x d) (link k x d').
Proof.
  intros S j. unfold link. rewrite !get_set. destruct (String.eqb_spec j k) as [->|]; [|apply S].
  intros y. rewrite !sadd_in. specialize (S k). destruct (get k d), (get k d'); try easy. rewrite S. reflexivity.
Qed.
Lemma ensure_same k d d' : same_sets d d' -> same_sets (ensure k d) (ensure k d').
Proof.
  intros S. unfold ensure. pose proof (S k) as K. destruct (get k d) eqn:E, (get k d') eqn:E'; try easy.
  intros j. rewrite !get_set. destruct (String.eqb j k); [reflexivity|apply S].
Qed.
Lemma fold_rel {A B} (R : A -> A -> Prop) (f : A -> B -> A) l : (forall a a' b, R a a' -> R (f a b) (f a' b)) ->
  forall a a', R a a' -> R (fold_left f l a) (fold_left f l a').
Proof. intros H. induction l as [|b l IH]; cbn; auto. Qed.
Lemma add_params_same ps : forall d d', (forall k, get k d = get k d') ->
  match add_params ps d, add_params ps d' with
  | Some e, Some e' => forall k, get k e = get k e'
  | None, None => True
  | _, _ => False
  end.
Proof.
  induction ps as [|p ps IH]; intros d d' H; cbn; [exact H|]. rewrite <- H.
  destruct (get (pname p) d); [exact I|]. apply IH. intros k. rewrite !get_set, H. reflexivity.
Qed.
Lemma add_target_same f t s s' : same_space s s' ->
  match add_target f t s, add_target f t s' with
  | Some r, Some r' => same_space r r'
  | None, None => True
  | _, _ => False
  end.
Proof.
  intros (S1 & S2 & S3 & S4 & S5). unfold add_target.
  pose proof (add_params_same (own_parameters t) _ _ S5) as P.
  destruct (add_params _ (parameters s)), (add_params _ (parameters s')); try easy.
  cbn. unfold same_space; cbn. split; [|split; [|split; [|split]]]; [| | | |exact P].
  - apply fold_rel; [intros; apply link_same; assumption|]. apply ensure_same. exact S1.
  - apply fold_rel; [intros; apply link_same; assumption|exact S2].
  - apply fold_rel; [intros a b c H; apply fold_rel; [intros; apply link_same; assumption|exact H]|exact S3].
  - apply fold_rel; [intros a b c H; apply fold_rel; [intros; apply link_same; assumption|apply ensure_same; exact H]|exact S4].
Qed.

Lemma same_sets_refl d : same_sets d d.
Proof. intros k. destruct (get k d); [reflexivity|exact I]. Qed.
Lemma same_sets_sym d d' : same_sets d d' -> same_sets d' d.
Proof. intros H k. specialize (H k). destruct (get k d), (get k d'); try contradiction; [|exact I]. intros x. rewrite H. reflexivity. Qed.
Lemma same_sets_trans a b c : same_sets a b -> same_sets b c -> same_sets a c.
Proof.
  intros H G k. specialize (H k). specialize (G k). destruct (get k a), (get k b), (get k c); try contradiction; [|exact I].
  intros x. rewrite H. apply G.
Qed.
Lemma same_space_refl s : same_space s s.
Proof. unfold same_space. auto using same_sets_refl. Qed.
Lemma same_space_sym s s' : same_space s s' -> same_space s' s.
Proof. intros (A & B & C & D & E). unfold same_space. auto 6 using same_sets_sym. Qed.
Lemma same_space_trans a b c : same_space a b -> same_space b c -> same_space a c.
Proof.
  intros (A & B & C & D & E) (A' & B' & C' & D' & E'). unfold same_space.
  repeat (split; [eapply same_sets_trans; eassumption|]). intros k. rewrite E. apply E'.
Qed.

(** Adding the targets one after the other in memory. *)
Fixpoint add_all (ts : list (string * target)) (s : space) : option space :=
  match ts with
  | [] => Some s
  | (f, t) :: ts => match add_target f t s with Some s' => add_all ts s' | None => None end
  end.
Definition targets_ok (ts : list (string * target)) : Prop :=
  Forall (fun ft => Forall well_formed (own_parameters (snd ft))) ts.

Lemma add_all_same ts : forall s s', same_space s s' ->
  match add_all ts s, add_all ts s' with
  | Some r, Some r' => same_space r r'
  | None, None => True
  | _, _ => False
  end.
Proof.
  induction ts as [|[f t] ts IH]; intros s s' S; cbn; [exact S|].
  pose proof (add_target_same f t s s' S) as A. destruct (add_target f t s), (add_target f t s'); try easy. apply IH. exact A.
Qed.
Lemma add_all_ok ts : targets_ok ts -> forall s s', space_ok s -> add_all ts s = Some s' -> space_ok s'.
Proof.
  induction 1 as [|[f t] ts W F IH]; intros s s' S; cbn; [intros [= <-]; exact S|].
  destruct (add_target f t s) as [r|] eqn:E; [|discriminate]. apply IH. exact (add_target_ok f t s r W S E).
Qed.
Lemma empty_ok : space_ok empty_space.
Proof. unfold space_ok; cbn. repeat split; constructor. Qed.

(** Going through the file each time changes nothing. *)
Lemma generate_all_ok ts : targets_ok ts -> forall stored s,
  space_ok s ->
  match stored with
  | None => s = empty_space
  | Some j => exists s0, space_ok s0 /\ same_space s0 s /\ j = dumped (enc_space s0)
  end ->
  match generate_all ts stored, add_all ts s with
  | Some (Some j), Some r => exists s', dec_space j = Some s' /\ same_space r s'
  | Some None, Some r => ts = [] /\ stored = None
  | None, None => True
  | _, _ => False
  end.
Proof.
  induction 1 as [|[f t] ts W F IH]; intros stored s S R.
  - cbn. destruct stored as [j|]; [|auto]. destruct R as (s0 & O & Q & ->).
    destruct (space_roundtrip s0 O) as (s' & D & _ & E). exists s'. split; [exact D|].
    eapply same_space_trans; [apply same_space_sym; exact Q|exact E].
  - cbn [generate_all add_all]. unfold generate_params.
    assert (X : exists s1, (match stored with None => Some empty_space | Some j => dec_space j end) = Some s1 /\ space_ok s1 /\ same_space s1 s).
    { destruct stored as [j|].
      - destruct R as (s0 & O & Q & ->). destruct (space_roundtrip s0 O) as (s1 & D & O1 & E).
        exists s1. split; [exact D|]. split; [exact O1|]. eapply same_space_trans; [apply same_space_sym; exact E|exact Q].
      - exists empty_space. subst s. auto using empty_ok, same_space_refl. }
    destruct X as (s1 & -> & O1 & Q1).
    pose proof (add_target_same f t s1 s Q1) as A.
    destruct (add_target f t s1) as [r1|] eqn:E1, (add_target f t s) as [r|] eqn:E; try easy. cbn [option_map].
    pose proof (add_target_ok f t s1 r1 W O1 E1) as O2. pose proof (add_target_ok f t s r W S E) as O3.
    specialize (IH (Some (dumped (enc_space r1))) r O3). cbv beta in IH.
    specialize (IH ltac:(exists r1; auto)).
    destruct (generate_all ts _) as [[j|]|], (add_all ts r); try easy.
Qed.

(** ** What the dependency tables contain *)
Definition member (k x : string) (d : dict (list string)) : Prop :=
  match get k d with Some l => In x l | None => False end.
Lemma member_link k x j y d : member j y (link k x d) <-> (j = k /\ y = x) \/ member j y d.
Proof.
  unfold member, link. rewrite get_set. destruct (String.eqb_spec j k) as [->|].
  - rewrite sadd_in. destruct (get k d); cbn; tauto.
  - tauto.
Qed.
Lemma member_ensure k j y d : member j y (ensure k d) <-> member j y d.
Proof.
  unfold ensure. destruct (get k d) eqn:E; [reflexivity|]. unfold member. rewrite get_set.
  destruct (String.eqb_spec j k) as [->|]; [|reflexivity]. rewrite E. cbn. tauto.
Qed.
Lemma member_links k j y l : forall d, member j y (fold_left (fun d a => link k a d) l d) <-> (j = k /\ In y l) \/ member j y d.
Proof. induction l as [|a l IH]; intros d; cbn; [tauto|]. rewrite IH, member_link. split; intuition congruence. Qed.
Lemma member_links' x j y l : forall d, member j y (fold_left (fun d a => link a x d) l d) <-> (y = x /\ In j l) \/ member j y d.
Proof. induction l as [|a l IH]; intros d; cbn; [tauto|]. rewrite IH, member_link. split; intuition congruence. Qed.
Lemma add_target_deps f t s s' : add_target f t s = Some s' ->
  (forall g a, member g a (forward_dependencies s') <-> (g = f /\ In a (arguments t)) \/ member g a (forward_dependencies s)) /\
  (forall g a, member a g (backward_dependencies s') <-> (g = f /\ In a (arguments t)) \/ member a g (backward_dependencies s)).
Proof.
  unfold add_target. destruct (add_params _ _); [|discriminate]. cbn. intros [= <-]. cbn. split; intros g a.
  - rewrite member_links, member_ensure. reflexivity.
  - rewrite member_links'. reflexivity.
Qed.
Lemma add_all_deps ts : forall s s', add_all ts s = Some s' ->
  (forall g a, member g a (forward_dependencies s') <->
     (exists t, In (g, t) ts /\ In a (arguments t)) \/ member g a (forward_dependencies s)) /\
  (forall g a, member a g (backward_dependencies s') <->
     (exists t, In (g, t) ts /\ In a (arguments t)) \/ member a g (backward_dependencies s)).
Proof.
  induction ts as [|[f t] ts IH]; intros s s'; cbn.
  - intros [= <-]. split; intros g a; (split; [auto|]); intros [(t & [] & _)|]; auto.
  - destruct (add_target f t s) as [r|] eqn:E; [|discriminate]. intros H.
    destruct (IH _ _ H) as [I1 I2]. destruct (add_target_deps _ _ _ _ E) as [D1 D2].
    split; intros g a; rewrite ?I1, ?I2, ?D1, ?D2; split.
    + intros [(u & I & J)|[[-> J]|M]]; [left; exists u; auto|left; exists t; auto|auto].
    + intros [(u & [[= <- <-]|I] & J)|M]; [auto|left; exists u; auto|auto].
    + intros [(u & I & J)|[[-> J]|M]]; [left; exists u; auto|left; exists t; auto|auto].
    + intros [(u & [[= <- <-]|I] & J)|M]; [auto|left; exists u; auto|auto].
Qed.
Lemma add_all_params ts : targets_ok ts -> forall s s', space_ok s -> add_all ts s = Some s' ->
  parameters s' = parameters s ++ map (fun p => (pname p, p)) (flat_map (fun ft => own_parameters (snd ft)) ts).
Proof.
  induction 1 as [|[f t] ts W F IH]; intros s s' S; cbn.
  - intros [= <-]. rewrite app_nil_r. reflexivity.
  - destruct (add_target f t s) as [r|] eqn:E; [|discriminate]. intros H.
    pose proof (add_target_ok f t s r W S E) as O. rewrite (IH r s' O H), map_app, app_assoc. f_equal.
    unfold add_target in E. destruct (add_params _ _) as [ps|] eqn:A; [|discriminate]. cbn in E. injection E as <-. cbn.
    destruct S as (_ & _ & _ & _ & N & G). exact (proj2 (proj2 (add_params_ok _ W _ _ N G A))).
Qed.
