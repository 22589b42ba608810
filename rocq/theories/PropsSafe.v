(** * C62: the emitted code touches only its operands *)
From Coq Require Import ZArith Bool List Lia.
From Flocq Require Import Core BinarySingleNaN.
From Verif Require Import Fp Mem Binned Gen GenProofs Blas Emit EmitRun EmitBlas EmitDriver EmitSpec EmitAccess EmitSafe PropsEmit.
Import ListNotations.
Open Scope Z_scope.

(** Deposit code of every kernel: the run is the sequence [deposit_steps] of statements; each of them reads only cells
    of the n elements of its vectors and of the words of the accumulator, writes only words of the accumulator, and
    names only declared variables (array elements within the declared size). *)
Theorem C62_deposit t b cx (k : kclass t) fold n X incX Y incY A inc e (m : mem t) :
  legal_build t cx b -> fits k cx = true -> 1 <= fold <= MAXFOLD t -> 0 <= n ->
  let steps := deposit_steps b cx k fold n X incX Y incY A inc (dmindex0 (m A)) (dmindex0 (m (A + 1))) in
  let expanded := (2 <=? fold) && (fold <=? b_max b) && b_expand b fold in
  let width := b_width b (if expanded then fold else 0) in
  fst (run_deposit b cx k fold n X incX Y incY A inc e m) = snd (fold_left step steps (e, m)) /\
  forall c p, In (c, p) steps ->
    (forall a, In a (loads (b_isa b) c p) ->
       element_cell cx X incX n a \/ (two_vectors k = true /\ element_cell cx Y incY n a) \/ word_cell cx A inc fold a) /\
    (forall a, In a (stores c p) -> word_cell cx A inc fold a) /\
    (forall r, In r (names p) -> declared (b_isa b) cx k expanded fold (fst width) (snd width) r).
Proof.
  intros LB FIT Hf Hn steps expanded width. split.
  - unfold run_deposit, emitted_switch, steps, deposit_steps. fold expanded. destruct expanded; apply emitted_is_steps.
  - intros c p I.
    assert (LV : legal_vec (Vec (vector (b_isa b)) (tsize (b_isa b) t cx) (fst width) (snd width))).
    { destruct LB as (_ & _ & W). destruct (W (if expanded then fold else 0)) as (P1 & P2 & P3). rewrite numbers_ok in P2.
      split; [apply tsize_width|]. split; [exact P1|]. split; [exact P2|]. split; [exact P3|]. cbn [simd type_size].
      clear. destruct (b_isa b), t, cx; (let H := fresh in intros H; (discriminate H || (vm_compute; discriminate))). }
    assert (HF : (if expanded then 2 else 1) <= fold <= MAXFOLD t).
    { unfold expanded. destruct (Z.leb_spec 2 fold); cbn [andb]; [|lia]. destruct (_ && _); lia. }
    destruct (emitted_access t (b_isa b) cx k expanded fold (fst width) (snd width) n X incX Y incY A inc _ _ FIT LV HF Hn c p I) as (G1 & G2 & G3).
    rewrite Forall_forall in G1, G2, G3. split; [exact G1|]. split; [exact G2|exact G3].
Qed.
Print Assumptions C62_deposit.
(** The scans: they read only the vectors and write only the one or two result cells. *)
Theorem C62_scan t b (cx two : bool) n X incX Y incY e (m : mem t) : legal_build t cx b -> 0 <= n ->
  let steps := scan_steps (b_isa b) cx two (b_scan b) n X incX Y incY 0 in
  let m' := snd (fold_left step steps (e, m)) in
  run_scan b cx two n X incX Y incY e m = (m' 0, m' 1) /\
  forall c (p : prim t), In (c, p) steps ->
    (forall a, In a (loads (b_isa b) c p) -> element_cell cx X incX n a \/ (two = true /\ element_cell cx Y incY n a)) /\
    (forall a, In a (stores c p) -> 0 <= a < (if cx then 2 else 1)) /\
    (forall r, In r (names p) -> scan_declared (t := t) (b_isa b) cx two (b_scan b) r).
Proof.
  intros LB Hn steps m'. split.
  - unfold run_scan, m', steps. rewrite scan_is_steps. reflexivity.
  - intros c p I. destruct (legal_tuned t cx b 2 LB) as (_ & LA & _). cbn [amax_vec build_tuning] in LA.
    destruct (scan_access t (b_isa b) cx two (b_scan b) n X incX Y incY 0 LA Hn c p I) as (G1 & G2 & G3).
    rewrite Forall_forall in G1, G2, G3. split; [exact G1|]. split; [exact G2|exact G3].
Qed.
Print Assumptions C62_scan.

(** The cells read from the vector, in order, for five doubles at stride -2 starting at cell 8: AVX with one full and one
    partial load, per statement; and the accesses of the accumulator. *)
Example C62_case :
  let b := file_build Dbl false AVX 100 6 4 (fun _ => false) (fun _ => 4) (fun _ => 1) in
  let steps := deposit_steps b false (@KSum Dbl) 3 5 8 (-2) 8 (-2) 100 1 true true in
  legal_build Dbl false b /\
  filter (fun a => a <? 100) (flat_map (fun s => loads AVX (fst s) (snd s)) steps) = [2; 4; 6; 8; 0] /\
  flat_map (fun s => stores (fst s) (snd s)) steps = [100; 101; 102] /\
  element_cell false 8 (-2) 5 0 /\ ~ element_cell false 8 (-2) 5 (-2) /\
  existsb (fun s => existsb (fun r => match r with (RB i, None) => i =? 2 | _ => false end) (names (snd s))) steps = true.
Proof.
  split; [apply file_legal|]. split; [vm_compute; reflexivity|]. split; [vm_compute; reflexivity|].
  split; [exists 4, 0; cbn [dsize]; lia|]. split; [|vm_compute; reflexivity].
  intros (i & c & Hi & Hc & E). cbn [dsize] in *. lia.
Qed.
