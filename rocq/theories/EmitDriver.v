(** * The reductions with emitted code equal the reductions with kernel models *)
From Coq Require Import ZArith Bool List Lia.
From Flocq Require Import Core BinarySingleNaN.
From Verif Require Import Fp Mem Binned MemProofs Gen GenProofs Blas BlasSpec BlasZ Ssq BlasDZ Emit EmitRun EmitKernel EmitScan EmitBlas.
Import ListNotations.
Open Scope Z_scope.

(** Which case of the switch over the fold is used, and the tuning it amounts to. *)
Definition slot (b : build) (fold : Z) : Z := if (2 <=? fold) && (fold <=? b_max b) && b_expand b fold then fold else 0.
Definition build_vec (t : ty) (cx : bool) (b : build) (fold : Z) : vec :=
  Vec (vector (b_isa b)) (tsize (b_isa b) t cx) (fst (b_width b (slot b fold))) (snd (b_width b (slot b fold))).
Definition build_tuning (t : ty) (cx : bool) (b : build) (fold : Z) : tuning :=
  Tuning (b_block b) (AVec (tsize (b_isa b) t cx) (b_scan b)) (build_vec t cx b fold).

Lemma run_deposit_ok {t} b (cx : bool) (k : kclass t) fold n X incX Y incY acc inc e m :
  fits k cx = true -> legal_vec (build_vec t cx b fold) -> 1 <= fold -> 0 <= n ->
  run_deposit b cx k fold n X incX Y incY acc inc e m =
  if cx then zkernel (nsum k cx) (build_vec t cx b fold) fold n (zkval k X incX Y incY m) acc inc m
  else kernel (build_vec t cx b fold) fold n (rkval k X incX Y incY m) acc inc m.
Proof.
  intros FIT L Hf Hn. unfold run_deposit, emitted_switch. unfold build_vec in *. unfold slot in *.
  destruct ((2 <=? fold) && (fold <=? b_max b) && b_expand b fold) eqn:E.
  - apply andb_true_iff in E. destruct E as [E _]. apply andb_true_iff in E. destruct E as [E _]. apply Z.leb_le in E.
    rewrite (emitted_ok (b_isa b) cx k true); auto.
  - rewrite (emitted_ok (b_isa b) cx k false); auto.
Qed.
Lemma run_scan_real {t} b (two : bool) n X incX Y incY e (m : mem t) : legal_avec (AVec (tsize (b_isa b) t false) (b_scan b)) -> 0 <= n ->
  fst (run_scan b false two n X incX Y incY e m) = scan (AVec (tsize (b_isa b) t false) (b_scan b)) n (val (if two then Dot else Sum) X incX Y incY m).
Proof. intros L Hn. unfold run_scan. rewrite (emitted_scan_ok (b_isa b) false) by auto. cbn [fst]. apply upd_same. Qed.
Lemma run_scan_complex {t} b (two : bool) n X incX Y incY e (m : mem t) : legal_avec (AVec (tsize (b_isa b) t true) (b_scan b)) -> 0 <= n ->
  let S (q : Z) : F t := zscan (if two then 2 else 1) (AVec (tsize (b_isa b) t true) (b_scan b)) n (zval (if two then ZDotU else ZSum) X incX Y incY m q) in
  run_scan b true two n X incX Y incY e m = (S 0, S 1).
Proof.
  intros L Hn S. unfold run_scan. rewrite (emitted_scan_ok (b_isa b) true) by auto. cbv zeta. fold (S 0) (S 1). unfold upd. reflexivity.
Qed.

Section Drivers.
  Context {t : ty}.
  Variables (b : build) (R : stale t) (fold : Z).
  Hypothesis Hf : 1 <= fold.
  Local Notation tu cx := (build_tuning t cx b fold).

  Lemma reduce_loop_code_ok k N incX incY p ip c ic : tuned t (tu false) -> forall fuel X Y i nb d m, 1 <= nb ->
    reduce_loop_code fuel k b R fold N X incX Y incY p ip c ic i nb d m = reduce_loop fuel k (tu false) fold N X incX Y incY p ip c ic i nb d m.
  Proof.
    intros (_ & LA & LV). cbn [amax_vec dep_vec build_tuning] in LA, LV.
    induction fuel as [|fuel IH]; intros X Y i nb d m Hb; [reflexivity|]. cbn [reduce_loop_code reduce_loop].
    destruct (Z.ltb_spec i N); [|reflexivity]. cbv zeta. set (n := Z.min (N - i) nb). assert (Hn : 1 <= n) by lia. clearbody n.
    rewrite run_scan_real by (auto; lia). cbn [amax_vec dep_vec build_tuning].
    replace (scan _ n (val (if match k with Dot => true | _ => false end then Dot else Sum) X incX Y incY m))
      with (scan (AVec (tsize (b_isa b) t false) (b_scan b)) n (fun e => match k with Dot => val Dot X incX Y incY m e | _ => val Sum X incX Y incY m e end)) by (destruct k; reflexivity).
    set (a := scan _ n _). clearbody a. set (m1 := if f_isinf a || f_isinf (m p) then _ else m). clearbody m1.
    destruct (f_isnan (m1 p)); [reflexivity|]. destruct (f_isinf (m1 p)); [apply IH; exact Hn|].
    destruct (if ENDURANCE t <? d + n then _ else _) as [m2 d2]. set (m3 := dmdupdate _ _ _ _ _ _ m2). clearbody m3.
    rewrite run_deposit_ok; [|destruct k; reflexivity|exact LV|exact Hf|lia].
    replace (rkval (kind_class k) X incX Y incY m3) with (val k X incX Y incY m3) by (destruct k; reflexivity).
    destruct (kernel _ _ _ _ _ _ _) as [m4 q]. apply IH. exact Hn.
  Qed.
  Lemma reduce_code_ok k N X incX Y incY A m : tuned t (tu false) ->
    reduce_code k b R fold N X incX Y incY A m = reduce k (tu false) fold N X incX Y incY A 1 (A + fold) 1 m.
  Proof. intros T. unfold reduce_code, reduce. apply reduce_loop_code_ok; [exact T|]. apply T. Qed.

  Lemma ssq_loop_code_ok N incX p ip c ic : tuned t (tu false) -> forall fuel X i nb d scl m, 1 <= nb ->
    ssq_loop_code fuel b R fold N X incX p ip c ic i nb d scl m = ssq_loop fuel (tu false) fold N X incX p ip c ic i nb d scl m.
  Proof.
    intros (_ & LA & LV). cbn [amax_vec dep_vec build_tuning] in LA, LV.
    induction fuel as [|fuel IH]; intros X i nb d scl m Hb; [reflexivity|]. cbn [ssq_loop_code ssq_loop].
    destruct (Z.ltb_spec i N); [|reflexivity]. cbv zeta. set (n := Z.min (N - i) nb). assert (Hn : 1 <= n) by lia. clearbody n.
    rewrite run_scan_real by (auto; lia). cbn [amax_vec dep_vec build_tuning]. unfold damax.
    set (a := scan _ n _). clearbody a. set (m1 := if f_isinf a || f_isinf (m p) then _ else m). clearbody m1.
    destruct (f_isnan (m1 p)); [reflexivity|]. destruct (f_isinf (m1 p)); [apply IH; exact Hn|].
    destruct (if ENDURANCE t <? d + n then _ else _) as [m2 d2].
    destruct (if flt scl (dscale a) then _ else _) as [m3 s3]. set (m4 := dmdupdate _ _ _ _ _ _ m3). clearbody m4.
    rewrite run_deposit_ok; [|reflexivity|exact LV|exact Hf|lia]. cbn [rkval].
    destruct (kernel _ _ _ _ _ _ _) as [m5 q]. apply IH. exact Hn.
  Qed.

  Lemma zreduce_loop_code_ok k N incX incY p ip c ic : tuned t (tu true) -> forall fuel X Y i nb d m, 1 <= nb ->
    zreduce_loop_code fuel k b R fold N X incX Y incY p ip c ic i nb d m = zreduce_loop fuel k (tu true) fold N X incX Y incY p ip c ic i nb d m.
  Proof.
    intros (_ & LA & LV). cbn [amax_vec dep_vec build_tuning] in LA, LV.
    induction fuel as [|fuel IH]; intros X Y i nb d m Hb; [reflexivity|]. cbn [zreduce_loop_code zreduce_loop].
    destruct (Z.ltb_spec i N); [|reflexivity]. cbv zeta. set (n := Z.min (N - i) nb). assert (Hn : 1 <= n) by lia. clearbody n.
    rewrite run_scan_complex by (auto; lia). cbn [amax_vec dep_vec build_tuning].
    assert (ES : forall q, zscan (if match k with ZSum => false | _ => true end then 2 else 1) (AVec (tsize (b_isa b) t true) (b_scan b)) n (zval (if match k with ZSum => false | _ => true end then ZDotU else ZSum) X incX Y incY m q)
      = zscan (nterms k) (AVec (tsize (b_isa b) t true) (b_scan b)) n (zval k X incX Y incY m q)) by (intros q; destruct k; [reflexivity|apply zscan_conj|reflexivity]).
    rewrite !ES. clear ES. set (V := AVec (tsize (b_isa b) t true) (b_scan b)) in *.
    set (a0 := zscan (nterms k) V n (zval k X incX Y incY m 0)). set (a1 := zscan (nterms k) V n (zval k X incX Y incY m 1)). clearbody a0 a1.
    set (m1 := if f_isinf a0 || f_isinf (m p) then _ else m). clearbody m1.
    set (m2 := if f_isinf a1 || f_isinf (m1 (p + 1)) then _ else m1). clearbody m2.
    destruct (_ && _); [reflexivity|]. destruct (_ && _); [apply IH; exact Hn|].
    set (c0 := if ISNANINF (m2 p) then _ else _). set (c1 := if ISNANINF (m2 (p + 1)) then _ else _). clearbody c0 c1.
    destruct (if ENDURANCE t / _ <? d + n then _ else _) as [m3 d3]. set (m4 := zmzupdate _ _ _ _ _ _ _ m3). clearbody m4.
    rewrite run_deposit_ok; [|destruct k; reflexivity|exact LV|exact Hf|lia].
    replace (nsum (zkind_class k) true) with (nterms k) by (destruct k; reflexivity).
    replace (zkval (zkind_class k) X incX Y incY m4) with (zval k X incX Y incY m4) by (destruct k; reflexivity).
    destruct (zkernel _ _ _ _ _ _ _ _) as [m5 q]. apply IH. exact Hn.
  Qed.
  Lemma zreduce_code_ok k N X incX Y incY A m : tuned t (tu true) ->
    zreduce_code k b R fold N X incX Y incY A m = zreduce k (tu true) fold N X incX Y incY A 1 (A + 2 * fold) 1 m.
  Proof. intros T. unfold zreduce_code, zreduce. apply zreduce_loop_code_ok; [exact T|]. apply T. Qed.

  Lemma amax2_code_ok n X incX e (m : mem t) : tuned t (tu true) -> 0 <= n -> amax2_code b n X incX e m = amax2 (tu true) n X incX m.
  Proof. intros (_ & LA & _) Hn. cbn [amax_vec build_tuning] in LA. unfold amax2_code. rewrite run_scan_complex by auto. reflexivity. Qed.

  Lemma zasum_loop_code_ok N incX p ip c ic A : tuned t (tu true) -> forall fuel X i nb d m, 1 <= nb ->
    zasum_loop_code fuel b R fold N X incX p ip c ic A i nb d m = zasum_loop fuel (tu true) fold N X incX p ip c ic A i nb d m.
  Proof.
    intros T. pose proof T as (_ & LA & LV). cbn [amax_vec dep_vec build_tuning] in LA, LV.
    induction fuel as [|fuel IH]; intros X i nb d m Hb; [reflexivity|]. cbn [zasum_loop_code zasum_loop].
    destruct (Z.ltb_spec i N); [|reflexivity]. cbv zeta. set (n := Z.min (N - i) nb). assert (Hn : 1 <= n) by lia. clearbody n.
    rewrite amax2_code_ok by (auto; lia). set (a := amax2 _ _ _ _ _). clearbody a.
    set (m1 := if f_isinf a || f_isinf (m p) then _ else m). clearbody m1.
    destruct (_ || _ || _); [reflexivity|]. destruct (f_isinf (m1 p)); [apply IH; exact Hn|].
    destruct (if ENDURANCE t <? d + n then _ else _) as [m2 d2]. set (m3 := zmdupdate _ _ _ _ _ _ m2). clearbody m3.
    rewrite run_deposit_ok; [|reflexivity|exact LV|exact Hf|lia]. cbn [nsum two_vectors zkval dep_vec build_tuning].
    destruct (zkernel _ _ _ _ _ _ _ _) as [m4 q]. apply IH. exact Hn.
  Qed.
  Lemma zssq_loop_code_ok N incX s0 p ip c ic A T0 : tuned t (tu true) -> forall fuel X i nb d scl m, 1 <= nb ->
    zssq_loop_code fuel b R fold N X incX s0 p ip c ic A T0 i nb d scl m = zssq_loop fuel (tu true) fold N X incX s0 p ip c ic A T0 i nb d scl m.
  Proof.
    intros T. pose proof T as (_ & LA & LV). cbn [amax_vec dep_vec build_tuning] in LA, LV.
    induction fuel as [|fuel IH]; intros X i nb d scl m Hb; [reflexivity|]. cbn [zssq_loop_code zssq_loop].
    destruct (Z.ltb_spec i N); [|reflexivity]. cbv zeta. set (n := Z.min (N - i) nb). assert (Hn : 1 <= n) by lia. clearbody n.
    rewrite amax2_code_ok by (auto; lia). set (a := amax2 _ _ _ _ _). clearbody a.
    set (m1 := if f_isinf a || f_isinf (m p) then _ else m). clearbody m1.
    destruct (_ || _ || _); [reflexivity|]. destruct (f_isinf (m1 p)); [apply IH; exact Hn|].
    destruct (if ENDURANCE t <? d + n then _ else _) as [m2 d2].
    destruct (if flt scl (dscale a) then _ else _) as [m3 s3]. set (m4 := zmdupdate _ _ _ _ _ _ m3). clearbody m4.
    rewrite run_deposit_ok; [|reflexivity|exact LV|exact Hf|lia]. cbn [nsum two_vectors zkval dep_vec build_tuning].
    destruct (zkernel _ _ _ _ _ _ _ _) as [m5 q]. apply IH. exact Hn.
  Qed.

  (** The functions of the API. *)
  Lemma code_real : tuned t (tu false) ->
    (forall N X incX A m, rdsum_code b R fold N X incX A m = rdsum (tu false) fold N X incX A m) /\
    (forall N X incX A m, rdasum_code b R fold N X incX A m = rdasum (tu false) fold N X incX A m) /\
    (forall N X incX Y incY A m, rddot_code b R fold N X incX Y incY A m = rddot (tu false) fold N X incX Y incY A m) /\
    (forall N X incX s Y m, dbdssq_code b R fold N X incX s Y m = dbdssq (tu false) fold N X incX s Y m) /\
    (forall N X incX A m, rdnrm2_code b R fold N X incX A m = rdnrm2 (tu false) fold N X incX A m).
  Proof.
    intros T. assert (Q : forall N X incX s Y m, dbdssq_code b R fold N X incX s Y m = dbdssq (tu false) fold N X incX s Y m).
    { intros. unfold dbdssq_code, dbdssq, dmdssq. apply ssq_loop_code_ok; [exact T|apply T]. }
    repeat split; intros; unfold rdsum_code, rdasum_code, rddot_code, rdnrm2_code, rdnrm2; rewrite ?reduce_code_ok by exact T; try reflexivity; [apply Q|rewrite Q; reflexivity].
  Qed.
  Lemma code_complex : tuned t (tu true) ->
    (forall N X incX A m, rzsum_code b R fold N X incX A m = rzsum (tu true) fold N X incX A m) /\
    (forall N X incX Y incY A m, rzdotc_code b R fold N X incX Y incY A m = rzdotc (tu true) fold N X incX Y incY A m) /\
    (forall N X incX Y incY A m, rzdotu_code b R fold N X incX Y incY A m = rzdotu (tu true) fold N X incX Y incY A m) /\
    (forall N X incX Y A m, rdzasum_code b R fold N X incX Y A m = rdzasum (tu true) fold N X incX Y A m) /\
    (forall N X incX Y A T m, rdznrm2_code b R fold N X incX Y A T m = rdznrm2 (tu true) fold N X incX Y A T m).
  Proof.
    intros T. repeat split; intros; unfold rzsum_code, rzdotc_code, rzdotu_code, rdzasum_code, rdznrm2_code; rewrite ?zreduce_code_ok by exact T; try reflexivity.
    - unfold dbzasum_code. rewrite zasum_loop_code_ok by (exact T || apply T). reflexivity.
    - unfold dbzssq_code. rewrite zssq_loop_code_ok by (exact T || apply T). reflexivity.
  Qed.
End Drivers.
