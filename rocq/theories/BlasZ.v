(** * Model of /repo/src/binnedBLAS: vector reductions, complex case

    [t = Dbl] models the [z] functions, [t = Flt] their [c] twins.  A complex number is two
    consecutive cells; component 0 is the real part, component 1 the imaginary part. *)
From Coq Require Import ZArith List Bool.
From Flocq Require Import Core BinarySingleNaN.
From Verif Require Import Fp Mem Binned Gen Blas.
Import ListNotations.
Open Scope Z_scope.

(** ** Element order of the generated kernels *)

(** The loads of a call are turned into [nt] lists of summands one after the other:
    the loaded vector itself (nt = 1), or the products with the even and then with the odd
    parts of the second vector (nt = 2: depositDotC.py:21-30, depositDotU.py:21-30,
    amaxm.py:47-49).  Summand number [f] of the list belongs to element f mod size and is
    product f / size of it; as a single number it is called nt * element + product.
    [Pad h] is product h of padding zeros. *)
Inductive src := Elem (s : Z) | Pad (h : Z).
Definition summand (nt : Z) (c : call) (f : Z) : src :=
  if f mod size c <? cnt c then Elem (nt * (start c + f mod size c) + f / size c) else Pad (f / size c).
(** binned/deposit.py:190-212,267-326 with the register width of depositM.py
    (nt times as many registers): lane k of a group takes the k-th summand of it.  The two
    parts of a complex summand are in separate variables (SISD) or in neighbouring
    positions of a register; the model has one lane holding both. *)
Definition zdeposit_events (nt pipe : Z) (c : call) : list (Z * src) :=
  let reg := nt * Z.min (size c) pipe in
  flat_map (fun g => map (fun l => (l, summand nt c (g * reg + l))) (zseq 0 reg))
    (zseq 0 (Z.max (size c / pipe) 1)).
(** binnedBLAS/amax.py:66-87. *)
Definition zamax_events (nt lanes : Z) (c : call) : list (Z * src) :=
  map (fun f => (f mod lanes, summand nt c f)) (zseq 0 (nt * size c)).
Definition zkernel_events (nt : Z) (v : vec) (n : Z) : list (Z * src) * Z :=
  let '(cs, p) := run_unrolled (type_size v) (pipe_width v * unroll_width v) n in
  (flat_map (zdeposit_events nt (pipe_width v)) cs, p).
Definition zscan_events (nt : Z) (v : avec) (n : Z) : list (Z * src) :=
  let '(cs, _) := run_unrolled (a_type_size v) (a_unroll v) n in
  flat_map (zamax_events nt (Z.max (a_type_size v) 1)) cs.

(** ** The kernel: deposit.py:148-174,214-246 *)

(** Lines 215-246: what one deposit does to the words of one component.  [any0] is the test of
    line 215, [this0] the test for this component. *)
Definition zdep {t} (any0 this0 : bool) : list (F t) -> F t -> list (F t) :=
  if any0 then
    let half := fmul (EXPANSION t) (mkf 1 (-1)) in
    if this0 then kdep0z (COMPRESSION t) half half else kdep0z (mkf 1 0) (mkf 1 0) fzero
  else kdep.
(** The whole kernel for n complex elements.  [val c] gives component [c] of a summand.
    The stores of the two components are at different cells; the model does those
    of component 0 first.  Result as for [kernel]. *)
Definition zkernel {t} (nt : Z) (v : vec) (fold n : Z) (val : Z -> src -> F t)
    (priY incpriY : Z) (m : mem t) : mem t * Z :=
  let '(es, p) := zkernel_events nt v n in
  let any0 := dmindex0 (m priY) || dmindex0 (m (priY + 1)) in
  let lanes c := run_lanes (zdep any0 (dmindex0 (m (priY + c)))) (read m (priY + c) (2 * incpriY) fold)
                   (map (fun e => (fst e, val c (snd e))) es) in
  let store c st m := store_lanes (simd v) (type_size v) (nt * pipe_width v) fold (priY + c) (2 * incpriY) st m in
  (store 1 (lanes 1) (store 0 (lanes 0) m), p).

(** ** binnedBLAS/zamax_sub.ccog, zamaxm_sub.ccog, one component *)
Definition zscan {t} (nt : Z) (v : avec) (n : Z) (val : src -> F t) : F t :=
  let st := fold_left (fun st e l => if l =? fst e then fmax (st l) (fabs (val (snd e))) else st l)
              (zscan_events nt v n) (fun _ => fzero) in
  fold_left (fun b l => fmax b (st l)) (zseq 1 (Z.max (a_type_size v) 1 - 1)) (st 0).

(** ** zmzsum.ccog, zmzdotc.ccog, zmzdotu.ccog (cmcsum, cmcdotc, cmcdotu) *)
Inductive zkind := ZSum | ZDotC | ZDotU.
Definition nterms (k : zkind) : Z := match k with ZSum => 1 | _ => 2 end.
(** Component c of summand h of the element (xr + i xi), (yr + i yi): depositSum.py,
    depositDotC.py:29-30, depositDotU.py:29-30.  conj/nconj change the sign
    (vectorizations.py:258-268,496-508). *)
Definition zterm {t} (k : zkind) (c h : Z) (xr xi yr yi : F t) : F t :=
  match k with
  | ZSum => if c =? 0 then xr else xi
  | ZDotC =>
      if h =? 0 then (if c =? 0 then fmul xr yr else fneg (fmul xi yr))
      else (if c =? 0 then fmul xi yi else fmul xr yi)
  | ZDotU =>
      if h =? 0 then (if c =? 0 then fmul xr yr else fmul xi yr)
      else (if c =? 0 then fneg (fmul xi yi) else fmul xr yi)
  end.
(** The C expressions added in the branches for infinities: zmzsum.ccog:41,46,
    zmzdotc.ccog:75,80, zmzdotu.ccog:75,80. *)
Definition zwhole {t} (k : zkind) (c : Z) (xr xi yr yi : F t) : F t :=
  match k with
  | ZSum => if c =? 0 then xr else xi
  | ZDotC => if c =? 0 then fadd (fmul xr yr) (fmul xi yi) else fsub (fmul xr yi) (fmul xi yr)
  | ZDotU => if c =? 0 then fsub (fmul xr yr) (fmul xi yi) else fadd (fmul xr yi) (fmul xi yr)
  end.
(** A function of the parts of element e of the two vectors. *)
Definition at_elem {t A} (f : F t -> F t -> F t -> F t -> A) (X incX Y incY : Z) (m : mem t) (e : Z) : A :=
  f (m (X + e * (2 * incX))) (m (X + e * (2 * incX) + 1)) (m (Y + e * (2 * incY))) (m (Y + e * (2 * incY) + 1)).
(** Summand s of the current vectors; padding loads are zero. *)
Definition zval {t} (k : zkind) (X incX Y incY : Z) (m : mem t) (c : Z) (s : src) : F t :=
  match s with
  | Elem s => at_elem (zterm k c (s mod nterms k)) X incX Y incY m (s / nterms k)
  | Pad h => zterm k c h fzero fzero fzero fzero
  end.

(** The C loop.  amax, amaxm: the scans compute the same products without the sign
    changes (amaxm.py:47-49), whose magnitudes are the same; binned_DBENDURANCE is
    divided by 2 for the dot products (zmzdotc.ccog:97). *)
Fixpoint zreduce_loop {t} (fuel : nat) (k : zkind) (tu : tuning) (fold N : Z) (X incX Y incY : Z)
    (priZ incpriZ carZ inccarZ : Z) (i N_block deposits : Z) (m : mem t) : mem t :=
  match fuel with
  | O => m
  | S fuel' =>
      if i <? N then
        let N_block := Z.min (N - i) N_block in
        let amax0 := zscan (nterms k) (amax_vec tu) N_block (zval k X incX Y incY m 0) in
        let amax1 := zscan (nterms k) (amax_vec tu) N_block (zval k X incX Y incY m 1) in
        let m :=
          if f_isinf amax0 || f_isinf (m priZ) then
            for_up 0 N_block (fun j m =>
              upd m priZ (fadd (m priZ) (at_elem (zwhole k 0) X incX Y incY m j))) m
          else m in
        let m :=
          if f_isinf amax1 || f_isinf (m (priZ + 1)) then
            for_up 0 N_block (fun j m =>
              upd m (priZ + 1) (fadd (m (priZ + 1)) (at_elem (zwhole k 1) X incX Y incY m j))) m
          else m in
        if f_isnan (m priZ) && f_isnan (m (priZ + 1)) then m
        else if f_isinf (m priZ) && f_isinf (m (priZ + 1)) then
          zreduce_loop fuel' k tu fold N (X + N_block * (2 * incX)) incX (Y + N_block * (2 * incY)) incY
            priZ incpriZ carZ inccarZ (i + N_block) N_block deposits m
        else
          let amax0 := if ISNANINF (m priZ) then m priZ else amax0 in
          let amax1 := if ISNANINF (m (priZ + 1)) then m (priZ + 1) else amax1 in
          let '(m, deposits) :=
            if ENDURANCE t / nterms k <? deposits + N_block
            then (zmrenorm fold priZ incpriZ carZ inccarZ m, 0) else (m, deposits) in
          let m := zmzupdate fold amax0 amax1 priZ incpriZ carZ inccarZ m in
          let '(m, p) := zkernel (nterms k) (dep_vec tu) fold N_block (zval k X incX Y incY m) priZ incpriZ m in
          let m := if f_isinf amax0 then upd m priZ amax0 else m in
          let m := if f_isinf amax1 then upd m (priZ + 1) amax1 else m in
          zreduce_loop fuel' k tu fold N (X + p * (2 * incX)) incX (Y + p * (2 * incY)) incY
            priZ incpriZ carZ inccarZ (i + N_block) N_block (deposits + N_block) m
      else zmrenorm fold priZ incpriZ carZ inccarZ m
  end.
Definition zreduce {t} (k : zkind) (tu : tuning) (fold N X incX Y incY priZ incpriZ carZ inccarZ : Z)
    (m : mem t) : mem t :=
  zreduce_loop (S (Z.to_nat N)) k tu fold N X incX Y incY priZ incpriZ carZ inccarZ 0 (block_max tu) 0 m.

(** zmzsum.ccog, zmzdotc.ccog, zmzdotu.ccog; zbzsum.c, zbzdotc.c, zbzdotu.c. *)
Definition zmzsum {t} (tu : tuning) (fold N X incX priY incpriY carY inccarY : Z) (m : mem t) : mem t :=
  zreduce ZSum tu fold N X incX X incX priY incpriY carY inccarY m.
Definition zmzdotc {t} (tu : tuning) (fold N X incX Y incY priZ incpriZ carZ inccarZ : Z) (m : mem t) : mem t :=
  zreduce ZDotC tu fold N X incX Y incY priZ incpriZ carZ inccarZ m.
Definition zmzdotu {t} (tu : tuning) (fold N X incX Y incY priZ incpriZ carZ inccarZ : Z) (m : mem t) : mem t :=
  zreduce ZDotU tu fold N X incX Y incY priZ incpriZ carZ inccarZ m.
Definition zbzsum {t} (tu : tuning) (fold N X incX Y : Z) (m : mem t) : mem t :=
  zmzsum tu fold N X incX Y 1 (Y + 2 * fold) 1 m.
Definition zbzdotc {t} (tu : tuning) (fold N X incX Y incY Z : BinNums.Z) (m : mem t) : mem t :=
  zmzdotc tu fold N X incX Y incY Z 1 (Z + 2 * fold) 1 m.
Definition zbzdotu {t} (tu : tuning) (fold N X incX Y incY Z : BinNums.Z) (m : mem t) : mem t :=
  zmzdotu tu fold N X incX Y incY Z 1 (Z + 2 * fold) 1 m.

(** ** reproBLAS: rzsum_sub.c, rzdotc_sub.c, rzdotu_sub.c; [acc] is the address of the
    temporary accumulator returned by binned_zballoc. *)
Definition rzsum {t} (tu : tuning) (fold N X incX acc : Z) (m : mem t) : F t * F t :=
  zzbconv_sub fold acc (zbzsum tu fold N X incX acc (zbsetzero fold acc m)).
Definition rzdotc {t} (tu : tuning) (fold N X incX Y incY acc : Z) (m : mem t) : F t * F t :=
  zzbconv_sub fold acc (zbzdotc tu fold N X incX Y incY acc (zbsetzero fold acc m)).
Definition rzdotu {t} (tu : tuning) (fold N X incX Y incY acc : Z) (m : mem t) : F t * F t :=
  zzbconv_sub fold acc (zbzdotu tu fold N X incX Y incY acc (zbsetzero fold acc m)).
