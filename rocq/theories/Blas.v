(** * Model of /repo/src/binnedBLAS: vector reductions, real case

    [t = Dbl] models the [d] functions, [t = Flt] their [s] twins. *)
From Coq Require Import ZArith List Bool.
From Flocq Require Import Core BinarySingleNaN.
From Verif Require Import Fp Mem Binned Gen.
Import ListNotations.
Open Scope Z_scope.

(** p[0*inc], ..., p[(n-1)*inc]. *)
Definition read {t} (m : mem t) (p inc n : Z) : list (F t) := map (fun j => m (p + j * inc)) (zseq 0 n).

(** ** The generated deposit kernels: binned/deposit.py *)

(** deposit.py:267-287 process, one lane: s holds the fold running words of the lane, x
    is the loaded element.  The expanded and the buffered variants do the same
    operations. *)
Fixpoint kdep {t} (s : list (F t)) (x : F t) : list (F t) :=
  match s with
  | [] => []
  | [s0] => [fadd s0 (or1 x)]
  | s0 :: s' =>
      let q := s0 in
      let s0 := fadd s0 (or1 x) in
      let q := fsub q s0 in
      s0 :: kdep s' (fadd x q)
  end.
(** deposit.py:289-326 process0, real data: the first word is in bin 0. *)
Definition kdep0 {t} (compression expansion : F t) (s : list (F t)) (x : F t) : list (F t) :=
  match s with
  | [] => []
  | s0 :: s' =>
      let q := s0 in
      let s0 := fadd s0 (or1 (fmul x compression)) in
      let q := fmul (fsub q s0) expansion in
      s0 :: kdep s' (fadd (fadd x q) q)
  end.
(** deposit.py:215-246,295-297,315-317: complex data, when one of the two parts is in bin 0;
    a part that is not uses compression 1, expansion 1 and mask 0. *)
Definition kdep0z {t} (compression expansion mask : F t) (s : list (F t)) (x : F t) : list (F t) :=
  match s with
  | [] => []
  | s0 :: s' =>
      let q := s0 in
      let s0 := fadd s0 (or1 (fmul x compression)) in
      let q := fsub q s0 in
      s0 :: kdep s' (fadd (fadd x (fmul q expansion)) (fmul q mask))
  end.

(** Running the events: every lane starts from the primary words (deposit.py:148-158). *)
Definition run_lanes {t} (dep : list (F t) -> F t -> list (F t)) (s : list (F t))
    (es : list (Z * F t)) : Z -> list (F t) :=
  fold_left (fun st e l => if l =? fst e then dep (st l) (snd e) else st l) es (fun _ => s).

(** gen/vectorizations.py:143-166 (SISD), 385-407 (SSE), 647-671 (AVX) consolidate_into, one
    component of one word.  w: the word in each lane; pri: its value in memory; ts
    lanes per vector register.  (With one lane per register the vector code
    subtracts nothing from the first register.) *)
Definition consolidate {t} (vector : bool) (ts lanes : Z) (w : Z -> F t) (pri : F t) : F t :=
  if vector then
    let r0 l := if ts =? 1 then w l else fsub (w l) (if l =? 0 then fzero else pri) in
    let r l := fold_left (fun r k => fadd r (fsub (w (k * ts + l)) pri)) (zseq 1 (lanes / ts - 1)) (r0 l) in
    fold_left (fun s l => fadd s (r l)) (zseq 1 (ts - 1)) (r 0)
  else fold_left (fun s l => fadd s (fsub (w l) pri)) (zseq 1 (lanes - 1)) (w 0).

(** Lanes to memory (deposit.py:165-174). *)
Definition store_lanes {t} (vector : bool) (ts lanes fold priY incpriY : Z) (st : Z -> list (F t))
    (m : mem t) : mem t :=
  for_up 0 fold (fun j m =>
    upd m (priY + j * incpriY)
      (consolidate vector ts lanes (fun l => nth (Z.to_nat j) (st l) fnan) (m (priY + j * incpriY)))) m.

(** deposit.py:136-174: deposit the elements of [es] (lane, element) in the accumulator at
    priY, the first word of which selects the loop. *)
Definition deposit_lanes {t} (vector : bool) (ts lanes fold : Z) (es : list (Z * F t))
    (priY incpriY : Z) (m : mem t) : mem t :=
  let dep := if dmindex0 (m priY)
    then kdep0 (COMPRESSION t) (fmul (EXPANSION t) (mkf 1 (-1))) else kdep in
  store_lanes vector ts lanes fold priY incpriY (run_lanes dep (read m priY incpriY fold) es) m.
(** The whole kernel for n real elements; [val] gives the loaded (and preprocessed)
    element, [val None] a padding one.  Result: memory and the distance by which the
    kernel advances the vector pointers. *)
Definition kernel {t} (v : vec) (fold n : Z) (val : option Z -> F t) (priY incpriY : Z) (m : mem t)
    : mem t * Z :=
  let '(es, p) := kernel_events v n in
  (deposit_lanes (simd v) (type_size v) (pipe_width v) fold (map (fun e => (fst e, val (snd e))) es)
     priY incpriY m, p).

(** ** binnedBLAS/damax.ccog, damaxm.ccog (amax.py:42-88, vectorizations.py:168-178,409-421) *)

(** m = (m > |x| ? m : |x|) in every lane, then the lanes are merged. *)
Definition scan {t} (v : avec) (n : Z) (val : option Z -> F t) : F t :=
  let st := fold_left (fun st e l => if l =? fst e then fmax (st l) (fabs (val (snd e))) else st l)
              (scan_events v n) (fun _ => fzero) in
  fold_left (fun b l => fmax b (st l)) (zseq 1 (Z.max (a_type_size v) 1 - 1)) (st 0).

(** ** The reductions *)

(** depositSum.py, depositASum.py:17-21, depositDot.py:18-28: the summand made of the
    loaded elements. *)
Inductive kind := Sum | ASum | Dot.
Definition term {t} (k : kind) (x y : F t) : F t :=
  match k with Sum => x | ASum => fabs x | Dot => fmul x y end.
(** Elements at distance e from the current pointers; padding loads are zero. *)
Definition val {t} (k : kind) (X incX Y incY : Z) (m : mem t) (e : option Z) : F t :=
  match e with
  | Some e => term k (m (X + e * incX)) (m (Y + e * incY))
  | None => term k fzero fzero
  end.

(** Tuning parameters of a reduction: N_block_MAX and the two kernels. *)
Record tuning := Tuning { block_max : Z; amax_vec : avec; dep_vec : vec }.

(** dmdsum.ccog, dmdasum.ccog, dmddot.ccog (and smssum, smsasum, smsdot): the C loop.
    [k] selects the function: damax for Sum and ASum, damaxm for Dot; Y, incY are
    used by Dot only. *)
Fixpoint reduce_loop {t} (fuel : nat) (k : kind) (tu : tuning) (fold N : Z) (X incX Y incY : Z)
    (priZ incpriZ carZ inccarZ : Z) (i N_block deposits : Z) (m : mem t) : mem t :=
  match fuel with
  | O => m
  | S fuel' =>
      if i <? N then
        let N_block := Z.min (N - i) N_block in
        let amax := scan (amax_vec tu) N_block
          (fun e => match k with Dot => val Dot X incX Y incY m e | _ => val Sum X incX Y incY m e end) in
        let m :=
          if f_isinf amax || f_isinf (m priZ) then
            for_up 0 N_block (fun j m =>
              upd m priZ (fadd (m priZ) (term k (m (X + j * incX)) (m (Y + j * incY))))) m
          else m in
        if f_isnan (m priZ) then m
        else if f_isinf (m priZ) then
          reduce_loop fuel' k tu fold N (X + N_block * incX) incX (Y + N_block * incY) incY
            priZ incpriZ carZ inccarZ (i + N_block) N_block deposits m
        else
          let '(m, deposits) :=
            if ENDURANCE t <? deposits + N_block
            then (dmrenorm fold priZ incpriZ carZ inccarZ m, 0) else (m, deposits) in
          let m := dmdupdate fold amax priZ incpriZ carZ inccarZ m in
          let '(m, p) := kernel (dep_vec tu) fold N_block (val k X incX Y incY m) priZ incpriZ m in
          reduce_loop fuel' k tu fold N (X + p * incX) incX (Y + p * incY) incY
            priZ incpriZ carZ inccarZ (i + N_block) N_block (deposits + N_block) m
      else dmrenorm fold priZ incpriZ carZ inccarZ m
  end.
Definition reduce {t} (k : kind) (tu : tuning) (fold N X incX Y incY priZ incpriZ carZ inccarZ : Z)
    (m : mem t) : mem t :=
  reduce_loop (S (Z.to_nat N)) k tu fold N X incX Y incY priZ incpriZ carZ inccarZ 0 (block_max tu) 0 m.

(** dmdsum.ccog, dmdasum.ccog, dmddot.ccog; dbdsum.c, dbdasum.c, dbddot.c. *)
Definition dmdsum {t} (tu : tuning) (fold N X incX priY incpriY carY inccarY : Z) (m : mem t) : mem t :=
  reduce Sum tu fold N X incX X incX priY incpriY carY inccarY m.
Definition dmdasum {t} (tu : tuning) (fold N X incX priY incpriY carY inccarY : Z) (m : mem t) : mem t :=
  reduce ASum tu fold N X incX X incX priY incpriY carY inccarY m.
Definition dmddot {t} (tu : tuning) (fold N X incX Y incY priZ incpriZ carZ inccarZ : Z) (m : mem t) : mem t :=
  reduce Dot tu fold N X incX Y incY priZ incpriZ carZ inccarZ m.
Definition dbdsum {t} (tu : tuning) (fold N X incX Y : Z) (m : mem t) := dmdsum tu fold N X incX Y 1 (Y + fold) 1 m.
Definition dbdasum {t} (tu : tuning) (fold N X incX Y : Z) (m : mem t) := dmdasum tu fold N X incX Y 1 (Y + fold) 1 m.
Definition dbddot {t} (tu : tuning) (fold N X incX Y incY Z : BinNums.Z) (m : mem t) :=
  dmddot tu fold N X incX Y incY Z 1 (Z + fold) 1 m.
(** damax.ccog, damaxm.ccog as functions. *)
Definition damax {t} (v : avec) (N X incX : Z) (m : mem t) : F t := scan v N (val Sum X incX X incX m).
Definition damaxm {t} (v : avec) (N X incX Y incY : Z) (m : mem t) : F t := scan v N (val Dot X incX Y incY m).

(** ** reproBLAS: rdsum.c, rdasum.c, rddot.c; [acc] is the address of the temporary
    accumulator returned by binned_dballoc. *)
Definition rdsum {t} (tu : tuning) (fold N X incX acc : Z) (m : mem t) : F t :=
  ddbconv fold acc (dbdsum tu fold N X incX acc (dbsetzero fold acc m)).
Definition rdasum {t} (tu : tuning) (fold N X incX acc : Z) (m : mem t) : F t :=
  ddbconv fold acc (dbdasum tu fold N X incX acc (dbsetzero fold acc m)).
Definition rddot {t} (tu : tuning) (fold N X incX Y incY acc : Z) (m : mem t) : F t :=
  ddbconv fold acc (dbddot tu fold N X incX Y incY acc (dbsetzero fold acc m)).
