(** * Model of /repo/src/binnedBLAS: absolute sums and sums of squares of complex vectors

    [t = Dbl] models dmzasum, dmzssq and their callers, [t = Flt] smcasum, smcssq.  The result
    accumulator is real; the loops collect the two components in a temporary complex
    accumulator and merge it at the end. *)
From Coq Require Import ZArith List Bool.
From Flocq Require Import Core BinarySingleNaN.
From Verif Require Import Fp Mem Binned Gen Blas BlasZ Ssq.
Import ListNotations.
Open Scope Z_scope.

(** x[i * 2 * incX + c] in dmzasum.ccog and dmzssq.ccog (the loads of depositASum.py and
    depositSSq.py, data type complex).  Component c of the elements from X on; padding loads are zero. *)
Definition part {t} (X incX : Z) (m : mem t) (c : Z) (s : src) : F t := zval ZSum X incX X incX m c s.
(** dmzasum.ccog:71-72, dmzssq.ccog:75-76, smcasum.ccog:71-72, smcssq.ccog:76-77: zamax_sub of the block and MAX(amax_tmp[0], amax_tmp[1]). *)
Definition amax2 {t} (tu : tuning) (n X incX : Z) (m : mem t) : F t :=
  fmax (zscan 1 (amax_vec tu) n (part X incX m 0)) (zscan 1 (amax_vec tu) n (part X incX m 1)).
(** dmzasum.ccog:74-79, dmzssq.ccog:78-83, smcasum.ccog:74-79, smcssq.ccog:79-84: the branch
    for infinities, the same in the four files. *)
Definition add_mags {t} (n X incX priY : Z) (m : mem t) : mem t :=
  for_up 0 n (fun j m =>
    let m := upd m priY (fadd (m priY) (fabs (m (X + j * (2 * incX))))) in
    upd m priY (fadd (m priY) (fabs (m (X + j * (2 * incX) + 1))))) m.

(** dmzasum.ccog:57-97, 9858-9868, smcasum.ccog:57-97, 6204-6214 (the lines between are the
    generated kernel, BlasZ.zkernel): the loop; [A] is the address returned by binned_zballoc. *)
Fixpoint zasum_loop {t} (fuel : nat) (tu : tuning) (fold N X incX priY incpriY carY inccarY A : Z)
    (i N_block deposits : Z) (m : mem t) : mem t :=
  match fuel with
  | O => m
  | S fuel' =>
      if i <? N then
        let N_block := Z.min (N - i) N_block in
        let amax := amax2 tu N_block X incX m in
        let m := if f_isinf amax || f_isinf (m priY) then add_mags N_block X incX priY m else m in
        if f_isnan (m priY) || f_isnan (m A) || f_isnan (m (A + 1)) then
          upd m priY (fadd (m priY) (fadd (m A) (m (A + 1))))
        else if f_isinf (m priY) then
          zasum_loop fuel' tu fold N (X + N_block * (2 * incX)) incX priY incpriY carY inccarY A
            (i + N_block) N_block deposits m
        else
          let '(m, deposits) :=
            if ENDURANCE t <? deposits + N_block then (zbrenorm fold A m, 0) else (m, deposits) in
          let m := zmdupdate fold amax A 1 (A + 2 * fold) 1 m in
          let '(m, p) := zkernel 1 (dep_vec tu) fold N_block (fun c s => fabs (part X incX m c s)) A 1 m in
          zasum_loop fuel' tu fold N (X + p * (2 * incX)) incX priY incpriY carY inccarY A
            (i + N_block) N_block (deposits + N_block) m
      else
        let m := zbrenorm fold A m in
        let m := dmdmadd fold A 2 (A + 2 * fold) 2 priY incpriY carY inccarY m in
        dmdmadd fold (A + 1) 2 (A + 2 * fold + 1) 2 priY incpriY carY inccarY m
  end.
(** dmzasum.ccog:57-66, smcasum.ccog:57-66: allocation and start of the loop. *)
Definition dmzasum {t} (tu : tuning) (fold N X incX priY incpriY carY inccarY A : Z) (m : mem t) : mem t :=
  zasum_loop (S (Z.to_nat N)) tu fold N X incX priY incpriY carY inccarY A 0 (block_max tu) 0
    (zbsetzero fold A m).
(** dbzasum.c:17-19, sbcasum.c:17-19. *)
Definition dbzasum {t} (tu : tuning) (fold N X incX Y A : Z) (m : mem t) : mem t :=
  dmzasum tu fold N X incX Y 1 (Y + fold) 1 A m.
(** rdzasum.c:20-31, rscasum.c:20-31: [Y] is the address returned by binned_dballoc. *)
Definition rdzasum {t} (tu : tuning) (fold N X incX Y A : Z) (m : mem t) : F t :=
  ddbconv fold Y (dbzasum tu fold N X incX Y A (dbsetzero fold Y m)).

(** dmzssq.ccog:59-112, 5178-5192, smcssq.ccog:59-113, 5785-5799: the loop; [A] as above, [T] the address of the blocks that
    dmdmaddsq allocates (and does not free).  Result: returned scale and memory. *)
Fixpoint zssq_loop {t} (fuel : nat) (tu : tuning) (fold N X incX : Z) (scaleY : F t)
    (priY incpriY carY inccarY A T : Z) (i N_block deposits : Z) (scl : F t) (m : mem t) : F t * mem t :=
  match fuel with
  | O => (scl, m)
  | S fuel' =>
      if i <? N then
        let N_block := Z.min (N - i) N_block in
        let amax := amax2 tu N_block X incX m in
        let m := if f_isinf amax || f_isinf (m priY) then add_mags N_block X incX priY m else m in
        if f_isnan (m priY) || f_isnan (m A) || f_isnan (m (A + 1)) then
          (dscale (mkf 1 0), upd m priY (fadd (m priY) (fadd (m A) (m (A + 1)))))
        else if f_isinf (m priY) then
          zssq_loop fuel' tu fold N (X + N_block * (2 * incX)) incX scaleY priY incpriY carY inccarY A T
            (i + N_block) N_block deposits scl m
        else
          let '(m, deposits) :=
            if ENDURANCE t <? deposits + N_block then (zbrenorm fold A m, 0) else (m, deposits) in
          let new_scl := dscale amax in
          let '(m, scl) :=
            if flt scl new_scl then
              (if flt fzero scl then zmdrescale fold new_scl scl A 1 (A + 2 * fold) 1 m else m, new_scl)
            else (m, scl) in
          let amax := fdiv amax scl in
          let amax := fmul amax amax in
          let m := zmdupdate fold amax A 1 (A + 2 * fold) 1 m in
          let '(m, p) := zkernel 1 (dep_vec tu) fold N_block (fun c s => sq scl (part X incX m c s)) A 1 m in
          zssq_loop fuel' tu fold N (X + p * (2 * incX)) incX scaleY priY incpriY carY inccarY A T
            (i + N_block) N_block (deposits + N_block) scl m
      else
        let m := zbrenorm fold A m in
        let '(new_scl, m) := dmdmaddsq fold scl A 2 (A + 2 * fold) 2 scaleY priY incpriY carY inccarY T m in
        let '(scl, m) := dmdmaddsq fold scl (A + 1) 2 (A + 2 * fold + 1) 2 new_scl
                           priY incpriY carY inccarY (T + dbnum fold) m in
        (if ISNANINF (m priY) then dscale (mkf 1 0) else scl, m)
  end.
(** dmzssq.ccog:59-70, smcssq.ccog:59-71: allocation and start of the loop. *)
Definition dmzssq {t} (tu : tuning) (fold N X incX : Z) (scaleY : F t) (priY incpriY carY inccarY A T : Z)
    (m : mem t) : F t * mem t :=
  zssq_loop (S (Z.to_nat N)) tu fold N X incX scaleY priY incpriY carY inccarY A T 0 (block_max tu) 0 fzero
    (zbsetzero fold A m).
(** dbzssq.c:19-21, sbcssq.c:19-21. *)
Definition dbzssq {t} (tu : tuning) (fold N X incX : Z) (scaleY : F t) (Y A T : Z) (m : mem t) : F t * mem t :=
  dmzssq tu fold N X incX scaleY Y 1 (Y + fold) 1 A T m.
(** rdznrm2.c:22-34, rscnrm2.c:22-34. *)
Definition rdznrm2 {t} (tu : tuning) (fold N X incX Y A T : Z) (m : mem t) : F t :=
  let '(scl, m) := dbzssq tu fold N X incX fzero Y A T (dbsetzero fold Y m) in
  scaled_root scl (ddbconv fold Y m).
