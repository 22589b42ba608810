(** * The reductions with the emitted code in place of the kernel models

    The C loops of Blas, BlasZ, Ssq and BlasDZ once more, calling the code the generator emits
    (Emit) for one instruction set and one set of tuning arguments. *)
From Coq Require Import ZArith List Bool.
From Flocq Require Import Core BinarySingleNaN.
From Verif Require Import Fp Mem Binned Gen Blas BlasZ Ssq BlasDZ Emit.
Import ListNotations.
Open Scope Z_scope.

(** What fixes the code of one reduction: instruction set (chosen by the compiler flags,
    vectorizations.py:822-834), N_block_MAX (blockSize.py), the unroll width of the scan
    (amax.py:28-36), config.py's max_expand_fold and the expand flags, pipe and unroll widths of
    the deposit code for each fold, 0 for the default case (deposit.py:32-107). *)
Record build := Build { b_isa : isa; b_block : Z; b_scan : Z; b_max : Z; b_expand : Z -> bool; b_width : Z -> Z * Z }.
(** Contents of the local variables when the scan and the deposit code of block i start. *)
Definition stale (t : ty) := Z -> env t * env t.

(** damax.ccog, damaxm.ccog, zamax_sub.ccog, zamaxm_sub.ccog: the scan writes to local variables of the
    caller; the model lets it write to cells 0 and 1 of a copy of the memory.  The second component is used for
    complex data only. *)
Definition run_scan {t} (b : build) (cx two : bool) (n X incX Y incY : Z) (e : env t) (m : mem t) : F t * F t :=
  let m' := emitted_scan (b_isa b) cx two (b_scan b) n X incX Y incY 0 e m in (m' 0, m' 1).
Definition run_deposit {t} (b : build) (cx : bool) (k : kclass t) (fold n X incX Y incY acc incacc : Z) (e : env t) (m : mem t) : mem t * Z :=
  emitted_switch (b_isa b) cx k (b_max b) (b_expand b) (b_width b) fold n X incX Y incY acc incacc e m.

Definition kind_class {t} (k : kind) : kclass t := match k with Sum => KSum | ASum => KASum | Dot => KDot end.
(** dmdsum.ccog, dmdasum.ccog, dmddot.ccog (smssum, smsasum, smsdot), as in Blas.reduce_loop. *)
Fixpoint reduce_loop_code {t} (fuel : nat) (k : kind) (b : build) (R : stale t) (fold N : Z) (X incX Y incY : Z)
    (priZ incpriZ carZ inccarZ : Z) (i N_block deposits : Z) (m : mem t) : mem t :=
  match fuel with
  | O => m
  | S fuel' =>
      if i <? N then
        let N_block := Z.min (N - i) N_block in
        let amax := fst (run_scan b false (match k with Dot => true | _ => false end) N_block X incX Y incY (fst (R i)) m) in
        let m :=
          if f_isinf amax || f_isinf (m priZ) then
            for_up 0 N_block (fun j m =>
              upd m priZ (fadd (m priZ) (term k (m (X + j * incX)) (m (Y + j * incY))))) m
          else m in
        if f_isnan (m priZ) then m
        else if f_isinf (m priZ) then
          reduce_loop_code fuel' k b R fold N (X + N_block * incX) incX (Y + N_block * incY) incY
            priZ incpriZ carZ inccarZ (i + N_block) N_block deposits m
        else
          let '(m, deposits) :=
            if ENDURANCE t <? deposits + N_block
            then (dmrenorm fold priZ incpriZ carZ inccarZ m, 0) else (m, deposits) in
          let m := dmdupdate fold amax priZ incpriZ carZ inccarZ m in
          let '(m, p) := run_deposit b false (kind_class k) fold N_block X incX Y incY priZ incpriZ (snd (R i)) m in
          reduce_loop_code fuel' k b R fold N (X + p * incX) incX (Y + p * incY) incY
            priZ incpriZ carZ inccarZ (i + N_block) N_block (deposits + N_block) m
      else dmrenorm fold priZ incpriZ carZ inccarZ m
  end.
(** dbdsum.c:17-19, dbdasum.c:17-19, dbddot.c:19-21 on top of it. *)
Definition reduce_code {t} (k : kind) (b : build) (R : stale t) (fold N X incX Y incY acc : Z) (m : mem t) : mem t :=
  reduce_loop_code (S (Z.to_nat N)) k b R fold N X incX Y incY acc 1 (acc + fold) 1 0 (b_block b) 0 m.
(** rdsum.c, rdasum.c, rddot.c (rssum, rsasum, rsdot). *)
Definition rdsum_code {t} (b : build) (R : stale t) (fold N X incX acc : Z) (m : mem t) : F t :=
  ddbconv fold acc (reduce_code Sum b R fold N X incX X incX acc (dbsetzero fold acc m)).
Definition rdasum_code {t} (b : build) (R : stale t) (fold N X incX acc : Z) (m : mem t) : F t :=
  ddbconv fold acc (reduce_code ASum b R fold N X incX X incX acc (dbsetzero fold acc m)).
Definition rddot_code {t} (b : build) (R : stale t) (fold N X incX Y incY acc : Z) (m : mem t) : F t :=
  ddbconv fold acc (reduce_code Dot b R fold N X incX Y incY acc (dbsetzero fold acc m)).

(** dmdssq.ccog, smsssq.ccog, as in Ssq.ssq_loop. *)
Fixpoint ssq_loop_code {t} (fuel : nat) (b : build) (R : stale t) (fold N X incX priY incpriY carY inccarY : Z)
    (i N_block deposits : Z) (scl : F t) (m : mem t) : F t * mem t :=
  match fuel with
  | O => (scl, m)
  | S fuel' =>
      if i <? N then
        let N_block := Z.min (N - i) N_block in
        let amax := fst (run_scan b false false N_block X incX X incX (fst (R i)) m) in
        let m :=
          if f_isinf amax || f_isinf (m priY) then
            for_up 0 N_block (fun j m => upd m priY (fadd (m priY) (fabs (m (X + j * incX))))) m
          else m in
        if f_isnan (m priY) then (dscale (mkf 1 0), m)
        else if f_isinf (m priY) then
          ssq_loop_code fuel' b R fold N (X + N_block * incX) incX priY incpriY carY inccarY
            (i + N_block) N_block deposits scl m
        else
          let '(m, deposits) :=
            if ENDURANCE t <? deposits + N_block
            then (dmrenorm fold priY incpriY carY inccarY m, 0) else (m, deposits) in
          let new_scl := dscale amax in
          let '(m, scl) :=
            if flt scl new_scl then
              (if flt fzero scl then dmdrescale fold new_scl scl priY incpriY carY inccarY m else m, new_scl)
            else (m, scl) in
          let amax := fdiv amax scl in
          let amax := fmul amax amax in
          let m := dmdupdate fold amax priY incpriY carY inccarY m in
          let '(m, p) := run_deposit b false (KSSq scl) fold N_block X incX X incX priY incpriY (snd (R i)) m in
          ssq_loop_code fuel' b R fold N (X + p * incX) incX priY incpriY carY inccarY
            (i + N_block) N_block (deposits + N_block) scl m
      else
        let m := dmrenorm fold priY incpriY carY inccarY m in
        (if ISNANINF (m priY) then dscale (mkf 1 0) else scl, m)
  end.
(** dbdssq.c, sbsssq.c. *)
Definition dbdssq_code {t} (b : build) (R : stale t) (fold N X incX : Z) (scaleY : F t) (Y : Z) (m : mem t) : F t * mem t :=
  ssq_loop_code (S (Z.to_nat N)) b R fold N X incX Y 1 (Y + fold) 1 0 (b_block b) 0 scaleY m.
(** rdnrm2.c, rsnrm2.c. *)
Definition rdnrm2_code {t} (b : build) (R : stale t) (fold N X incX ssq : Z) (m : mem t) : F t :=
  let '(scl, m) := dbdssq_code b R fold N X incX fzero ssq (dbsetzero fold ssq m) in
  scaled_root scl (ddbconv fold ssq m).

Definition zkind_class {t} (k : zkind) : kclass t := match k with ZSum => KSum | ZDotC => KDotC | ZDotU => KDotU end.
(** zmzsum.ccog, zmzdotc.ccog, zmzdotu.ccog (cmcsum, cmcdotc, cmcdotu), as in BlasZ.zreduce_loop. *)
Fixpoint zreduce_loop_code {t} (fuel : nat) (k : zkind) (b : build) (R : stale t) (fold N : Z) (X incX Y incY : Z)
    (priZ incpriZ carZ inccarZ : Z) (i N_block deposits : Z) (m : mem t) : mem t :=
  match fuel with
  | O => m
  | S fuel' =>
      if i <? N then
        let N_block := Z.min (N - i) N_block in
        let '(amax0, amax1) := run_scan b true (match k with ZSum => false | _ => true end) N_block X incX Y incY (fst (R i)) m in
        let m :=
          if f_isinf amax0 || f_isinf (m priZ) then
            for_up 0 N_block (fun j m =>
              upd m priZ (fadd (m priZ) (at_elem (zwhole k 0) X incX Y incY m j))) m
          else m in
        let m :=
          if f_isinf amax1 || f_isinf (m (priZ + 1)) then
            for_up 0 N_block (fun j m =>
              upd m (priZ + 1) (fadd (m (priZ + 1)) (at_elem (zwhole k 1) X incX Y incY m j))) m
          else m in
        if f_isnan (m priZ) && f_isnan (m (priZ + 1)) then m
        else if f_isinf (m priZ) && f_isinf (m (priZ + 1)) then
          zreduce_loop_code fuel' k b R fold N (X + N_block * (2 * incX)) incX (Y + N_block * (2 * incY)) incY
            priZ incpriZ carZ inccarZ (i + N_block) N_block deposits m
        else
          let amax0 := if ISNANINF (m priZ) then m priZ else amax0 in
          let amax1 := if ISNANINF (m (priZ + 1)) then m (priZ + 1) else amax1 in
          let '(m, deposits) :=
            if ENDURANCE t / nterms k <? deposits + N_block
            then (zmrenorm fold priZ incpriZ carZ inccarZ m, 0) else (m, deposits) in
          let m := zmzupdate fold amax0 amax1 priZ incpriZ carZ inccarZ m in
          let '(m, p) := run_deposit b true (zkind_class k) fold N_block X incX Y incY priZ incpriZ (snd (R i)) m in
          let m := if f_isinf amax0 then upd m priZ amax0 else m in
          let m := if f_isinf amax1 then upd m (priZ + 1) amax1 else m in
          zreduce_loop_code fuel' k b R fold N (X + p * (2 * incX)) incX (Y + p * (2 * incY)) incY
            priZ incpriZ carZ inccarZ (i + N_block) N_block (deposits + N_block) m
      else zmrenorm fold priZ incpriZ carZ inccarZ m
  end.
(** zbzsum.c, zbzdotc.c, zbzdotu.c. *)
Definition zreduce_code {t} (k : zkind) (b : build) (R : stale t) (fold N X incX Y incY acc : Z) (m : mem t) : mem t :=
  zreduce_loop_code (S (Z.to_nat N)) k b R fold N X incX Y incY acc 1 (acc + 2 * fold) 1 0 (b_block b) 0 m.
(** rzsum_sub.c, rzdotc_sub.c, rzdotu_sub.c. *)
Definition rzsum_code {t} (b : build) (R : stale t) (fold N X incX acc : Z) (m : mem t) : F t * F t :=
  zzbconv_sub fold acc (zreduce_code ZSum b R fold N X incX X incX acc (zbsetzero fold acc m)).
Definition rzdotc_code {t} (b : build) (R : stale t) (fold N X incX Y incY acc : Z) (m : mem t) : F t * F t :=
  zzbconv_sub fold acc (zreduce_code ZDotC b R fold N X incX Y incY acc (zbsetzero fold acc m)).
Definition rzdotu_code {t} (b : build) (R : stale t) (fold N X incX Y incY acc : Z) (m : mem t) : F t * F t :=
  zzbconv_sub fold acc (zreduce_code ZDotU b R fold N X incX Y incY acc (zbsetzero fold acc m)).

(** dmzasum.ccog:71-72, dmzssq.ccog:75-76 (smcasum, smcssq). *)
Definition amax2_code {t} (b : build) (n X incX : Z) (e : env t) (m : mem t) : F t :=
  let '(a0, a1) := run_scan b true false n X incX X incX e m in fmax a0 a1.
(** dmzasum.ccog, smcasum.ccog, as in BlasDZ.zasum_loop. *)
Fixpoint zasum_loop_code {t} (fuel : nat) (b : build) (R : stale t) (fold N X incX priY incpriY carY inccarY A : Z)
    (i N_block deposits : Z) (m : mem t) : mem t :=
  match fuel with
  | O => m
  | S fuel' =>
      if i <? N then
        let N_block := Z.min (N - i) N_block in
        let amax := amax2_code b N_block X incX (fst (R i)) m in
        let m := if f_isinf amax || f_isinf (m priY) then add_mags N_block X incX priY m else m in
        if f_isnan (m priY) || f_isnan (m A) || f_isnan (m (A + 1)) then
          upd m priY (fadd (m priY) (fadd (m A) (m (A + 1))))
        else if f_isinf (m priY) then
          zasum_loop_code fuel' b R fold N (X + N_block * (2 * incX)) incX priY incpriY carY inccarY A
            (i + N_block) N_block deposits m
        else
          let '(m, deposits) :=
            if ENDURANCE t <? deposits + N_block then (zbrenorm fold A m, 0) else (m, deposits) in
          let m := zmdupdate fold amax A 1 (A + 2 * fold) 1 m in
          let '(m, p) := run_deposit b true KASum fold N_block X incX X incX A 1 (snd (R i)) m in
          zasum_loop_code fuel' b R fold N (X + p * (2 * incX)) incX priY incpriY carY inccarY A
            (i + N_block) N_block (deposits + N_block) m
      else
        let m := zbrenorm fold A m in
        let m := dmdmadd fold A 2 (A + 2 * fold) 2 priY incpriY carY inccarY m in
        dmdmadd fold (A + 1) 2 (A + 2 * fold + 1) 2 priY incpriY carY inccarY m
  end.
(** dbzasum.c, sbcasum.c; rdzasum.c, rscasum.c. *)
Definition dbzasum_code {t} (b : build) (R : stale t) (fold N X incX Y A : Z) (m : mem t) : mem t :=
  zasum_loop_code (S (Z.to_nat N)) b R fold N X incX Y 1 (Y + fold) 1 A 0 (b_block b) 0 (zbsetzero fold A m).
Definition rdzasum_code {t} (b : build) (R : stale t) (fold N X incX Y A : Z) (m : mem t) : F t :=
  ddbconv fold Y (dbzasum_code b R fold N X incX Y A (dbsetzero fold Y m)).

(** dmzssq.ccog, smcssq.ccog, as in BlasDZ.zssq_loop. *)
Fixpoint zssq_loop_code {t} (fuel : nat) (b : build) (R : stale t) (fold N X incX : Z) (scaleY : F t)
    (priY incpriY carY inccarY A T : Z) (i N_block deposits : Z) (scl : F t) (m : mem t) : F t * mem t :=
  match fuel with
  | O => (scl, m)
  | S fuel' =>
      if i <? N then
        let N_block := Z.min (N - i) N_block in
        let amax := amax2_code b N_block X incX (fst (R i)) m in
        let m := if f_isinf amax || f_isinf (m priY) then add_mags N_block X incX priY m else m in
        if f_isnan (m priY) || f_isnan (m A) || f_isnan (m (A + 1)) then
          (dscale (mkf 1 0), upd m priY (fadd (m priY) (fadd (m A) (m (A + 1)))))
        else if f_isinf (m priY) then
          zssq_loop_code fuel' b R fold N (X + N_block * (2 * incX)) incX scaleY priY incpriY carY inccarY A T
            (i + N_block) N_block deposits scl m
        else
          let '(m, deposits) :=
            if ENDURANCE t <? deposits + N_block then (zbrenorm fold A m, 0) else (m, deposits) in
          let new_scl := dscale amax in
          let '(m, scl) :=
            if flt scl new_scl then
              (if flt fzero scl then zmdrescale fold new_scl scl A 1 (A + 2 * fold) 1 m else m, new_scl)
            else (m, scl) in
          let amax := fdiv amax scl in
          let amax := fmul amax amax in
          let m := zmdupdate fold amax A 1 (A + 2 * fold) 1 m in
          let '(m, p) := run_deposit b true (KSSq scl) fold N_block X incX X incX A 1 (snd (R i)) m in
          zssq_loop_code fuel' b R fold N (X + p * (2 * incX)) incX scaleY priY incpriY carY inccarY A T
            (i + N_block) N_block (deposits + N_block) scl m
      else
        let m := zbrenorm fold A m in
        let '(new_scl, m) := dmdmaddsq fold scl A 2 (A + 2 * fold) 2 scaleY priY incpriY carY inccarY T m in
        let '(scl, m) := dmdmaddsq fold scl (A + 1) 2 (A + 2 * fold + 1) 2 new_scl
                           priY incpriY carY inccarY (T + dbnum fold) m in
        (if ISNANINF (m priY) then dscale (mkf 1 0) else scl, m)
  end.
(** dbzssq.c, sbcssq.c; rdznrm2.c, rscnrm2.c. *)
Definition dbzssq_code {t} (b : build) (R : stale t) (fold N X incX : Z) (scaleY : F t) (Y A T : Z) (m : mem t) : F t * mem t :=
  zssq_loop_code (S (Z.to_nat N)) b R fold N X incX scaleY Y 1 (Y + fold) 1 A T 0 (b_block b) 0 fzero (zbsetzero fold A m).
Definition rdznrm2_code {t} (b : build) (R : stale t) (fold N X incX Y A T : Z) (m : mem t) : F t :=
  let '(scl, m) := dbzssq_code b R fold N X incX fzero Y A T (dbsetzero fold Y m) in
  scaled_root scl (ddbconv fold Y m).
