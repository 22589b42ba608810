(** * Model of /repo/src/binnedBLAS: scaled sums of squares, real case *)
From Coq Require Import ZArith List Bool.
From Flocq Require Import Core BinarySingleNaN.
From Verif Require Import Fp Mem Binned Gen Blas.
Import ListNotations.
Open Scope Z_scope.

(** depositSSq.py:19-30 preprocess: the loaded element times 1.0 / scale, squared.  (In the
    float kernels 1.0 / scl is a double division converted to float; scl is a power of
    two and both are exact.) *)
Definition sq {t} (scl x : F t) : F t :=
  let y := fmul x (fdiv (mkf 1 0) scl) in
  fmul y y.
(** Elements at distance e from the current pointer; padding loads are zero. *)
Definition sqval {t} (scl : F t) (X incX : Z) (m : mem t) (e : option Z) : F t :=
  match e with
  | Some e => sq scl (m (X + e * incX))
  | None => sq scl fzero
  end.

(** dmdssq.ccog:60-105, smsssq.ccog: the C loop; result: returned scale and memory. *)
Fixpoint ssq_loop {t} (fuel : nat) (tu : tuning) (fold N X incX priY incpriY carY inccarY : Z)
    (i N_block deposits : Z) (scl : F t) (m : mem t) : F t * mem t :=
  match fuel with
  | O => (scl, m)
  | S fuel' =>
      if i <? N then
        let N_block := Z.min (N - i) N_block in
        let amax := damax (amax_vec tu) N_block X incX m in
        let m :=
          if f_isinf amax || f_isinf (m priY) then
            for_up 0 N_block (fun j m => upd m priY (fadd (m priY) (fabs (m (X + j * incX))))) m
          else m in
        if f_isnan (m priY) then (dscale (mkf 1 0), m)
        else if f_isinf (m priY) then
          ssq_loop fuel' tu fold N (X + N_block * incX) incX priY incpriY carY inccarY
            (i + N_block) N_block deposits scl m
        else
          let '(m, deposits) :=
            if ENDURANCE t <? deposits + N_block
            then (dmrenorm fold priY incpriY carY inccarY m, 0) else (m, deposits) in
          let new_scl := dscale amax in
          let '(m, scl) :=
            if flt scl new_scl then
              (if flt fzero scl then dmdrescale fold new_scl scl priY incpriY carY inccarY m else m, new_scl)
            else (m, scl) in
          let amax := fdiv amax scl in
          let amax := fmul amax amax in
          let m := dmdupdate fold amax priY incpriY carY inccarY m in
          let '(m, p) := kernel (dep_vec tu) fold N_block (sqval scl X incX m) priY incpriY m in
          ssq_loop fuel' tu fold N (X + p * incX) incX priY incpriY carY inccarY
            (i + N_block) N_block (deposits + N_block) scl m
      else
        let m := dmrenorm fold priY incpriY carY inccarY m in
        (if ISNANINF (m priY) then dscale (mkf 1 0) else scl, m)
  end.
(** dmdssq.ccog, smsssq.ccog. *)
Definition dmdssq {t} (tu : tuning) (fold N X incX : Z) (scaleY : F t) (priY incpriY carY inccarY : Z)
    (m : mem t) : F t * mem t :=
  ssq_loop (S (Z.to_nat N)) tu fold N X incX priY incpriY carY inccarY 0 (block_max tu) 0 scaleY m.
(** dbdssq.c, sbsssq.c. *)
Definition dbdssq {t} (tu : tuning) (fold N X incX : Z) (scaleY : F t) (Y : Z) (m : mem t) : F t * mem t :=
  dmdssq tu fold N X incX scaleY Y 1 (Y + fold) 1 m.
(** rdnrm2.c, rsnrm2.c (sqrt and the product are computed in double there); [ssq] is the
    address of the temporary accumulator. *)
Definition scaled_root {t} (scl v : F t) : F t :=
  match t return F t -> F t -> F t with
  | Dbl => fun scl v => fmul scl (fsqrt v)
  | Flt => fun scl v => d2f (fmul (f2d scl) (fsqrt (f2d v)))
  end scl v.
Definition rdnrm2 {t} (tu : tuning) (fold N X incX ssq : Z) (m : mem t) : F t :=
  let '(scl, m) := dbdssq tu fold N X incX fzero ssq (dbsetzero fold ssq m) in
  scaled_root scl (ddbconv fold ssq m).
