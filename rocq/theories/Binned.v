(** * Model of /repo/src/binned (the binned accumulator types)

    Every definition models the [d]/[dm] function named in its comment for
    [t = Dbl] and its [s]/[sm] twin for [t = Flt]; complex [zm]/[cm] functions
    likewise.  Accumulators live in memory with explicit base addresses and
    strides, as in C. *)
From Coq Require Import ZArith List Bool.
From Flocq Require Import Core BinarySingleNaN.
From Verif Require Import Fp Mem.
Open Scope Z_scope.

(** ** Constants: /repo/include/binned.h *)

(** binned.h:84,95 DBWIDTH, SBWIDTH. *)
Definition WIDTH (t : ty) : Z := match t with Dbl => 40 | Flt => 13 end.
(** binned.h:105,115 binned_DBMAXINDEX, binned_SBMAXINDEX. *)
Definition MAXINDEX (t : ty) : Z := cdiv (emax t - min_exp t + prec t - 1) (WIDTH t) - 1.
(** binned.h:123,131 binned_DBMAXFOLD, binned_SBMAXFOLD. *)
Definition MAXFOLD (t : ty) : Z := MAXINDEX t + 1.
(** binned.h:142,153 binned_DBENDURANCE, binned_SBENDURANCE. *)
Definition ENDURANCE (t : ty) : Z := Z.shiftl 1 (prec t - WIDTH t - 2).
(** binned.h:163,173 binned_DBCAPACITY, binned_SBCAPACITY: ENDURANCE*(1/EPSILON - 1). *)
Definition CAPACITY (t : ty) : Z := ENDURANCE t * (2 ^ (prec t - 1) - 1).
(** binned.h:184,195 binned_DMCOMPRESSION, binned_SMCOMPRESSION (the float code
    multiplies by a [double] constant and rounds once to [float]; the constant is a
    power of two, so this is the [float] product). *)
Definition COMPRESSION (t : ty) : F t := mkf 1 (- (prec t - WIDTH t + 1)).
(** binned.h:206,217 binned_DMEXPANSION, binned_SMEXPANSION. *)
Definition EXPANSION (t : ty) : F t := mkf 1 (prec t - WIDTH t + 1).

(** ** Indices and the bin table *)

(** dindex.c:17-41, sindex.c: binned_dindex. *)
Definition dindex {t} (X : F t) : Z :=
  let exp := EXP X in
  if exp =? 0 then
    if feq X fzero then MAXINDEX t
    else Z.min (cdiv (emax t - frexp_e X) (WIDTH t)) (MAXINDEX t)
  else cdiv ((emax t + EXP_BIAS t) - exp) (WIDTH t).

(** dmbins.c:22-39, smbins.c: one entry of the static table [bins].  Entries past
    MAXINDEX are copies of the previous entry (third loop).  The lazy
    initialisation flag is not modelled; a read outside the table gives NaN. *)
Definition bins0 (t : ty) : F t :=
  match t with
  | Dbl => fmul (mkf 2 0) (fldexp (mkf 3 (-2)) (emax Dbl - 1))
  | Flt => fldexp (mkf 3 (-2)) (emax Flt)
  end.
Fixpoint bins_copy {t} (n : nat) (last : F t) : F t :=
  match n with O => last | S n' => bins_copy n' last end.
Definition bins_entry (t : ty) (index : Z) : F t :=
  if index <? 0 then fnan
  else if index =? 0 then bins0 t
  else if index <=? MAXINDEX t then
    fldexp (mkf 3 (-2)) (emax t + prec t - WIDTH t + 1 - index * WIDTH t)
  else if index <? MAXINDEX t + MAXFOLD t then
    bins_copy (Z.to_nat (index - MAXINDEX t))
      (fldexp (mkf 3 (-2)) (emax t + prec t - WIDTH t + 1 - MAXINDEX t * WIDTH t))
  else fnan.
(** dmbins.c:38: [return bins + X], used as [binned_dmbins(X)[i]]. *)
Definition dmbins (t : ty) (X i : Z) : F t := bins_entry t (X + i).

(** dmindex.c:21-38: binned_dmindex(priX); the argument is the value priX[0]. *)
Definition dmindex {t} (p : F t) : Z :=
  cdiv ((emax t + prec t - WIDTH t + 1 + EXP_BIAS t) - EXP p) (WIDTH t).
(** dmindex0.c:19-31: binned_dmindex0. *)
Definition dmindex0 {t} (p : F t) : bool := EXP p =? emax t + EXP_BIAS t.
(** dmdenorm.c:20-22: binned_dmdenorm. *)
Definition dmdenorm {t} (fold : Z) (p : F t) : bool :=
  EXP p - WIDTH t * fold <? min_exp t + prec t + EXP_BIAS t + WIDTH t.

(** ** Accumulator primitives *)

(** dmsetzero.c:19-25: binned_dmsetzero. *)
Definition dmsetzero {t} (fold priX incpriX carX inccarX : Z) (m : mem t) : mem t :=
  for_up 0 fold (fun i m =>
    let m := upd m (priX + i * incpriX) fzero in
    upd m (carX + i * inccarX) fzero) m.

(** dmdmset.c:23-29: binned_dmdmset (X copied to Y). *)
Definition dmdmset {t} (fold priX incpriX carX inccarX priY incpriY carY inccarY : Z)
    (m : mem t) : mem t :=
  for_up 0 fold (fun i m =>
    let m := upd m (priY + i * incpriY) (m (priX + i * incpriX)) in
    upd m (carY + i * inccarY) (m (carX + i * inccarX))) m.

(** dmdupdate.c:24-56, smsupdate.c: binned_dmdupdate. *)
Definition dmdupdate {t} (fold : Z) (X : F t) (priY incpriY carY inccarY : Z)
    (m : mem t) : mem t :=
  if ISNANINF (m priY) then m else
  let X_index := dindex X in
  if feq (m priY) fzero then
    for_up 0 fold (fun i m =>
      let m := upd m (priY + i * incpriY) (dmbins t X_index i) in
      upd m (carY + i * inccarY) fzero) m
  else
    let shift := dmindex (m priY) - X_index in
    if 0 <? shift then
      let m := for_down (fold - 1) shift (fun i m =>
        let m := upd m (priY + i * incpriY) (m (priY + (i - shift) * incpriY)) in
        upd m (carY + i * inccarY) (m (carY + (i - shift) * inccarY))) m in
      let i := Z.min (fold - 1) (shift - 1) in
      for_up 0 (i + 1) (fun j m =>
        let m := upd m (priY + j * incpriY) (dmbins t X_index j) in
        upd m (carY + j * inccarY) fzero) m
    else m.

(** One step of the deposit loops: dmddeposit.c:52-58 (and 65-71). *)
Definition deposit_step {t} (priY incpriY : Z) (i : Z) (s : mem t * F t) : mem t * F t :=
  let '(m, x) := s in
  let M := m (priY + i * incpriY) in
  let q := fadd (or1 x) M in
  let m := upd m (priY + i * incpriY) q in
  let M := fsub M q in
  (m, fadd x M).

(** dmddeposit.c:27-71, smsdeposit.c: binned_dmddeposit.  After the loops the C
    variable [i] is [max (fold-1) lo] with lo the initial value. *)
Definition dmddeposit {t} (fold : Z) (X : F t) (priY incpriY : Z) (m : mem t) : mem t :=
  let x := X in
  if ISNANINF x || ISNANINF (m priY) then upd m priY (fadd (m priY) x)
  else if dmindex0 (m priY) then
    let M := m priY in
    let q := or1 (fmul x (COMPRESSION t)) in
    let q := fadd q M in
    let m := upd m priY q in
    let M := fsub M q in
    let M := fmul M (fmul (EXPANSION t) (mkf 1 (-1))) in
    let x := fadd x M in
    let x := fadd x M in
    let '(m, x) := for_up 1 (fold - 1) (deposit_step priY incpriY) (m, x) in
    let i := Z.max (fold - 1) 1 in
    upd m (priY + i * incpriY) (fadd (m (priY + i * incpriY)) (or1 x))
  else
    let '(m, x) := for_up 0 (fold - 1) (deposit_step priY incpriY) (m, x) in
    let i := Z.max (fold - 1) 0 in
    upd m (priY + i * incpriY) (fadd (m (priY + i * incpriY)) (or1 x)).

(** dmrenorm.c:81-83 on one primary word: the carry increment and the new word. *)
Definition renorm_carry {t} (p : F t) : F t :=
  ofZ (Z.land (Z.shiftr (bits p) (prec t - 3)) 3 - 2).
Definition renorm_word {t} (p : F t) : F t :=
  of_bits (Z.lor (Z.ldiff (bits p) (Z.shiftl 1 (prec t - 3))) (Z.shiftl 1 (prec t - 2))).

(** dmrenorm.c:23-86, smrenorm.c: binned_dmrenorm. *)
Definition dmrenorm {t} (fold priX incpriX carX inccarX : Z) (m : mem t) : mem t :=
  if feq (m priX) fzero || ISNANINF (m priX) then m
  else
    for_up 0 fold (fun i m =>
      let p := m (priX + i * incpriX) in
      let m := upd m (carX + i * inccarX) (fadd (m (carX + i * inccarX)) (renorm_carry p)) in
      upd m (priX + i * incpriX) (renorm_word p)) m.

(** dmdadd.c:20-24: binned_dmdadd. *)
Definition dmdadd {t} (fold : Z) (X : F t) (priY incpriY carY inccarY : Z) (m : mem t) : mem t :=
  let m := dmdupdate fold X priY incpriY carY inccarY m in
  let m := dmddeposit fold X priY incpriY m in
  dmrenorm fold priY incpriY carY inccarY m.

(** dmdconv.c:18-21: binned_dmdconv. *)
Definition dmdconv {t} (fold : Z) (X : F t) (priY incpriY carY inccarY : Z) (m : mem t) : mem t :=
  let m := dmsetzero fold priY incpriY carY inccarY m in
  dmdadd fold X priY incpriY carY inccarY m.

(** dmdmadd.c:27-74, smsmadd.c: binned_dmdmadd (Y += X). *)
Definition dmdmadd {t} (fold priX incpriX carX inccarX priY incpriY carY inccarY : Z)
    (m : mem t) : mem t :=
  if feq (m priX) fzero then m
  else if feq (m priY) fzero then
    for_up 0 fold (fun i m =>
      let m := upd m (priY + i * incpriY) (m (priX + i * incpriX)) in
      upd m (carY + i * inccarY) (m (carX + i * inccarX))) m
  else if ISNANINF (m priX) || ISNANINF (m priY) then
    upd m priY (fadd (m priY) (m priX))
  else
    let X_index := dmindex (m priX) in
    let Y_index := dmindex (m priY) in
    let shift := Y_index - X_index in
    let m :=
      if 0 <? shift then
        let m := for_down (fold - 1) shift (fun i m =>
          let m := upd m (priY + i * incpriY)
            (fadd (m (priX + i * incpriX))
                  (fsub (m (priY + (i - shift) * incpriY)) (dmbins t Y_index (i - shift)))) in
          upd m (carY + i * inccarY)
            (fadd (m (carX + i * inccarX)) (m (carY + (i - shift) * inccarY)))) m in
        for_up 0 (Z.min shift fold) (fun i m =>
          let m := upd m (priY + i * incpriY) (m (priX + i * incpriX)) in
          upd m (carY + i * inccarY) (m (carX + i * inccarX))) m
      else
        for_up (0 - shift) fold (fun i m =>
          let m := upd m (priY + i * incpriY)
            (fadd (m (priY + i * incpriY))
                  (fsub (m (priX + (i + shift) * incpriX)) (dmbins t X_index (i + shift)))) in
          upd m (carY + i * inccarY)
            (fadd (m (carY + i * inccarY)) (m (carX + (i + shift) * inccarX)))) m in
    dmrenorm fold priY incpriY carY inccarY m.

(** dmnegate.c:19-29: binned_dmnegate. *)
Definition dmnegate {t} (fold priX incpriX carX inccarX : Z) (m : mem t) : mem t :=
  if feq (m priX) fzero then m
  else
    let k := dmindex (m priX) in
    for_up 0 fold (fun i m =>
      let b := dmbins t k i in
      let m := upd m (priX + i * incpriX) (fsub b (fsub (m (priX + i * incpriX)) b)) in
      upd m (carX + i * inccarX) (fneg (m (carX + i * inccarX)))) m.

(** dscale.c:25-31, sscale.c: binned_dscale. *)
Definition dscale {t} (X : F t) : F t :=
  let e := EXP X in
  let e := if e <? WIDTH t then WIDTH t else e in
  let e := e - cmod (e - EXP_BIAS t - 1) (WIDTH t) in
  let e := e - EXP_BIAS t in
  fldexp (mkf 1 (-1)) e.

(** dmdrescale.c:20-37: binned_dmdrescale; the loop is written with an explicit
    early exit ([return] in the body). *)
Fixpoint rescale_loop {t} (n : nat) (i fold : Z) (rescaleY : F t)
    (priY incpriY carY inccarY : Z) (m : mem t) : mem t :=
  match n with
  | O => m
  | S n' =>
      let m := upd m (priY + i * incpriY) (fdiv (m (priY + i * incpriY)) rescaleY) in
      if feq (m (priY + i * incpriY)) fzero then
        dmdupdate (fold - i) fzero (priY + i * incpriY) incpriY (carY + i * inccarY) inccarY m
      else rescale_loop n' (i + 1) fold rescaleY priY incpriY carY inccarY m
  end.
Definition dmdrescale {t} (fold : Z) (X scaleY : F t) (priY incpriY carY inccarY : Z)
    (m : mem t) : mem t :=
  if feq X scaleY || feq X fzero || feq scaleY fzero then m
  else
    let rescaleY := fdiv X scaleY in
    let rescaleY := fmul rescaleY rescaleY in
    rescale_loop (Z.to_nat fold) 0 fold rescaleY priY incpriY carY inccarY m.

(** dmdmaddsq.c:26-41: binned_dmdmaddsq.  [tmp_X] is the address returned by
    [binned_dballoc].  Returns the new scale and memory. *)
Definition dmdmaddsq {t} (fold : Z) (scaleX : F t) (priX incpriX carX inccarX : Z)
    (scaleY : F t) (priY incpriY carY inccarY : Z) (tmp_X : Z) (m : mem t) : F t * mem t :=
  if flt scaleY scaleX then
    let m := dmdrescale fold scaleX scaleY priY incpriY carY inccarY m in
    (scaleX, dmdmadd fold priX incpriX carX inccarX priY incpriY carY inccarY m)
  else if feq scaleX scaleY then
    (scaleX, dmdmadd fold priX incpriX carX inccarX priY incpriY carY inccarY m)
  else
    let m := dmdmset fold priX incpriX carX inccarX tmp_X 1 (tmp_X + fold) 1 m in
    let m := dmdrescale fold scaleY scaleX tmp_X 1 (tmp_X + fold) 1 m in
    (scaleY, dmdmadd fold tmp_X 1 (tmp_X + fold) 1 priY incpriY carY inccarY m).

(** ** Conversion to a plain float *)

(** Conversions between [float] and [double]. *)
Definition f2d (x : F Flt) : F Dbl :=
  match x with
  | B754_zero s => B754_zero s
  | B754_infinity s => B754_infinity s
  | B754_nan => B754_nan
  | B754_finite s m e _ => mkf (cond_Zopp s (Zpos m)) e
  end.
Definition d2f (x : F Dbl) : F Flt :=
  match x with
  | B754_zero s => B754_zero s
  | B754_infinity s => B754_infinity s
  | B754_nan => B754_nan
  | B754_finite s m e _ =>
      binary_normalize (prec Flt) (emax Flt) (prec_gt_0 Flt) (prec_lt_emax Flt)
        mode_NE (cond_Zopp s (Zpos m)) e s
  end.

(** ddmconv.c:23-81: binned_ddmconv.  [p i] is priX[i*incpriX], [c i] is
    carX[i*inccarX] (read only). *)
Definition ddmconv_v (fold : Z) (p c : Z -> F Dbl) : F Dbl :=
  if ISNANINF (p 0) then p 0
  else if feq (p 0) fzero then fzero
  else
    let X_index := dmindex (p 0) in
    let b := dmbins Dbl X_index in
    let six : F Dbl := mkf 6 0 in
    let Y : F Dbl := fzero in
    if X_index <=? cdiv (3 * prec Dbl) (WIDTH Dbl) then
      let scale_down : F Dbl := fldexp (mkf 1 (-1)) (1 - (2 * prec Dbl - WIDTH Dbl)) in
      let scale_up : F Dbl := fldexp (mkf 1 (-1)) (1 + (2 * prec Dbl - WIDTH Dbl)) in
      let scaled := Z.max (Z.min fold (cdiv (3 * prec Dbl) (WIDTH Dbl) - X_index)) 0 in
      let '(Y, i) :=
        if X_index =? 0 then
          let Y := fadd Y (fmul (c 0) (fmul (fmul (fdiv (b 0) six) scale_down) (EXPANSION Dbl))) in
          let Y := fadd Y (fmul (c 1) (fmul (fdiv (b 1) six) scale_down)) in
          let Y := fadd Y (fmul (fmul (fsub (p 0) (b 0)) scale_down) (EXPANSION Dbl)) in
          (Y, 2)
        else
          (fadd Y (fmul (c 0) (fmul (fdiv (b 0) six) scale_down)), 1) in
      let Y := for_up i scaled (fun i Y =>
        let Y := fadd Y (fmul (c i) (fmul (fdiv (b i) six) scale_down)) in
        fadd Y (fmul (fsub (p (i - 1)) (b (i - 1))) scale_down)) Y in
      let i := Z.max i scaled in
      if i =? fold then
        let Y := fadd Y (fmul (fsub (p (fold - 1)) (b (fold - 1))) scale_down) in
        fmul Y scale_up
      else if f_isinf (fmul Y scale_up) then fmul Y scale_up
      else
        let Y := fmul Y scale_up in
        let Y := for_up i fold (fun i Y =>
          let Y := fadd Y (fmul (c i) (fdiv (b i) six)) in
          fadd Y (fsub (p (i - 1)) (b (i - 1)))) Y in
        fadd Y (fsub (p (fold - 1)) (b (fold - 1)))
    else
      let Y := fadd Y (fmul (c 0) (fdiv (b 0) six)) in
      let Y := for_up 1 fold (fun i Y =>
        let Y := fadd Y (fmul (c i) (fdiv (b i) six)) in
        fadd Y (fsub (p (i - 1)) (b (i - 1)))) Y in
      fadd Y (fsub (p (fold - 1)) (b (fold - 1))).

(** ssmconv.c:22-57: binned_ssmconv (accumulates in [double]). *)
Definition ssmconv_v (fold : Z) (p c : Z -> F Flt) : F Flt :=
  if ISNANINF (p 0) then p 0
  else if feq (p 0) fzero then fzero
  else
    let X_index := dmindex (p 0) in
    let b := dmbins Flt X_index in
    let six : F Dbl := mkf 6 0 in
    let bd i := fdiv (f2d (b i)) six in
    let Y : F Dbl := fzero in
    let '(Y, i) :=
      if X_index =? 0 then
        let Y := fadd Y (fmul (fmul (f2d (c 0)) (bd 0)) (f2d (EXPANSION Flt))) in
        let Y := fadd Y (fmul (f2d (c 1)) (bd 1)) in
        let Y := fadd Y (fmul (f2d (fsub (p 0) (b 0))) (f2d (EXPANSION Flt))) in
        (Y, 2)
      else (fadd Y (fmul (f2d (c 0)) (bd 0)), 1) in
    let Y := for_up i fold (fun i Y =>
      let Y := fadd Y (fmul (f2d (c i)) (bd i)) in
      fadd Y (f2d (fsub (p (i - 1)) (b (i - 1))))) Y in
    let Y := fadd Y (f2d (fsub (p (fold - 1)) (b (fold - 1)))) in
    d2f Y.

(** binned_ddmconv / binned_ssmconv on memory. *)
Definition ddmconv {t} (fold priX incpriX carX inccarX : Z) (m : mem t) : F t :=
  match t return mem t -> F t with
  | Dbl => fun m => ddmconv_v fold (fun i => m (priX + i * incpriX)) (fun i => m (carX + i * inccarX))
  | Flt => fun m => ssmconv_v fold (fun i => m (priX + i * incpriX)) (fun i => m (carX + i * inccarX))
  end m.

(** ** Complex accumulators: real and imaginary cells interleaved *)

(** zmsetzero.c:19-22. *)
Definition zmsetzero {t} (fold priX incpriX carX inccarX : Z) (m : mem t) : mem t :=
  let m := dmsetzero fold priX (2 * incpriX) carX (2 * inccarX) m in
  dmsetzero fold (priX + 1) (2 * incpriX) (carX + 1) (2 * inccarX) m.
(** zmzmset.c:23-26. *)
Definition zmzmset {t} (fold priX incpriX carX inccarX priY incpriY carY inccarY : Z)
    (m : mem t) : mem t :=
  let m := dmdmset fold priX (2 * incpriX) carX (2 * inccarX)
                   priY (2 * incpriY) carY (2 * inccarY) m in
  dmdmset fold (priX + 1) (2 * incpriX) (carX + 1) (2 * inccarX)
          (priY + 1) (2 * incpriY) (carY + 1) (2 * inccarY) m.
(** zmdmset.c:23-26. *)
Definition zmdmset {t} (fold priX incpriX carX inccarX priY incpriY carY inccarY : Z)
    (m : mem t) : mem t :=
  let m := dmdmset fold priX incpriX carX inccarX priY (2 * incpriY) carY (2 * inccarY) m in
  dmsetzero fold (priY + 1) (2 * incpriY) (carY + 1) (2 * inccarY) m.
(** zmzupdate.c:20-23; X is the pair of cells ((double* )X)[0], [1]. *)
Definition zmzupdate {t} (fold : Z) (XR XI : F t) (priY incpriY carY inccarY : Z)
    (m : mem t) : mem t :=
  let m := dmdupdate fold XR priY (2 * incpriY) carY (2 * inccarY) m in
  dmdupdate fold XI (priY + 1) (2 * incpriY) (carY + 1) (2 * inccarY) m.
(** zmdupdate.c:20-23. *)
Definition zmdupdate {t} (fold : Z) (X : F t) (priY incpriY carY inccarY : Z)
    (m : mem t) : mem t :=
  let m := dmdupdate fold X priY (2 * incpriY) carY (2 * inccarY) m in
  dmdupdate fold X (priY + 1) (2 * incpriY) (carY + 1) (2 * inccarY) m.

(** zmzdeposit.c:48-63, loop body. *)
Definition zdeposit_step {t} (priY incpriY : Z) (i : Z) (s : mem t * (F t * F t))
    : mem t * (F t * F t) :=
  let '(m, (x_R, x_I)) := s in
  let MR := m (priY + i * 2 * incpriY) in
  let MI := m (priY + i * 2 * incpriY + 1) in
  let qR := fadd (or1 x_R) MR in
  let qI := fadd (or1 x_I) MI in
  let m := upd m (priY + i * 2 * incpriY) qR in
  let m := upd m (priY + i * 2 * incpriY + 1) qI in
  let MR := fsub MR qR in
  let MI := fsub MI qI in
  (m, (fadd x_R MR, fadd x_I MI)).
(** zmzdeposit.c:24-70, cmcdeposit.c: binned_zmzdeposit. *)
Definition zmzdeposit {t} (fold : Z) (XR XI : F t) (priY incpriY : Z) (m : mem t) : mem t :=
  if ISNANINF XR || ISNANINF (m priY) then
    let m := upd m priY (fadd (m priY) XR) in
    dmddeposit fold XI (priY + 1) (2 * incpriY) m
  else if ISNANINF XI || ISNANINF (m (priY + 1)) then
    let m := upd m (priY + 1) (fadd (m (priY + 1)) XI) in
    dmddeposit fold XR priY (2 * incpriY) m
  else if dmindex0 (m priY) || dmindex0 (m (priY + 1)) then
    let m := dmddeposit fold XR priY (2 * incpriY) m in
    dmddeposit fold XI (priY + 1) (2 * incpriY) m
  else
    let '(m, (x_R, x_I)) := for_up 0 (fold - 1) (zdeposit_step priY incpriY) (m, (XR, XI)) in
    let i := Z.max (fold - 1) 0 in
    let m := upd m (priY + i * 2 * incpriY) (fadd (m (priY + i * 2 * incpriY)) (or1 x_R)) in
    upd m (priY + i * 2 * incpriY + 1) (fadd (m (priY + i * 2 * incpriY + 1)) (or1 x_I)).

(** zmrenorm.c:19-22. *)
Definition zmrenorm {t} (fold priX incpriX carX inccarX : Z) (m : mem t) : mem t :=
  let m := dmrenorm fold priX (2 * incpriX) carX (2 * inccarX) m in
  dmrenorm fold (priX + 1) (2 * incpriX) (carX + 1) (2 * inccarX) m.
(** zmzadd.c:20-24. *)
Definition zmzadd {t} (fold : Z) (XR XI : F t) (priY incpriY carY inccarY : Z) (m : mem t) : mem t :=
  let m := zmzupdate fold XR XI priY incpriY carY inccarY m in
  let m := zmzdeposit fold XR XI priY incpriY m in
  zmrenorm fold priY incpriY carY inccarY m.
(** zmzmadd.c:23-26. *)
Definition zmzmadd {t} (fold priX incpriX carX inccarX priY incpriY carY inccarY : Z)
    (m : mem t) : mem t :=
  let m := dmdmadd fold priX (2 * incpriX) carX (2 * inccarX)
                   priY (2 * incpriY) carY (2 * inccarY) m in
  dmdmadd fold (priX + 1) (2 * incpriX) (carX + 1) (2 * inccarX)
          (priY + 1) (2 * incpriY) (carY + 1) (2 * inccarY) m.
(** zmnegate.c:19-22. *)
Definition zmnegate {t} (fold priX incpriX carX inccarX : Z) (m : mem t) : mem t :=
  let m := dmnegate fold priX (2 * incpriX) carX (2 * inccarX) m in
  dmnegate fold (priX + 1) (2 * incpriX) (carX + 1) (2 * inccarX) m.
(** zmzconv.c:18-21. *)
Definition zmzconv {t} (fold : Z) (XR XI : F t) (priY incpriY carY inccarY : Z) (m : mem t) : mem t :=
  let m := dmdconv fold XR priY (incpriY * 2) carY (inccarY * 2) m in
  dmdconv fold XI (priY + 1) (incpriY * 2) (carY + 1) (inccarY * 2) m.
(** zzmconv_sub.c:18-21: note the carry stride [inccarX + 1] of the code. *)
Definition zzmconv_sub {t} (fold priX incpriX carX inccarX : Z) (m : mem t) : F t * F t :=
  (ddmconv fold priX (incpriX * 2) carX (inccarX + 1) m,
   ddmconv fold (priX + 1) (incpriX * 2) (carX + 1) (inccarX + 1) m).
(** zmdenorm.c:20-22. *)
Definition zmdenorm {t} (fold priX : Z) (m : mem t) : bool :=
  dmdenorm fold (m priX) || dmdenorm fold (m (priX + 1)).
(** zmdrescale.c:20-38, cmsrescale.c. *)
Fixpoint zrescale_loop {t} (n : nat) (i fold : Z) (rescaleY : F t)
    (priY incpriY carY inccarY : Z) (m : mem t) : mem t :=
  match n with
  | O => m
  | S n' =>
      let m := upd m (priY + i * 2 * incpriY) (fdiv (m (priY + i * 2 * incpriY)) rescaleY) in
      let m := upd m (priY + i * 2 * incpriY + 1) (fdiv (m (priY + i * 2 * incpriY + 1)) rescaleY) in
      if feq (m (priY + i * incpriY)) fzero then
        zmdupdate (fold - i) fzero (priY + i * 2 * incpriY) incpriY (carY + i * 2 * inccarY) inccarY m
      else zrescale_loop n' (i + 1) fold rescaleY priY incpriY carY inccarY m
  end.
Definition zmdrescale {t} (fold : Z) (X scaleY : F t) (priY incpriY carY inccarY : Z)
    (m : mem t) : mem t :=
  if feq X scaleY || feq X fzero || feq scaleY fzero then m
  else
    let rescaleY := fdiv X scaleY in
    let rescaleY := fmul rescaleY rescaleY in
    zrescale_loop (Z.to_nat fold) 0 fold rescaleY priY incpriY carY inccarY m.

(** ** The public [db]/[zb] wrappers: contiguous layout, carry after primary *)

(** dbnum.c:12-14, zbnum.c:12-14. *)
Definition dbnum (fold : Z) : Z := 2 * fold.
Definition zbnum (fold : Z) : Z := 4 * fold.
(** dbsize.c:13-15, zbsize.c:13-15, sbsbze.c, cbsize.c: bytes. *)
Definition sizeof (t : ty) : Z := match t with Dbl => 8 | Flt => 4 end.
Definition dbsize (t : ty) (fold : Z) : Z := 2 * fold * sizeof t.
Definition zbsize (t : ty) (fold : Z) : Z := 4 * fold * sizeof t.
(** dbsetzero.c, dbdupdate.c, dbddeposit.c, dbrenorm.c, dbdadd.c:16-18, dbdconv.c, dbdbadd.c:16-18,
    dbdbset.c, dbnegate.c, ddbconv.c:14-16, dbdbaddsq.c:19-21. *)
Definition dbsetzero {t} (fold X : Z) (m : mem t) := dmsetzero fold X 1 (X + fold) 1 m.
Definition dbdupdate {t} (fold : Z) (X : F t) (Y : Z) (m : mem t) := dmdupdate fold X Y 1 (Y + fold) 1 m.
Definition dbddeposit {t} (fold : Z) (X : F t) (Y : Z) (m : mem t) := dmddeposit fold X Y 1 m.
Definition dbrenorm {t} (fold X : Z) (m : mem t) := dmrenorm fold X 1 (X + fold) 1 m.
Definition dbdadd {t} (fold : Z) (X : F t) (Y : Z) (m : mem t) := dmdadd fold X Y 1 (Y + fold) 1 m.
Definition dbdconv {t} (fold : Z) (X : F t) (Y : Z) (m : mem t) := dmdconv fold X Y 1 (Y + fold) 1 m.
Definition dbdbadd {t} (fold X Y : Z) (m : mem t) := dmdmadd fold X 1 (X + fold) 1 Y 1 (Y + fold) 1 m.
Definition dbdbset {t} (fold X Y : Z) (m : mem t) := dmdmset fold X 1 (X + fold) 1 Y 1 (Y + fold) 1 m.
Definition dbnegate {t} (fold X : Z) (m : mem t) := dmnegate fold X 1 (X + fold) 1 m.
Definition ddbconv {t} (fold X : Z) (m : mem t) : F t := ddmconv fold X 1 (X + fold) 1 m.
Definition dbdbaddsq {t} (fold : Z) (scaleX : F t) (X : Z) (scaleY : F t) (Y tmp_X : Z) (m : mem t) :=
  dmdmaddsq fold scaleX X 1 (X + fold) 1 scaleY Y 1 (Y + fold) 1 tmp_X m.
(** dbdbaddv.c:18-23: binned_dbdbaddv; X and Y advance by inc*dbnum each step. *)
Definition dbdbaddv {t} (fold N X incX Y incY : Z) (m : mem t) : mem t :=
  for_up 0 N (fun i m =>
    let X := X + i * (incX * dbnum fold) in
    let Y := Y + i * (incY * dbnum fold) in
    dmdmadd fold X 1 (X + fold) 1 Y 1 (Y + fold) 1 m) m.
(** zbsetzero.c, zbzadd.c:16-18, zbzbadd.c, zbzbset.c, zbnegate.c, zbzconv.c, zbrenorm.c,
    zbdbset.c:16-18, zzbconv_sub.c:14-16, zbzbaddv.c. *)
Definition zbsetzero {t} (fold X : Z) (m : mem t) := zmsetzero fold X 1 (X + 2 * fold) 1 m.
Definition zbzadd {t} (fold : Z) (XR XI : F t) (Y : Z) (m : mem t) := zmzadd fold XR XI Y 1 (Y + 2 * fold) 1 m.
Definition zbzupdate {t} (fold : Z) (XR XI : F t) (Y : Z) (m : mem t) := zmzupdate fold XR XI Y 1 (Y + 2 * fold) 1 m.
(** zbdupdate.c:16-18, cbsupdate.c. *)
Definition zbdupdate {t} (fold : Z) (X : F t) (Y : Z) (m : mem t) := zmdupdate fold X Y 1 (Y + 2 * fold) 1 m.
Definition zbzdeposit {t} (fold : Z) (XR XI : F t) (Y : Z) (m : mem t) := zmzdeposit fold XR XI Y 1 m.
Definition zbrenorm {t} (fold X : Z) (m : mem t) := zmrenorm fold X 1 (X + 2 * fold) 1 m.
Definition zbzbadd {t} (fold X Y : Z) (m : mem t) := zmzmadd fold X 1 (X + 2 * fold) 1 Y 1 (Y + 2 * fold) 1 m.
Definition zbzbset {t} (fold X Y : Z) (m : mem t) := zmzmset fold X 1 (X + 2 * fold) 1 Y 1 (Y + 2 * fold) 1 m.
Definition zbdbset {t} (fold X Y : Z) (m : mem t) := zmdmset fold X 1 (X + fold) 1 Y 1 (Y + 2 * fold) 1 m.
Definition zbnegate {t} (fold X : Z) (m : mem t) := zmnegate fold X 1 (X + 2 * fold) 1 m.
Definition zbzconv {t} (fold : Z) (XR XI : F t) (Y : Z) (m : mem t) := zmzconv fold XR XI Y 1 (Y + 2 * fold) 1 m.
Definition zzbconv_sub {t} (fold X : Z) (m : mem t) : F t * F t := zzmconv_sub fold X 1 (X + 2 * fold) 1 m.
Definition zbzbaddv {t} (fold N X incX Y incY : Z) (m : mem t) : mem t :=
  for_up 0 N (fun i m =>
    let X := X + i * (incX * zbnum fold) in
    let Y := Y + i * (incY * zbnum fold) in
    zmzmadd fold X 1 (X + 2 * fold) 1 Y 1 (Y + 2 * fold) 1 m) m.

(** src/common/common.h:29-34,36-41 UFP / UFPF and ufp.c:20-30, ufpf.c.  [UFP]
    is declared [inline float UFP(double)], so its result goes through [float]. *)
Definition ufp_word {t} (X : F t) : F t :=
  of_bits (Z.land (bits X) (Z.shiftl (expmask t) (mw t))).
Definition binned_ufp (X : F Dbl) : F Dbl := f2d (d2f (ufp_word X)).
Definition binned_ufpf (X : F Flt) : F Flt := ufp_word X.

(** dbbound.c:21-23: binned_dbbound ([N] converted from int, MAX of two doubles). *)
Definition fmax {t} (a b : F t) : F t := if flt b a then a else b.
Definition dbbound (fold N : Z) (X S : F Dbl) : F Dbl :=
  let eps : F Dbl := mkf 1 (1 - prec Dbl) in
  let a := fmul (fmul (fmax (fabs X) (fldexp (mkf 1 (-1)) (min_exp Dbl - 1)))
                      (fldexp (mkf 1 (-1)) ((1 - fold) * WIDTH Dbl + 1))) (ofZ N) in
  let den := fsub (fsub (ofZ 1) (fmul (ofZ 6) (fsqrt eps))) (fmul (ofZ 7) eps) in
  fadd a (fmul (fdiv (fmul (ofZ 7) eps) den) (fabs S)).

(** sbbound.c:25: binned_sbbound (everything in double, the result cast to float). *)
Definition sbbound (fold N : Z) (X S : F Flt) : F Flt :=
  let eps : F Dbl := mkf 1 (1 - prec Flt) in
  let a := fmul (fmul (fmax (fabs (f2d X)) (fldexp (mkf 1 (-1)) (min_exp Flt - 1)))
                      (fldexp (mkf 1 (-1)) ((1 - fold) * WIDTH Flt + 1))) (ofZ N) in
  let den := fsub (fsub (ofZ 1) (fmul (ofZ 6) (fsqrt eps))) (fmul (ofZ 7) eps) in
  d2f (fadd a (fmul (fdiv (fmul (ofZ 7) eps) den) (fabs (f2d S)))).
