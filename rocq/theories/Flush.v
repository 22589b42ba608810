(** * The deposit in an arithmetic that flushes denormal numbers
    src/gen/vectorizations.py:538-556 emits code that sets the DAZ and FTZ bits of the
    processor; src/binned/deposit.py:328-333 guards it with binned_dmdenorm.  The call of
    that guard is commented out at deposit.py:80, so the emitted kernels of this commit
    never change the mode; a caller who does so by hand gets the arithmetic below. *)
From Coq Require Import ZArith Bool List Lia.
From Verif Require Import Fp Mem Binned Spec.
Import ListNotations.
Open Scope Z_scope.

(** The three operations the deposit uses. *)
Record arith (t : ty) := mkarith { aadd : F t -> F t -> F t; asub : F t -> F t -> F t; amul : F t -> F t -> F t }.
Arguments aadd {t}. Arguments asub {t}. Arguments amul {t}. Arguments mkarith {t}.
Definition ieee (t : ty) : arith t := mkarith fadd fsub fmul.
(** Intel SDM: with DAZ a denormal operand counts as a zero of its sign, with FTZ a
    denormal result is a zero of its sign.  In units of 2^emin, the smallest normal
    number is 2^(p-1). *)
Definition least_normal (t : ty) : Z := 2 ^ (prec t - 1).
Definition is_zero {t} (x : F t) : Prop := x = fzero \/ x = fneg fzero.
Definition flush {t} (x : F t) : F t :=
  if BinarySingleNaN.is_finite x && (Z.abs (toZ x) <? least_normal t) then (if BinarySingleNaN.Bsign x then fneg fzero else fzero) else x.
Definition daz_ftz (t : ty) : arith t :=
  mkarith (fun a b => flush (fadd (flush a) (flush b))) (fun a b => flush (fsub (flush a) (flush b))) (fun a b => flush (fmul (flush a) (flush b))).
(** Any arithmetic that, operation by operation, may or may not read a denormal operand
    as zero, and may or may not replace a result no larger than the smallest normal number
    by zero.  IEEE, DAZ, FTZ and both together are such (also FTZ that decides before
    rounding). *)
Definition read_as {t} (x x' : F t) : Prop := x' = x \/ (BinarySingleNaN.is_finite x = true /\ Z.abs (toZ x) < least_normal t /\ is_zero x').
Definition delivered {t} (r r' : F t) : Prop := r' = r \/ (BinarySingleNaN.is_finite r = true /\ Z.abs (toZ r) <= least_normal t /\ is_zero r').
Definition may_flush {t} (op fop : F t -> F t -> F t) : Prop :=
  forall a b, exists a' b', read_as a a' /\ read_as b b' /\ delivered (fop a' b') (op a b).
Definition flushing {t} (ar : arith t) : Prop := may_flush (aadd ar) fadd /\ may_flush (asub ar) fsub /\ may_flush (amul ar) fmul.

(** dmddeposit.c:52-58 (and 65-71) with the operations of [ar]; [q.l |= 1] is an integer
    operation and does not flush. *)
Definition deposit_step_in {t} (ar : arith t) (priY incpriY : Z) (i : Z) (s : mem t * F t) : mem t * F t :=
  let '(m, x) := s in
  let M := m (priY + i * incpriY) in
  let q := aadd ar (or1 x) M in
  let m := upd m (priY + i * incpriY) q in
  let M := asub ar M q in
  (m, aadd ar x M).
(** dmddeposit.c:27-71, smsdeposit.c. *)
Definition dmddeposit_in {t} (ar : arith t) (fold : Z) (X : F t) (priY incpriY : Z) (m : mem t) : mem t :=
  let x := X in
  if ISNANINF x || ISNANINF (m priY) then upd m priY (aadd ar (m priY) x)
  else if dmindex0 (m priY) then
    let M := m priY in
    let q := or1 (amul ar x (COMPRESSION t)) in
    let q := aadd ar q M in
    let m := upd m priY q in
    let M := asub ar M q in
    let M := amul ar M (amul ar (EXPANSION t) (mkf 1 (-1))) in
    let x := aadd ar x M in
    let x := aadd ar x M in
    let '(m, x) := for_up 1 (fold - 1) (deposit_step_in ar priY incpriY) (m, x) in
    let i := Z.max (fold - 1) 1 in
    upd m (priY + i * incpriY) (aadd ar (m (priY + i * incpriY)) (or1 x))
  else
    let '(m, x) := for_up 0 (fold - 1) (deposit_step_in ar priY incpriY) (m, x) in
    let i := Z.max (fold - 1) 0 in
    upd m (priY + i * incpriY) (aadd ar (m (priY + i * incpriY)) (or1 x)).
Definition dbddeposit_in {t} (ar : arith t) (fold : Z) (X : F t) (Y : Z) (m : mem t) := dmddeposit_in ar fold X Y 1 m.
Definition deposit_list_in {t} (ar : arith t) (fold : Z) (xs : list (F t)) (Y : Z) (m : mem t) : mem t :=
  fold_left (fun m x => dbddeposit_in ar fold x Y m) xs m.
