(** * C floating point: [double] and [float]

    The C type is selected by [t : ty]; [Dbl] is [double], [Flt] is [float].
    Arithmetic is IEEE-754 round-to-nearest-even, from Flocq.  There is a single
    NaN: NaN payloads and NaN signs are not modelled. *)
From Coq Require Import ZArith Bool Lia.
From Flocq Require Import Core BinarySingleNaN.
Open Scope Z_scope.

Inductive ty := Dbl | Flt.

(** DBL_MANT_DIG / FLT_MANT_DIG, DBL_MAX_EXP / FLT_MAX_EXP of <float.h>. *)
Definition prec (t : ty) : Z := match t with Dbl => 53 | Flt => 24 end.
Definition emax (t : ty) : Z := match t with Dbl => 1024 | Flt => 128 end.

Global Instance prec_gt_0 t : Prec_gt_0 (prec t).
Proof. destruct t; reflexivity. Qed.
Global Instance prec_lt_emax t : Prec_lt_emax (prec t) (emax t).
Proof. destruct t; reflexivity. Qed.

(** One C floating point value. *)
Definition F (t : ty) := binary_float (prec t) (emax t).

(** DBL_MIN_EXP / FLT_MIN_EXP of <float.h>. *)
Definition min_exp (t : ty) : Z := 3 - emax t.
(** Exponent of the smallest subnormal; every finite value is an integer
    multiple of [2^emin]. *)
Definition emin (t : ty) : Z := 3 - emax t - prec t.

(** The C operators [+ - * /], unary minus, [fabs], [==], [<], [>]. *)
Definition fadd {t} (x y : F t) : F t := Bplus mode_NE x y.
Definition fsub {t} (x y : F t) : F t := Bminus mode_NE x y.
Definition fmul {t} (x y : F t) : F t := Bmult mode_NE x y.
Definition fdiv {t} (x y : F t) : F t := Bdiv mode_NE x y.
Definition fsqrt {t} (x : F t) : F t := Bsqrt mode_NE x.
Definition fneg {t} (x : F t) : F t := Bopp x.
Definition fabs {t} (x : F t) : F t := Babs x.
Definition feq {t} (x y : F t) : bool := Beqb x y.
Definition flt {t} (x y : F t) : bool := Bltb x y.
Definition fzero {t} : F t := B754_zero false.
Definition finf {t} (s : bool) : F t := B754_infinity s.
Definition fnan {t} : F t := B754_nan.

(** [mkf m e]: the literal m*2^e, correctly rounded. *)
Definition mkf {t} (m e : Z) : F t :=
  binary_normalize (prec t) (emax t) (prec_gt_0 t) (prec_lt_emax t) mode_NE m e false.
(** Conversion of a C [int] to the floating type. *)
Definition ofZ {t} (n : Z) : F t := mkf n 0.
(** <math.h> ldexp. *)
Definition fldexp {t} (x : F t) (e : Z) : F t := Bldexp mode_NE x e.
(** C [isinf], [isnan]. *)
Definition f_isinf {t} (x : F t) : bool := match x with B754_infinity _ => true | _ => false end.
Definition f_isnan {t} (x : F t) : bool := match x with B754_nan => true | _ => false end.

(** ** Bit patterns: the unions of src/common/common.h:19-27 *)

(** Width of the mantissa and exponent fields. *)
Definition mw (t : ty) : Z := prec t - 1.
Definition expmask (t : ty) : Z := 2 * emax t - 1.
Definition wordbits (t : ty) : Z := match t with Dbl => 64 | Flt => 32 end.

Definition bits {t} (x : F t) : Z :=
  let sgn (s : bool) := if s then 2 ^ (wordbits t - 1) else 0 in
  match x with
  | B754_zero s => sgn s
  | B754_infinity s => sgn s + expmask t * 2 ^ mw t
  | B754_nan => expmask t * 2 ^ mw t + 2 ^ (mw t - 1)
  | B754_finite s m e _ =>
      sgn s + (if 2 ^ mw t <=? Zpos m
               then (e - emin t + 1) * 2 ^ mw t + (Zpos m - 2 ^ mw t)
               else Zpos m)
  end.

Definition of_bits {t} (z : Z) : F t :=
  let s := Z.testbit z (wordbits t - 1) in
  let f := Z.land (Z.shiftr z (mw t)) (expmask t) in
  let m := Z.land z (2 ^ mw t - 1) in
  let mk m e := binary_normalize (prec t) (emax t) (prec_gt_0 t) (prec_lt_emax t)
                  mode_NE (if s then - m else m) e s in
  if f =? 0 then mk m (emin t)
  else if f =? expmask t then (if m =? 0 then finf s else fnan)
  else mk (m + 2 ^ mw t) (emin t + f - 1).

(** src/common/common.h:43-47,51-55 [EXP], [EXPF]. *)
Definition EXP {t} (x : F t) : Z := Z.land (Z.shiftr (bits x) (mw t)) (expmask t).
(** src/common/common.h:49,57 [EXP_BIAS], [EXPF_BIAS]. *)
Definition EXP_BIAS (t : ty) : Z := emax t - 2.
(** src/common/common.h:59-69 [ISNANINF], [ISNANINFF]. *)
Definition ISNANINF {t} (x : F t) : bool :=
  Z.land (bits x) (Z.shiftl (expmask t) (mw t)) =? Z.shiftl (expmask t) (mw t).
(** The statement [q.l |= 1] of src/binned/dmddeposit.c and the [add_blp_into]
    of src/gen/vectorizations.py. *)
Definition or1 {t} (x : F t) : F t := of_bits (Z.lor (bits x) 1).

(** <math.h> frexp exponent: [frexp (x, &e)] with 0.5 <= |mantissa| < 1 (0 for zero;
    unspecified for non finite, here 0). *)
Definition frexp_e {t} (x : F t) : Z :=
  match x with
  | B754_finite _ m e _ => e + Zpos (SpecFloat.digits2_pos m)
  | _ => 0
  end.
