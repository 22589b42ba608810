(** * Vocabulary for the statements about the complex vector reductions *)
From Coq Require Import ZArith Bool List Lia.
From Flocq Require Import Core BinarySingleNaN.
From Verif Require Import Fp Mem Binned Spec Client Gen.
Import ListNotations.
Open Scope Z_scope.

(** The N complex numbers at X with stride inc, as (real part, imaginary part). *)
Definition zread {t} (m : mem t) (X inc N : Z) : list (F t * F t) :=
  map (fun i => (m (X + 2 * (i * inc)), m (X + 2 * (i * inc) + 1))) (zseq 0 N).
(** Their cells lie outside the block [Y, Y + len). *)
Definition zclear_of (X inc N Y len : Z) : Prop :=
  forall i o, 0 <= i < N -> o = 0 \/ o = 1 -> ~ (Y <= X + 2 * (i * inc) + o < Y + len).
(** The four real products of conj(x) * y and of x * y as two complex summands for each pair:
    conj(x) y = (xr yr, - xi yr) + (xi yi, xr yi);  x y = (xr yr, xi yr) + (- xi yi, xr yi). *)
Definition conj_products {t} (m : mem t) (X incX Y incY N : Z) : list (F t * F t) :=
  flat_map (fun '((xr, xi), (yr, yi)) => [(fmul xr yr, fneg (fmul xi yr)); (fmul xi yi, fmul xr yi)])
    (combine (zread m X incX N) (zread m Y incY N)).
Definition plain_products {t} (m : mem t) (X incX Y incY N : Z) : list (F t * F t) :=
  flat_map (fun '((xr, xi), (yr, yi)) => [(fmul xr yr, fmul xi yr); (fneg (fmul xi yi), fmul xr yi)])
    (combine (zread m X incX N) (zread m Y incY N)).
(** The contiguous complex accumulator at Y is the normalised accumulator of [zs]: each part
    as in [acc_at], room having been made for [us] in the real part, [vs] in the imaginary part. *)
Definition zacc_at {t} (fold : Z) (us vs : list (F t)) (zs : list (F t * F t)) (m : mem t) (Y : Z) : Prop :=
  holds t fold us (map fst zs) (fun i => m (Y + i * 2)) (fun i => m (Y + 2 * fold + i * 2)) /\
  holds t fold vs (map snd zs) (fun i => m (Y + 1 + i * 2)) (fun i => m (Y + 2 * fold + 1 + i * 2)).
(** The words of the real (imaginary) parts of two complex accumulators are the same. *)
Definition re_words {t} (fold : Z) (m : mem t) (Y : Z) (m' : mem t) (Y' : Z) : Prop :=
  forall i, 0 <= i < 2 * fold -> m (Y + 2 * i) = m' (Y' + 2 * i).
Definition im_words {t} (fold : Z) (m : mem t) (Y : Z) (m' : mem t) (Y' : Z) : Prop :=
  forall i, 0 <= i < 2 * fold -> m (Y + 2 * i + 1) = m' (Y' + 2 * i + 1).
