(** * Vocabulary for the statements about scaled sums of squares *)
From Coq Require Import ZArith Bool List Lia.
From Flocq Require Import Core BinarySingleNaN.
From Verif Require Import Fp Mem Binned Spec Client Gen Blas Ssq BlasSpec.
Import ListNotations.
Open Scope Z_scope.

(** Largest fold covered by the theorems (the library's default fold is 3). *)
Definition ssq_fold (t : ty) : Z := match t with Dbl => 22 | Flt => 6 end.
(** The squares of the elements divided by the scale. *)
Definition squares {t} (scale : F t) (xs : list (F t)) : list (F t) :=
  map (fun x => let y := fdiv x scale in fmul y y) xs.
(** The scale that belongs to the data: 0 for no data, else the public dscale of the
    largest magnitude. *)
Definition scale_of {t} (scale : F t) (xs : list (F t)) : Prop :=
  match xs with [] => scale = fzero | _ => exists M, largest M xs /\ scale = dscale M end.
(** The scaled accumulator (scale, words at Y) is the one of the finite data xs. *)
Definition ssq_at {t} (fold : Z) (xs : list (F t)) (scale : F t) (m : mem t) (Y : Z) : Prop :=
  scale_of scale xs /\ acc_at fold [] (squares scale xs) m Y.
(** Two scaled accumulators have the same scale and the same words. *)
Definition same_scaled {t} (fold : Z) (r : F t * mem t) (Y : Z) (r' : F t * mem t) (Y' : Z) : Prop :=
  fst r = fst r' /\ same_words fold (snd r) Y (snd r') Y'.

(** A fresh scaled accumulator, as the library's own callers start (scale 0, words 0). *)
Definition ssq_start {t} (fold Y : Z) (m : mem t) : F t * mem t := (fzero, dbsetzero fold Y m).
(** One call per piece into one scaled accumulator. *)
Definition ssq_piece {t} (fold Y : Z) (r : F t * mem t) (q : piece) : F t * mem t :=
  dbdssq (p_tu q) fold (p_N q) (p_X q) (p_inc q) (fst r) Y (snd r).
Definition ssq_pieces {t} (fold Y : Z) (qs : list piece) (r : F t * mem t) : F t * mem t :=
  fold_left (ssq_piece fold Y) qs r.

(** Partial sums of squares in separate scaled accumulators, allocated from [next] on,
    and merged with binned_dbdbaddsq (which allocates a temporary, taken from [next]
    too and, as in the C code, not given back).  Result: scale, address, next, memory. *)
Inductive stree := SEmpty | SPiece (q : piece) (u : stree) | SMergeL (l r : stree) | SMergeR (l r : stree).
Fixpoint spieces (u : stree) : list piece :=
  match u with
  | SEmpty => []
  | SPiece q u => q :: spieces u
  | SMergeL l r | SMergeR l r => spieces l ++ spieces r
  end.
Fixpoint seval {t} (fold : Z) (u : stree) (next : Z) (m : mem t) : F t * Z * Z * mem t :=
  match u with
  | SEmpty => (fzero, next, next + dbnum fold, dbsetzero fold next m)
  | SPiece q u =>
      let '(s, a, n, m) := seval fold u next m in
      let '(s, m) := dbdssq (p_tu q) fold (p_N q) (p_X q) (p_inc q) s a m in (s, a, n, m)
  | SMergeL l r =>
      let '(s, a, n, m) := seval fold l next m in
      let '(s', b, n', m) := seval fold r n m in
      let '(s, m) := dbdbaddsq fold s' b s a n' m in (s, a, n' + dbnum fold, m)
  | SMergeR l r =>
      let '(s, a, n, m) := seval fold l next m in
      let '(s', b, n', m) := seval fold r n m in
      let '(s, m) := dbdbaddsq fold s a s' b n' m in (s, b, n' + dbnum fold, m)
  end.
(** A scaled accumulator of data that may be infinite or NaN: then the first word is NaN
    if there is a NaN, else +Inf, and the scale is some dscale value. *)
Definition scaled_at {t} (fold : Z) (xs : list (F t)) (scale : F t) (m : mem t) (Y : Z) : Prop :=
  if all_finite xs then ssq_at fold xs scale m Y
  else m Y = (if existsb f_isnan xs then B754_nan else B754_infinity false) /\ exists M, scale = dscale M.
