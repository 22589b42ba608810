(** * Vocabulary for the statements about the vector reductions *)
From Coq Require Import ZArith Bool List Lia.
From Flocq Require Import Core BinarySingleNaN.
From Verif Require Import Fp Mem Binned Spec Client Gen GenProofs Blas.
Import ListNotations.
Open Scope Z_scope.

(** Legal tuning: block size in 1..ENDURANCE; scan and deposit kernels as the generator
    can emit them (any vector width, pipe and unroll widths it allows). *)
Definition tuned (t : ty) (tu : tuning) : Prop :=
  1 <= block_max tu <= ENDURANCE t /\ legal_avec (amax_vec tu) /\ legal_vec (dep_vec tu).
(** The n elements at X with stride inc lie outside the block [Y, Y + len). *)
Definition clear_of (X inc n Y len : Z) : Prop := forall i, 0 <= i < n -> ~ (Y <= X + i * inc < Y + len).
(** |x_i| and x_i * y_i as lists. *)
Definition magnitudes {t} (m : mem t) (X incX N : Z) : list (F t) := map fabs (read m X incX N).
Definition products {t} (m : mem t) (X incX Y incY N : Z) : list (F t) :=
  map (fun '(x, y) => fmul x y) (combine (read m X incX N) (read m Y incY N)).

(** A piece of data: tuning used, address, stride and length. *)
Record piece := Piece { p_tu : tuning; p_X : Z; p_inc : Z; p_N : Z }.
Definition piece_data {t} (m : mem t) (q : piece) : list (F t) := read m (p_X q) (p_inc q) (p_N q).
Definition piece_ok (t : ty) (q : piece) : Prop := tuned t (p_tu q) /\ 0 <= p_N q.
(** One call per piece into one accumulator. *)
Definition sum_pieces {t} (fold Y : Z) (qs : list piece) (m : mem t) : mem t :=
  fold_left (fun m q => dbdsum (p_tu q) fold (p_N q) (p_X q) (p_inc q) Y m) qs m.
(** Partial sums in separate accumulators, allocated from [next] on, and merged. *)
Inductive vtree := VEmpty | VSum (q : piece) (u : vtree) | VMergeL (l r : vtree) | VMergeR (l r : vtree).
Fixpoint vpieces (u : vtree) : list piece :=
  match u with
  | VEmpty => []
  | VSum q u => q :: vpieces u
  | VMergeL l r | VMergeR l r => vpieces l ++ vpieces r
  end.
Fixpoint veval {t} (fold : Z) (u : vtree) (next : Z) (m : mem t) : Z * Z * mem t :=
  match u with
  | VEmpty => (next, next + dbnum fold, dbsetzero fold next m)
  | VSum q u =>
      let '(a, n, m) := veval fold u next m in (a, n, dbdsum (p_tu q) fold (p_N q) (p_X q) (p_inc q) a m)
  | VMergeL l r =>
      let '(a, n, m) := veval fold l next m in
      let '(b, n', m) := veval fold r n m in (a, n', dbdbadd fold b a m)
  | VMergeR l r =>
      let '(a, n, m) := veval fold l next m in
      let '(b, n', m) := veval fold r n m in (b, n', dbdbadd fold a b m)
  end.

(** M is the largest magnitude in xs, 0 if there is none (data without NaN). *)
Definition largest {t} (M : F t) (xs : list (F t)) : Prop :=
  (forall x, In x xs -> flt M (fabs x) = false) /\ (M = fzero \/ exists x, In x xs /\ M = fabs x).
