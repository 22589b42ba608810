(** * Client programs built from the public routines *)
From Coq Require Import ZArith Bool List Lia.
From Verif Require Import Fp Mem Binned Spec.
Import ListNotations.
Open Scope Z_scope.

(** Sum a list into accumulator Y with binned_dbdadd. *)
Definition add_list {t} (fold Y : Z) (xs : list (F t)) (m : mem t) : mem t :=
  fold_left (fun m x => dbdadd fold x Y m) xs m.
Definition sum_list {t} (fold Y : Z) (xs : list (F t)) (m : mem t) : mem t :=
  add_list fold Y xs (dbsetzero fold Y m).
(** The same for complex data, binned_zbzadd. *)
Definition zadd_list {t} (fold Y : Z) (xs : list (F t * F t)) (m : mem t) : mem t :=
  fold_left (fun m x => zbzadd fold (fst x) (snd x) Y m) xs m.
Definition zsum_list {t} (fold Y : Z) (xs : list (F t * F t)) (m : mem t) : mem t :=
  zadd_list fold Y xs (zbsetzero fold Y m).

(** Reduction trees.  Each leaf of the computation gets its own accumulator; the
    next free address is threaded through. MergeL: left += right; MergeR: right += left. *)
Inductive tree (t : ty) :=
| Empty | Push (x : F t) (u : tree t) | MergeL (l r : tree t) | MergeR (l r : tree t).
Arguments Empty {t}. Arguments Push {t}. Arguments MergeL {t}. Arguments MergeR {t}.
Fixpoint leaves {t} (u : tree t) : list (F t) :=
  match u with
  | Empty => []
  | Push x u => x :: leaves u
  | MergeL l r => leaves l ++ leaves r
  | MergeR l r => leaves l ++ leaves r
  end.
Fixpoint eval {t} (fold : Z) (u : tree t) (next : Z) (m : mem t) : Z * Z * mem t :=
  match u with
  | Empty => (next, next + dbnum fold, dbsetzero fold next m)
  | Push x u => let '(a, n, m) := eval fold u next m in (a, n, dbdadd fold x a m)
  | MergeL l r =>
      let '(a, n, m) := eval fold l next m in
      let '(b, n', m) := eval fold r n m in (a, n', dbdbadd fold b a m)
  | MergeR l r =>
      let '(a, n, m) := eval fold l next m in
      let '(b, n', m) := eval fold r n m in (b, n', dbdbadd fold a b m)
  end.

(** The same for complex accumulators. *)
Inductive ztree (t : ty) :=
| ZEmpty | ZPush (x : F t * F t) (u : ztree t) | ZMergeL (l r : ztree t) | ZMergeR (l r : ztree t).
Arguments ZEmpty {t}. Arguments ZPush {t}. Arguments ZMergeL {t}. Arguments ZMergeR {t}.
Fixpoint zleaves {t} (u : ztree t) : list (F t * F t) :=
  match u with
  | ZEmpty => []
  | ZPush x u => x :: zleaves u
  | ZMergeL l r => zleaves l ++ zleaves r
  | ZMergeR l r => zleaves l ++ zleaves r
  end.
Fixpoint zeval {t} (fold : Z) (u : ztree t) (next : Z) (m : mem t) : Z * Z * mem t :=
  match u with
  | ZEmpty => (next, next + zbnum fold, zbsetzero fold next m)
  | ZPush x u => let '(a, n, m) := zeval fold u next m in (a, n, zbzadd fold (fst x) (snd x) a m)
  | ZMergeL l r =>
      let '(a, n, m) := zeval fold l next m in
      let '(b, n', m) := zeval fold r n m in (a, n', zbzbadd fold b a m)
  | ZMergeR l r =>
      let '(a, n, m) := zeval fold l next m in
      let '(b, n', m) := zeval fold r n m in (b, n', zbzbadd fold a b m)
  end.

(** Raw deposits: one update to make room for [bound], then the deposits, with or
    without a renormalisation after each. *)
Definition deposit_list {t} (fold : Z) (xs : list (F t)) (Y : Z) (m : mem t) : mem t :=
  fold_left (fun m x => dbddeposit fold x Y m) xs m.
Definition deposit_renorm_list {t} (fold : Z) (xs : list (F t)) (Y : Z) (m : mem t) : mem t :=
  fold_left (fun m x => dbrenorm fold Y (dbddeposit fold x Y m)) xs m.

(** ** Vocabulary of the property statements *)

(** The 2*fold words at Y in m and at Y' in m' are the same (bit for bit, one NaN). *)
Definition same_words {t} (fold : Z) (m : mem t) (Y : Z) (m' : mem t) (Y' : Z) : Prop :=
  forall i, 0 <= i < 2 * fold -> m (Y + i) = m' (Y' + i).
(** Memory is unchanged outside [Y, Y+n). *)
Definition unchanged_outside {t} (Y n : Z) (m m' : mem t) : Prop :=
  forall a, ~ (Y <= a < Y + n) -> m' a = m a.
(** The contiguous accumulator at Y is the normalised accumulator of [xs]
    (Spec.holds), room having been made for [us]. *)
Definition acc_at {t} (fold : Z) (us xs : list (F t)) (m : mem t) (Y : Z) : Prop :=
  holds t fold us xs (fun i => m (Y + i * 1)) (fun i => m (Y + fold + i * 1)).
(** Two blocks of n cells do not overlap. *)
Definition apart (n X Y : Z) : Prop := X + n <= Y \/ Y + n <= X.
(** Exact slice sum represented in position i of the accumulator at Y whose first bin is k. *)
Definition content_at {t} (fold k : Z) (m : mem t) (Y i : Z) : Z :=
  content t (k + i) (m (Y + i)) (m (Y + fold + i)).
