(** * The example programs examples/sum_sine.c and examples/MPI_sum_sine.c

    What is modelled: the shuffle, the distribution of the data, the binned sums.  Left out: the
    values of the sine wave (the data are arbitrary), the sums in ordinary double and double-double
    arithmetic, timing and printing.  rand() is an arbitrary sequence of nonnegative integers. *)
From Coq Require Import ZArith Bool List Lia.
From Verif Require Import Fp Mem Binned Gen Blas Mpi Defaults.
Import ListNotations.
Open Scope Z_scope.

(** sum_sine.c:57-67, MPI_sum_sine.c:63-73: copy x to x_shuffled, then exchange element i with
    element i + rand() % (n - i). *)
Definition copy_array {t} (n x y : Z) (m : mem t) : mem t :=
  for_up 0 n (fun i m => upd m (y + i) (m (x + i))) m.
Definition exchange {t} (rnd : Z -> Z) (n s i : Z) (m : mem t) : mem t :=
  let r := rnd i in
  let tmp := m (s + i) in
  let m := upd m (s + i) (m (s + (i + cmod r (n - i)))) in
  upd m (s + (i + cmod r (n - i))) tmp.
Definition shuffle {t} (rnd : Z -> Z) (n x s : Z) (m : mem t) : mem t :=
  for_up 0 n (exchange rnd n s) (copy_array n x s m).

(** ** sum_sine.c *)
(** Lines 117-124: every element is converted to an accumulator and added. *)
Definition sum_by_merge {t} (n x isum itmp : Z) (m : mem t) : F t * mem t :=
  let m := dbsetzero 3 isum m in
  let m := for_up 0 n (fun i m => dbdbadd 3 itmp isum (dbdconv 3 (m (x + i)) itmp m)) m in
  (ddbconv 3 isum m, m).
(** Lines 142-148. *)
Definition sum_by_add {t} (n x isum : Z) (m : mem t) : F t * mem t :=
  let m := dbsetzero 3 isum m in
  let m := for_up 0 n (fun i m => dbdadd 3 (m (x + i)) isum m) m in
  (ddbconv 3 isum m, m).
(** Lines 165-169. *)
Definition sum_by_blas {t} (tu : tuning) (n x isum : Z) (m : mem t) : F t * mem t :=
  let m := dbsetzero 3 isum m in
  let m := dbdsum tu 3 n x 1 isum m in
  (ddbconv 3 isum m, m).
(** Lines 117-191: the printed pairs (sum, sum of shuffled), in order.  [acc] is the temporary
    allocated by reproBLAS_dsum; its contents are not used afterwards. *)
Definition sum_sine {t} (tu : tuning) (rnd : Z -> Z) (n x s isum itmp acc : Z) (m : mem t) : list (F t * F t) :=
  let m := shuffle rnd n x s m in
  let '(a1, m) := sum_by_merge n x isum itmp m in
  let '(b1, m) := sum_by_merge n s isum itmp m in
  let '(a2, m) := sum_by_add n x isum m in
  let '(b2, m) := sum_by_add n s isum m in
  let '(a3, m) := sum_by_blas tu n x isum m in
  let '(b3, m) := sum_by_blas tu n s isum m in
  [(a1, b1); (a2, b2); (a3, b3); (dsum tu n x 1 acc m, dsum tu n s 1 acc m)].

(** ** MPI_sum_sine.c *)
(** Lines 34-50. *)
Definition local_n (n size rank : Z) : Z :=
  let l := cdiv n size in if rank =? size - 1 then l + (n - l * size) else l.
Definition counts (n size i : Z) : Z :=
  let c := cdiv n size in if i =? size - 1 then c + (n - c * size) else c.
Definition displs (n size i : Z) : Z := i * cdiv n size.
(** MPI_Scatterv (lines 77-78): process r receives counts[r] elements of the root's array, from
    displs[r] on. *)
Definition scatterv {t} (n size x : Z) (root : mem t) (local r : Z) (m : mem t) : mem t :=
  fun a => if (local <=? a) && (a <? local + counts n size r) then root (x + displs n size r + (a - local)) else m a.
(** Lines 126-133, process r. *)
Definition local_sum {t} (tu : tuning) (n size r local isum : Z) (m : mem t) : mem t :=
  dbdsum tu 3 (local_n n size r) local 1 isum (dbsetzero 3 isum m).
(** MPI_Reduce with one element of type binnedMPI_DOUBLE_BINNED(3): the MPI library works on
    copies of the send buffers, at buf r in its own memory w, and calls the operator as it
    likes ([ops], see MpiSpec.v); the copy where the result ends is received by the root. *)
Definition copy_block {t} (len : Z) (from : mem t) (a b : Z) (w : mem t) : mem t :=
  fun c => if (b <=? c) && (c <? b + len) then from (a + (c - b)) else w c.
Definition load_buffers {t} (size : nat) (buf : nat -> Z) (sendbuf : nat -> Z) (ms : nat -> mem t) (w : mem t) : mem t :=
  fold_left (fun w r => copy_block (dbnum 3) (ms r) (sendbuf r) (buf r) w) (seq 0 size) w.
Definition mpi_reduce {t} (size : nat) (buf : nat -> Z) (ops : mem t -> mem t) (result : nat)
    (sendbuf : nat -> Z) (ms : nat -> mem t) (w : mem t) (recvbuf : Z) (m : mem t) : mem t :=
  copy_block (dbnum 3) (ops (load_buffers size buf sendbuf ms w)) (buf result) recvbuf m.
(** Lines 121-139 (and 142-151 for the shuffled data): the sum the root converts.  Process r keeps
    its part at [local r] and its accumulator at [lsum r] in its memory [ms r]. *)
Definition mpi_sum {t} (tu : nat -> tuning) (n size x : Z) (local lsum : nat -> Z) (isum : Z)
    (buf : nat -> Z) (ops : mem t -> mem t) (result : nat) (root : mem t) (ms : nat -> mem t) (w : mem t) : F t :=
  let ms1 := fun r => scatterv n size x root (local r) (Z.of_nat r) (ms r) in
  let ms2 := fun r => local_sum (tu r) n size (Z.of_nat r) (local r) (lsum r) (ms1 r) in
  ddbconv 3 isum (mpi_reduce (Z.to_nat size) buf ops result lsum ms2 w isum (dbsetzero 3 isum (ms2 0%nat))).
(** The printed pair. *)
Definition mpi_sum_sine {t} (rnd : Z -> Z) (tu tu' : nat -> tuning) (n size x s : Z) (local local' lsum : nat -> Z) (isum : Z)
    (buf buf' : nat -> Z) (ops ops' : mem t -> mem t) (result result' : nat) (root : mem t) (ms : nat -> mem t) (w : mem t) : F t * F t :=
  let root := shuffle rnd n x s root in
  (mpi_sum tu n size x local lsum isum buf ops result root ms w,
   mpi_sum tu' n size s local' lsum isum buf' ops' result' root ms w).
