(** * src/binnedMPI: the user defined MPI reduction operators *)
From Coq Require Import ZArith Bool List Lia.
From Flocq Require Import Core BinarySingleNaN.
From Verif Require Import Fp Mem Binned.
Import ListNotations.
Open Scope Z_scope.

(** DBDBADD.ccog:11-15, SBSBADD.ccog:11-15: the generated binnedMPI_dbdbadd_<fold>
    (invec, inoutvec, len); the datatype argument is not used. *)
Definition mpi_dbdbadd {t} (fold len invec inoutvec : Z) (m : mem t) : mem t :=
  dbdbaddv fold len invec 1 inoutvec 1 m.
(** CBCBADD.ccog:11-15 calls cbcbaddv. *)
Definition mpi_cbcbadd (fold len invec inoutvec : Z) (m : mem Flt) : mem Flt :=
  zbzbaddv fold len invec 1 inoutvec 1 m.
(** ZBZBADD.ccog:11-15 calls dbdbaddv, the real routine, on complex accumulators. *)
Definition mpi_zbzbadd (fold len invec inoutvec : Z) (m : mem Dbl) : mem Dbl :=
  dbdbaddv fold len invec 1 inoutvec 1 m.
(** DBDBADDSQ.ccog:8-13: dbdbaddsqv.  Each element is a scale followed by an
    accumulator; the scale returned by dmdmaddsq is not stored.  tmp_X is the address
    returned by the allocation inside dmdmaddsq. *)
Definition mpi_dbdbaddsq {t} (fold len invec inoutvec tmp_X : Z) (m : mem t) : mem t :=
  for_up 0 len (fun i m =>
    let X := invec + i * (dbnum fold + 1) in
    let Y := inoutvec + i * (dbnum fold + 1) in
    snd (dmdmaddsq fold (m X) (X + 1) 1 (X + 1 + fold) 1 (m Y) (Y + 1) 1 (Y + 1 + fold) 1 tmp_X m)) m.
(** The number of reals in a scaled element: DOUBLE_BINNED_SCALED.c (MPI_Type_contiguous); for the other types
    see reals_of in Registry.v. *)
Definition mpi_scaled_num (fold : Z) : Z := dbnum fold + 1.
(** DBDBADD.ccog:223-435 (and the five others): the fold of the operator installed
    by the switch, cases range(2, MAXINDEX + 1); None when no case applies (rc is then
    used uninitialised). *)
Definition mpi_op (t : ty) (fold : Z) : option Z :=
  if (2 <=? fold) && (fold <? MAXINDEX t + 1) then Some fold else None.
