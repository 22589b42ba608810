(** * src/binnedMPI: the functions handing out MPI datatypes and operators

    Each of the twelve functions keeps, in static arrays of its own file, the handles it has
    already created.  The MPI library is modelled by what it is asked to create: a handle is
    the position of the object in the list of creations; any MPI call may fail. *)
From Coq Require Import ZArith Bool List Lia.
From Verif Require Import Fp Mem Binned.
Import ListNotations.
Open Scope Z_scope.

(** MPI_DOUBLE, MPI_FLOAT *)
Inductive base := MPI_Double | MPI_Float.
(** The datatype functions: DOUBLE_BINNED.c, DOUBLE_BINNED_SCALED.c, DOUBLE_COMPLEX_BINNED.c and
    the FLOAT twins. *)
Inductive tfun := DOUBLE_BINNED | DOUBLE_BINNED_SCALED | DOUBLE_COMPLEX_BINNED
                | FLOAT_BINNED | FLOAT_BINNED_SCALED | FLOAT_COMPLEX_BINNED.
(** The operator functions: DBDBADD.ccog, DBDBADDSQ.ccog, ZBZBADD.ccog and the float twins. *)
Inductive ofun := DBDBADD | DBDBADDSQ | ZBZBADD | SBSBADD | SBSBADDSQ | CBCBADD.
Definition tfun_eq (a b : tfun) : {a = b} + {a <> b}.
Proof. decide equality. Defined.
Definition ofun_eq (a b : ofun) : {a = b} + {a <> b}.
Proof. decide equality. Defined.

(** Line 9 of each file: size of the static tables, binned_DBMAXFOLD + 1 or binned_SBMAXFOLD + 1. *)
Definition ttable (f : tfun) : Z :=
  match f with
  | DOUBLE_BINNED | DOUBLE_BINNED_SCALED | DOUBLE_COMPLEX_BINNED => MAXFOLD Dbl + 1
  | FLOAT_BINNED | FLOAT_BINNED_SCALED | FLOAT_COMPLEX_BINNED => MAXFOLD Flt + 1
  end.
Definition otable (f : ofun) : Z :=
  match f with
  | DBDBADD | DBDBADDSQ | ZBZBADD => MAXFOLD Dbl + 1
  | SBSBADD | SBSBADDSQ | CBCBADD => MAXFOLD Flt + 1
  end.
(** Line 29 of each datatype file: the arguments of MPI_Type_contiguous. *)
Definition tcount (f : tfun) (fold : Z) : Z :=
  match f with
  | DOUBLE_BINNED => dbnum fold | DOUBLE_BINNED_SCALED => dbnum fold + 1 | DOUBLE_COMPLEX_BINNED => zbnum fold
  | FLOAT_BINNED => dbnum fold | FLOAT_BINNED_SCALED => dbnum fold + 1 | FLOAT_COMPLEX_BINNED => zbnum fold
  end.
Definition tbase (f : tfun) : base :=
  match f with
  | DOUBLE_BINNED | DOUBLE_BINNED_SCALED | DOUBLE_COMPLEX_BINNED => MPI_Double
  | FLOAT_BINNED | FLOAT_BINNED_SCALED | FLOAT_COMPLEX_BINNED => MPI_Float
  end.
(** DBDBADD.ccog:240-440 and the others: the generated cases of the switch, range(2, MAXINDEX + 1). *)
Definition ocases (f : ofun) : Z :=
  match f with
  | DBDBADD | DBDBADDSQ | ZBZBADD => MAXINDEX Dbl
  | SBSBADD | SBSBADDSQ | CBCBADD => MAXINDEX Flt
  end.

(** State of a process: what the MPI library was asked to create (oldest first), which of the
    datatypes were committed, the number of MPI calls made, and the static tables. *)
Record process := Process {
  mpi_calls : nat;
  mpi_types : list (Z * base);
  mpi_committed : list nat;
  mpi_ops : list (ofun * Z);
  types : tfun -> Z -> nat; types_initialized : tfun -> Z -> bool;
  ops : ofun -> Z -> nat; ops_initialized : ofun -> Z -> bool }.
(** Static tables are zero at the start of the program. *)
Definition start : process :=
  Process 0 [] [] [] (fun _ _ => 0%nat) (fun _ _ => false) (fun _ _ => 0%nat) (fun _ _ => false).
Definition set {K} (eq : forall a b : K, {a = b} + {a <> b}) {A} (tab : K -> Z -> A) (k : K) (i : Z) (v : A) : K -> Z -> A :=
  fun k' i' => if eq k k' then if i =? i' then v else tab k' i' else tab k' i'.
(** Outcome of a call: a handle; MPI_Abort; or undefined behaviour (an index outside the static
    table, or rc used uninitialised). *)
Inductive outcome := Handle (h : nat) | Abort | Undefined.

(** MPI_Type_contiguous(count, base, types + fold): [fails n] tells whether the n-th MPI call fails. *)
Definition type_contiguous (fails : nat -> bool) (f : tfun) (fold count : Z) (b : base) (p : process) : bool * process :=
  let n := mpi_calls p in
  if fails n then (false, Process (S n) (mpi_types p) (mpi_committed p) (mpi_ops p) (types p) (types_initialized p) (ops p) (ops_initialized p))
  else (true, Process (S n) (mpi_types p ++ [(count, b)]) (mpi_committed p) (mpi_ops p)
                (set tfun_eq (types p) f fold (length (mpi_types p))) (types_initialized p) (ops p) (ops_initialized p)).
(** MPI_Type_commit *)
Definition type_commit (fails : nat -> bool) (h : nat) (p : process) : bool * process :=
  let n := mpi_calls p in
  if fails n then (false, Process (S n) (mpi_types p) (mpi_committed p) (mpi_ops p) (types p) (types_initialized p) (ops p) (ops_initialized p))
  else (true, Process (S n) (mpi_types p) (h :: mpi_committed p) (mpi_ops p) (types p) (types_initialized p) (ops p) (ops_initialized p)).
(** MPI_Op_create(&function, 1, ops + fold) *)
Definition op_create (fails : nat -> bool) (f : ofun) (fold : Z) (p : process) : bool * process :=
  let n := mpi_calls p in
  if fails n then (false, Process (S n) (mpi_types p) (mpi_committed p) (mpi_ops p) (types p) (types_initialized p) (ops p) (ops_initialized p))
  else (true, Process (S n) (mpi_types p) (mpi_committed p) (mpi_ops p ++ [(f, fold)])
                (types p) (types_initialized p) (set ofun_eq (ops p) f fold (length (mpi_ops p))) (ops_initialized p)).

(** DOUBLE_BINNED.c:26-56 and the five other datatype files. *)
Definition get_type (fails : nat -> bool) (f : tfun) (fold : Z) (p : process) : outcome * process :=
  if (fold <? 0) || (ttable f <=? fold) then (Undefined, p)
  else if types_initialized p f fold then (Handle (types p f fold), p)
  else
    let '(ok, p) := type_contiguous fails f fold (tcount f fold) (tbase f) p in
    if ok then
      let '(ok, p) := type_commit fails (types p f fold) p in
      if ok then
        let p := Process (mpi_calls p) (mpi_types p) (mpi_committed p) (mpi_ops p) (types p)
                   (set tfun_eq (types_initialized p) f fold true) (ops p) (ops_initialized p) in
        (Handle (types p f fold), p)
      else (Abort, p)
    else (Abort, p).
(** DBDBADD.ccog:236-452 and the five other operator files: without a case for fold, rc is
    used uninitialised. *)
Definition get_op (fails : nat -> bool) (f : ofun) (fold : Z) (p : process) : outcome * process :=
  if (fold <? 0) || (otable f <=? fold) then (Undefined, p)
  else if ops_initialized p f fold then (Handle (ops p f fold), p)
  else if (2 <=? fold) && (fold <? ocases f + 1) then
    let '(ok, p) := op_create fails f fold p in
    if ok then
      let p := Process (mpi_calls p) (mpi_types p) (mpi_committed p) (mpi_ops p) (types p) (types_initialized p)
                 (ops p) (set ofun_eq (ops_initialized p) f fold true) in
      (Handle (ops p f fold), p)
    else (Abort, p)
  else (Undefined, p).

(** A process asks for datatypes and operators one after the other, until a call does not return. *)
Inductive request := Type_of (f : tfun) (fold : Z) | Op_of (f : ofun) (fold : Z).
Definition get (fails : nat -> bool) (r : request) (p : process) : outcome * process :=
  match r with Type_of f fold => get_type fails f fold p | Op_of f fold => get_op fails f fold p end.
Fixpoint requests (fails : nat -> bool) (rs : list request) (p : process) : list outcome * process :=
  match rs with
  | [] => ([], p)
  | r :: rs =>
      let '(o, p) := get fails r p in
      match o with
      | Handle _ => let '(os, p) := requests fails rs p in (o :: os, p)
      | _ => ([o], p)
      end
  end.
