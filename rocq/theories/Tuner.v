(** * Model of the autotuner: /repo/tune/ReproBLASOpenTuner.py

    OpenTuner itself (which configurations it proposes, which it calls best) is an arbitrary input; the build and the
    benchmark runs have no effect on the argument file.  A failed lookup (KeyError) or assertion is None. *)
From Coq Require Import ZArith List Bool String.
From Verif Require Import Gen Params Blas.
Import ListNotations.
Open Scope string_scope.
Open Scope list_scope.
Open Scope Z_scope.

(** src/gen/generate.py:15-25.  The file is written with sorted keys and read back as a dictionary. *)
Definition serialize_arguments (a : dict json) : json := dumped (JObj a).
Definition deserialize_arguments (j : json) : option (dict json) := match j with JObj o => Some o | _ => None end.
(** generate.py:213-214, default_args.py. *)
Definition default_of (p : param) : json :=
  match p with BoolP _ _ d => JBool d | IntP _ _ _ _ _ d => JInt d | PowP _ _ _ _ d => JInt d end.
Definition default_arguments (s : space) : dict json :=
  fold_left (fun d kp => set (pname (snd kp)) (default_of (snd kp)) d) (parameters s) [].

(** A proposed value, and a proposed configuration: configuration.data. *)
Inductive proposal := PBool (b : bool) | PInt (z : Z).
Definition config := dict proposal.

(** manipulator, lines 42-53: the parameters searched for a benchmark, and the range of each.  Division is exact, since
    the constructor asserts that minimum and maximum are multiples of the step. *)
Definition ptags (p : param) : dict string := match p with BoolP _ ts _ => ts | IntP _ ts _ _ _ _ => ts | PowP _ ts _ _ _ => ts end.
Definition searched (s : space) (vec benchmark a : string) : Prop :=
  exists names p, get benchmark (forward_metrics s) = Some names /\ In a names /\ get a (parameters s) = Some p /\
    (get "vectorization" (ptags p) = None \/ get "vectorization" (ptags p) = Some vec).
Definition proposable (p : param) (v : proposal) : Prop :=
  match p, v with
  | BoolP _ _ _, PBool _ => True
  | IntP _ _ lo hi st _, PInt z => lo / st <= z <= hi / st
  | PowP _ _ lo hi _, PInt z => lo <= z <= hi /\ exists k, 0 <= k /\ z = 2 ^ k
  | _, _ => False
  end.

(** Lines 86-92 and 123-129: one argument of a configuration. *)
Definition put (s : space) (kv : string * proposal) (args : option (dict json)) : option (dict json) :=
  match args, get (fst kv) (parameters s) with
  | Some d, Some p =>
      match p, snd kv with
      | IntP n _ _ _ st _, PInt z => Some (set n (JInt (z * st)) d)
      | BoolP n _ _, PBool b => Some (set n (JBool b) d)
      | PowP n _ _ _ _, PInt z => Some (set n (JInt z) d)
      | _, _ => None
      end
  | _, _ => None
  end.
Definition put_all (s : space) (c : config) (args : option (dict json)) : option (dict json) := fold_left (fun d kv => put s kv d) c args.
(** Lines 77-93 (119-129 for the best ones): the arguments of a trial: those the run started from, then each configuration proposed (None: the search of
    that benchmark has finished). *)
Definition overlay (s : space) (args : dict json) (cs : list (option config)) : option (dict json) :=
  fold_left (fun d c => match c with Some c => put_all s c d | None => d end) cs (Some args).
(** Lines 73-97: the trials of a run, each writing the file if anything was proposed. *)
Fixpoint trials (s : space) (args : dict json) (ts : list (list (option config))) : option (list json) :=
  match ts with
  | [] => Some []
  | cs :: ts =>
      match overlay s args cs, trials s args ts with
      | Some d, Some r => Some (if existsb (fun c => match c with Some _ => true | None => false end) cs then serialize_arguments d :: r else r)
      | _, _ => None
      end
  end.
(** run, lines 63-131: the successive contents of the argument file; [file]: what it holds before (None: there is none). *)
Record tuning_run := Run { run_benchmarks : list string; run_trials : list (list (option config)); run_best : list config }.
Definition run (s : space) (r : tuning_run) (file : option json) : option (list json) :=
  match (match file with Some j => deserialize_arguments j | None => Some (default_arguments s) end) with
  | Some args =>
      match trials s args (run_trials r), overlay s args (map Some (run_best r)) with
      | Some l, Some d => Some (l ++ [serialize_arguments d])
      | _, _ => None
      end
  | None => None
  end.
(** main, lines 133-199: one run after another. *)
Fixpoint tune (s : space) (rs : list tuning_run) (file : option json) : option (list json) :=
  match rs with
  | [] => Some []
  | r :: rs =>
      match run s r file with
      | Some l => option_map (app l) (tune s rs (match last (map Some l) None with Some j => Some j | None => file end))
      | None => None
      end
  end.

(** ** Building with an argument file: set_arguments (generate.py:250-257) for the targets of a reduction *)
Definition int_value (s : space) (file : json) (a : string) : option Z :=
  match deserialize_arguments file with
  | Some o => match get_value s o a with Some (VInt z) => Some z | _ => None end
  | None => None
  end.
(** The block size (blockSize.py:36), the unrolling of the scan (amax.py:45), pipe and unroll width of the deposit
    (deposit.py:98-99), given the names of these arguments. *)
Record reduction_names := Names { n_block : string; n_scan : string; n_pipe : string; n_unroll : string }.
Definition build_tuning (s : space) (n : reduction_names) (vector : bool) (ts ts' : Z) (file : json) : option tuning :=
  match int_value s file (n_block n), int_value s file (n_scan n), int_value s file (n_pipe n), int_value s file (n_unroll n) with
  | Some b, Some u', Some p, Some u => Some (Tuning b (AVec ts' u') (Vec vector ts p u))
  | _, _, _, _ => None
  end.
