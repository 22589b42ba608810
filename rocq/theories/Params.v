(** * Model of the tuning parameter files: /repo/src/gen/generate.py

    Python dictionaries are association lists in insertion order, Python sets are lists
    without repetition.  The text form of JSON is not modelled, only its trees. *)
From Coq Require Import ZArith List Bool String.
From Verif Require Import Gen.
Import ListNotations.
Open Scope string_scope.
Open Scope list_scope.
Open Scope Z_scope.

Inductive json :=
| JBool (b : bool) | JInt (z : Z) | JStr (s : string)
| JList (l : list json) | JObj (o : list (string * json)).

Definition dict (A : Type) := list (string * A).
(** d.get(k) *)
Fixpoint get {A} (k : string) (d : dict A) : option A :=
  match d with
  | [] => None
  | (k', v) :: d => if String.eqb k k' then Some v else get k d
  end.
(** d[k] = v *)
Fixpoint set {A} (k : string) (v : A) (d : dict A) : dict A :=
  match d with
  | [] => [(k, v)]
  | (k', v') :: d => if String.eqb k k' then (k, v) :: d else (k', v') :: set k v d
  end.
Definition has (x : string) (l : list string) : bool := existsb (String.eqb x) l.
(** s.add(x) *)
Definition sadd (x : string) (l : list string) : list string := if has x l then l else l ++ [x].
(** set(l) *)
Definition to_set (l : list string) : list string := fold_left (fun s x => sadd x s) l [].

(** sorted(...), by key. *)
Fixpoint insert {A} (key : A -> string) (x : A) (l : list A) : list A :=
  match l with
  | [] => [x]
  | y :: l' => if String.leb (key x) (key y) then x :: l else y :: insert key x l'
  end.
Definition sort {A} (key : A -> string) (l : list A) : list A := fold_right (insert key) [] l.

(** json.dump(..., sort_keys=True) followed by json.load (lines 27-36). *)
Fixpoint dumped (j : json) : json :=
  match j with
  | JList l => JList (map dumped l)
  | JObj o => JObj (sort fst (map (fun kv => match kv with (k, v) => (k, dumped v) end) o))
  | _ => j
  end.

(** ** Parameters, lines 38-143 *)

Inductive param :=
| BoolP (name : string) (tags : dict string) (default : bool)
| IntP (name : string) (tags : dict string) (minimum maximum step default : Z)
| PowP (name : string) (tags : dict string) (minimum maximum default : Z).
Definition pname (p : param) : string :=
  match p with BoolP n _ _ => n | IntP n _ _ _ _ _ => n | PowP n _ _ _ _ => n end.

(** int(value) and bool(value) on JSON values (int of a string is not modelled). *)
Definition as_int (j : json) : option Z :=
  match j with JInt z => Some z | JBool b => Some (if b then 1 else 0) | _ => None end.
Definition as_bool (j : json) : bool :=
  match j with
  | JBool b => b
  | JInt z => negb (z =? 0)
  | JStr s => negb (String.eqb s "")
  | JList l => match l with [] => false | _ => true end
  | JObj o => match o with [] => false | _ => true end
  end.

Inductive value := VBool (b : bool) | VInt (z : Z).
(** parse_value of the three classes: lines 73-74, 94-105, 125-136. *)
Definition parse_value (p : param) (j : json) : option value :=
  match p with
  | BoolP _ _ _ => Some (VBool (as_bool j))
  | IntP _ _ lo hi st _ => option_map (fun z => VInt (int_parse lo hi st z)) (as_int j)
  | PowP _ _ lo hi _ => option_map (fun z => VInt (pow_parse lo hi z)) (as_int j)
  end.
(** The constructors; None is a failed assertion (lines 68-71, 82-92, 115-123). *)
Definition mk_bool (n : string) (ts : dict string) (d : json) : option param :=
  Some (BoolP n ts (as_bool d)).
Definition mk_int (n : string) (ts : dict string) (lo hi st : Z) (d : json) : option param :=
  if (0 <? st) && (lo mod st =? 0) && (hi mod st =? 0) && (lo <=? hi) then
    option_map (fun z => IntP n ts lo hi st (int_parse lo hi st z)) (as_int d)
  else None.
Definition is_pow (v : Z) : bool := negb (v =? 0) && (v =? 2 ^ (bit_length v - 1)).
Definition mk_pow (n : string) (ts : dict string) (lo hi : Z) (d : json) : option param :=
  if is_pow lo && is_pow hi then
    option_map (fun z => PowP n ts lo hi (pow_parse lo hi z)) (as_int d)
  else None.

(** encode: lines 46-47, 76-79, 107-113, 138-143. *)
Definition enc_tags (ts : dict string) : json :=
  JList (map (fun kv => JList [JStr (fst kv); JStr (snd kv)]) ts).
Definition enc_param (p : param) : json :=
  match p with
  | BoolP n ts d =>
      JObj [("name", JStr n); ("flavor", JStr "boolean"); ("tags", enc_tags ts); ("default", JBool d)]
  | IntP n ts lo hi st d =>
      JObj [("name", JStr n); ("flavor", JStr "integer"); ("tags", enc_tags ts);
            ("minimum", JInt lo); ("maximum", JInt hi); ("step", JInt st); ("default", JInt d)]
  | PowP n ts lo hi d =>
      JObj [("name", JStr n); ("flavor", JStr "poweroftwo"); ("tags", enc_tags ts);
            ("minimum", JInt lo); ("maximum", JInt hi); ("default", JInt d)]
  end.
(** dict(data["tags"]) *)
Fixpoint dec_tags (l : list json) (d : dict string) : option (dict string) :=
  match l with
  | [] => Some d
  | JList [JStr k; JStr v] :: l => dec_tags l (set k v d)
  | _ => None
  end.
(** Parameter.decode, lines 49-66. *)
Definition dec_param (j : json) : option param :=
  match j with
  | JObj o =>
      match get "name" o, get "flavor" o, get "default" o, get "tags" o with
      | Some (JStr n), Some (JStr f), Some d, Some (JList tl) =>
          match dec_tags tl [] with
          | Some ts =>
              if String.eqb f "boolean" then mk_bool n ts d
              else if String.eqb f "integer" then
                match get "minimum" o, get "maximum" o, get "step" o with
                | Some (JInt lo), Some (JInt hi), Some (JInt st) => mk_int n ts lo hi st d
                | _, _, _ => None
                end
              else if String.eqb f "poweroftwo" then
                match get "minimum" o, get "maximum" o with
                | Some (JInt lo), Some (JInt hi) => mk_pow n ts lo hi d
                | _, _ => None
                end
              else None
          | None => None
          end
      | _, _, _, _ => None
      end
  | _ => None
  end.

(** ** ParameterSpace, lines 145-216 *)
Record space := Space {
  forward_dependencies : dict (list string);
  backward_dependencies : dict (list string);
  forward_metrics : dict (list string);
  backward_metrics : dict (list string);
  parameters : dict param }.
Definition empty_space : space := Space [] [] [] [] [].

Definition enc_sets (d : dict (list string)) : json :=
  JObj (map (fun kv => (fst kv, JList (map JStr (sort (fun x => x) (snd kv))))) d).
(** encode, lines 153-158. *)
Definition enc_space (s : space) : json :=
  JObj [("forward_dependencies", enc_sets (forward_dependencies s));
        ("backward_dependencies", enc_sets (backward_dependencies s));
        ("forward_metrics", enc_sets (forward_metrics s));
        ("backward_metrics", enc_sets (backward_metrics s));
        ("parameters", JObj (map (fun kv => (fst kv, enc_param (snd kv))) (parameters s)))].
Fixpoint strings (l : list json) : option (list string) :=
  match l with
  | [] => Some []
  | JStr s :: l => option_map (cons s) (strings l)
  | _ => None
  end.
(** {k: f(v) for (k, v) in d.items()} *)
Fixpoint dict_map {A B} (f : A -> option B) (d : dict A) : option (dict B) :=
  match d with
  | [] => Some []
  | (k, v) :: d =>
      match f v, dict_map f d with Some b, Some r => Some ((k, b) :: r) | _, _ => None end
  end.
Definition dec_sets (j : option json) : option (dict (list string)) :=
  match j with
  | Some (JObj o) =>
      dict_map (fun v => match v with JList l => option_map to_set (strings l) | _ => None end) o
  | _ => None
  end.
(** decode, lines 160-175. *)
Definition dec_space (j : json) : option space :=
  match j with
  | JObj o =>
      match dec_sets (get "forward_dependencies" o), dec_sets (get "backward_dependencies" o),
            dec_sets (get "forward_metrics" o), dec_sets (get "backward_metrics" o),
            match get "parameters" o with Some (JObj p) => dict_map dec_param p | _ => None end with
      | Some a, Some b, Some c, Some d, Some p => Some (Space a b c d p)
      | _, _, _, _, _ => None
      end
  | _ => None
  end.

(** A code generation target (lines 225-267): its arguments, its metrics, its
    parameters. *)
Record target := Target {
  arguments : list string;
  metrics : dict (list string);
  own_parameters : list param }.

(** d[k] = set() if absent; d[k].add(x) *)
Definition link (k x : string) (d : dict (list string)) : dict (list string) :=
  set k (sadd x (match get k d with Some l => l | None => [] end)) d.
Definition ensure (k : string) (d : dict (list string)) : dict (list string) :=
  match get k d with Some _ => d | None => set k [] d end.
Fixpoint add_params (ps : list param) (d : dict param) : option (dict param) :=
  match ps with
  | [] => Some d
  | p :: ps => match get (pname p) d with Some _ => None | None => add_params ps (set (pname p) p d) end
  end.
(** add_target, lines 177-206. *)
Definition add_target (file : string) (t : target) (s : space) : option space :=
  let fd := fold_left (fun d a => link file a d) (arguments t) (ensure file (forward_dependencies s)) in
  let bd := fold_left (fun d a => link a file d) (arguments t) (backward_dependencies s) in
  let bm := fold_left (fun d am => fold_left (fun d m => link (fst am) m d) (snd am) (ensure (fst am) d))
              (metrics t) (backward_metrics s) in
  let fm := fold_left (fun d am => fold_left (fun d m => link m (fst am) d) (snd am) d)
              (metrics t) (forward_metrics s) in
  option_map (fun ps => Space fd bd fm bm ps) (add_params (own_parameters t) (parameters s)).

(** get_value, lines 208-211; [args] is the argument file. *)
Definition get_value (s : space) (args : dict json) (a : string) : option value :=
  match get a args, get a (parameters s) with
  | Some j, Some p => parse_value p j
  | _, _ => None
  end.
(** generate(..., mode = "params"), lines 282-288: one file is read, extended and
    written back; None as file: it does not exist yet. *)
Definition generate_params (file : string) (t : target) (stored : option json) : option json :=
  match (match stored with None => Some empty_space | Some j => dec_space j end) with
  | Some s => option_map (fun s => dumped (enc_space s)) (add_target file t s)
  | None => None
  end.
Fixpoint generate_all (ts : list (string * target)) (stored : option json) : option (option json) :=
  match ts with
  | [] => Some stored
  | (f, t) :: ts =>
      match generate_params f t stored with
      | Some j => generate_all ts (Some j)
      | None => None
      end
  end.

(** ** The tuning read from an argument file *)

(** binned/deposit.py:53-67,98-99: pipe and unroll width of a kernel, given the vector
    width in elements and the two integers found in the argument file. *)
Definition read_vec (vector : bool) (ts pipe unroll : Z) : vec :=
  let lo := Z.max 1 ts in
  Vec vector ts (pow_parse lo (lo * 8) pipe) (int_parse 1 8 1 unroll).
(** binnedBLAS/amax.py:25-34,45. *)
Definition read_avec (ts unroll : Z) : avec :=
  let step := Z.max 1 ts in AVec ts (int_parse step (step * 8) step unroll).
(** common/blockSize.py:28-34 with the bounds of dmdsum.ccog:23 (dmzasum.ccog:23:
    [endurance] / 2). *)
Definition read_block (endurance n : Z) : Z := pow_parse 32 endurance n.
