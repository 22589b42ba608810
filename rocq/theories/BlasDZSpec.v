(** * Vocabulary for the absolute sums and norms of complex vectors *)
From Coq Require Import ZArith Bool List Lia.
From Flocq Require Import Core BinarySingleNaN.
From Verif Require Import Fp Mem Binned Spec Client Gen BlasZSpec.
Import ListNotations.
Open Scope Z_scope.

(** The 2 N real numbers that are the real and imaginary parts of the vector. *)
Definition components {t} (m : mem t) (X inc N : Z) : list (F t) :=
  flat_map (fun '(re, im) => [re; im]) (zread m X inc N).
(** The blocks [X, X + a) and [Y, Y + b) do not meet. *)
Definition blocks_apart (X a Y b : Z) : Prop := X + a <= Y \/ Y + b <= X.
(** Both memories agree except in the block [Y, Y + a) and the library's temporary block [A, A + b). *)
Definition unchanged_but {t} (Y a A b : Z) (m m' : mem t) : Prop :=
  forall x, ~ (Y <= x < Y + a) -> ~ (A <= x < A + b) -> m' x = m x.
(** Same, with two temporary blocks. *)
Definition unchanged_but2 {t} (Y a A b T c : Z) (m m' : mem t) : Prop :=
  forall x, ~ (Y <= x < Y + a) -> ~ (A <= x < A + b) -> ~ (T <= x < T + c) -> m' x = m x.
