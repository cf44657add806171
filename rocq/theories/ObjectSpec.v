(** What a program object requires of a point, and what numpy may answer. *)
From Coq Require Import String List Bool Arith ZArith QArith Qcanon.
From Verif Require Import Py QcTac QInt LinearModel LinearSpec IntegerModel IntegerSpec ObjectModel.
Import ListNotations.
Open Scope nat_scope.

(** every release of numpy answers False or raises ValueError *)
Definition some_release (np : numpy) : Prop :=
  (mismatch np = Ok false \/ mismatch np = Raise ValueError) /\ (empty_truth np = Ok false \/ empty_truth np = Raise ValueError).

(** the variables that have to be integers *)
Definition must_be_integral (o : object) (i : nat) : Prop :=
  match o with Linear _ => False | Integer p => required (integral_variables p) i end.
(** the points the object stands for *)
Definition admissible (o : object) (x : list Qc) : Prop :=
  feasible (meaning (base o)) x /\ forall i, i < length x -> must_be_integral o i -> isint (nth i x 0%Qc).
(** the best of them *)
Definition best_admissible (o : object) (x : list Qc) : Prop :=
  admissible o x /\ forall y, admissible o y -> as_good (meaning (base o)) (value (meaning (base o)) x) (value (meaning (base o)) y).

(** the objects a user can obtain *)
Definition reachable_object (o : object) : Prop := reachable (base o).
