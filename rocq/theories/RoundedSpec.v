(** Specification for the simplex method with rounding errors. *)
From Coq Require Import String List Bool Arith ZArith QArith Qcanon.
From Verif Require Import QcTac QInt MatModel LinearModel LinearSpec.
Import ListNotations.
Open Scope nat_scope.
Open Scope list_scope.

(** the sum of the absolute values of a list *)
Definition abs_sum (v : list Qc) : Qc := fold_right (fun a s => qabs a + s)%Qc 0%Qc v.
(** one more than the sum of the absolute values of all numbers of the program *)
Definition weight (p : lp) : Qc := (1 + abs_sum (concat (lA p)) + abs_sum (lb p) + abs_sum (lc p))%Qc.
(** the equations hold up to [t] *)
Definition satisfies_within (t : Qc) (p : lp) (x : list Qc) : Prop :=
  length x = length (lc p) /\
  forall i, i < length (lA p) -> (qabs (inner (nth i (lA p) []) x - nth i (lb p) 0) <= t)%Qc.
(** all numbers of the program are whole *)
Definition whole_numbers (p : lp) : Prop :=
  (forall r v, In r (lA p) -> In v r -> isint v) /\ (forall v, In v (lb p) -> isint v) /\ (forall v, In v (lc p) -> isint v).
(** no determinant of as many columns of [A | b] as there are rows exceeds [K] in absolute value *)
Definition minors_at_most (K : Z) (p : lp) : Prop :=
  forall s, length s = length (lA p) -> (forall j, In j s -> j <= length (lc p)) ->
    (qabs (mdet (columns_of s (append_column (lA p) (lb p)))) <= qz K)%Qc.
