(** Specification for branch and bound with rounding errors. *)
From Coq Require Import String List Bool Arith ZArith QArith Qcanon.
From Verif Require Import Py QcTac QInt ComparatorSpec MatModel LinearModel LinearSpec TwoPhaseProps IntegerModel IntegerSpec RoundedSpec RoundedSolveSpec RoundedRunSpec.
Import ListNotations.
Open Scope nat_scope.
Open Scope string_scope.
Open Scope list_scope.

(** the relaxations that exact branch and bound may meet, whichever optimal solutions it finds: a bound is added
    next to a fractional number of an optimal solution *)
Inductive relaxation (ints : option (list Z)) (p : lp) : lp -> Prop :=
| rx_root : relaxation ints p p
| rx_lower q x i r : relaxation ints p q -> optimal (meaning q) x -> i < length x -> required ints i -> ~ near_integer (nth i x 0%Qc) ->
    child q i "<=" (floor (nth i x 0%Qc)) = Ok r -> relaxation ints p r
| rx_higher q x i r : relaxation ints p q -> optimal (meaning q) x -> i < length x -> required ints i -> ~ near_integer (nth i x 0%Qc) ->
    child q i ">=" (ceil (nth i x 0%Qc)) = Ok r -> relaxation ints p r.
(** what C83 asks of a program that is solved: independent equations, whole numbers, small subdeterminants of the
    standard form, errors that are small compared with them, and not exactly twice as many columns as rows, except for [<=] and nonnegative right hand sides *)
Definition solvable_with (e : Qc) (q : lp) : Prop := exists K,
  0 < length (lA q) /\ independent_equations q /\ steady e K (fst (to_sef q)) /\
  (lsef q = true \/ length (lc (fst (to_sef q))) <> 2 * length (lA q) \/
    ((forall i, i < length (lA q) -> nth i (inequalities q) "=" = "<=") /\ (forall i, i < length (lb q) -> (0 <= nth i (lb q) 0)%Qc))).
(** [x] is within [t] of an integral feasible point, and no other one has a larger value *)
Definition next_to_best (t : Qc) (p : lp) (ints : option (list Z)) (x : list Qc) : Prop :=
  exists x0, feasible (meaning p) x0 /\ integral_point ints x0 /\ close_by t x x0 /\
    forall y, feasible (meaning p) y -> integral_point ints y -> (value (meaning p) y <= value (meaning p) x0)%Qc.
(** [x] is within [t] of an integral feasible point *)
Definition next_to_integral (t : Qc) (p : lp) (ints : option (list Z)) (x : list Qc) : Prop :=
  exists x0, feasible (meaning p) x0 /\ integral_point ints x0 /\ close_by t x x0.
