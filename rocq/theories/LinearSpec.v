(** What a linear program means, independently of how pytimize computes with it:
    points, feasibility, objective value, optimality, infeasibility, unboundedness. *)
From Coq Require Import String List Bool Arith ZArith QArith Qcanon.
From Verif Require Import Py QcTac LinearModel.
Import ListNotations.
Open Scope nat_scope.
Open Scope string_scope.
Open Scope list_scope.

Inductive relation := Equal | AtMost | AtLeast.
Inductive sign := Nonnegative | Nonpositive | Unrestricted.

(** [maximise] or minimise [costs . x + constant] subject to [coefficients x <relations> rhs] and
    the sign restrictions *)
Record problem := mkproblem {
  coefficients : list (list Qc);
  rhs : list Qc;
  costs : list Qc;
  constant : Qc;
  maximise : bool;
  relations : list relation;
  signs : list sign }.

Fixpoint inner (u v : list Qc) : Qc :=
  match u, v with
  | x :: u', y :: v' => (x * y + inner u' v')%Qc
  | _, _ => 0%Qc
  end.

Definition related (r : relation) (lhs rhs : Qc) : Prop :=
  match r with Equal => lhs = rhs | AtMost => (lhs <= rhs)%Qc | AtLeast => (rhs <= lhs)%Qc end.
Definition signed (s : sign) (x : Qc) : Prop :=
  match s with Nonnegative => (0 <= x)%Qc | Nonpositive => (x <= 0)%Qc | Unrestricted => True end.

Definition feasible (P : problem) (x : list Qc) : Prop :=
  length x = length (costs P) /\
  (forall i, i < length (rhs P) ->
     related (nth i (relations P) Equal) (inner (nth i (coefficients P) []) x) (nth i (rhs P) 0%Qc)) /\
  (forall j, j < length (costs P) -> signed (nth j (signs P) Nonnegative) (nth j x 0%Qc)).

Definition value (P : problem) (x : list Qc) : Qc := (inner (costs P) x + constant P)%Qc.

(** [v] is at least as good as [w] *)
Definition as_good (P : problem) (v w : Qc) : Prop := if maximise P then (w <= v)%Qc else (v <= w)%Qc.

Definition optimal (P : problem) (x : list Qc) : Prop :=
  feasible P x /\ forall y, feasible P y -> as_good P (value P x) (value P y).
Definition infeasible (P : problem) : Prop := forall x, ~ feasible P x.
Definition unbounded (P : problem) : Prop := forall M : Qc, exists x, feasible P x /\ as_good P (value P x) M.

(** The problem that a LinearProgram object stands for, read off its public properties [A], [b],
    [c], [z], [objective], [inequalities], [free_variables], [negative_variables]. *)
Definition relation_of (s : string) : relation :=
  if String.eqb s "<=" then AtMost else if String.eqb s ">=" then AtLeast else Equal.
Definition sign_of (free negative : list Z) (j : nat) : sign :=
  if existsb (Z.eqb (Z.of_nat (S j))) free then Unrestricted
  else if existsb (Z.eqb (Z.of_nat (S j))) negative then Nonpositive
  else Nonnegative.
Definition meaning (p : lp) : problem :=
  mkproblem (lA p) (lb p) (lc p) (lz p) (String.eqb (lobj p) "max")
    (map relation_of (inequalities p))
    (map (sign_of (free_variables p) (negative_variables p)) (seq 0 (length (lc p)))).

(** arrays as numpy can hold them: all rows of a matrix have the same length *)
Definition source_ok (s : source) : Prop :=
  match s with Nd (Mat n rows) => Forall (fun r => length r = n) rows | _ => True end.

(** the programs a user can obtain: from the constructor, then by any sequence of the methods that
    change the program in place, among them calls of the simplex methods that raise.  (A call of
    [add_variable] that raises is left out: see C43_failed_add_variable_refuted.) *)
Inductive reachable : lp -> Prop :=
| r_new A b c z objective ineq free neg p :
    source_ok A -> linear_program A b c z objective ineq free neg = Ok p -> reachable p
| r_constraint p a op v : reachable p -> reachable (fst (add_constraint p a op v))
| r_variable p c column free neg p' :
    reachable p -> add_variable p c column free neg = (p', Ok tt) -> reachable p'
| r_sef p : reachable p -> reachable (fst (to_sef p))
| r_canonical p B q : reachable p -> to_canonical_form p B = Ok q -> reachable q
| r_iteration p B : reachable p -> reachable (simplex_iteration_program p B)
| r_simplex fuel p B : reachable p -> reachable (fst (simplex fuel p B))
| r_two_phase fuel p : reachable p -> reachable (fst (two_phase_simplex fuel p))
| r_dual p : reachable p -> reachable (dual p).
