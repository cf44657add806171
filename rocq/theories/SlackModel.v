(** Model of LinearProgram.cs_conditions, pytimize/programs/_linear.py:658-697. *)
From Coq Require Import String List Bool Arith ZArith QArith Qcanon.
From Verif Require Import Py QcTac ComparatorModel MatModel LinearModel.
Import ListNotations.
Open Scope nat_scope.
Open Scope string_scope.
Open Scope list_scope.

(** One line of the returned text, [yi = 0 || a1x1 + a2x2 + ... = b] or [xi = 0 || a1y1 + ... = b]:
    whether the variable is dual ([y]), its number minus 1, the coefficients and the right-hand side.
    Simplification: the lines are kept as data, the text of the numbers is not modelled. *)
Record condition := mkcondition { of_dual : bool; variable : nat; equation : list Qc; right_side : Qc }.
(** lines 672-682 and 684-695: one condition for every inequality of [q], about the variables of the
    other program *)
Definition conditions_of (d : bool) (q : lp) : list condition :=
  flat_map (fun i => if dmem Nat.eqb i (lineq q) then [mkcondition d i (nth i (lA q) []) (at_ (lb q) i)] else [])
    (seq 0 (length (lb q))).
(** lines 658-697 *)
Definition cs_conditions (p : lp) : list condition := conditions_of true p ++ conditions_of false (dual p).
