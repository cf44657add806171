(** A whole modelling script,
      maximize(objective).subject_to(row, ..., row).where(sign, ..., sign).solve(),
    run with the model of pytimize/formulations (FormulationModel.v) and of LinearProgram.solve
    (LinearModel.v).  The order is Python's: the receiver first, arguments from left to right. *)
From Coq Require Import String List Bool Arith ZArith QArith Qcanon.
From Verif Require Import Py QcTac QSum MatModel LinearModel FormulationModel.
Import ListNotations.
Open Scope nat_scope.
Open Scope string_scope.
Open Scope list_scope.

(** [y_k <= 0], [y_k >= 0] for a Variable, and [x <= 0], [x >= 0] for all variables *)
Inductive sign_written := One (k : nat) (c : comparison_) | All (c : comparison_).
Record script := mkscript {
  s_max : bool;
  s_objective : expr;
  s_rows : list (expr * comparison_ * expr);
  s_signs : list sign_written }.
(** the arguments of [subject_to] (formulations/linear/_objective.py:21): each comparison evaluates its
    left side, then its right side, then compares (_equation.py:69-76, _variable.py:71-90) *)
Fixpoint build (rows : list (expr * comparison_ * expr)) (h : heap) : heap * res (list constraint) :=
  match rows with
  | [] => (h, Ok [])
  | (l, c, r) :: rows' =>
    match eval l h with
    | (h, Ok a) =>
      match eval r h with
      | (h, Ok b) =>
        match compare h c a b with
        | Ok k => let '(h, ks) := build rows' h in (h, do ks <- ks ; Ok (k :: ks))
        | Raise e => (h, Raise e)
        | Diverges => (h, Diverges)
        end
      | (h, Raise e) => (h, Raise e)
      | (h, Diverges) => (h, Diverges)
      end
    | (h, Raise e) => (h, Raise e)
    | (h, Diverges) => (h, Diverges)
    end
  end.
(** the arguments of [where] (_variable.py:20-30, 71-90) *)
Definition sign_constraint (s : sign_written) : res constraint :=
  match s with One k c => compare [] c (VVar k) (VNum 0%Qc) | All c => compare_all c 0%Qc end.
Fixpoint sign_constraints (l : list sign_written) : res (list constraint) :=
  match l with
  | [] => Ok []
  | s :: l' => do k <- sign_constraint s ; do ks <- sign_constraints l' ; Ok (k :: ks)
  end.
(** formulations/linear/_objective.py:59-70, 21-41 and _abstract.py:36-58 *)
Definition script_formulation (s : script) : res formulation :=
  match eval (s_objective s) [] with
  | (h, Ok a) =>
    do o <- optimise (if s_max s then "max" else "min") h a ;
    do cs <- snd (build (s_rows s) h) ;
    do f <- subject_to o cs ;
    do vs <- sign_constraints (s_signs s) ;
    match where_ f vs with
    | (f, Ok _) => Ok f
    | (_, Raise e) => Raise e
    | (_, Diverges) => Diverges
    end
  | (_, Raise e) => Raise e
  | (_, Diverges) => Diverges
  end.
(** _abstract.py:89-109 *)
Definition script_program (s : script) : res lp := do f <- script_formulation s ; snd (program f).
(** _abstract.py:33-34: [solve] is the method of the program *)
Definition script_solve (fuel : nat) (s : script) : res (option (list Qc)) := do p <- script_program s ; snd (solve fuel p).
