(** A modelling script whose program is solved with rounding errors: formulations/linear/_objective.py:21-70,
    formulations/linear/_abstract.py:33-109 as in ScriptModel.v, and LinearProgram.solve as in RoundedRunModel.v.
    The program is built exactly: for whole numbers of moderate size the additions, subtractions and products of
    _equation.py are exact in double precision. *)
From Coq Require Import List ZArith QArith Qcanon.
From Verif Require Import Py LinearModel FormulationModel ScriptModel RoundedRunModel.

(** _abstract.py:33-34: the script can end with [o] ... *)
Definition run_script (e : Qc) (s : script) (o : res (option (list Qc))) : Prop :=
  match script_program s with
  | Ok p => run_solve e p o
  | Raise x => o = Raise x
  | Diverges => False
  end.
(** ... or does not end *)
Definition script_hangs (e : Qc) (s : script) : Prop :=
  match script_program s with
  | Ok p => solve_hangs e p
  | Raise _ => False
  | Diverges => True
  end.
