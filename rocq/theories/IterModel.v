(** The tuple that simplex_iteration hands back. *)
From Coq Require Import List ZArith Qcanon.
From Verif Require Import Py LinearModel.

(** _linear.py:1164, 1180, 1194: the solution if the basis is optimal, the basis (1-based) unless
    the program was found unbounded, and the program *)
Definition iteration_result (it : iter) : option (list Qc) * option (list Z) * lp :=
  match it with
  | Optimal x B q => (Some x, Some (to_math_indexing B), q)
  | Unbounded _ _ q => (None, None, q)
  | Next B q => (None, Some (to_math_indexing B), q)
  end.
