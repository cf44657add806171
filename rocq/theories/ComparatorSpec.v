(** Vocabulary for C01-C02, independent of the model. *)
From Coq Require Import QArith Qcanon ZArith.
Open Scope Qc_scope.

(** [v] is within [e] of [t] *)
Definition within (e v t : Qc) : Prop := t - e <= v /\ v <= t + e.
Definition strictly_within (e v t : Qc) : Prop := t - e < v /\ v < t + e.

Definition eps10 : Qc := Q2Qc (1 # 10000000000).
(** allowed deviation from a nonzero [t]: 1e-8 + 1e-5 * |t| *)
Definition eps_rel (t : Qc) : Qc :=
  Q2Qc (1 # 100000000) +
  Q2Qc (1 # 100000) * (match t ?= 0 with Lt => - t | _ => t end).

(** documented notion of "v counts as equal to t" *)
Definition near (v t : Qc) : Prop :=
  (t = 0 /\ strictly_within eps10 v 0) \/ (t <> 0 /\ within (eps_rel t) v t).

Definition near_integer (v : Qc) : Prop :=
  exists n : Z, strictly_within eps10 v (Q2Qc (inject_Z n)).
