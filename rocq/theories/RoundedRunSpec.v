(** Specification for runs with rounding errors. *)
From Coq Require Import String List Bool Arith ZArith QArith Qcanon.
From Verif Require Import Py QcTac QInt MatModel LinearModel LinearSpec RoundedSpec RoundedSolveSpec.
Import ListNotations.
Open Scope nat_scope.
Open Scope list_scope.

(** whole numbers, subdeterminants of at most [K <= 300], and errors so small that they decide no comparison:
    [16 * e * (weight + 2 * rows) * (1 + rows * K) * K < 1e-10] *)
Record steady (e : Qc) (K : Z) (p : lp) : Prop := mksteady {
  st_whole : whole_numbers p;
  st_minors : subdeterminants_at_most K p;
  st_K : (1 <= K <= 300)%Z;
  st_e0 : (0 <= e)%Qc;
  st_e : let m := qz (Z.of_nat (length (lA p))) in
    (qz 16 * e * (weight p + qz 2 * m) * (1 + m * qz K) * qz K < Q2Qc (1 # 10000000000))%Qc }.
(** two results of simplex or two_phase_simplex with the same verdict and the same basis, and points that differ
    by at most [t]; nothing is said about the vectors that prove the verdict *)
Definition same_verdict (t : Qc) (r r0 : outcome) : Prop :=
  match r, r0 with
  | (Some x, B, CVec _), (Some x0, B0, CVec _) => B = B0 /\ close_by t x x0
  | (None, None, CPair x _), (None, None, CPair x0 _) => close_by t x x0
  | (None, None, CVec _), (None, None, CVec _) => True
  | _, _ => False
  end.
(** both raise the same exception, or both return and the results agree *)
Definition same_result (t : Qc) (o o0 : res outcome) : Prop :=
  match o, o0 with
  | Ok r, Ok r0 => same_verdict t r r0
  | Raise x, Raise x0 => x = x0
  | _, _ => False
  end.
(** two outcomes of solve: the same exception, None in both cases, or points that differ by at most [t] *)
Definition same_answer (t : Qc) (o o0 : res (option (list Qc))) : Prop :=
  match o, o0 with
  | Ok (Some x), Ok (Some x0) => close_by t x x0
  | Ok None, Ok None => True
  | Raise x, Raise x0 => x = x0
  | _, _ => False
  end.
