(** Specification for the comparator on double precision numbers. *)
From Coq Require Import String List Bool Arith ZArith QArith Qcanon.
From Verif Require Import QcTac DoubleSpec FloatModel.
Import ListNotations.
Open Scope nat_scope.
Open Scope list_scope.

(** the values of the type float: finite doubles up to the largest one, infinities, nan *)
Definition is_float (v : fnum) : Prop :=
  match v with Fin x => is_double x /\ (- max_double <= x /\ x <= max_double)%Qc | _ => True end.
(** a double whose significand is even *)
Definition even_double (y : Qc) : Prop :=
  exists m e : Z, (Z.abs m < 2 ^ 53 /\ -1074 <= e /\ (2 ^ 52 <= Z.abs m \/ e = -1074))%Z /\ Z.even m = true /\ y = (qz m * pow2 e)%Qc.

(** the order of the extended numbers; nan is not comparable *)
Definition below (a b : fnum) : Prop :=
  match a, b with
  | NaN, _ | _, NaN => False
  | Fin x, Fin y => (x < y)%Qc
  | PInf, _ | _, NInf => False
  | _, _ => True
  end.
Definition at_most (a b : fnum) : Prop := below a b \/ (a = b /\ a <> NaN).

(** distance between two rationals *)
Definition distance (x y : Qc) : Qc := qabs (x - y).
(** what numpy.isclose allows around [t] when nothing is rounded: 1e-8 + 1e-5 * |t| *)
Definition allowance (t : Qc) : Qc := (Q2Qc (1 # 100000000) + Q2Qc (1 # 100000) * qabs t)%Qc.
(** relative slack left by the rounding of the operations *)
Definition slack : Qc := pow2 (-50).
