(** Specification of double precision numbers and of rounding to nearest.  Not covered: nan, infinities
    and overflow (there is no largest exponent here). *)
From Coq Require Import String List Bool Arith ZArith QArith Qcanon.
From Verif Require Import QcTac QInt.
Import ListNotations.
Open Scope nat_scope.
Open Scope list_scope.

Definition pow2 (e : Z) : Qc := Q2Qc (Qpower (2 # 1) e).
(** the numbers with a significand of 53 bits, down to the smallest subnormal number *)
Definition is_double (x : Qc) : Prop := exists m e : Z, (Z.abs m < 2 ^ 53)%Z /\ (-1074 <= e)%Z /\ x = (qz m * pow2 e)%Qc.
(** [y] is a double nearest to [x]; nothing is said about ties *)
Definition rounds (x y : Qc) : Prop := is_double y /\ forall d, is_double d -> (qabs (x - y) <= qabs (x - d))%Qc.
(** relative error and the absolute error near zero *)
Definition unit_roundoff : Qc := pow2 (-53).
Definition underflow : Qc := pow2 (-1075).

(** sums of products, exact and in absolute value *)
Definition exact_sum (l : list (Qc * Qc)) : Qc := fold_right (fun ax s => fst ax * snd ax + s)%Qc 0%Qc l.
Definition absolute_sum (l : list (Qc * Qc)) : Qc := fold_right (fun ax s => qabs (fst ax * snd ax) + s)%Qc 0%Qc l.
