(** Vocabulary for C86: capacities on which double precision arithmetic is exact. *)
From Coq Require Import String List ZArith QArith Qcanon Permutation.
From Verif Require Import QcTac QInt DoubleSpec FlowSpec.
Import ListNotations.
Open Scope list_scope.

(** a multiple of [2 ^ -p] *)
Definition on_grid (p : Z) (x : Qc) : Prop := exists z, x = (qz z * pow2 (- p))%Qc.
(** all capacities are multiples of [2 ^ -p] (whole numbers when [p] is 0) and together they make less than
    [2 ^ 53] such units *)
Definition exact_capacities (arcs : list ((string * string) * Qc)) : Prop :=
  exists p, (0 <= p <= 1074)%Z /\ (forall a c, In (a, c) arcs -> on_grid p c) /\
    (total (map snd arcs) < pow2 (53 - p))%Qc.
Definition double_capacities (arcs : list ((string * string) * Qc)) : Prop :=
  forall a c, In (a, c) arcs -> is_double c.
(** the order in which a set is iterated: all its elements, each once *)
Definition some_order {A} (order : list A -> list A) : Prop := forall l, Permutation (order l) l.
(** one unit of error: [2 ^ -50] times the largest capacity *)
Definition error_unit (M : Qc) : Qc := (pow2 (-50) * M)%Qc.
Definition times (n : nat) (x : Qc) : Qc := (qz (Z.of_nat n) * x)%Qc.
