(** Specification for the tests of linear programs with overflow, infinities and nan. *)
From Coq Require Import String List Bool Arith ZArith QArith Qcanon.
From Verif Require Import QcTac LinearModel DoubleSpec FloatModel FloatSpec.
Import ListNotations.
Open Scope nat_scope.
Open Scope list_scope.

(** a sum of products with nothing to overflow: at most 2^52 terms, of at most 2^1000 in total *)
Definition moderate (l : list (Qc * Qc)) : Prop := (absolute_sum l <= pow2 1000)%Qc /\ (Z.of_nat (length l) <= 2 ^ 52)%Z.
(** the numbers of the program are floats *)
Definition float_program (p : lp) : Prop :=
  (forall v, In v (lb p) -> is_float (Fin v)) /\ (forall v, In v (lc p) -> is_float (Fin v)) /\ is_float (Fin (lz p)) /\
  (forall r v, In r (lA p) -> In v r -> is_float (Fin v)).
Definition finite (v : fnum) : Prop := exists x, v = Fin x.
