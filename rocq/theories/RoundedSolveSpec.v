(** Specification for two_phase_simplex and solve with rounding errors. *)
From Coq Require Import String List Bool Arith ZArith QArith Qcanon.
From Verif Require Import QcTac QInt MatModel DetTheory LinearModel LinearSpec RoundedSpec.
Import ListNotations.
Open Scope nat_scope.
Open Scope list_scope.

(** the matrix [A | I | b] *)
Definition bordered (p : lp) (i k : nat) : Qc :=
  if Nat.ltb k (length (lc p)) then ent (lA p) i k
  else if Nat.ltb k (length (lc p) + length (lA p)) then (if Nat.eqb i (k - length (lc p)) then 1%Qc else 0%Qc)
  else nth i (lb p) 0%Qc.
(** no determinant of as many columns of [A | I | b] as there are rows exceeds [K] in absolute value; equivalently,
    no square submatrix of [A | b] has a larger one *)
Definition subdeterminants_at_most (K : Z) (p : lp) : Prop :=
  forall s, length s = length (lA p) -> (forall j, In j s -> j <= length (lc p) + length (lA p)) ->
    (qabs (det (length (lA p)) (fun i j => bordered p i (nth j s 0%nat))) <= qz K)%Qc.
(** whole numbers, and errors that are small compared with the sizes of the numbers and the determinants:
    [8 * e * (weight + 2 * rows) * (1 + rows * K) < 1e-10] *)
Record accurate (e : Qc) (K : Z) (p : lp) : Prop := mkaccurate {
  ac_whole : whole_numbers p;
  ac_minors : subdeterminants_at_most K p;
  ac_K : (1 <= K <= 10 ^ 9)%Z;
  ac_e : let m := qz (Z.of_nat (length (lA p))) in
    (qz 8 * e * (weight p + qz 2 * m) * (1 + m * qz K) < Q2Qc (1 # 10000000000))%Qc }.
(** every entry of [u] is within [t] of that of [v] *)
Definition close_by (t : Qc) (u v : list Qc) : Prop :=
  length u = length v /\ forall j, j < length u -> (qabs (nth j u 0 - nth j v 0) <= t)%Qc.
(** [y] proves that no point of the program in standard form has a value above that of [x] *)
Definition proves_optimal (p : lp) (x y : list Qc) : Prop :=
  length y = length (lA p) /\ (forall j, j < length (lc p) -> (nth j (lc p) 0 <= inner y (map (fun r => nth j r 0%Qc) (lA p)))%Qc) /\ inner y (lb p) = inner (lc p) x.
(** [y] proves that the program in standard form has no feasible point *)
Definition proves_infeasible (p : lp) (y : list Qc) : Prop :=
  length y = length (lA p) /\ (forall j, j < length (lc p) -> (0 <= inner y (map (fun r => nth j r 0%Qc) (lA p)))%Qc) /\ (inner y (lb p) < 0)%Qc.
