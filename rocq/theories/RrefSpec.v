(** Reduced row echelon form, independent of the model. *)
From Coq Require Import List Arith QArith Qcanon.
From Verif Require Import QSum MatModel.
Import ListNotations.
Open Scope nat_scope.

Definition rectangular (m n : nat) (M : list (list Qc)) : Prop := length M = m /\ forall r, In r M -> length r = n.
(** row i starts with zeros up to column c, has an entry satisfying [one] there, and the other
    entries of column c are zero *)
Definition leads (one : Qc -> Prop) (M : list (list Qc)) (i c : nat) : Prop :=
  one (ent M i c) /\ (forall j, j < c -> ent M i j = 0%Qc) /\ (forall k, k < length M -> k <> i -> ent M k c = 0%Qc).
(** the first rows lead in the columns [p], the other rows are zero *)
Definition leading_rows (one : Qc -> Prop) (n : nat) (M : list (list Qc)) (p : list nat) : Prop :=
  length p <= length M /\
  (forall i, i < length p -> nth i p 0 < n /\ leads one M i (nth i p 0)) /\
  (forall i j, length p <= i -> i < length M -> j < n -> ent M i j = 0%Qc).
Definition increasing (p : list nat) : Prop := forall i k, i < k -> k < length p -> nth i p 0 < nth k p 0.
Definition is_one (x : Qc) : Prop := x = 1%Qc.
Definition billionth : Qc := Q2Qc (1 # 1000000000).
(** within a relative distance of 10^-9 of 1 *)
Definition nearly_one (x : Qc) : Prop := (0 < x)%Qc /\ (1 - billionth <= x)%Qc /\ ((1 - billionth) * x <= 1)%Qc.

(** reduced row echelon form *)
Definition rref (n : nat) (M : list (list Qc)) : Prop := exists p, leading_rows is_one n M p /\ increasing p.
Definition nearly_rref (n : nat) (M : list (list Qc)) : Prop := exists p, leading_rows nearly_one n M p /\ increasing p.

(** v is a linear combination of the rows of M *)
Definition in_row_space (n : nat) (M : list (list Qc)) (v : nat -> Qc) : Prop :=
  exists w : nat -> Qc, forall j, j < n -> v j = Sum (length M) (fun i => (w i * ent M i j)%Qc).
Definition same_row_space (n : nat) (M N : list (list Qc)) : Prop := forall v, in_row_space n M v <-> in_row_space n N v.
Definition solves_homogeneous (n : nat) (M : list (list Qc)) (x : nat -> Qc) : Prop :=
  forall i, i < length M -> Sum n (fun j => (ent M i j * x j)%Qc) = 0%Qc.
