(** Systems of equations A x = b and multiples of equations, independent of the model. *)
From Coq Require Import List Arith ZArith QArith Qcanon.
From Verif Require Import QcTac QSum MatModel.
Import ListNotations.
Open Scope nat_scope.

Definition rectangular (m n : nat) (M : list (list Qc)) : Prop := length M = m /\ forall r, In r M -> length r = n.
(** x satisfies all equations; [n] is the number of unknowns *)
Definition solves (n : nat) (A : list (list Qc)) (b x : list Qc) : Prop :=
  forall i, i < length A -> Sum n (fun j => (ent A i j * at_ x j)%Qc) = at_ b i.
(** equation [i]: the coefficients, and the right hand side as the last entry *)
Definition coefficient (n : nat) (A : list (list Qc)) (b : list Qc) (i j : nat) : Qc := if Nat.ltb j n then ent A i j else at_ b i.
(** the equation 0 = 0 *)
Definition trivial (n : nat) (A : list (list Qc)) (b : list Qc) (i : nat) : Prop := forall j, j <= n -> coefficient n A b i j = 0%Qc.
(** equation k is a multiple of equation i *)
Definition multiple_of (n : nat) (A : list (list Qc)) (b : list Qc) (i k : nat) : Prop :=
  exists t, forall j, j <= n -> coefficient n A b k j = (t * coefficient n A b i j)%Qc.
(** within a relative distance of 10^-9 *)
Definition close (x y : Qc) : Prop := (qabs (x - y) <= Q2Qc (1 # 1000000000) * qmax (qabs x) (qabs y))%Qc.
(** the first entries are not zero, zeros are at the same places, and all ratios of entries are close
    to the first one *)
Definition nearly_multiple (n : nat) (A : list (list Qc)) (b : list Qc) (i k : nat) : Prop :=
  coefficient n A b i 0 <> 0%Qc /\ coefficient n A b k 0 <> 0%Qc /\
  forall j, j <= n ->
    (coefficient n A b i j = 0%Qc /\ coefficient n A b k j = 0%Qc) \/
    (coefficient n A b i j <> 0%Qc /\ coefficient n A b k j <> 0%Qc /\
     (j = 0 \/ close (coefficient n A b i j / coefficient n A b k j) (coefficient n A b i 0 / coefficient n A b k 0))).
(** the equations numbered [ks] *)
Definition chosen (A : list (list Qc)) (b : list Qc) (ks : list nat) : list (list Qc) * list Qc := (map (fun k => nth k A []) ks, map (fun k => at_ b k) ks).
Definition increasing (p : list nat) : Prop := forall i k, i < k -> k < length p -> nth i p 0 < nth k p 0.
(** all numbers are whole, at most [N] in absolute value *)
Definition whole_up_to (N : Z) (n : nat) (A : list (list Qc)) (b : list Qc) : Prop :=
  forall i j, i < length A -> j <= n -> exists z, coefficient n A b i j = qz z /\ (Z.abs z <= N)%Z.
