(** Specification of network programs: transportation, assignment and flow problems. *)
From Coq Require Import String List Bool Arith ZArith QArith Qcanon.
From Verif Require Import Py QcTac QSum QInt ComparatorModel MatModel LinearModel LinearSpec.
Import ListNotations.
Open Scope nat_scope.
Open Scope string_scope.
Open Scope list_scope.

(** up to the signs of the rows, every column has at most one entry 1 and at most one entry -1, and zeros
    elsewhere ([h] and [t] may lie outside the matrix) *)
Definition indicator (i k : nat) : Qc := if Nat.eqb i k then 1%Qc else 0%Qc.
Definition network_matrix (A : list (list Qc)) (m n : nat) : Prop :=
  exists side : nat -> bool, forall j, j < n -> exists h t, forall i, i < m ->
    nth j (nth i A []) 0%Qc = (let v := (indicator i h - indicator i t)%Qc in if side i then v else - v)%Qc.
(** the sum of the absolute values *)
Definition total (b : list Qc) : Qc := fold_right (fun v s => qabs v + s)%Qc 0%Qc b.
(** integer right hand sides of absolute sum at most 99 999; costs that are multiples of 1/e *)
Record network_program (p : lp) (e : Z) : Prop := mknetwork {
  nw_A : network_matrix (lA p) (length (lA p)) (length (lc p));
  nw_b : forall v, In v (lb p) -> isint v;
  nw_total : (total (lb p) <= qz 99999)%Qc;
  nw_e : (0 < e /\ e <= 10 ^ 10)%Z;
  nw_c : forall v, In v (lc p) -> isint (qz e * v)%Qc }.
(** every column has both of its entries in the matrix, as when a balance is written for every node of a network,
    or an equation for every supply and every demand *)
Definition complete_network (A : list (list Qc)) (m n : nat) : Prop :=
  exists side : nat -> bool, forall j, j < n -> exists h t, h < m /\ t < m /\ forall i, i < m ->
    nth j (nth i A []) 0%Qc = (let v := (indicator i h - indicator i t)%Qc in if side i then v else - v)%Qc.
