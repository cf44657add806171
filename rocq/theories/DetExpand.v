(** Expansion of the determinant of MatModel along a column; equal columns. *)
From mathcomp Require Import all_ssreflect all_algebra.
From Coq Require List.
From Coq Require Import QArith Qcanon Lia.
From Verif Require Import QcTac QSum QInt MatModel DetTheory.
Set Implicit Arguments. Unset Strict Implicit. Unset Printing Implicit Defensive.
Import GRing.Theory.
Open Scope ring_scope.

Lemma det_column n f j : Peano.lt j (S n) ->
  det (S n) f = Sum (S n) (fun i => Qcmult (f i j) (alt (Nat.add i j) (det n (fun a b => f (skip i a) (skip j b))))).
Proof.
move=> /ltP Hj. rewrite -(det_mx n.+1 f) (expand_det_col _ (Ordinal Hj)) Sum_big. apply: eq_bigr => i _. by rewrite cofactor_mx mxE.
Qed.
Lemma det_equal_columns n f j k : Peano.lt j n -> Peano.lt k n -> j <> k -> (forall i, Peano.lt i n -> f i j = f i k) -> det n f = Q2Qc 0.
Proof.
move=> /ltP Hj /ltP Hk Hne E. rewrite -det_mx -mathcomp.algebra.matrix.det_tr.
apply: (@determinant_alternate _ _ _ (Ordinal Hj) (Ordinal Hk)).
- apply/eqP => X. apply: Hne. by move: X => [].
- move=> i. rewrite !mxE. apply: E. apply/ltP. exact: ltn_ord.
Qed.
(** a nonzero vector orthogonal to every column *)
Lemma det_left_kernel n f (v : nat -> Qc) k : Peano.lt k n -> v k <> Q2Qc 0 ->
  (forall j, Peano.lt j n -> Sum n (fun i => Qcmult (v i) (f i j)) = Q2Qc 0) -> det n f = Q2Qc 0.
Proof.
move=> /ltP Hk Hv E. rewrite -det_mx. apply/eqP. apply/det0P. exists (\row_(i < n) v i).
- apply/eqP => X. apply: Hv. move/matrixP: X => /(_ ord0 (Ordinal Hk)). by rewrite !mxE.
- apply/matrixP => a j. rewrite !mxE. apply: etrans; last exact: (E j (ltP (ltn_ord j))). rewrite Sum_big. apply: eq_bigr => i _. by rewrite !mxE.
Qed.
