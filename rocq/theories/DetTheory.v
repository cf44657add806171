(** Facts about the determinant and the inverse of MatModel, obtained from mathcomp's matrices. *)
From mathcomp Require Import all_ssreflect all_algebra.
From Coq Require List.
From Coq Require Import QArith Qcanon Lia.
From Verif Require Import QcTac QSum QInt MatModel.
Set Implicit Arguments. Unset Strict Implicit. Unset Printing Implicit Defensive.

(** ** the field Qc *)
Definition qc_enc (x : Qc) : (bool * nat) * nat :=
  ((Z.ltb (Qnum (this x)) 0, Z.abs_nat (Qnum (this x))), Pos.to_nat (Qden (this x))).
Definition qc_dec (p : (bool * nat) * nat) : option Qc :=
  let: ((s, a), d) := p in
  Some (Q2Qc ((if s then Z.opp (Z.of_nat a) else Z.of_nat a) # Pos.of_nat d)).
Lemma qc_encK : pcancel qc_enc qc_dec.
Proof.
move=> x; rewrite /qc_enc /qc_dec; congr Some; apply: Qc_is_canon; rewrite this_Q2Qc Pos2Nat.id.
rewrite Zabs2Nat.id_abs; case: (this x) => a b /=.
case: (Z.ltb_spec a 0) => H; rewrite /Qeq /=; [rewrite Z.abs_neq | rewrite Z.abs_eq]; lia.
Qed.
Lemma qeqP : Equality.axiom qeq.
Proof. move=> x y; exact: qeq_spec. Qed.
Definition Qc_eqMixin := EqMixin qeqP.
Canonical Qc_eqType := Eval hnf in EqType Qc Qc_eqMixin.
Definition Qc_choiceMixin := PcanChoiceMixin qc_encK.
Canonical Qc_choiceType := Eval hnf in ChoiceType Qc Qc_choiceMixin.

Lemma qaddA : associative Qcplus. Proof. move=> x y z; apply: Qcplus_assoc. Qed.
Lemma qaddC : commutative Qcplus. Proof. move=> x y; apply: Qcplus_comm. Qed.
Lemma qadd0 : left_id (0 : Qc)%Qc Qcplus. Proof. move=> x; apply: Qcplus_0_l. Qed.
Lemma qaddN : left_inverse (0 : Qc)%Qc Qcopp Qcplus.
Proof. move=> x; rewrite Qcplus_comm; apply: Qcplus_opp_r. Qed.
Definition Qc_zmodMixin := ZmodMixin qaddA qaddC qadd0 qaddN.
Canonical Qc_zmodType := Eval hnf in ZmodType Qc Qc_zmodMixin.
Lemma qmulA : associative Qcmult. Proof. move=> x y z; apply: Qcmult_assoc. Qed.
Lemma qmulC : commutative Qcmult. Proof. move=> x y; apply: Qcmult_comm. Qed.
Lemma qmul1 : left_id (1 : Qc)%Qc Qcmult. Proof. move=> x; apply: Qcmult_1_l. Qed.
Lemma qmulD : left_distributive Qcmult Qcplus. Proof. move=> x y z; apply: Qcmult_plus_distr_l. Qed.
Lemma qone : (1 : Qc)%Qc != (0 : Qc)%Qc. Proof. by apply/eqP. Qed.
Definition Qc_ringMixin := ComRingMixin qmulA qmulC qmul1 qmulD qone.
Canonical Qc_ringType := Eval hnf in RingType Qc Qc_ringMixin.
Canonical Qc_comRingType := Eval hnf in ComRingType Qc qmulC.
Lemma qmulV (x : Qc) : x != (0 : Qc)%Qc -> Qcmult (Qcinv x) x = (1 : Qc)%Qc.
Proof. move/eqP=> H; apply: Qcmult_inv_l; exact: H. Qed.
Lemma qinv0 : Qcinv (0 : Qc)%Qc = (0 : Qc)%Qc. Proof. exact: Qc_is_canon. Qed.
Definition Qc_unitMixin := FieldUnitMixin qmulV qinv0.
Canonical Qc_unitRingType := Eval hnf in UnitRingType Qc Qc_unitMixin.
Canonical Qc_comUnitRingType := Eval hnf in [comUnitRingType of Qc].
Definition Qc_fieldMixin := @FieldMixin _ _ qmulV qinv0.
Definition Qc_idomainMixin := FieldIdomainMixin Qc_fieldMixin.
Canonical Qc_idomainType := Eval hnf in IdomainType Qc Qc_idomainMixin.
Canonical Qc_fieldType := Eval hnf in FieldType Qc Qc_fieldMixin.

Import GRing.Theory.
Open Scope ring_scope.

(** ** sums *)
Lemma SumS n (f : nat -> Qc) : Sum n.+1 f = f 0%N + Sum n (fun i => f i.+1).
Proof. by rewrite /Sum /= Sigma_cons -List.seq_shift Sigma_map. Qed.
Lemma Sum_big n (f : nat -> Qc) : Sum n f = \sum_(i < n) f i.
Proof. elim: n f => [|n IH] f; first by rewrite big_ord0. by rewrite SumS big_ord_recl IH. Qed.
Lemma alt_sign i (x : Qc) : alt i x = (-1) ^+ i * x.
Proof.
rewrite /alt -signr_odd. have -> : Nat.even i = ~~ odd i.
  elim: i => // i IH. rewrite Nat.even_succ -Nat.negb_even IH /=. by rewrite negbK; case: (odd i).
by case: (odd i) => /=; rewrite ?expr1 ?mulN1r ?expr0 ?mul1r.
Qed.
Lemma skip_bump i k : skip i k = bump i k.
Proof.
rewrite /skip /bump. case: (Nat.ltb_spec k i) => H; case: leqP => //.
- move/leP => H'; lia.
- move/ltP => H'; lia.
Qed.

(** ** the bridge *)
Definition mx n (f : nat -> nat -> Qc) : 'M[Qc]_n := \matrix_(i, j) f i j.

Lemma det_mx n f : \det (mx n f) = det n f.
Proof.
elim: n f => [|n IH] f; first by rewrite det_mx00.
rewrite (expand_det_row _ ord0) [det _ _]/= -/(Sum n.+1 _) Sum_big. apply: eq_bigr => j _.
rewrite alt_sign /cofactor mxE /= add0n -IH mulrCA. congr (_ * (_ * \det _)).
by apply/matrixP=> a b; rewrite !mxE /= skip_bump.
Qed.

Lemma cofactor_mx n f (i j : 'I_n) :
  cofactor (mx n f) i j = alt (i + j) (det n.-1 (fun a b => f (skip i a) (skip j b))).
Proof.
rewrite /cofactor alt_sign -det_mx. congr (_ * \det _). by apply/matrixP=> a b; rewrite !mxE !skip_bump.
Qed.

Lemma inverse_mx n f : det n f != 0 -> mx n (inverse n f) = invmx (mx n f).
Proof.
move=> H. rewrite /invmx unitmxE det_mx unitfE H. apply/matrixP=> i j.
by rewrite !mxE cofactor_mx addnC /inverse addnC /Qcdiv mulrC addnC.
Qed.

(** ** plain statements *)
Definition delta (i j : nat) : Qc := if Nat.eqb i j then Q2Qc 1 else Q2Qc 0.

Lemma delta_ord n (i j : 'I_n) : delta i j = (eq_op i j)%:R.
Proof.
rewrite /delta. case: (Nat.eqb_spec i j) => [/ord_inj ->|H]; first by rewrite eqxx.
by case: eqP => [E|//]; case: H; rewrite E.
Qed.

Lemma inverse_left n f i j : det n f <> Q2Qc 0 -> Peano.lt i n -> Peano.lt j n ->
  Sum n (fun k => Qcmult (inverse n f i k) (f k j)) = delta i j.
Proof.
move=> /eqP H /ltP Hi /ltP Hj. rewrite Sum_big.
have U : mx n f \in unitmx by rewrite unitmxE det_mx unitfE.
have := mulVmx U. rewrite -inverse_mx // => /matrixP /(_ (Ordinal Hi) (Ordinal Hj)). rewrite !mxE => E.
rewrite -[i]/(nat_of_ord (Ordinal Hi)) -[j]/(nat_of_ord (Ordinal Hj)) delta_ord -E. apply: eq_bigr => k _. by rewrite !mxE.
Qed.
Lemma inverse_right n f i j : det n f <> Q2Qc 0 -> Peano.lt i n -> Peano.lt j n ->
  Sum n (fun k => Qcmult (f i k) (inverse n f k j)) = delta i j.
Proof.
move=> /eqP H /ltP Hi /ltP Hj. rewrite Sum_big.
have U : mx n f \in unitmx by rewrite unitmxE det_mx unitfE.
have := mulmxV U. rewrite -inverse_mx // => /matrixP /(_ (Ordinal Hi) (Ordinal Hj)). rewrite !mxE => E.
rewrite -[i]/(nat_of_ord (Ordinal Hi)) -[j]/(nat_of_ord (Ordinal Hj)) delta_ord -E. apply: eq_bigr => k _. by rewrite !mxE.
Qed.
Lemma det_nonzero n f g : (forall i j, Peano.lt i n -> Peano.lt j n -> Sum n (fun k => Qcmult (g i k) (f k j)) = delta i j) ->
  det n f <> Q2Qc 0.
Proof.
move=> H. have E : mx n g *m mx n f = 1%:M.
  apply/matrixP=> i j. rewrite !mxE -delta_ord -(H i j); try (apply/ltP; exact: ltn_ord).
  rewrite Sum_big. apply: eq_bigr => k _. by rewrite !mxE.
move=> D. have := congr1 determinant E. rewrite det_mulmx det1 (det_mx n f) D mulr0 => X.
by have := oner_neq0 Qc_ringType; rewrite -X eqxx.
Qed.
Lemma det_ext n f g : (forall i j, Peano.lt i n -> Peano.lt j n -> f i j = g i j) -> det n f = det n g.
Proof.
move=> H. rewrite -!det_mx. congr (\det _). apply/matrixP=> i j. rewrite !mxE. apply: H; apply/ltP; exact: ltn_ord.
Qed.
Lemma det_tr n f : det n (fun i j => f j i) = det n f.
Proof.
rewrite -!det_mx -det_tr. congr (\det _). by apply/matrixP=> i j; rewrite !mxE.
Qed.
Lemma qswap (a b c : Qc) : Qcmult (Qcmult a b) c = Qcmult (Qcmult b c) a.
Proof. by rewrite -Qcmult_assoc [LHS]Qcmult_comm. Qed.
(** Cramer's rule *)
Definition replace_column (f : nat -> nat -> Qc) (c : nat) (v : nat -> Qc) : nat -> nat -> Qc :=
  fun i j => if Nat.eqb j c then v i else f i j.
Lemma cramer n f v i : Peano.lt i n ->
  Sum n (fun k => Qcmult (inverse n f i k) (v k)) = Qcdiv (det n (replace_column f i v)) (det n f).
Proof.
move=> /ltP Hi. rewrite -(det_mx n (replace_column _ _ _)) (expand_det_col _ (Ordinal Hi)) Sum_big /Qcdiv.
symmetry. apply: etrans; first exact: mulr_suml. apply: eq_bigr => k _.
rewrite cofactor_mx !mxE /replace_column Nat.eqb_refl /inverse.
rewrite (@det_ext n.-1 _ (fun a b => f (skip k a) (skip (Ordinal Hi) b))); last first.
  move=> a b _ _. case: Nat.eqb_spec => // /= E. exfalso. move: E. rewrite /skip /=. case: (Nat.ltb_spec b i) => ?; lia.
rewrite /Qcdiv (_ : Nat.add i k = addn k i); last by rewrite addnC. exact: qswap.
Qed.
(** integer entries *)
Lemma Sum_int n f : (forall i, Peano.lt i n -> isint (f i)) -> isint (Sum n f).
Proof.
elim: n f => [|n IH] f H; first by exists 0%Z; apply: Qc_is_canon.
rewrite SumS. apply: isint_add; first exact: (H O (Nat.lt_0_succ n)). apply: IH => i Hi. exact: (H i.+1 (proj1 (Nat.succ_lt_mono i n) Hi)).
Qed.
Lemma det_int n f : (forall i j, Peano.lt i n -> Peano.lt j n -> isint (f i j)) -> isint (det n f).
Proof.
elim: n f => [|n IH] f H; first by exists 1%Z; apply: Qc_is_canon.
rewrite [det _ _]/= -/(Sum n.+1 _). apply: Sum_int => j Hj. rewrite /alt.
have X : isint (Qcmult (f O j) (det n (fun a b => f a.+1 (skip j b)))).
  apply: isint_mul; first exact: (H O j (Nat.lt_0_succ n) Hj). apply: IH => a b Ha Hb. apply: H; first exact: (proj1 (Nat.succ_lt_mono a n) Ha).
  rewrite /skip. case: (Nat.ltb_spec b j) => ?; lia.
case: (Nat.even j) => //. exact: isint_opp.
Qed.
(** a matrix with trivial kernel is invertible *)
Lemma det_kernel n f : (forall v : nat -> Qc, (forall i, Peano.lt i n -> Sum n (fun k => Qcmult (f i k) (v k)) = Q2Qc 0) ->
  forall k, Peano.lt k n -> v k = Q2Qc 0) -> det n f <> Q2Qc 0.
Proof.
move=> H D. have D0 : eq_op (\det (mx n f)^T) 0 by apply/eqP; rewrite mathcomp.algebra.matrix.det_tr det_mx D.
case: (elimT (@det0P Qc_idomainType n (mx n f)^T) D0) => v Hv E. move/eqP: Hv => Hv. apply: Hv. apply/matrixP => a k. rewrite !mxE (ord1 a).
pose w i := if insub i is Some j then v ord0 j else 0.
have W (j : 'I_n) : w j = v ord0 j by rewrite /w valK.
rewrite -W. apply: (H w); last by apply/ltP; exact: ltn_ord.
move=> i /ltP Hi. move/matrixP: E => /(_ ord0 (Ordinal Hi)). rewrite !mxE => E. rewrite -[RHS]E Sum_big.
apply: eq_bigr => j _. by rewrite !mxE W Qcmult_comm.
Qed.
