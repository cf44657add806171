(** Rationals that are integers. *)
From Coq Require Import List Bool Arith ZArith QArith Qcanon Lia.
From Verif Require Import QcTac.
Import ListNotations.

Definition isint (x : Qc) : Prop := exists z, x = qz z.
Lemma isint_add x y : isint x -> isint y -> isint (x + y)%Qc.
Proof.
  intros [a ->] [b ->]. exists (a + b)%Z. apply Qc_is_canon. unfold qz. rewrite this_plus, !this_Q2Qc.
  rewrite inject_Z_plus. reflexivity.
Qed.
Lemma isint_opp x : isint x -> isint (- x)%Qc.
Proof.
  intros [a ->]. exists (- a)%Z. apply Qc_is_canon. unfold qz. rewrite this_opp, !this_Q2Qc.
  rewrite inject_Z_opp. reflexivity.
Qed.
Lemma isint_sub x y : isint x -> isint y -> isint (x - y)%Qc.
Proof. intros. apply isint_add; auto. now apply isint_opp. Qed.
Lemma isint_mul x y : isint x -> isint y -> isint (x * y)%Qc.
Proof.
  intros [a ->] [b ->]. exists (a * b)%Z. apply Qc_is_canon. unfold qz. rewrite this_mult, !this_Q2Qc.
  rewrite inject_Z_mult. reflexivity.
Qed.
Lemma qz_le a b : (qz a <= qz b)%Qc <-> (a <= b)%Z.
Proof. unfold qz, Qcle. rewrite !this_Q2Qc. now rewrite <- Zle_Qle. Qed.
Lemma qz_lt a b : (qz a < qz b)%Qc <-> (a < b)%Z.
Proof. unfold qz, Qclt. rewrite !this_Q2Qc. now rewrite <- Zlt_Qlt. Qed.
Lemma qz_0 : qz 0 = 0%Qc. Proof. reflexivity. Qed.
Lemma qz_1 : qz 1 = 1%Qc. Proof. reflexivity. Qed.
Lemma isint_pos x : isint x -> (0 < x)%Qc -> (1 <= x)%Qc.
Proof. intros [a ->]. rewrite <- qz_0, <- qz_1, qz_lt, qz_le. lia. Qed.
Lemma den_int (x : Qc) : isint (qz (Zpos (Qden (this x))) * x)%Qc.
Proof.
  exists (Qnum (this x)). apply Qc_is_canon. unfold qz. rewrite this_mult, !this_Q2Qc.
  destruct (this x) as [n d]. unfold Qeq, Qmult, inject_Z. cbn [Qnum Qden]. rewrite Pos.mul_1_l, Z.mul_1_r. apply Z.mul_comm.
Qed.
Lemma common_den (l : list Qc) : exists D, (0 < D)%Z /\ forall x, In x l -> isint (qz D * x)%Qc.
Proof.
  induction l as [|x l (D & H1 & H2)].
  - exists 1%Z. split; [lia|]. intros ? [].
  - exists (Zpos (Qden (this x)) * D)%Z. split; [lia|].
    assert (E : qz (Zpos (Qden (this x)) * D) = (qz (Zpos (Qden (this x))) * qz D)%Qc).
    { apply Qc_is_canon. unfold qz. rewrite this_mult, !this_Q2Qc. rewrite inject_Z_mult. reflexivity. }
    rewrite E. intros y [<-|Hy].
    + replace (qz (Zpos (Qden (this x))) * qz D * x)%Qc with (qz D * (qz (Zpos (Qden (this x))) * x))%Qc by ring.
      apply isint_mul; [exists D; auto|apply den_int].
    + replace (qz (Zpos (Qden (this x))) * qz D * y)%Qc with (qz (Zpos (Qden (this x))) * (qz D * y))%Qc by ring.
      apply isint_mul; [eexists; eauto|auto].
Qed.

Lemma qz_add a b : qz (a + b) = (qz a + qz b)%Qc.
Proof. apply Qc_is_canon. unfold qz. rewrite this_plus, !this_Q2Qc, inject_Z_plus. reflexivity. Qed.
Lemma qz_mul a b : qz (a * b) = (qz a * qz b)%Qc.
Proof. apply Qc_is_canon. unfold qz. rewrite this_mult, !this_Q2Qc, inject_Z_mult. reflexivity. Qed.
Lemma qz_opp a : qz (- a) = (- qz a)%Qc.
Proof. apply Qc_is_canon. unfold qz. rewrite this_opp, !this_Q2Qc, inject_Z_opp. reflexivity. Qed.
Lemma qz_inj a b : qz a = qz b -> a = b.
Proof. intros H. assert (qz a <= qz b)%Qc by (rewrite H; apply Qcle_refl). assert (qz b <= qz a)%Qc by (rewrite H; apply Qcle_refl). rewrite qz_le in *. lia. Qed.
