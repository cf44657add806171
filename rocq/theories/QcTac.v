(** Linear arithmetic for canonical rationals [Qc], by transfer to [Q] and [lra]. *)
From Coq Require Import QArith Qcanon Lqa Bool ZArith.

Lemma this_plus (x y : Qc) : (this (x + y)%Qc == this x + this y)%Q.
Proof. apply Qred_correct. Qed.
Lemma this_minus (x y : Qc) : (this (x - y)%Qc == this x - this y)%Q.
Proof.
  unfold Qcminus. rewrite this_plus.
  assert (H : (this (- y)%Qc == - this y)%Q) by apply Qred_correct.
  rewrite H. reflexivity.
Qed.
Lemma this_opp (x : Qc) : (this (- x)%Qc == - this x)%Q.
Proof. apply Qred_correct. Qed.
Lemma this_mult (x y : Qc) : (this (x * y)%Qc == this x * this y)%Q.
Proof. apply Qred_correct. Qed.
Lemma this_Q2Qc (q : Q) : (this (Q2Qc q) == q)%Q.
Proof. apply Qred_correct. Qed.
Lemma Qc_eq_this (x y : Qc) : x = y -> (this x == this y)%Q.
Proof. intros ->. reflexivity. Qed.
Lemma Qc_neq_this (x y : Qc) : x <> y -> ~ (this x == this y)%Q.
Proof. intros H He. apply H. now apply Qc_is_canon. Qed.
Lemma Qc_inj_this (x y : Qc) : (this x == this y)%Q -> x = y.
Proof. apply Qc_is_canon. Qed.

(** pushing [this] through the operations, with the proof *)
Lemma pf_plus x y a b : (this x == a -> this y == b -> this (x + y)%Qc == a + b)%Q.
Proof. intros. rewrite this_plus. apply Qplus_comp; auto. Qed.
Lemma pf_minus x y a b : (this x == a -> this y == b -> this (x - y)%Qc == a - b)%Q.
Proof. intros. rewrite this_minus. apply Qplus_comp; auto. now apply Qopp_comp. Qed.
Lemma pf_mult x y a b : (this x == a -> this y == b -> this (x * y)%Qc == a * b)%Q.
Proof. intros. rewrite this_mult. apply Qmult_comp; auto. Qed.
Lemma pf_opp x a : (this x == a -> this (- x)%Qc == - a)%Q.
Proof. intros. rewrite this_opp. now apply Qopp_comp. Qed.
Lemma pf_le x y a b : (this x == a -> this y == b -> (x <= y)%Qc -> a <= b)%Q.
Proof. intros H1 H2 H. rewrite <- H1, <- H2. exact H. Qed.
Lemma pf_lt x y a b : (this x == a -> this y == b -> (x < y)%Qc -> a < b)%Q.
Proof. intros H1 H2 H. rewrite <- H1, <- H2. exact H. Qed.
Lemma pf_eq x y a b : (this x == a -> this y == b -> x = y -> a == b)%Q.
Proof. intros H1 H2 H. rewrite <- H1, <- H2, H. reflexivity. Qed.
Lemma pf_nle x y a b : (this x == a -> this y == b -> ~ (x <= y)%Qc -> ~ a <= b)%Q.
Proof. intros H1 H2 H. rewrite <- H1, <- H2. exact H. Qed.
Lemma pf_nlt x y a b : (this x == a -> this y == b -> ~ (x < y)%Qc -> ~ a < b)%Q.
Proof. intros H1 H2 H. rewrite <- H1, <- H2. exact H. Qed.
Lemma pf_neq x y a b : (this x == a -> this y == b -> x <> y -> ~ a == b)%Q.
Proof. intros H1 H2 H. rewrite <- H1, <- H2. intros E. apply H. now apply Qc_is_canon. Qed.
Lemma pg_le x y a b : (this x == a -> this y == b -> a <= b -> (x <= y)%Qc)%Q.
Proof. intros H1 H2 H. unfold Qcle. rewrite H1, H2. exact H. Qed.
Lemma pg_lt x y a b : (this x == a -> this y == b -> a < b -> (x < y)%Qc)%Q.
Proof. intros H1 H2 H. unfold Qclt. rewrite H1, H2. exact H. Qed.
Lemma pg_eq x y a b : (this x == a -> this y == b -> a == b -> x = y)%Q.
Proof. intros H1 H2 H. apply Qc_is_canon. rewrite H1, H2. exact H. Qed.

Ltac qpf t :=
  lazymatch t with
  | Qcplus ?x ?y => let p := qpf x in let r := qpf y in constr:(pf_plus x y _ _ p r)
  | Qcminus ?x ?y => let p := qpf x in let r := qpf y in constr:(pf_minus x y _ _ p r)
  | Qcmult ?x ?y => let p := qpf x in let r := qpf y in constr:(pf_mult x y _ _ p r)
  | Qcopp ?x => let p := qpf x in constr:(pf_opp x _ p)
  | Q2Qc ?q => constr:(this_Q2Qc q)
  | {| this := ?q; canon := _ |} => constr:(Qeq_refl q)
  | _ => constr:(Qeq_refl (this t))
  end.
Ltac qc_hyps :=
  repeat match goal with
  | H : @eq Qc ?x ?y |- _ => let p := qpf x in let r := qpf y in apply (pf_eq x y _ _ p r) in H
  | H : Qcle ?x ?y |- _ => let p := qpf x in let r := qpf y in apply (pf_le x y _ _ p r) in H
  | H : Qclt ?x ?y |- _ => let p := qpf x in let r := qpf y in apply (pf_lt x y _ _ p r) in H
  | H : not (@eq Qc ?x ?y) |- _ => let p := qpf x in let r := qpf y in apply (pf_neq x y _ _ p r) in H
  | H : not (Qcle ?x ?y) |- _ => let p := qpf x in let r := qpf y in apply (pf_nle x y _ _ p r) in H
  | H : not (Qclt ?x ?y) |- _ => let p := qpf x in let r := qpf y in apply (pf_nlt x y _ _ p r) in H
  end.
Ltac qc_goal :=
  lazymatch goal with
  | |- not _ => let H := fresh in intro H
  | |- @eq Qc ?x ?y => let p := qpf x in let r := qpf y in apply (pg_eq x y _ _ p r)
  | |- Qcle ?x ?y => let p := qpf x in let r := qpf y in apply (pg_le x y _ _ p r)
  | |- Qclt ?x ?y => let p := qpf x in let r := qpf y in apply (pg_lt x y _ _ p r)
  | |- _ => idtac
  end.

Ltac qclra := intros; qc_goal; qc_hyps; lra.
Ltac qcnra := intros; qc_goal; qc_hyps; nra.

Section Test.
  Open Scope Qc_scope.
  Goal forall x y z : Qc, x < y -> y + 1 <= z - (Q2Qc (1#2)) -> x < z. Proof. qclra. Qed.
  Goal forall x y : Qc, x - y = 0 -> x = y. Proof. qclra. Qed.
  Goal forall x y : Qc, x + y = 0 -> x <> 0 -> y <> 0. Proof. qclra. Qed.
  Goal forall x y : Qc, 0 <= x -> (1 - 0) * x <= (1 + 1) * x. Proof. qclra. Qed.
  Goal forall x y : Qc, ~ (x < y) -> y <= x + 0. Proof. qclra. Qed.
End Test.

(** Boolean comparisons on [Qc]. *)
Open Scope Qc_scope.
Definition qle (x y : Qc) : bool := Qle_bool (this x) (this y).
Definition qlt (x y : Qc) : bool := negb (Qle_bool (this y) (this x)).
Definition qeq (x y : Qc) : bool := Qeq_bool (this x) (this y).

Lemma qle_spec x y : reflect (x <= y) (qle x y).
Proof.
  unfold qle. destruct (Qle_bool (this x) (this y)) eqn:E; constructor.
  - now apply Qle_bool_iff in E.
  - intros H. apply Qle_bool_iff in H. congruence.
Qed.
Lemma qlt_spec x y : reflect (x < y) (qlt x y).
Proof.
  unfold qlt. destruct (Qle_bool (this y) (this x)) eqn:E; constructor.
  - apply Qle_bool_iff in E. qclra.
  - assert (~ (y <= x)). { intros H. apply Qle_bool_iff in H. congruence. } qclra.
Qed.
Lemma qeq_spec x y : reflect (x = y) (qeq x y).
Proof.
  unfold qeq. destruct (Qeq_bool (this x) (this y)) eqn:E; constructor.
  - apply Qeq_bool_iff in E. now apply Qc_is_canon.
  - intros H. apply Qc_eq_this in H. apply Qeq_bool_iff in H. congruence.
Qed.

(** integers as rationals *)
Definition qz (z : Z) : Qc := Q2Qc (inject_Z z).

Definition qabs (x : Qc) : Qc := if qlt x 0 then - x else x.
Definition qmin (x y : Qc) : Qc := if qle x y then x else y.
Definition qmax (x y : Qc) : Qc := if qle x y then y else x.

Lemma qabs_nonneg x : 0 <= qabs x.
Proof. unfold qabs. destruct (qlt_spec x 0); qclra. Qed.
