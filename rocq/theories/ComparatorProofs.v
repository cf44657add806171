(** Lemmas for C01-C02. *)
From Coq Require Import QArith Qcanon List Bool String ZArith Qround Lqa Lia.
From Verif Require Import Py QcTac ComparatorModel ComparatorSpec.
Import ListNotations.
Open Scope Qc_scope.

Lemma Qccompare_spec_lt (t : Qc) : (match t ?= 0 with Lt => - t | _ => t end) = qabs t.
Proof.
  unfold qabs. destruct (qlt_spec t 0) as [H|H].
  - rewrite (proj1 (Qclt_alt t 0) H). reflexivity.
  - destruct (t ?= 0) eqn:E; auto.
    exfalso; apply H; now apply Qclt_alt.
Qed.

Lemma eps10_pos : 0 < eps10. Proof. reflexivity. Qed.

Lemma close_zero_spec v : reflect (strictly_within eps10 v 0) (is_close_to_zero v).
Proof.
  unfold is_close_to_zero. change tol_zero with eps10.
  apply iff_reflect. unfold strictly_within, qabs.
  generalize eps10 as e. intros e.
  destruct (qlt_spec v 0); destruct (qlt_spec (- v) e); destruct (qlt_spec v e);
    (split; [intros [? ?]; try reflexivity; exfalso; qclra | intros; try discriminate; split; qclra]).
Qed.

Lemma np_isclose_spec v t : reflect (within (eps_rel t) v t) (np_isclose v t).
Proof.
  unfold np_isclose. 
  assert (Hr : np_atol + np_rtol * qabs t = eps_rel t).
  { unfold eps_rel. now rewrite Qccompare_spec_lt. }
  rewrite Hr. generalize (eps_rel t) as e. intros e.
  apply iff_reflect. unfold within, qabs.
  destruct (qlt_spec (v - t) 0);
  match goal with |- context [qle ?a ?b] => destruct (qle_spec a b) end;
    (split; [intros [? ?]; try reflexivity; exfalso; qclra | intros; try discriminate; split; qclra]).
Qed.

Lemma comparator_spec v t : reflect (near v t) (comparator t v).
Proof.
  unfold comparator, near. destruct (qeq_spec t 0) as [->|Hn].
  - destruct (close_zero_spec v) as [H|H]; constructor; intuition.
  - destruct (np_isclose_spec v t) as [H|H]; constructor; intuition.
Qed.

Lemma cc_ge_spec v t : cc_ge v t = true <-> (t <= v \/ near v t).
Proof.
  unfold cc_ge. destruct (comparator_spec v t); destruct (qle_spec t v); simpl; intuition discriminate.
Qed.
Lemma cc_le_spec v t : cc_le v t = true <-> (v <= t \/ near v t).
Proof.
  unfold cc_le. destruct (comparator_spec v t); destruct (qle_spec v t); simpl; intuition discriminate.
Qed.
Lemma cc_gt_spec v t : cc_gt v t = true <-> (t < v /\ ~ near v t).
Proof.
  unfold cc_gt. destruct (comparator_spec v t); destruct (qlt_spec t v); simpl; intuition discriminate.
Qed.
Lemma cc_lt_spec v t : cc_lt v t = true <-> (v < t /\ ~ near v t).
Proof.
  unfold cc_lt. destruct (comparator_spec v t); destruct (qlt_spec v t); simpl; intuition discriminate.
Qed.

Lemma qle_negb_qlt a b : qle a b = negb (qlt b a).
Proof. destruct (qle_spec a b); destruct (qlt_spec b a); simpl; auto; exfalso; qclra. Qed.

Lemma cc_ge_lt v t : cc_ge v t = negb (cc_lt v t).
Proof. unfold cc_ge, cc_lt. rewrite qle_negb_qlt. now destruct (comparator t v), (qlt v t). Qed.
Lemma cc_le_gt v t : cc_le v t = negb (cc_gt v t).
Proof. unfold cc_le, cc_gt. rewrite qle_negb_qlt. now destruct (comparator t v), (qlt t v). Qed.

Lemma eps_rel_nonneg t : 0 <= eps_rel t.
Proof.
  unfold eps_rel. rewrite Qccompare_spec_lt. pose proof (qabs_nonneg t).
  change (Q2Qc (1 # 100000000)) with np_atol. change (Q2Qc (1#100000)) with np_rtol.
  assert (0 <= np_rtol * qabs t).
  { assert (0 <= np_rtol) by (unfold Qcle; vm_compute; discriminate). qcnra. }
  assert (0 <= np_atol) by (unfold Qcle; vm_compute; discriminate).
  qclra.
Qed.

Lemma near_between v v' t : near v t -> (v <= v' /\ v' <= t) \/ (t <= v' /\ v' <= v) -> near v' t.
Proof.
  unfold near, within, strictly_within. pose proof eps10_pos as He. pose proof (eps_rel_nonneg t) as Hr.
  revert He Hr. generalize eps10 (eps_rel t). intros e r He Hr.
  intros [[Ht [H1 H2]]|[Ht [H1 H2]]] Hb.
  - left. split; auto. subst t. destruct Hb as [[? ?]|[? ?]]; split; qclra.
  - right. split; auto. destruct Hb as [[? ?]|[? ?]]; split; qclra.
Qed.

Lemma cc_ge_mono v v' t : v <= v' -> cc_ge v t = true -> cc_ge v' t = true.
Proof.
  intros Hle. rewrite !cc_ge_spec. intros [H|H].
  - left. qclra.
  - destruct (qle_spec t v'); [now left|right].
    apply (near_between v); auto. left. split; auto. qclra.
Qed.
Lemma cc_le_anti v v' t : v' <= v -> cc_le v t = true -> cc_le v' t = true.
Proof.
  intros Hle. rewrite !cc_le_spec. intros [H|H].
  - left. qclra.
  - destruct (qle_spec v' t); [now left|right].
    apply (near_between v); auto. right. split; auto. qclra.
Qed.

(** the same facts through the string-keyed entry point *)
Lemma icc_invalid v op t :
  ~ In op [">="%string; ">"%string; "<="%string; "<"%string] ->
  is_close_compare v op t = Raise ValueError.
Proof.
  intros H. unfold is_close_compare.
  repeat match goal with |- context [String.eqb ?a ?b] =>
    destruct (String.eqb_spec a b); [exfalso; apply H; subst; simpl; tauto|] end.
  reflexivity.
Qed.

Lemma icca_spec vs op t b :
  is_close_compare_array vs op t = Ok b ->
  (b = true <-> forall v, In v vs -> is_close_compare v op t = Ok true).
Proof.
  unfold is_close_compare_array, is_close_compare.
  repeat match goal with |- context [if String.eqb ?a ?b then _ else _] =>
    destruct (String.eqb a b) end; try discriminate;
  intros H; inversion H; subst; rewrite forallb_forall;
  (split; intros Hx v Hv; [rewrite Hx; auto | specialize (Hx v Hv); now inversion Hx]).
Qed.

Lemma icca_total vs op t :
  (exists b, is_close_compare_array vs op t = Ok b) <-> (exists b, is_close_compare 0 op t = Ok b).
Proof.
  unfold is_close_compare_array, is_close_compare.
  repeat match goal with |- context [if String.eqb ?a ?b then _ else _] =>
    destruct (String.eqb a b); [split; intros _; eauto|] end.
  split; intros [? ?]; discriminate.
Qed.

(** is_integer *)
Lemma int_of_bounds x : int_of x <= x /\ x < int_of x + 1.
Proof.
  unfold int_of. split.
  - unfold Qcle. rewrite this_Q2Qc. apply Qfloor_le.
  - unfold Qclt. rewrite this_plus, this_Q2Qc.
    pose proof (Qlt_floor (this x)) as H.
    rewrite inject_Z_plus in H. exact H.
Qed.

Lemma Qc_of_Z_opp n : Q2Qc (inject_Z (- n)) = - Q2Qc (inject_Z n).
Proof.
  apply Qc_is_canon. rewrite this_opp, !this_Q2Qc. rewrite inject_Z_opp. reflexivity.
Qed.
Lemma Qc_of_Z_add n m : Q2Qc (inject_Z (n + m)) = Q2Qc (inject_Z n) + Q2Qc (inject_Z m).
Proof.
  apply Qc_is_canon. rewrite this_plus, !this_Q2Qc. rewrite inject_Z_plus. reflexivity.
Qed.
Lemma Qc_of_Z_le n m : (n <= m)%Z -> Q2Qc (inject_Z n) <= Q2Qc (inject_Z m).
Proof.
  intros H. unfold Qcle. rewrite !this_Q2Qc. now rewrite <- Zle_Qle.
Qed.
Lemma Qc_of_Z_1 : Q2Qc (inject_Z 1) = 1. Proof. now apply Qc_is_canon. Qed.
Lemma Qc_of_Z_le_lt n m : Q2Qc (inject_Z n) < Q2Qc (inject_Z m) + 1 -> (n <= m)%Z.
Proof.
  intros H. destruct (Z_le_gt_dec n m) as [|Hg]; auto. exfalso.
  assert (H1 : (m + 1 <= n)%Z) by lia. apply Qc_of_Z_le in H1.
  rewrite Qc_of_Z_add, Qc_of_Z_1 in H1. qclra.
Qed.

Lemma near_integer_opp v : near_integer v -> near_integer (- v).
Proof.
  intros [n [H1 H2]]. exists (- n)%Z. rewrite Qc_of_Z_opp.
  revert H1 H2. generalize eps10 (Q2Qc (inject_Z n)). intros e q H1 H2. split; qclra.
Qed.
Lemma near_integer_abs v : near_integer (qabs v) <-> near_integer v.
Proof.
  unfold qabs. destruct (qlt v 0); [|tauto]. split; intros H.
  - apply near_integer_opp in H. now rewrite Qcopp_involutive in H.
  - now apply near_integer_opp.
Qed.

Lemma eps10_lt_half : eps10 < Q2Qc (1#2). Proof. reflexivity. Qed.

Lemma is_integer_spec v : reflect (near_integer v) (is_integer v).
Proof.
  apply iff_reflect. rewrite <- (near_integer_abs v).
  unfold is_integer. generalize (qabs v) as x. clear v. intros x.
  destruct (int_of_bounds x) as [Hb1 Hb2].
  pose proof eps10_lt_half as Hh. pose proof eps10_pos as Hp.
  set (k := Qfloor (this x)). 
  assert (Hk : int_of x = Q2Qc (inject_Z k)) by reflexivity.
  rewrite Hk in *.
  split.
  - intros [n [H1 H2]].
    assert (Hn : (k <= n <= k + 1)%Z).
    { split; apply Qc_of_Z_le_lt; rewrite ?Qc_of_Z_add, ?Qc_of_Z_1; qclra. }
    assert (Hc : n = k \/ n = (k + 1)%Z) by lia.
    destruct (qlt_spec (Q2Qc (1#2)) (x - Q2Qc (inject_Z k))) as [Hl|Hl];
    match goal with |- is_close_to_zero ?u = true => destruct (close_zero_spec u) as [|Hx]; auto; exfalso; apply Hx end;
    clear Hx; destruct Hc as [-> | ->];
    rewrite ?Qc_of_Z_add, ?Qc_of_Z_1 in *; split; qclra.
  - destruct (qlt_spec (Q2Qc (1#2)) (x - Q2Qc (inject_Z k))) as [Hl|Hl]; intros H;
    match type of H with is_close_to_zero ?u = true => destruct (close_zero_spec u) as [[Hx Hy]|]; [|discriminate] end.
    + exists (k + 1)%Z. rewrite Qc_of_Z_add, Qc_of_Z_1. split; qclra.
    + exists k. split; qclra.
Qed.

Lemma is_integer_array_spec vs :
  is_integer_array vs = true <-> forall v, In v vs -> near_integer v.
Proof.
  induction vs as [|v vs IH]; simpl; [tauto|].
  destruct (is_integer_spec v) as [H|H]; simpl.
  - rewrite IH. split; intros Hx; auto. intros w [<-|Hw]; auto.
  - split; [discriminate|]. intros Hx. exfalso; auto.
Qed.

Lemma sign_tests v :
  (is_negative v = true <-> v <= - eps10) /\ (is_positive v = true <-> eps10 <= v).
Proof.
  unfold is_negative, is_positive. rewrite cc_lt_spec, cc_gt_spec.
  unfold near, strictly_within. pose proof eps10_pos as He. revert He.
  generalize eps10 as e. intros e He.
  assert (Hn : forall P, (0 <> 0 :> Qc /\ P) -> False) by (intros P [H _]; now apply H).
  split; split; intros H.
  - destruct H as [H1 H2]. destruct (qle_spec v (- e)) as [|Hx]; auto.
    exfalso. apply H2. left. split; auto. split; qclra.
  - split; [qclra|]. intros [[_ [H1 _]]|Hx]; [qclra|exact (Hn _ Hx)].
  - destruct H as [H1 H2]. destruct (qle_spec e v) as [|Hx]; auto.
    exfalso. apply H2. left. split; auto. split; qclra.
  - split; [qclra|]. intros [[_ [_ H1]]|Hx]; [qclra|exact (Hn _ Hx)].
Qed.
