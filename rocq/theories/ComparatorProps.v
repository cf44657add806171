(** C01, C02: properties of [Comparator]. *)
From Coq Require Import QArith Qcanon List Bool String ZArith.
From Verif Require Import Py QcTac ComparatorModel ComparatorSpec ComparatorProofs.
Import ListNotations.
Open Scope Qc_scope.

(** C01. Exact meaning of the four operators, for every value and every test value. *)
Theorem C01_compare_brackets_order :
  forall v t : Qc,
    (exists b, is_close_compare v ">=" t = Ok b /\ (b = true <-> (t <= v \/ near v t))) /\
    (exists b, is_close_compare v "<=" t = Ok b /\ (b = true <-> (v <= t \/ near v t))) /\
    (exists b, is_close_compare v ">" t = Ok b /\ (b = true <-> (t < v /\ ~ near v t))) /\
    (exists b, is_close_compare v "<" t = Ok b /\ (b = true <-> (v < t /\ ~ near v t))).
Proof.
  intros v t.
  split; [|split; [|split]]; eexists; (split; [reflexivity|]).
  - exact (cc_ge_spec v t).
  - exact (cc_le_spec v t).
  - exact (cc_gt_spec v t).
  - exact (cc_lt_spec v t).
Qed.
Print Assumptions C01_compare_brackets_order.

(** C01. The pairs (>=, <) and (<=, >) are complementary. *)
Theorem C01_compare_complementary :
  forall v t : Qc,
    (exists b, is_close_compare v ">=" t = Ok b /\ is_close_compare v "<" t = Ok (negb b)) /\
    (exists b, is_close_compare v "<=" t = Ok b /\ is_close_compare v ">" t = Ok (negb b)).
Proof.
  intros v t. split; [exists (cc_ge v t)|exists (cc_le v t)]; split; try reflexivity.
  - rewrite cc_ge_lt, negb_involutive. reflexivity.
  - rewrite cc_le_gt, negb_involutive. reflexivity.
Qed.
Print Assumptions C01_compare_complementary.

(** C01. ">=" is monotone and "<=" antitone in the value. *)
Theorem C01_compare_monotone :
  forall v v' t : Qc, v <= v' ->
    (is_close_compare v ">=" t = Ok true -> is_close_compare v' ">=" t = Ok true) /\
    (is_close_compare v' "<=" t = Ok true -> is_close_compare v "<=" t = Ok true).
Proof.
  intros v v' t H. split; intros E.
  - change (Ok (cc_ge v' t) = Ok true). rewrite (cc_ge_mono v v' t H); [reflexivity|now inversion E].
  - change (Ok (cc_le v t) = Ok true). rewrite (cc_le_anti v' v t H); [reflexivity|now inversion E].
Qed.
Print Assumptions C01_compare_monotone.

(** C01. Arrays: the conjunction over the entries; every other operator raises. *)
Theorem C01_compare_array_and_errors :
  forall (vs : list Qc) (op : string) (t : Qc),
    (In op [">="; ">"; "<="; "<"]%string ->
       exists b, is_close_compare_array vs op t = Ok b /\
                 (b = true <-> forall v, In v vs -> is_close_compare v op t = Ok true)) /\
    (~ In op [">="; ">"; "<="; "<"]%string ->
       is_close_compare_array vs op t = Raise ValueError /\
       forall v, is_close_compare v op t = Raise ValueError).
Proof.
  intros vs op t. split.
  - intros Hop.
    assert (Ht : exists b, is_close_compare_array vs op t = Ok b).
    { apply icca_total. destruct Hop as [<-|[<-|[<-|[<-|[]]]]]; eexists; reflexivity. }
    destruct Ht as [b Hb]. exists b. split; [exact Hb|exact (icca_spec vs op t b Hb)].
  - intros Hop. split; [|intros v; exact (icc_invalid v op t Hop)].
    pose proof (icc_invalid 0 op t Hop) as H.
    destruct (icca_total vs op t) as [H1 _].
    destruct (is_close_compare_array vs op t) as [b|e|] eqn:E.
    + destruct H1 as [b' Hb']; [eauto|]. rewrite H in Hb'. discriminate.
    + revert E. unfold is_close_compare_array.
      repeat match goal with |- context [if ?c then _ else _] => destruct c end; congruence.
    + revert E. unfold is_close_compare_array.
      repeat match goal with |- context [if ?c then _ else _] => destruct c end; congruence.
Qed.
Print Assumptions C01_compare_array_and_errors.

(** [is_negative]/[is_positive] are the strict tests against 0. *)
Theorem C01_sign_tests :
  forall v : Qc,
    (is_negative v = true <-> v <= - eps10) /\ (is_positive v = true <-> eps10 <= v).
Proof. exact sign_tests. Qed.
Print Assumptions C01_sign_tests.

(** Non-vacuity: values where exact and tolerant comparison disagree, and where they agree. *)
Example C01_ex_disagree :
  is_close_compare (Q2Qc (-1 # 100000000000)) ">=" 0 = Ok true /\
  ~ 0 <= Q2Qc (-1 # 100000000000) /\
  is_close_compare (Q2Qc (-1 # 1000000)) ">=" 0 = Ok false.
Proof. repeat split; try reflexivity. intro H; apply H; reflexivity. Qed.
Example C01_ex_monotone : Q2Qc (1#2) <= Q2Qc (2#3) /\ is_close_compare (Q2Qc (1#2)) ">=" (Q2Qc (1#3)) = Ok true.
Proof. split; [intro H; discriminate H|reflexivity]. Qed.
Example C01_ex_array : is_close_compare_array [1; Q2Qc (1#3)] ">" 0 = Ok true /\
  is_close_compare_array [1; Q2Qc (-1#3)] ">" 0 = Ok false /\
  is_close_compare 1 "==" 0 = Raise ValueError.
Proof. repeat split. Qed.

(** C02. *)
Theorem C02_is_integer_iff_near_integer :
  forall v : Qc, is_integer v = true <-> near_integer v.
Proof. intros v. destruct (is_integer_spec v); intuition discriminate. Qed.
Print Assumptions C02_is_integer_iff_near_integer.

Theorem C02_is_integer_array :
  forall vs : list Qc, is_integer_array vs = true <-> forall v, In v vs -> near_integer v.
Proof. exact is_integer_array_spec. Qed.
Print Assumptions C02_is_integer_array.

Example C02_ex : is_integer (Q2Qc (-3)) = true /\ is_integer (Q2Qc (29999999999999 # 10000000000000)) = true
  /\ is_integer (Q2Qc (1#2)) = false /\ is_integer_array [Q2Qc 5; Q2Qc (7#2)] = false.
Proof. repeat split. Qed.
