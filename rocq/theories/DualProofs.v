(** Proofs about [dual], and the invariant for every reachable program. *)
From Coq Require Import String List Bool Arith ZArith QArith Qcanon Lia Sorted.
From Verif Require Import Py QcTac QSum QInt ComparatorModel MatModel DetTheory MatTheory LinearModel LinearSpec LinearProofs SefProofs LinearInv.
Import ListNotations.
Open Scope nat_scope.
Open Scope string_scope.
Open Scope list_scope.

Lemma strict_seq a n : StronglySorted lt (seq a n).
Proof.
  revert a. induction n as [|n IH]; intros a; simpl; constructor; auto.
  apply Forall_forall. intros x Hx. apply in_seq in Hx. lia.
Qed.
Lemma strict_filter f l : StronglySorted lt l -> StronglySorted lt (filter f l).
Proof.
  induction 1 as [|x l H IH Hx]; simpl; [constructor|]. destruct (f x); auto. constructor; auto.
  rewrite Forall_forall in *. intros y Hy. apply filter_In in Hy. now apply Hx.
Qed.

(** the relation symbol of row [j] of the dual *)
Definition dual_op (p : lp) (j : nat) : option string :=
  if inb j (lneg p) then Some (if String.eqb (lobj p) "max" then "<=" else ">=")
  else if inb j (lfree p) then None
  else Some (if String.eqb (lobj p) "max" then ">=" else "<=").
Definition dual_entry (p : lp) (i : nat) : list (nat * string) :=
  match dual_op p i with Some s => [(i, s)] | None => [] end.
Lemma lineq_dual p : lineq (dual p) = flat_map (dual_entry p) (seq 0 (cols p)).
Proof.
  unfold dual. cbn [lineq]. apply flat_map_ext. intros i. unfold dual_entry, dual_op.
  destruct (inb i (lneg p)); auto. destruct (inb i (lfree p)); auto.
Qed.
Lemma In_dual_ineq p i s : In (i, s) (lineq (dual p)) <-> i < cols p /\ dual_op p i = Some s.
Proof.
  rewrite lineq_dual, in_flat_map. unfold dual_entry. split.
  - intros (k & Hk & H). apply in_seq in Hk. destruct (dual_op p k) eqn:E; [|contradiction].
    destruct H as [H|[]]. injection H as <- <-. split; [lia|auto].
  - intros (H1 & H2). exists i. split; [apply in_seq; lia|]. rewrite H2. simpl. auto.
Qed.
Lemma dual_keys_NoDup p : NoDup (dkeys (lineq (dual p))).
Proof.
  rewrite lineq_dual. generalize (cols p). intros n. generalize (seq_NoDup n 0). generalize (seq 0 n). clear n.
  intros l. induction l as [|x l IH]; simpl; intros H; [constructor|]. inversion H as [|? ? H1 H2]; subst.
  unfold dkeys. rewrite map_app. unfold dual_entry at 1. destruct (dual_op p x); simpl; [|now apply IH].
  constructor; [|now apply IH]. intros Hi. apply in_map_iff in Hi. destruct Hi as ((k & s') & E & Hk). simpl in E. subst.
  apply in_flat_map in Hk. destruct Hk as (y & Hy & Hk). unfold dual_entry in Hk. destruct (dual_op p y); [|contradiction].
  destruct Hk as [Hk|[]]. injection Hk as -> _. contradiction.
Qed.
Lemma dget_dual p i : i < cols p -> dget Nat.eqb i (lineq (dual p)) = dual_op p i.
Proof.
  intros Hi. destruct (dual_op p i) as [s|] eqn:E.
  - apply (In_dget _ eqb_reflect); [apply dual_keys_NoDup|]. now apply In_dual_ineq.
  - destruct (dget Nat.eqb i (lineq (dual p))) as [s|] eqn:E2; auto.
    apply (dget_In _ eqb_reflect) in E2. apply In_dual_ineq in E2. destruct E2. congruence.
Qed.
Lemma cols_dual p : wf p -> cols (dual p) = rows p. Proof. intros H. apply (wf_b _ H). Qed.
Lemma rows_dual p : rows (dual p) = cols p. Proof. apply length_transpose. Qed.
Lemma obj_cases p : wf p -> (lobj p = "max" /\ lobj (dual p) = "min") \/ (lobj p = "min" /\ lobj (dual p) = "max").
Proof. intros H. unfold dual. cbn [lobj]. destruct (wf_obj _ H) as [->| ->]; auto. Qed.

Lemma In_dual_free p i : wf p -> (In i (lfree (dual p)) <-> i < rows p /\ dget Nat.eqb i (lineq p) = None).
Proof.
  intros H. unfold dual. cbn [lfree]. rewrite filter_In, in_seq, (wf_b _ H). unfold dmem.
  destruct (dget Nat.eqb i (lineq p)); cbn [negb]; split; intros (H1 & H2); try discriminate; split; auto; lia.
Qed.
Lemma In_dual_neg p i : wf p -> (In i (lneg (dual p)) <-> i < rows p /\
  dget Nat.eqb i (lineq p) = Some (if String.eqb (lobj p) "max" then ">=" else "<=")).
Proof.
  intros H. unfold dual. cbn [lneg]. rewrite filter_In, in_seq, (wf_b _ H).
  destruct (dget Nat.eqb i (lineq p)) as [s|] eqn:E.
  - apply (dget_In _ eqb_reflect), (wf_ineq _ H) in E. destruct E as (_ & E).
    destruct (wf_obj _ H) as [->| ->]; destruct E as [->| ->]; cbn; split; intros (H1 & H2); try discriminate; split; auto; lia.
  - split; intros (_ & E2); discriminate.
Qed.
Lemma wf_dual p : wf p -> wf (dual p).
Proof.
  intros H. constructor.
  - rewrite rows_dual. reflexivity.
  - rewrite cols_dual by auto. apply shaped_transpose.
  - destruct (obj_cases p H) as [(_ & ->)|(_ & ->)]; auto.
  - apply dual_keys_NoDup.
  - intros i s Hi. apply In_dual_ineq in Hi. rewrite rows_dual. destruct Hi as (Hi & E). split; auto.
    unfold dual_op in E. destruct (inb i (lneg p)), (inb i (lfree p)), (String.eqb (lobj p) "max"); try discriminate; injection E as <-; auto.
  - unfold dual. cbn [lfree]. apply strict_filter, strict_seq.
  - intros j Hj. apply In_dual_free in Hj; auto. rewrite cols_dual; tauto.
  - unfold dual. cbn [lneg]. apply strict_filter, strict_seq.
  - intros j Hj. apply In_dual_neg in Hj; auto. rewrite cols_dual; tauto.
  - intros j H1 H2. apply In_dual_free in H1; auto. apply In_dual_neg in H2; auto. destruct H1, H2. congruence.
  - reflexivity.
Qed.

Theorem reachable_wf p : reachable p -> wf p.
Proof.
  induction 1 as [A b c z o i f g p Hs H|p a op v H IH|p c col f g p' H IH E|p H IH|p B q H IH E|p B H IH|fuel p B H IH|fuel p H IH|p H IH].
  - now apply (wf_new A b c z o i f g).
  - now apply wf_constraint.
  - now apply (wf_variable p c col f g).
  - now apply wf_to_sef.
  - unfold to_canonical_form, bind in E. destruct (lsef p); [|discriminate]. cbn [negb] in E.
    destruct (is_basis p B) as [[]| |] eqn:EB; try discriminate. apply is_basis_true in EB.
    apply (wf_canonical p (to_array_indexing B)); auto. rewrite length_array_indexing. tauto.
  - now apply wf_iteration.
  - now apply wf_simplex.
  - now apply wf_two_phase.
  - now apply wf_dual.
Qed.

(** ** weak duality *)
Lemma rel_dual p j : wf p -> j < cols p -> rel (dual p) j = match dual_op p j with Some s => relation_of s | None => Equal end.
Proof. intros H Hj. unfold rel. now rewrite dget_dual. Qed.
Lemma rel_cases p i : wf p -> rel p i = match dget Nat.eqb i (lineq p) with
  | Some s => if String.eqb s "<=" then AtMost else AtLeast | None => Equal end.
Proof.
  intros H. unfold rel. destruct (dget Nat.eqb i (lineq p)) as [s|] eqn:E; auto.
  apply (dget_In _ eqb_reflect), (wf_ineq _ H) in E. destruct E as (_ & [->| ->]); reflexivity.
Qed.
Lemma sgn_dual p i : wf p -> i < rows p -> sgn (dual p) i =
  match rel p i, String.eqb (lobj p) "max" with
  | Equal, _ => Unrestricted | AtMost, true => Nonnegative | AtMost, false => Nonpositive
  | AtLeast, true => Nonpositive | AtLeast, false => Nonnegative end.
Proof.
  intros H Hi. unfold sgn. rewrite (rel_cases p i H).
  destruct (inb i (lfree (dual p))) eqn:E1.
  - apply inb_In, In_dual_free in E1; auto. destruct E1 as (_ & ->). reflexivity.
  - apply inb_false in E1. rewrite In_dual_free in E1 by auto.
    destruct (dget Nat.eqb i (lineq p)) as [s|] eqn:E; [|exfalso; apply E1; auto].
    pose proof E as E'. apply (dget_In _ eqb_reflect), (wf_ineq _ H) in E'. destruct E' as (_ & E').
    destruct (inb i (lneg (dual p))) eqn:E2.
    + apply inb_In, In_dual_neg in E2; auto. destruct E2 as (_ & E2). rewrite E in E2. injection E2 as ->.
      destruct (wf_obj _ H) as [->| ->]; reflexivity.
    + apply inb_false in E2. rewrite In_dual_neg in E2 by auto. rewrite E in E2.
      destruct (wf_obj _ H) as [K|K]; rewrite K in *; destruct E' as [->| ->]; cbn in *; auto; exfalso; apply E2; auto.
Qed.
Lemma rel_dual2 p j : wf p -> j < cols p -> rel (dual p) j =
  match sgn p j, String.eqb (lobj p) "max" with
  | Unrestricted, _ => Equal | Nonnegative, true => AtLeast | Nonnegative, false => AtMost
  | Nonpositive, true => AtMost | Nonpositive, false => AtLeast end.
Proof.
  intros H Hj. rewrite rel_dual by auto. unfold dual_op, sgn.
  destruct (inb j (lneg p)) eqn:E1.
  - replace (inb j (lfree p)) with false; [destruct (String.eqb (lobj p) "max"); reflexivity|].
    symmetry. apply inb_false. intros Hf. apply inb_In in E1. now apply (wf_disj _ H j).
  - destruct (inb j (lfree p)); destruct (String.eqb (lobj p) "max"); reflexivity.
Qed.

Lemma weak_duality p x y : wf p -> feasible (meaning p) x -> feasible (meaning (dual p)) y ->
  if String.eqb (lobj p) "max" then (inner (lc p) x <= inner (lb p) y)%Qc else (inner (lb p) y <= inner (lc p) x)%Qc.
Proof.
  intros H Hx Hy. rewrite feas_iff in Hx by auto. rewrite feas_iff in Hy by now apply wf_dual.
  destruct Hx as (X1 & X2 & X3), Hy as (Y1 & Y2 & Y3). rewrite cols_dual in * by auto. rewrite rows_dual in *.
  set (m := rows p) in *. set (n := cols p) in *.
  rewrite (inner_Sum n) by reflexivity. rewrite (inner_Sum m) by apply (wf_b _ H).
  assert (EA : forall j, j < n -> Sum m (fun i => ent (lA (dual p)) j i * at_ y i)%Qc = Sum m (fun i => at_ y i * ent (lA p) i j)%Qc).
  { intros j Hj. apply Sum_ext. intros i Hi. unfold dual. cbn [lA]. rewrite ent_transpose by auto. ring. }
  pose proof (Sum_assoc m n (at_ y) (at_ x) (ent (lA p))) as HS.
  destruct (wf_obj _ H) as [K|K]; rewrite K; cbn [String.eqb Ascii.eqb Bool.eqb].
  - apply Qcle_trans with (Sum n (fun j => Sum m (fun i => at_ y i * ent (lA p) i j) * at_ x j)%Qc).
    + apply Sum_le. intros j Hj. specialize (Y2 j Hj). specialize (X3 j Hj). rewrite rel_dual2, EA in Y2 by auto.
      change (at_ (lb (dual p)) j) with (at_ (lc p) j) in Y2. rewrite K in Y2. cbn in Y2. destruct (sgn p j); cbn [related signed] in *.
      * qcnra.
      * qcnra.
      * rewrite Y2. apply Qcle_refl.
    + rewrite <- HS. apply Sum_le. intros i Hi. specialize (X2 i Hi). specialize (Y3 i Hi). rewrite sgn_dual in Y3 by auto.
      rewrite K in Y3. cbn in Y3. destruct (rel p i); cbn [related signed] in *.
      * rewrite X2. rewrite Qcmult_comm. apply Qcle_refl.
      * rewrite (Qcmult_comm (at_ (lb p) i)). qcnra.
      * qcnra.
  - apply Qcle_trans with (Sum n (fun j => Sum m (fun i => at_ y i * ent (lA p) i j) * at_ x j)%Qc).
    + rewrite <- HS. apply Sum_le. intros i Hi. specialize (X2 i Hi). specialize (Y3 i Hi). rewrite sgn_dual in Y3 by auto.
      rewrite K in Y3. cbn in Y3. destruct (rel p i); cbn [related signed] in *.
      * rewrite X2. rewrite Qcmult_comm. apply Qcle_refl.
      * qcnra.
      * qcnra.
    + apply Sum_le. intros j Hj. specialize (Y2 j Hj). specialize (X3 j Hj). rewrite rel_dual2, EA in Y2 by auto.
      change (at_ (lb (dual p)) j) with (at_ (lc p) j) in Y2. rewrite K in Y2. cbn in Y2. destruct (sgn p j); cbn [related signed] in *.
      * qcnra.
      * qcnra.
      * rewrite Y2. apply Qcle_refl.
Qed.

(** ** the dual of the dual *)
Lemma dual_dual_A p : wf p -> lA (dual (dual p)) = lA p.
Proof.
  intros H. unfold dual at 1. cbn [lA]. rewrite cols_dual by auto. apply (mat_ext (cols p)).
  - rewrite <- rows_dual. apply shaped_transpose.
  - apply (wf_A _ H).
  - apply length_transpose.
  - rewrite length_transpose. intros i j Hi Hj. rewrite ent_transpose; [|auto|rewrite <- rows_dual in Hj; exact Hj].
    unfold dual. cbn [lA]. now rewrite ent_transpose.
Qed.
Lemma dual_dual_obj p : wf p -> lobj (dual (dual p)) = lobj p.
Proof.
  intros H. destruct (obj_cases p H) as [(E1 & E2)|(E1 & E2)]; unfold dual at 1; cbn [lobj]; rewrite E2, E1; reflexivity.
Qed.
Lemma dual_dual_free p : wf p -> lfree (dual (dual p)) = lfree p.
Proof.
  intros H. pose proof (wf_dual p H) as Hd. apply strict_unique.
  - apply (wf_free _ (wf_dual _ Hd)). - apply (wf_free _ H).
  - intros j. rewrite In_dual_free by auto. rewrite rows_dual. split.
    + intros (Hj & E). rewrite dget_dual in E by auto. unfold dual_op in E.
      destruct (inb j (lneg p)); [discriminate|]. destruct (inb j (lfree p)) eqn:E2; [now apply inb_In|discriminate].
    + intros Hj. pose proof (wf_free_lt _ H j Hj). split; auto. rewrite dget_dual by auto. unfold dual_op.
      replace (inb j (lneg p)) with false by (symmetry; apply inb_false; intros Hn; now apply (wf_disj _ H j)).
      apply inb_In in Hj. now rewrite Hj.
Qed.
Lemma dual_dual_neg p : wf p -> lneg (dual (dual p)) = lneg p.
Proof.
  intros H. pose proof (wf_dual p H) as Hd. apply strict_unique.
  - apply (wf_neg _ (wf_dual _ Hd)). - apply (wf_neg _ H).
  - intros j. rewrite In_dual_neg by auto. rewrite rows_dual. split.
    + intros (Hj & E). rewrite dget_dual in E by auto. unfold dual_op in E.
      destruct (inb j (lneg p)) eqn:E2; [now apply inb_In|]. destruct (inb j (lfree p)); [discriminate|].
      destruct (obj_cases p H) as [(K1 & K2)|(K1 & K2)]; rewrite K1, K2 in E; discriminate E.
    + intros Hj. pose proof (wf_neg_lt _ H j Hj). split; auto. rewrite dget_dual by auto. unfold dual_op.
      apply inb_In in Hj. rewrite Hj. destruct (obj_cases p H) as [(K1 & K2)|(K1 & K2)]; rewrite K1, K2; reflexivity.
Qed.
Lemma dual_dual_ineq p : wf p -> inequalities (dual (dual p)) = inequalities p.
Proof.
  intros H. pose proof (wf_dual p H) as Hd. unfold inequalities. change (lb (dual (dual p))) with (lb p).
  apply map_ext_in. intros i Hi. apply in_seq in Hi. rewrite (wf_b _ H) in Hi.
  rewrite dget_dual by (rewrite cols_dual by auto; lia). unfold dual_op.
  destruct (inb i (lneg (dual p))) eqn:E1.
  - apply inb_In, In_dual_neg in E1; auto. destruct E1 as (_ & ->).
    destruct (obj_cases p H) as [(K1 & K2)|(K1 & K2)]; rewrite K1, K2; reflexivity.
  - apply inb_false in E1. rewrite In_dual_neg in E1 by auto. destruct (inb i (lfree (dual p))) eqn:E2.
    + apply inb_In, In_dual_free in E2; auto. destruct E2 as (_ & ->). reflexivity.
    + apply inb_false in E2. rewrite In_dual_free in E2 by auto.
      destruct (dget Nat.eqb i (lineq p)) as [s|] eqn:E; [|exfalso; apply E2; split; [lia|auto]].
      pose proof E as E'. apply (dget_In _ eqb_reflect), (wf_ineq _ H) in E'. destruct E' as (_ & E').
      destruct (obj_cases p H) as [(K1 & K2)|(K1 & K2)]; rewrite K1, K2 in *; destruct E' as [->| ->]; cbn in *; auto;
      exfalso; apply E1; split; auto; lia.
Qed.
