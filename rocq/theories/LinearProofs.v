(** The invariant of LinearProgram objects, and the link between the list computations of the
    model and the specification. *)
From Coq Require Import String List Bool Arith ZArith QArith Qcanon Lia Sorted.
From Verif Require Import Py QcTac QSum QInt ComparatorModel MatModel DetTheory MatTheory LinearModel LinearSpec.
Import ListNotations.
Open Scope nat_scope.
Open Scope string_scope.
Open Scope list_scope.

Record wf (p : lp) : Prop := mkwf {
  wf_b : length (lb p) = rows p;
  wf_A : shaped (cols p) (lA p);
  wf_obj : lobj p = "max" \/ lobj p = "min";
  wf_keys : NoDup (dkeys (lineq p));
  wf_ineq : forall i s, In (i, s) (lineq p) -> i < rows p /\ (s = "<=" \/ s = ">=");
  wf_free : StronglySorted lt (lfree p);
  wf_free_lt : forall j, In j (lfree p) -> j < cols p;
  wf_neg : StronglySorted lt (lneg p);
  wf_neg_lt : forall j, In j (lneg p) -> j < cols p;
  wf_disj : forall j, In j (lfree p) -> In j (lneg p) -> False;
  wf_sef : lsef p = sef_of (lineq p) (lfree p) (lneg p) (lobj p) }.

(** ** small facts *)
Lemma inb_In i l : inb i l = true <-> In i l.
Proof.
  unfold inb. rewrite existsb_exists. split.
  - intros (x & H & E). apply Nat.eqb_eq in E. now subst.
  - intros H. exists i. split; auto. apply Nat.eqb_refl.
Qed.
Lemma inb_false i l : inb i l = false <-> ~ In i l.
Proof. rewrite <- inb_In. destruct (inb i l); split; congruence. Qed.
Lemma eqb_reflect : forall a b : nat, reflect (a = b) (Nat.eqb a b).
Proof. intros. apply Nat.eqb_spec. Qed.

Lemma In_insert_sorted x y l : In x (insert_sorted y l) <-> x = y \/ In x l.
Proof. induction l as [|z l IH]; simpl; [intuition|]. destruct (Nat.leb y z); simpl; rewrite ?IH; intuition. Qed.
Lemma In_sort x l : In x (sort l) <-> In x l.
Proof. induction l as [|z l IH]; simpl; [tauto|]. rewrite In_insert_sorted, IH. intuition. Qed.
Lemma length_insert_sorted x l : length (insert_sorted x l) = S (length l).
Proof. induction l as [|z l IH]; simpl; auto. destruct (Nat.leb x z); simpl; auto. Qed.
Lemma length_sort l : length (sort l) = length l.
Proof. induction l as [|z l IH]; simpl; auto. now rewrite length_insert_sorted, IH. Qed.
Lemma insert_sorted_strict x l : StronglySorted lt l -> ~ In x l -> StronglySorted lt (insert_sorted x l).
Proof.
  induction l as [|z l IH]; simpl; intros H Hx; [repeat constructor|].
  inversion H as [|? ? Hl Hz]; subst. destruct (Nat.leb_spec x z).
  - constructor; auto. constructor; [lia|]. rewrite Forall_forall in *. intros y Hy. specialize (Hz y Hy). lia.
  - constructor; [apply IH; auto|]. rewrite Forall_forall in *. intros y Hy. apply In_insert_sorted in Hy.
    destruct Hy as [->|Hy]; auto.
Qed.
Lemma sort_strict l : NoDup l -> StronglySorted lt (sort l).
Proof.
  induction l as [|z l IH]; simpl; intros H; [constructor|]. inversion H; subst.
  apply insert_sorted_strict; auto. now rewrite In_sort.
Qed.
Lemma strict_NoDup l : StronglySorted lt l -> NoDup l.
Proof.
  induction 1 as [|x l H IH Hx]; constructor; auto. rewrite Forall_forall in Hx. intros Hi. specialize (Hx x Hi). lia.
Qed.
Lemma insert_sorted_min x l : StronglySorted lt (x :: l) -> insert_sorted x l = x :: l.
Proof.
  intros H. inversion H as [|? ? Hl Hx]; subst. destruct l as [|y l]; [reflexivity|]. simpl.
  inversion Hx; subst. destruct (Nat.leb_spec x y); [reflexivity|lia].
Qed.
Lemma sort_id l : StronglySorted lt l -> sort l = l.
Proof.
  induction l as [|x l IH]; intros H; [reflexivity|]. simpl. rewrite IH by (inversion H; auto). now apply insert_sorted_min.
Qed.
Lemma strict_unique l l' : StronglySorted lt l -> StronglySorted lt l' -> (forall x, In x l <-> In x l') -> l = l'.
Proof.
  revert l'. induction l as [|x l IH]; intros l' H H' E.
  - destruct l' as [|y l']; auto. destruct (proj2 (E y)); simpl; auto.
  - destruct l' as [|y l']; [destruct (proj1 (E x)); simpl; auto|].
    inversion H as [|? ? Hl Hx]; inversion H' as [|? ? Hl' Hy]; subst. rewrite Forall_forall in *.
    assert (x = y).
    { destruct (proj1 (E x)) as [|H1]; simpl; auto. destruct (proj2 (E y)) as [|H2]; simpl; auto.
      specialize (Hx _ H2). specialize (Hy _ H1). lia. }
    subst y. f_equal. apply IH; auto. intros z. split; intros Hz.
    + destruct (proj1 (E z)) as [->|]; simpl; auto. specialize (Hx _ Hz). lia.
    + destruct (proj2 (E z)) as [->|]; simpl; auto. specialize (Hy _ Hz). lia.
Qed.
Lemma strict_app_last l x : StronglySorted lt l -> (forall y, In y l -> y < x) -> StronglySorted lt (l ++ [x]).
Proof.
  induction l as [|z l IH]; simpl; intros H Hx; [repeat constructor|].
  inversion H as [|? ? Hl Hz]; subst. constructor; [apply IH; auto|].
  rewrite Forall_forall in *. intros y Hy. apply in_app_or in Hy. destruct Hy as [Hy|[<-|[]]]; auto.
Qed.
Lemma strict_nth l i j : StronglySorted lt l -> i < j -> j < length l -> nth i l 0 < nth j l 0.
Proof.
  intros H. revert i j. induction H as [|x l H IH Hx]; intros i j Hij Hj; simpl in Hj; [lia|].
  destruct j as [|j]; [lia|]. destruct i as [|i]; simpl.
  - rewrite Forall_forall in Hx. apply Hx, nth_In. lia.
  - apply IH; lia.
Qed.

Lemma math_In j l : existsb (Z.eqb (Z.of_nat (S j))) (to_math_indexing l) = inb j l.
Proof.
  unfold to_math_indexing, inb. induction l as [|x l IH]; [reflexivity|]. cbn [map existsb]. rewrite IH. f_equal.
  destruct (Nat.eqb_spec j x) as [->|H]; [apply Z.eqb_refl|]. apply Z.eqb_neq. lia.
Qed.
Lemma array_math l : to_array_indexing (to_math_indexing l) = l.
Proof.
  unfold to_array_indexing, to_math_indexing. rewrite map_map. rewrite <- (map_id l) at 2. apply map_ext. intros; lia.
Qed.

Lemma sef_of_true d f n o : sef_of d f n o = true <-> d = [] /\ f = [] /\ n = [] /\ o = "max".
Proof.
  unfold sef_of. rewrite andb_true_iff, Nat.eqb_eq, String.eqb_eq. split.
  - intros (H & ->). destruct d, f, n; simpl in H; try lia. auto.
  - intros (-> & -> & -> & ->). auto.
Qed.

(** ** inner products *)
Lemma inner_nil_r u : inner u [] = 0%Qc. Proof. now destruct u. Qed.
Lemma inner_dot u v : inner u v = dot u v.
Proof.
  revert v. induction u as [|x u IH]; intros v; [reflexivity|]. unfold dot, Sum. cbn [length seq].
  rewrite Sigma_cons, <- seq_shift, Sigma_map.
  destruct v as [|y v].
  - simpl inner. rewrite (Sigma_ext (seq 0 (length u)) _ (fun _ => 0%Qc)).
    + rewrite Sigma_zero. unfold at_. simpl. ring.
    + intros i _. unfold at_. simpl. ring.
  - cbn [inner]. rewrite IH. reflexivity.
Qed.
Lemma inner_Sum n u v : length u = n -> inner u v = Sum n (fun i => at_ u i * at_ v i)%Qc.
Proof. intros H. rewrite inner_dot. now apply dot_Sum. Qed.
Lemma inner_row n M i x : shaped n M -> i < length M -> inner (nth i M []) x = Sum n (fun j => ent M i j * at_ x j)%Qc.
Proof. intros H Hi. apply inner_Sum. now apply shaped_nth. Qed.

(** ** reading the meaning of a program *)
Definition rel (p : lp) (i : nat) : relation :=
  match dget Nat.eqb i (lineq p) with Some s => relation_of s | None => Equal end.
Definition sgn (p : lp) (j : nat) : sign :=
  if inb j (lfree p) then Unrestricted else if inb j (lneg p) then Nonpositive else Nonnegative.
Lemma nth_map_seq {A} (f : nat -> A) d n i : i < n -> nth i (map f (seq 0 n)) d = f i.
Proof.
  intros H. rewrite (nth_indep _ _ (f 0)) by (rewrite map_length, seq_length; auto). rewrite map_nth, seq_nth; auto.
Qed.
Lemma nth_relations p i : i < length (lb p) -> nth i (relations (meaning p)) Equal = rel p i.
Proof.
  intros H. unfold meaning, relations, inequalities. rewrite map_map, nth_map_seq by auto. unfold rel.
  destruct (dget Nat.eqb i (lineq p)); reflexivity.
Qed.
Lemma nth_signs p j : j < cols p -> nth j (signs (meaning p)) Nonnegative = sgn p j.
Proof.
  intros H. unfold meaning, signs. rewrite nth_map_seq by auto. unfold sign_of, free_variables, negative_variables.
  rewrite !math_In. reflexivity.
Qed.

(** feasibility in terms of sums *)
Definition feas (p : lp) (x : list Qc) : Prop :=
  length x = cols p /\
  (forall i, i < rows p -> related (rel p i) (Sum (cols p) (fun j => ent (lA p) i j * at_ x j)%Qc) (at_ (lb p) i)) /\
  (forall j, j < cols p -> signed (sgn p j) (at_ x j)).
Lemma feas_iff p x : wf p -> (feasible (meaning p) x <-> feas p x).
Proof.
  intros H. unfold feasible, feas. change (length (costs (meaning p))) with (cols p).
  change (rhs (meaning p)) with (lb p). change (coefficients (meaning p)) with (lA p).
  rewrite (wf_b _ H). split; intros (H1 & H2 & H3).
  - repeat split; auto.
    + intros i Hi. specialize (H2 i Hi). rewrite nth_relations in H2 by (rewrite (wf_b _ H); auto).
      rewrite (inner_row (cols p)) in H2; auto. apply (wf_A _ H).
    + intros j Hj. specialize (H3 j Hj). rewrite nth_signs in H3 by auto. exact H3.
  - repeat split; auto.
    + intros i Hi. rewrite nth_relations by (rewrite (wf_b _ H); auto).
      rewrite (inner_row (cols p)); [apply (H2 i Hi)|apply (wf_A _ H)|auto].
    + intros j Hj. rewrite nth_signs by auto. apply H3; auto.
Qed.
Lemma sef_parts p : wf p -> lsef p = true -> lineq p = [] /\ lfree p = [] /\ lneg p = [] /\ lobj p = "max".
Proof. intros H E. rewrite (wf_sef _ H) in E. now apply sef_of_true in E. Qed.
Definition sfeas (p : lp) (x : list Qc) : Prop :=
  length x = cols p /\
  (forall i, i < rows p -> Sum (cols p) (fun j => ent (lA p) i j * at_ x j)%Qc = at_ (lb p) i) /\
  (forall j, j < cols p -> (0 <= at_ x j)%Qc).
Lemma sfeas_iff p x : wf p -> lsef p = true -> (feasible (meaning p) x <-> sfeas p x).
Proof.
  intros H E. rewrite feas_iff by auto. destruct (sef_parts p H E) as (E1 & E2 & E3 & _).
  unfold feas, sfeas, rel, sgn. rewrite E1, E2, E3. cbn [dget inb existsb related signed]. tauto.
Qed.
Lemma value_Sum p x : value (meaning p) x = (Sum (cols p) (fun j => at_ (lc p) j * at_ x j) + lz p)%Qc.
Proof. unfold value. rewrite (inner_Sum (cols p)); reflexivity. Qed.
Lemma max_sef p : wf p -> lsef p = true -> maximise (meaning p) = true.
Proof. intros H E. destruct (sef_parts p H E) as (_ & _ & _ & E4). unfold meaning. simpl. now rewrite E4. Qed.

(** ** the comparisons against zero *)
Lemma tol_pos : (0 < tol_zero)%Qc. Proof. reflexivity. Qed.
Lemma close0_true v : is_close_to_zero v = true <-> (- tol_zero < v /\ v < tol_zero)%Qc.
Proof.
  unfold is_close_to_zero, qabs. destruct (qlt_spec v 0) as [H|H].
  - destruct (qlt_spec (- v) tol_zero) as [K|K]; split; try discriminate; try reflexivity.
    + intros _. pose proof tol_pos. split; qclra.
    + intros (L & _). exfalso. qclra.
  - destruct (qlt_spec v tol_zero) as [K|K]; split; try discriminate; try reflexivity.
    + intros _. pose proof tol_pos. split; qclra.
    + intros (_ & L). exfalso. qclra.
Qed.
Lemma ge0_true v : cc_ge v 0 = true <-> (- tol_zero < v)%Qc.
Proof.
  unfold cc_ge, comparator. change (qeq 0 0) with true. cbn iota. pose proof tol_pos.
  destruct (is_close_to_zero v) eqn:E; [apply close0_true in E; cbn; tauto|]. cbn [orb].
  destruct (qle_spec 0 v) as [K|K]; split; intros; try discriminate; try reflexivity; try qclra.
  exfalso. enough (is_close_to_zero v = true) by congruence. apply close0_true. split; qclra.
Qed.
Lemma le0_true v : cc_le v 0 = true <-> (v < tol_zero)%Qc.
Proof.
  unfold cc_le, comparator. change (qeq 0 0) with true. cbn iota. pose proof tol_pos.
  destruct (is_close_to_zero v) eqn:E; [apply close0_true in E; cbn; tauto|]. cbn [orb].
  destruct (qle_spec v 0) as [K|K]; split; intros; try discriminate; try reflexivity; try qclra.
  exfalso. enough (is_close_to_zero v = true) by congruence. apply close0_true. split; qclra.
Qed.
Lemma pos_true v : is_positive v = true <-> (tol_zero <= v)%Qc.
Proof.
  unfold is_positive, cc_gt, comparator. change (qeq 0 0) with true. cbn iota. pose proof tol_pos.
  destruct (is_close_to_zero v) eqn:E; cbn [negb andb].
  - apply close0_true in E. destruct E. split; [discriminate|]. intros. exfalso; qclra.
  - destruct (qlt_spec 0 v) as [K|K]; split; intros; try discriminate; try reflexivity; try (exfalso; qclra).
    apply Qcnot_lt_le. intros L. enough (is_close_to_zero v = true) by congruence. apply close0_true. split; auto; qclra.
Qed.
Lemma neg_true v : is_negative v = true <-> (v <= - tol_zero)%Qc.
Proof.
  unfold is_negative, cc_lt, comparator. change (qeq 0 0) with true. cbn iota. pose proof tol_pos.
  destruct (is_close_to_zero v) eqn:E; cbn [negb andb].
  - apply close0_true in E. destruct E. split; [discriminate|]. intros. exfalso; qclra.
  - destruct (qlt_spec v 0) as [K|K]; split; intros; try discriminate; try reflexivity; try (exfalso; qclra).
    apply Qcnot_lt_le. intros L. enough (is_close_to_zero v = true) by congruence. apply close0_true. split; auto; qclra.
Qed.
