(** Strong duality, the trichotomy of linear programs and complementary slackness. *)
From Coq Require Import String List Bool Arith ZArith QArith Qcanon Lia.
From Verif Require Import Py QcTac QSum ComparatorModel MatModel MatTheory LinearModel LinearSpec LinearProofs LinearInv DualProofs Farkas DualityProofs SlackModel SlackSpec.
Import ListNotations.
Open Scope nat_scope.
Open Scope string_scope.
Open Scope list_scope.

Definition sg (p : lp) : Qc := if String.eqb (lobj p) "max" then 1%Qc else (- (1))%Qc.
Lemma sg_sq p : (sg p * sg p = 1)%Qc.
Proof. unfold sg. destruct (String.eqb (lobj p) "max"); ring. Qed.
Lemma sg_le p u v : (sg p * u <= sg p * v)%Qc <-> as_good (meaning p) v u.
Proof. unfold as_good, sg. cbn [maximise meaning]. destruct (String.eqb (lobj p) "max"); split; intros H; qclra. Qed.
Lemma at_ext n u v : length u = n -> length v = n -> (forall i, i < n -> at_ u i = at_ v i) -> u = v.
Proof. intros H1 H2 H. apply (nth_ext _ _ 0%Qc 0%Qc); [congruence|]. intros i Hi. apply H. congruence. Qed.

Definition dfeas (p : lp) (c : nat -> Qc) (y : nat -> Qc) : Prop :=
  (forall i, i < rows p -> msign (rel p i) (y i)) /\
  (forall j, j < cols p -> rsign (sgn p j) (Sum (rows p) (fun i => y i * ent (lA p) i j) - c j)%Qc).
Lemma dual_feas p Y : wf p -> (feasible (meaning (dual p)) Y <->
  length Y = rows p /\ dfeas p (fun j => sg p * at_ (lc p) j)%Qc (fun i => sg p * at_ Y i)%Qc).
Proof.
  intros W. rewrite feas_iff by now apply wf_dual. unfold feas, dfeas. rewrite cols_dual, rows_dual by auto.
  assert (EA : forall j, j < cols p -> Sum (rows p) (fun i => ent (lA (dual p)) j i * at_ Y i)%Qc = Sum (rows p) (fun i => at_ Y i * ent (lA p) i j)%Qc).
  { intros j Hj. apply Sum_ext. intros i Hi. unfold dual. cbn [lA]. rewrite ent_transpose by auto. ring. }
  assert (EB : forall j, Sum (rows p) (fun i => sg p * at_ Y i * ent (lA p) i j)%Qc = (sg p * Sum (rows p) (fun i => at_ Y i * ent (lA p) i j))%Qc).
  { intros j. rewrite <- Sum_scal. apply Sum_ext. intros; ring. }
  assert (G1 : forall i, i < rows p -> (signed (sgn (dual p) i) (at_ Y i) <-> msign (rel p i) (sg p * at_ Y i)%Qc)).
  { intros i Hi. rewrite sgn_dual by auto. unfold sg. set (v := at_ Y i). clearbody v.
    destruct (rel p i), (String.eqb (lobj p) "max"); cbn [signed msign]; split; intros; auto; qclra. }
  assert (G2 : forall j, j < cols p -> (related (rel (dual p) j) (Sum (rows p) (fun i => ent (lA (dual p)) j i * at_ Y i)%Qc) (at_ (lb (dual p)) j) <->
    rsign (sgn p j) (Sum (rows p) (fun i => sg p * at_ Y i * ent (lA p) i j) - sg p * at_ (lc p) j)%Qc)).
  { intros j Hj. rewrite rel_dual2, EA, EB by auto. change (at_ (lb (dual p)) j) with (at_ (lc p) j).
    set (u := Sum (rows p) (fun i => at_ Y i * ent (lA p) i j)%Qc). set (v := at_ (lc p) j). clearbody u v. unfold sg.
    destruct (sgn p j), (String.eqb (lobj p) "max"); cbn [related rsign]; split; intros K; try qclra.
    }
  split; intros (H1 & H2 & H3); (split; [auto|split]); intros k Hk; first [apply G1|apply G2]; auto.
Qed.
Lemma dfeas_ext p c c' y y' : (forall j, j < cols p -> c j = c' j) -> (forall i, i < rows p -> y i = y' i) -> dfeas p c y -> dfeas p c' y'.
Proof.
  intros E1 E2 (H1 & H2). split; intros k Hk.
  - rewrite <- E2 by auto. auto.
  - rewrite <- E1 by auto. rewrite (Sum_ext _ _ (fun i => y i * ent (lA p) i k)%Qc); auto. intros i Hi. now rewrite E2.
Qed.
(** the dual point that belongs to multipliers *)
Lemma dual_point p y : wf p -> dfeas p (fun j => sg p * at_ (lc p) j)%Qc y ->
  feasible (meaning (dual p)) (point (rows p) (fun i => sg p * y i)%Qc) /\
  inner (lb p) (point (rows p) (fun i => sg p * y i)%Qc) = (sg p * Sum (rows p) (fun i => y i * at_ (lb p) i))%Qc.
Proof.
  intros W D. split.
  - apply dual_feas; auto. split; [apply length_point|]. eapply dfeas_ext; [| |exact D]; auto.
    intros i Hi. cbv beta. rewrite at_point by auto. rewrite Qcmult_assoc, sg_sq. ring.
  - rewrite (inner_Sum (rows p)) by apply (wf_b _ W). rewrite <- Sum_scal. apply Sum_ext. intros i Hi. rewrite at_point by auto. ring.
Qed.
Lemma weak_sg p x y : wf p -> feasible (meaning p) x -> feasible (meaning (dual p)) y -> (sg p * inner (lc p) x <= sg p * inner (lb p) y)%Qc.
Proof.
  intros W Hx Hy. pose proof (weak_duality p x y W Hx Hy) as K. unfold sg. destruct (String.eqb (lobj p) "max"); qclra.
Qed.
Lemma sg_dual p : wf p -> sg (dual p) = (- sg p)%Qc.
Proof. intros W. unfold sg. destruct (obj_cases p W) as [(E1 & E2)|(E1 & E2)]; rewrite E1, E2; cbn; ring. Qed.
Lemma optimal_sg p x : optimal (meaning p) x <-> feasible (meaning p) x /\ forall x', feasible (meaning p) x' -> (sg p * inner (lc p) x' <= sg p * inner (lc p) x)%Qc.
Proof.
  unfold optimal. split; intros (H1 & H2); (split; [auto|]); intros x' F; specialize (H2 x' F).
  - apply sg_le in H2. unfold value in H2. cbn [costs constant meaning] in H2. qclra.
  - apply sg_le. unfold value. cbn [costs constant meaning]. qclra.
Qed.
(** equal values are optimal *)
Lemma equal_optimal p x y : wf p -> feasible (meaning p) x -> feasible (meaning (dual p)) y -> inner (lc p) x = inner (lb p) y ->
  optimal (meaning p) x /\ optimal (meaning (dual p)) y.
Proof.
  intros W Fx Fy E. split; apply optimal_sg; (split; [auto|]); intros z Fz.
  - pose proof (weak_sg p z y W Fz Fy) as K. now rewrite E.
  - pose proof (weak_sg p x z W Fx Fz) as K. rewrite sg_dual by auto. change (lc (dual p)) with (lb p). rewrite E in K. qclra.
Qed.
Theorem strong_duality p x : wf p -> optimal (meaning p) x ->
  exists y, feasible (meaning (dual p)) y /\ inner (lc p) x = inner (lb p) y.
Proof.
  intros W Ho. apply optimal_sg in Ho as (F & B).
  assert (EL : forall x, lhs (cols p) (fun j => sg p * at_ (lc p) j)%Qc (at_ x) = (sg p * inner (lc p) x)%Qc).
  { intros z. rewrite (inner_Sum (cols p)) by reflexivity. unfold lhs. rewrite <- Sum_scal. apply Sum_ext. intros; ring. }
  destruct (bound_multipliers p (fun j => sg p * at_ (lc p) j)%Qc (sg p * inner (lc p) x)%Qc W) as (y & Y1 & Y2 & Y3).
  - eauto.
  - intros z Fz. rewrite EL. auto.
  - destruct (dual_point p y W (conj Y1 Y2)) as (D1 & D2). exists (point (rows p) (fun i => sg p * y i)%Qc). split; auto.
    pose proof (weak_sg p x _ W F D1) as K. rewrite D2 in *. set (w := Sum (rows p) (fun i => y i * at_ (lb p) i)%Qc) in *.
    set (u := inner (lc p) x) in *. clearbody w u. clear - K Y3. unfold sg in *. destruct (String.eqb (lobj p) "max"); apply Qcle_antisym; qclra.
Qed.

(** ** the three cases *)
Theorem trichotomy p : wf p -> infeasible (meaning p) \/ unbounded (meaning p) \/ exists x, optimal (meaning p) x.
Proof.
  intros W. destruct (farkas (cols p) (sys p)) as [(x0 & H0)|(r & D & C)].
  - right. destruct (attained (cols p) (sys p) (fun j => sg p * at_ (lc p) j)%Qc (sys_weak p) (ex_intro _ x0 H0)) as [U|(x & Hx & B)].
    + left. intros M. destruct (U (sg p * (M - lz p))%Qc) as (x & Hx & Hv). exists (point (cols p) x). split; [now apply sys_point|].
      apply sg_le. rewrite value_Sum. rewrite (Sum_ext _ _ (fun j => at_ (lc p) j * x j)%Qc) by (intros; now rewrite at_point).
      unfold lhs in Hv. rewrite (Sum_ext _ _ (fun j => sg p * (at_ (lc p) j * x j))%Qc), Sum_scal in Hv by (intros; ring). qclra.
    + right. exists (point (cols p) x). split; [now apply sys_point|]. intros y Fy. apply sg_le. rewrite !value_Sum.
      rewrite (Sum_ext _ (fun j => at_ (lc p) j * at_ (point (cols p) x) j)%Qc (fun j => at_ (lc p) j * x j)%Qc) by (intros; now rewrite at_point).
      assert (Hy : sats (cols p) (sys p) (at_ y)) by (apply sys_feas; auto; now destruct Fy).
      specialize (B _ Hy). unfold lhs in B. rewrite (Sum_ext _ (fun j => sg p * at_ (lc p) j * x j)%Qc (fun j => sg p * (at_ (lc p) j * x j))%Qc) in B by (intros; ring).
      rewrite (Sum_ext _ (fun j => sg p * at_ (lc p) j * at_ y j)%Qc (fun j => sg p * (at_ (lc p) j * at_ y j))%Qc) in B by (intros; ring). rewrite !Sum_scal in B. qclra.
  - left. intros x F. pose proof F as (L & _). apply sys_feas in F; auto. 
    pose proof (derives_sat _ _ _ _ F D) as K. destruct r as ((a & b) & s). destruct C as (C1 & C2). cbn [sat] in K.
    unfold lhs in K. rewrite Sum_none in K by (intros j Hj; rewrite C1 by auto; ring).
    destruct C2 as [C2|(-> & ->)]; [destruct s; cbn [cmp] in K; qclra|discriminate K].
Qed.

(** an infeasible program has an infeasible or unbounded dual *)
Theorem infeasible_dual p : wf p -> infeasible (meaning p) -> infeasible (meaning (dual p)) \/ unbounded (meaning (dual p)).
Proof.
  intros W I. destruct (trichotomy _ (wf_dual p W)) as [K|[K|(y & K)]]; auto. exfalso.
  apply optimal_sg in K as (F & B). destruct (infeasible_multipliers p W I) as (d & D1 & D2 & D3).
  pose proof F as F'. apply dual_feas in F' as (L & F1 & F2); auto.
  assert (D : dfeas p (fun j => sg p * at_ (lc p) j)%Qc (fun i => sg p * at_ y i + d i)%Qc).
  { split.
    - intros i Hi. apply msign_add; auto.
    - intros j Hj. pose proof (rsign_add _ _ _ (F2 j Hj) (D2 j Hj)) as K.
      rewrite (Sum_ext _ (fun i => (sg p * at_ y i + d i) * ent (lA p) i j)%Qc (fun i => sg p * at_ y i * ent (lA p) i j + d i * ent (lA p) i j)%Qc) by (intros; ring). rewrite Sum_add.
      set (u := Sum (rows p) (fun i => sg p * at_ y i * ent (lA p) i j)%Qc) in *. set (v := Sum (rows p) (fun i => d i * ent (lA p) i j)%Qc) in *.
      now replace (u + v - sg p * at_ (lc p) j)%Qc with (u - sg p * at_ (lc p) j + v)%Qc by ring. }
  destruct (dual_point p _ W D) as (G1 & G2). specialize (B _ G1). rewrite sg_dual in B by auto. change (lc (dual p)) with (lb p) in B. rewrite G2 in B.
  rewrite (inner_Sum (rows p)) in B by apply (wf_b _ W).
  rewrite (Sum_ext _ (fun i => (sg p * at_ y i + d i) * at_ (lb p) i)%Qc (fun i => sg p * (at_ (lb p) i * at_ y i) + d i * at_ (lb p) i)%Qc) in B by (intros; ring).
  rewrite Sum_add, Sum_scal in B. set (u := Sum (rows p) (fun i => at_ (lb p) i * at_ y i)%Qc) in *. set (v := Sum (rows p) (fun i => d i * at_ (lb p) i)%Qc) in *.
  clearbody u v. clear - B D3. unfold sg in B. destruct (String.eqb (lobj p) "max"); qclra.
Qed.
Theorem unbounded_dual p : wf p -> unbounded (meaning p) -> infeasible (meaning (dual p)).
Proof.
  intros W U y Fy. destruct (U (inner (lb p) y + lz p + sg p)%Qc) as (x & Fx & G). apply sg_le in G. unfold value in G. cbn [costs constant meaning] in G.
  pose proof (weak_sg p x y W Fx Fy) as K. set (u := inner (lc p) x) in *. set (v := inner (lb p) y) in *. pose proof (sg_sq p) as Q. clearbody u v. clear - K G Q.
  unfold sg in *. destruct (String.eqb (lobj p) "max"); qclra.
Qed.

(** ** the dual of the dual means the same *)
Lemma feasible_dual_dual p x : wf p -> (feasible (meaning (dual (dual p))) x <-> feasible (meaning p) x).
Proof.
  intros W. unfold feasible, meaning. cbn [costs rhs coefficients relations signs].
  unfold free_variables, negative_variables. rewrite dual_dual_A, dual_dual_ineq, dual_dual_free, dual_dual_neg by auto.
  change (lb (dual (dual p))) with (lb p). change (lc (dual (dual p))) with (lc p). tauto.
Qed.
Lemma strong_duality_back p y : wf p -> optimal (meaning (dual p)) y -> exists x, feasible (meaning p) x /\ inner (lc p) x = inner (lb p) y.
Proof.
  intros W Ho. destruct (strong_duality (dual p) y (wf_dual p W) Ho) as (x & F & E). exists x. split; [now apply feasible_dual_dual|].
  symmetry. exact E.
Qed.

(** ** complementary slackness *)
Definition pterm (p : lp) (x y : list Qc) (i : nat) : Qc := (at_ y i * (at_ (lb p) i - Sum (cols p) (fun j => ent (lA p) i j * at_ x j)))%Qc.
Definition dterm (p : lp) (x y : list Qc) (j : nat) : Qc := ((Sum (rows p) (fun i => at_ y i * ent (lA p) i j) - at_ (lc p) j) * at_ x j)%Qc.
Lemma gap p x y : wf p -> (inner (lb p) y - inner (lc p) x = Sum (rows p) (pterm p x y) + Sum (cols p) (dterm p x y))%Qc.
Proof.
  intros W. rewrite (inner_Sum (rows p)) by apply (wf_b _ W). rewrite (inner_Sum (cols p)) by reflexivity.
  unfold pterm, dterm. rewrite (Sum_ext (rows p) (fun i => at_ y i * (at_ (lb p) i - Sum (cols p) (fun j => ent (lA p) i j * at_ x j)))%Qc (fun i => at_ (lb p) i * at_ y i - at_ y i * Sum (cols p) (fun j => ent (lA p) i j * at_ x j))%Qc) by (intros; ring).
  rewrite (Sum_ext (cols p) (fun j => (Sum (rows p) (fun i => at_ y i * ent (lA p) i j) - at_ (lc p) j) * at_ x j)%Qc (fun j => Sum (rows p) (fun i => at_ y i * ent (lA p) i j) * at_ x j - at_ (lc p) j * at_ x j)%Qc) by (intros; ring).
  rewrite !Sum_sub. rewrite (Sum_assoc (rows p) (cols p) (at_ y) (at_ x) (ent (lA p))). ring.
Qed.
Lemma pterm_sign p x y i : wf p -> feasible (meaning p) x -> feasible (meaning (dual p)) y -> i < rows p -> (0 <= sg p * pterm p x y i)%Qc.
Proof.
  intros W Fx Fy Hi. apply feas_iff in Fx as (_ & X2 & _); auto. apply dual_feas in Fy as (_ & Y1 & _); auto.
  specialize (X2 i Hi). specialize (Y1 i Hi). unfold pterm. cbv beta in Y1. set (w := Sum (cols p) (fun j => ent (lA p) i j * at_ x j)%Qc) in *.
  rewrite Qcmult_assoc. set (u := (sg p * at_ y i)%Qc) in *. set (b := at_ (lb p) i) in *. clearbody u w b. clear - X2 Y1.
  destruct (rel p i); cbn [related msign] in *; [rewrite X2; replace (u * (b - b))%Qc with 0%Qc by ring; apply Qcle_refl|qcnra|qcnra].
Qed.
Lemma dterm_sign p x y j : wf p -> feasible (meaning p) x -> feasible (meaning (dual p)) y -> j < cols p -> (0 <= sg p * dterm p x y j)%Qc.
Proof.
  intros W Fx Fy Hj. apply feas_iff in Fx as (_ & _ & X3); auto. apply dual_feas in Fy as (_ & _ & Y2); auto.
  specialize (X3 j Hj). specialize (Y2 j Hj). unfold dterm.
  cbv beta in Y2. rewrite (Sum_ext (rows p) (fun i => sg p * at_ y i * ent (lA p) i j)%Qc (fun i => sg p * (at_ y i * ent (lA p) i j))%Qc), Sum_scal in Y2 by (intros; ring).
  set (w := Sum (rows p) (fun i => at_ y i * ent (lA p) i j)%Qc) in *. replace (sg p * ((w - at_ (lc p) j) * at_ x j))%Qc with ((sg p * w - sg p * at_ (lc p) j) * at_ x j)%Qc by ring.
  set (v := (sg p * w - sg p * at_ (lc p) j)%Qc) in *. set (xj := at_ x j) in *. clearbody v xj. clear - X3 Y2.
  destruct (sgn p j); cbn [signed rsign] in *; [qcnra|qcnra|rewrite Y2; replace (0 * xj)%Qc with 0%Qc by ring; apply Qcle_refl].
Qed.
Lemma Sum_each_zero n f i : (forall j, j < n -> (0 <= f j)%Qc) -> Sum n f = 0%Qc -> i < n -> f i = 0%Qc.
Proof.
  intros H E Hi. destruct (qlt_spec 0 (f i)) as [K|K].
  - pose proof (Sum_pos n f i H Hi K) as P. rewrite E in P. discriminate P.
  - apply Qcle_antisym; [qclra|auto].
Qed.
(** the points have equal values exactly when every product vanishes *)
Lemma gap_zero p x y : wf p -> feasible (meaning p) x -> feasible (meaning (dual p)) y ->
  (inner (lc p) x = inner (lb p) y <-> (forall i, i < rows p -> pterm p x y i = 0%Qc) /\ (forall j, j < cols p -> dterm p x y j = 0%Qc)).
Proof.
  intros W Fx Fy. pose proof (gap p x y W) as G. split.
  - intros E. rewrite E in G.
    assert (P1 : (0 <= Sum (rows p) (fun i => sg p * pterm p x y i))%Qc) by (apply Sum_nonneg; intros; now apply pterm_sign).
    assert (P2 : (0 <= Sum (cols p) (fun j => sg p * dterm p x y j))%Qc) by (apply Sum_nonneg; intros; now apply dterm_sign).
    assert (Z : (Sum (rows p) (fun i => sg p * pterm p x y i) + Sum (cols p) (fun j => sg p * dterm p x y j) = 0)%Qc).
    { rewrite !Sum_scal. replace (sg p * Sum (rows p) (pterm p x y) + sg p * Sum (cols p) (dterm p x y))%Qc with (sg p * (Sum (rows p) (pterm p x y) + Sum (cols p) (dterm p x y)))%Qc by ring. rewrite <- G. ring. }
    assert (Z1 : Sum (rows p) (fun i => sg p * pterm p x y i)%Qc = 0%Qc) by (apply Qcle_antisym; qclra).
    assert (Z2 : Sum (cols p) (fun j => sg p * dterm p x y j)%Qc = 0%Qc) by (apply Qcle_antisym; qclra).
    assert (U : forall v, (sg p * v = 0)%Qc -> v = 0%Qc) by (intros v K; transitivity (sg p * sg p * v)%Qc; [rewrite sg_sq; ring|rewrite <- Qcmult_assoc, K; ring]).
    split; intros k Hk; apply U.
    + apply (Sum_each_zero (rows p) (fun i => sg p * pterm p x y i)%Qc); auto. intros; now apply pterm_sign.
    + apply (Sum_each_zero (cols p) (fun i => sg p * dterm p x y i)%Qc); auto. intros; now apply dterm_sign.
  - intros (H1 & H2). rewrite (Sum_none (rows p)), (Sum_none (cols p)) in G by auto. qclra.
Qed.
Lemma in_conditions d q c : In c (conditions_of d q) <-> exists i, i < length (lb q) /\ dmem Nat.eqb i (lineq q) = true /\ c = mkcondition d i (nth i (lA q) []) (at_ (lb q) i).
Proof.
  unfold conditions_of. rewrite in_flat_map. split.
  - intros (i & Hi & H). apply in_seq in Hi. destruct (dmem Nat.eqb i (lineq q)) eqn:E; [|contradiction]. destruct H as [<-|[]]. exists i. repeat split; auto. lia.
  - intros (i & Hi & E & ->). exists i. split; [apply in_seq; lia|]. rewrite E. now left.
Qed.
Lemma dmem_rel p i : wf p -> (dmem Nat.eqb i (lineq p) = true <-> rel p i <> Equal).
Proof.
  intros W. rewrite rel_cases by auto. unfold dmem. destruct (dget Nat.eqb i (lineq p)) as [s|]; [destruct (String.eqb s "<=")|]; split; intros K; auto; try discriminate; contradiction.
Qed.
Lemma qmul_zero u v : (u * v = 0)%Qc <-> u = 0%Qc \/ v = 0%Qc.
Proof.
  split; [intros H; now apply Qcmult_integral in H|intros [->| ->]; ring].
Qed.
Lemma conditions_hold p x y : wf p -> feasible (meaning p) x -> feasible (meaning (dual p)) y ->
  ((forall c, In c (cs_conditions p) -> holds c x y) <-> (forall i, i < rows p -> pterm p x y i = 0%Qc) /\ (forall j, j < cols p -> dterm p x y j = 0%Qc)).
Proof.
  intros W Fx Fy. pose proof (wf_dual p W) as Wd.
  assert (A1 : forall i, i < rows p -> inner (nth i (lA p) []) x = Sum (cols p) (fun j => ent (lA p) i j * at_ x j)%Qc) by (intros; apply inner_row; auto; apply (wf_A _ W)).
  assert (A2 : forall j, j < cols p -> inner (nth j (lA (dual p)) []) y = Sum (rows p) (fun i => at_ y i * ent (lA p) i j)%Qc).
  { intros j Hj. rewrite (inner_row (cols (dual p))); [|apply (wf_A _ Wd)|change (j < rows (dual p)); now rewrite rows_dual]. rewrite cols_dual by auto. apply Sum_ext. intros i Hi. unfold dual. cbn [lA]. rewrite ent_transpose by auto. ring. }
  pose proof Fx as Fx'. apply feas_iff in Fx' as (_ & X2 & _); auto. pose proof Fy as Fy'. apply feas_iff in Fy' as (_ & Y2 & _); auto.
  rewrite rows_dual in Y2.
  assert (P1 : forall i, i < rows p -> (pterm p x y i = 0%Qc <-> at_ y i = 0%Qc \/ inner (nth i (lA p) []) x = at_ (lb p) i)).
  { intros i Hi. unfold pterm. rewrite qmul_zero, A1 by auto. set (w := Sum (cols p) (fun j => ent (lA p) i j * at_ x j)%Qc). clearbody w.
    split; (intros [K|K]; [now left|right]); [symmetry; transitivity (w + (at_ (lb p) i - w))%Qc; [ring|rewrite K; ring]|rewrite K; ring]. }
  assert (P2 : forall j, j < cols p -> (dterm p x y j = 0%Qc <-> at_ x j = 0%Qc \/ inner (nth j (lA (dual p)) []) y = at_ (lc p) j)).
  { intros j Hj. unfold dterm. rewrite qmul_zero, A2 by auto. set (w := Sum (rows p) (fun i => at_ y i * ent (lA p) i j)%Qc). clearbody w.
    split; intros [K|K]; [right; transitivity (w - at_ (lc p) j + at_ (lc p) j)%Qc; [ring|rewrite K; ring]|now left|now right|left; rewrite K; ring]. }
  split.
  - intros H. split; intros k Hk.
    + apply P1; auto. destruct (dmem Nat.eqb k (lineq p)) eqn:E.
      * assert (K : In (mkcondition true k (nth k (lA p) []) (at_ (lb p) k)) (cs_conditions p)) by (unfold cs_conditions; apply in_or_app; left; apply in_conditions; exists k; rewrite (wf_b _ W); auto).
        exact (H _ K).
      * right. rewrite A1 by auto. specialize (X2 k Hk). destruct (rel p k) eqn:R; auto; exfalso; assert (N : rel p k <> Equal) by congruence; apply dmem_rel in N; congruence.
    + apply P2; auto. destruct (dmem Nat.eqb k (lineq (dual p))) eqn:E.
      * assert (K : In (mkcondition false k (nth k (lA (dual p)) []) (at_ (lb (dual p)) k)) (cs_conditions p)) by (unfold cs_conditions; apply in_or_app; right; apply in_conditions; exists k; auto).
        exact (H _ K).
      * right. specialize (Y2 k Hk). rewrite <- (inner_row (cols (dual p))) in Y2 by (first [apply (wf_A _ Wd)|change (k < rows (dual p)); now rewrite rows_dual]).
        destruct (rel (dual p) k) eqn:R; auto; exfalso; assert (N : rel (dual p) k <> Equal) by congruence; apply dmem_rel in N; auto; congruence.
  - intros (H1 & H2) c Hc. unfold cs_conditions in Hc. apply in_app_or in Hc as [Hc|Hc]; apply in_conditions in Hc as (i & Hi & _ & ->); unfold holds; cbn [of_dual variable equation right_side].
    + rewrite (wf_b _ W) in Hi. apply P1; auto.
    + apply P2; auto.
Qed.
Theorem slackness p x y : wf p -> feasible (meaning p) x -> feasible (meaning (dual p)) y ->
  ((forall c, In c (cs_conditions p) -> holds c x y) <-> optimal (meaning p) x /\ optimal (meaning (dual p)) y).
Proof.
  intros W Fx Fy. rewrite conditions_hold, <- gap_zero by auto. split.
  - apply equal_optimal; auto.
  - intros (O1 & O2). destruct (strong_duality p x W O1) as (y' & Fy' & E). destruct (equal_optimal p x y' W Fx Fy' E) as (_ & O3).
    apply optimal_sg in O2 as (_ & B2). apply optimal_sg in O3 as (_ & B3). specialize (B2 _ Fy'). specialize (B3 _ Fy). change (lc (dual p)) with (lb p) in *.
    rewrite E. set (u := inner (lb p) y) in *. set (v := inner (lb p) y') in *. clearbody u v. clear - B2 B3. unfold sg in *. destruct (String.eqb (lobj (dual p)) "max"); apply Qcle_antisym; qclra.
Qed.
