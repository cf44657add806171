(** C56, C57: complementary slackness conditions, strong duality. *)
From Coq Require Import String List Bool Arith ZArith QArith Qcanon Lia.
From Verif Require Import Py QcTac QSum ComparatorModel MatModel MatTheory LinearModel LinearSpec LinearProofs LinearInv DualProofs Farkas DualityProofs SlackModel SlackSpec SlackProofs LinearProps.
Import ListNotations.
Open Scope nat_scope.
Open Scope string_scope.
Open Scope list_scope.

(** * C56 *)
(** feasible points are both optimal exactly when all conditions hold *)
Theorem C56_slackness p x y : reachable p -> feasible (meaning p) x -> feasible (meaning (dual p)) y ->
  ((forall c, In c (cs_conditions p) -> holds c x y) <-> optimal (meaning p) x /\ optimal (meaning (dual p)) y).
Proof. intros Hr. apply slackness. now apply reachable_wf. Qed.
Print Assumptions C56_slackness.

(** a feasible point is optimal exactly when some feasible point of the dual satisfies all conditions *)
Theorem C56_certificate p x : reachable p -> feasible (meaning p) x ->
  (optimal (meaning p) x <-> exists y, feasible (meaning (dual p)) y /\ forall c, In c (cs_conditions p) -> holds c x y).
Proof.
  intros Hr Fx. pose proof (reachable_wf p Hr) as W. split.
  - intros O. destruct (strong_duality p x W O) as (y & Fy & E). exists y. split; auto. apply slackness; auto. now apply equal_optimal.
  - intros (y & Fy & H). now apply slackness in H.
Qed.
Print Assumptions C56_certificate.

(** the lines are exactly: for every constraint that is not an equation, its dual variable is 0 or it
    is tight; for every variable that is not free, it is 0 or the dual constraint with its column and
    cost is tight *)
Theorem C56_lines p c : reachable p ->
  (In c (cs_conditions p) <->
   (exists i, i < length (rhs (meaning p)) /\ nth i (relations (meaning p)) Equal <> Equal /\
      c = mkcondition true i (nth i (coefficients (meaning p)) []) (nth i (rhs (meaning p)) 0%Qc)) \/
   (exists j, j < length (costs (meaning p)) /\ nth j (signs (meaning p)) Nonnegative <> Unrestricted /\
      c = mkcondition false j (column (coefficients (meaning p)) j) (nth j (costs (meaning p)) 0%Qc))).
Proof.
  intros Hr. pose proof (reachable_wf p Hr) as W. unfold cs_conditions. rewrite in_app_iff, !in_conditions.
  change (lb (dual p)) with (lc p). change (costs (meaning p)) with (lc p). change (rhs (meaning p)) with (lb p). change (coefficients (meaning p)) with (lA p).
  assert (R : forall j, j < cols p -> (dmem Nat.eqb j (lineq (dual p)) = true <-> nth j (signs (meaning p)) Nonnegative <> Unrestricted)).
  { intros j Hj. rewrite dmem_rel by now apply wf_dual. rewrite nth_signs, rel_dual2 by auto. destruct (sgn p j), (String.eqb (lobj p) "max"); split; congruence. }
  assert (C : forall j, j < cols p -> nth j (lA (dual p)) [] = column (lA p) j).
  { intros j Hj. apply (at_ext (rows p)).
    - pose proof (wf_dual p W) as Wd. rewrite (shaped_nth (cols (dual p))); [now apply cols_dual|apply (wf_A _ Wd)|].
      change (j < rows (dual p)). now rewrite rows_dual.
    - unfold column. apply map_length.
    - intros i Hi. rewrite at_column. change (ent (lA (dual p)) j i = ent (lA p) i j). unfold dual. cbn [lA]. now apply ent_transpose. }
  split; (intros [(i & Hi & H & ->)|(i & Hi & H & ->)]; [left|right]; exists i; (split; [auto|split])).
  - rewrite nth_relations by auto. now apply dmem_rel.
  - reflexivity.
  - now apply R.
  - now rewrite C.
  - apply dmem_rel; auto. now rewrite nth_relations in H by auto.
  - reflexivity.
  - now apply R.
  - now rewrite C.
Qed.
Print Assumptions C56_lines.

(** max 3x + 2y, x + y <= 4, x + 3y <= 6: four conditions; (4, 0) and (3, 0) meet them; (3, 1) does
    not, with any feasible point of the dual *)
Definition slack_sample : res lp := linear_program (mat 2 [[1; 1]; [1; 3]]%Z) (vec [4; 6]%Z) (vec [3; 2]%Z) 0%Qc "max" (Some ["<="; "<="]) None None.
Example C56_nontrivial : exists p, slack_sample = Ok p /\ reachable p /\
  cs_conditions p = [mkcondition true 0 [qz 1; qz 1] (qz 4); mkcondition true 1 [qz 1; qz 3] (qz 6);
                     mkcondition false 0 [qz 1; qz 1] (qz 3); mkcondition false 1 [qz 1; qz 3] (qz 2)] /\
  feasible (meaning p) [qz 4; qz 0] /\ feasible (meaning (dual p)) [qz 3; qz 0] /\
  (forall c, In c (cs_conditions p) -> holds c [qz 4; qz 0] [qz 3; qz 0]) /\
  ~ (forall c, In c (cs_conditions p) -> holds c [qz 3; qz 1] [qz 3; qz 0]).
Proof.
  destruct slack_sample as [p| |] eqn:E; [|discriminate E|discriminate E]. exists p. split; [reflexivity|]. unfold slack_sample in E. split; [|split; [|split; [|split; [|split]]]].
  - refine (r_new _ _ _ _ _ _ _ _ _ _ E). repeat constructor.
  - injection E as <-. reflexivity.
  - injection E as <-. split; [reflexivity|]. split.
    + intros [|[|i]] Hi; try (cbn in Hi; lia); cbn; discriminate.
    + intros [|[|j]] Hj; try (cbn in Hj; lia); cbn; discriminate.
  - injection E as <-. split; [reflexivity|]. split.
    + intros [|[|i]] Hi; try (cbn in Hi; lia); cbn; discriminate.
    + intros [|[|j]] Hj; try (cbn in Hj; lia); cbn; discriminate.
  - injection E as <-. intros c Hc. destruct Hc as [<-|[<-|[<-|[<-|[]]]]]; cbv [holds of_dual variable equation right_side].
    + right. apply Qc_is_canon. reflexivity.
    + left. reflexivity.
    + right. apply Qc_is_canon. reflexivity.
    + left. reflexivity.
  - injection E as <-. intros H. specialize (H _ (or_intror (or_intror (or_intror (or_introl eq_refl))))). destruct H as [H|H]; discriminate H.
Qed.

(** * C57 *)
Theorem C57_strong_duality p x : reachable p -> optimal (meaning p) x ->
  exists y, optimal (meaning (dual p)) y /\ inner (costs (meaning (dual p))) y = inner (costs (meaning p)) x.
Proof.
  intros Hr O. pose proof (reachable_wf p Hr) as W. destruct (strong_duality p x W O) as (y & Fy & E). exists y. split; [|now symmetry].
  apply (equal_optimal p x); auto. apply O.
Qed.
Print Assumptions C57_strong_duality.
Theorem C57_strong_duality_back p y : reachable p -> optimal (meaning (dual p)) y ->
  exists x, optimal (meaning p) x /\ inner (costs (meaning p)) x = inner (costs (meaning (dual p))) y.
Proof.
  intros Hr O. pose proof (reachable_wf p Hr) as W. destruct (strong_duality_back p y W O) as (x & Fx & E). exists x. split; [|exact E].
  apply (equal_optimal p x y); auto. apply O.
Qed.
Print Assumptions C57_strong_duality_back.
(** every program is infeasible, unbounded or has an optimal solution *)
Theorem C57_outcomes p : reachable p -> infeasible (meaning p) \/ unbounded (meaning p) \/ exists x, optimal (meaning p) x.
Proof. intros Hr. now apply trichotomy, reachable_wf. Qed.
Print Assumptions C57_outcomes.
(** and its outcome restricts the outcome of its dual *)
Theorem C57_table p : reachable p ->
  (unbounded (meaning p) -> infeasible (meaning (dual p))) /\
  (unbounded (meaning (dual p)) -> infeasible (meaning p)) /\
  (infeasible (meaning p) -> infeasible (meaning (dual p)) \/ unbounded (meaning (dual p))) /\
  (infeasible (meaning (dual p)) -> infeasible (meaning p) \/ unbounded (meaning p)).
Proof.
  intros Hr. pose proof (reachable_wf p Hr) as W. split; [now apply unbounded_dual|]. split; [|split; [now apply infeasible_dual|]].
  - intros U x Fx. apply (unbounded_dual _ (wf_dual p W) U x). now apply feasible_dual_dual.
  - intros I. destruct (trichotomy p W) as [K|[K|(x & K)]]; auto. destruct (strong_duality p x W K) as (y & Fy & _). exfalso. exact (I y Fy).
Qed.
Print Assumptions C57_table.
(** the constant of the objective is not passed on: with a constant the optimal values differ *)
Theorem C57_constant_refuted : exists p x, reachable p /\ optimal (meaning p) x /\
  forall y, optimal (meaning (dual p)) y -> value (meaning (dual p)) y <> value (meaning p) x.
Proof.
  destruct (linear_program (mat 1 [[1]]%Z) (vec [2]%Z) (vec [3]%Z) (qz 5) "max" (Some ["<="]) None None) as [p| |] eqn:E; try discriminate E.
  assert (Hr : reachable p) by (refine (r_new _ _ _ _ _ _ _ _ _ _ E); repeat constructor).
  assert (Fx : feasible (meaning p) [qz 2]).
  { injection E as <-. split; [reflexivity|]. split; (intros [|i] Hi; [|cbn in Hi; lia]); cbn; discriminate. }
  assert (Fy : feasible (meaning (dual p)) [qz 3]).
  { injection E as <-. split; [reflexivity|]. split; (intros [|i] Hi; [|cbn in Hi; lia]); cbn; discriminate. }
  assert (V : inner (lc p) [qz 2] = qz 6) by (injection E as <-; apply Qc_is_canon; reflexivity).
  assert (V' : inner (lc (dual p)) [qz 3] = qz 6) by (injection E as <-; apply Qc_is_canon; reflexivity).
  assert (Ez : lz p = qz 5) by (injection E as <-; reflexivity).
  destruct (equal_optimal p [qz 2] [qz 3] (reachable_wf p Hr) Fx Fy) as (O1 & O2); [now rewrite V|].
  exists p, [qz 2]. split; auto. split; auto. intros y Oy. destruct Oy as (Gy & B1). destruct O2 as (_ & B2). specialize (B1 _ Fy). specialize (B2 _ Gy).
  apply sg_le in B1. apply sg_le in B2. assert (K : value (meaning (dual p)) y = qz 6).
  { assert (V2 : value (meaning (dual p)) [qz 3] = qz 6) by (unfold value; cbn [costs constant meaning]; rewrite V'; reflexivity). rewrite V2 in *.
    set (v := value (meaning (dual p)) y) in *. clearbody v. clear - B1 B2. unfold sg in *. destruct (String.eqb (lobj (dual p)) "max"); apply Qcle_antisym; qclra. }
  rewrite K. unfold value. cbn [costs constant meaning]. rewrite V, Ez. discriminate.
Qed.
Print Assumptions C57_constant_refuted.
(** both infeasible is possible: max x, y with 0x = 1 *)
Example C57_nontrivial : exists p q x, reachable p /\ infeasible (meaning p) /\ infeasible (meaning (dual p)) /\
  reachable q /\ optimal (meaning q) x /\ inner (lc q) x = qz 12.
Proof.
  destruct (linear_program (mat 1 [[0]]%Z) (vec [1]%Z) (vec [1]%Z) (qz 5) "max" None None None) as [p| |] eqn:E; try discriminate E.
  destruct C56_nontrivial as (q & Eq & Rq & _ & Fx & Fy & H & _).
  exists p, q, [qz 4; qz 0]. split; [refine (r_new _ _ _ _ _ _ _ _ _ _ E); repeat constructor|]. split; [|split; [|split; [|split]]]; auto.
  - injection E as <-. intros x (_ & K & _). specialize (K 0 ltac:(cbn; lia)). cbn in K. destruct x as [|v x]; cbn in K; [discriminate|].
    assert (K' : (Q2Qc 0 * v + 0 = qz 1)%Qc) by exact K. replace (Q2Qc 0 * v + 0)%Qc with 0%Qc in K' by ring. discriminate.
  - injection E as <-. intros x (_ & K & _). specialize (K 0 ltac:(cbn; lia)). cbn in K. destruct x as [|v x]; cbn in K; [now apply K|].
    assert (K' : (qz 1 <= Q2Qc 0 * v + 0)%Qc) by exact K. replace (Q2Qc 0 * v + 0)%Qc with 0%Qc in K' by ring. now apply K'.
  - now apply (C56_slackness q _ _ Rq Fx Fy).
  - unfold slack_sample in Eq. injection Eq as <-. apply Qc_is_canon. reflexivity.
Qed.
