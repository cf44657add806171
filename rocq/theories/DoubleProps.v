(** C74: tests and values in double precision, for every order in which numpy may add up. *)
From Coq Require Import String List Bool Arith ZArith QArith Qcanon Lia Permutation.
From Verif Require Import Py QcTac QSum QInt ComparatorModel MatModel MatTheory LinearModel LinearSpec LinearProofs LinearInv DualProofs LinearProps DoubleSpec DoubleModel DoubleProofs.
Import ListNotations.
Open Scope nat_scope.
Open Scope string_scope.
Open Scope list_scope.

(** ** rounding: there always is a nearest double, and it is close *)
Theorem C74_rounding x : exists y, rounds x y /\ forall y', rounds x y' -> (qabs (y' - x) <= unit_roundoff * qabs x + underflow)%Qc.
Proof. destruct (rounds_some x) as (y & R & _). exists y. split; auto. intros y'. apply rounds_error. Qed.
Print Assumptions C74_rounding.

(** ** whole numbers *)
(** all coefficients and entries are integers *)
Definition whole (l : list Qc) : Prop := forall v, In v l -> isint v.
Definition whole_program (p : lp) : Prop := (forall r, In r (lA p) -> whole r) /\ whole (lb p) /\ whole (lc p) /\ isint (lz p).
Lemma whole_at l i : whole l -> isint (at_ l i).
Proof. intros H. unfold at_. destruct (nth_in_or_default i l 0%Qc) as [K|E]; [auto|]. rewrite E. exists 0%Z. reflexivity. Qed.
Lemma whole_inner u v : whole u -> whole v -> isint (inner u v).
Proof. intros Hu Hv. rewrite <- exact_inner. apply exact_int. intros a x Hx. apply isint_mul; [apply Hu; now apply in_combine_l in Hx|apply Hv; now apply in_combine_r in Hx]. Qed.
Lemma whole_row p i : whole_program p -> whole (nth i (lA p) []).
Proof. intros (H & _). destruct (nth_in_or_default i (lA p) []) as [K|E]; [auto|]. rewrite E. intros v []. Qed.
Lemma whole_column p j : whole_program p -> whole (column (lA p) j).
Proof. intros (H & _) v Hv. unfold column in Hv. apply in_map_iff in Hv. destruct Hv as (r & <- & Hr). apply (whole_at r j). now apply H. Qed.
Lemma inner_bound u v : (qabs (inner u v) <= absolute_sum (combine u v))%Qc.
Proof. rewrite <- exact_inner. apply exact_absolute. Qed.

(** the value of the objective, while the absolute values of the terms add up to at most 2^53 *)
Theorem C74_evaluate p x r : whole_program p -> whole x -> (absolute_sum (combine (lc p) x) + qabs (lz p) <= qz (2 ^ 53))%Qc ->
  f_evaluate p x r -> r = value (meaning p) x.
Proof.
  intros (_ & _ & Wc & Wz) Wx B (L & v & D & R). pose proof (qabs_nonneg (lz p)) as N. pose proof (inner_bound (lc p) x) as I.
  apply dot_int in D; auto; [|qclra]. subst v. cbn [value meaning costs constant]. apply (rounds_int _ _ R).
  - apply isint_add; auto. now apply whole_inner.
  - pose proof (qabs_add (inner (lc p) x) (lz p)). qclra.
Qed.
Print Assumptions C74_evaluate.

(** the numbers for which [is_feasible] is exact *)
Record fits (p : lp) (x : list Qc) : Prop := mkfits {
  ft_sum : forall i, i < length (lA p) -> (absolute_sum (combine (nth i (lA p) []) x) <= qz (2 ^ 52))%Qc;
  ft_eq : forall i, i < length (lA p) -> nth i (relations (meaning p)) Equal = Equal ->
    if lsef p then (qabs (nth i (lb p) 0) <= qz 60000)%Qc
    else (absolute_sum (combine (nth i (lA p) []) x) <= qz 500000000 /\ qabs (nth i (lb p) 0) <= qz 500000000)%Qc }.
Theorem C74_is_feasible p x r : reachable p -> whole_program p -> whole x -> fits p x -> f_is_feasible p x r -> (r = true <-> feasible (meaning p) x).
Proof.
  intros Hr W Wx [F1 F2] (L & ge & ax & close & D & K). pose proof (reachable_wf p Hr) as H. pose proof W as (_ & Wb & _ & _).
  assert (D' : forall i, i < rows p -> ax i = inner (nth i (lA p) []) x).
  { intros i Hi. apply (dot_int _ _ _ (D i Hi)); [apply whole_row; auto|auto|]. apply (Qcle_trans _ _ _ (F1 i Hi)). apply qz_le. lia. }
  unfold feasible. change (length (costs (meaning p))) with (cols p). change (rhs (meaning p)) with (lb p). change (coefficients (meaning p)) with (lA p). rewrite (wf_b _ H).
  assert (AB : forall A B C : Prop, (r = true <-> A /\ B) -> C -> (r = true <-> C /\ B /\ A)) by tauto. apply AB; auto. clear AB.
  destruct (lsef p) eqn:Es.
  - destruct K as (K1 & K2 & ->). rewrite andb_true_iff, !forallb_forall. destruct (sef_parts p H Es) as (E1 & E2 & E3 & _). split; intros (R1 & R2); split; intros i Hi.
    + rewrite nth_signs by auto. unfold sgn. rewrite E2, E3. cbn [inb existsb signed]. apply (ge0_int _ _ (K1 i Hi)); [now apply whole_at|]. apply R1. apply in_seq. lia.
    + rewrite nth_relations by now rewrite (wf_b _ H). unfold rel. rewrite E1. cbn [dget related]. rewrite <- D' by auto.
      assert (Q : nth i (relations (meaning p)) Equal = Equal) by (rewrite nth_relations by (now rewrite (wf_b _ H)); unfold rel; rewrite E1; reflexivity).
      apply (np_isclose_int _ _ _ (K2 i Hi)); [rewrite D' by auto; apply whole_inner; auto; now apply whole_row|now apply whole_at| |now apply (F2 i)|apply R2, in_seq; lia].
      rewrite D' by auto. pose proof (inner_bound (nth i (lA p) []) x). specialize (F1 i Hi). qclra.
    + apply in_seq in Hi. rewrite L in Hi. assert (Hi' : i < cols p) by lia. specialize (R1 i Hi'). rewrite nth_signs in R1 by auto. unfold sgn in R1. rewrite E2, E3 in R1. cbn [inb existsb signed] in R1. apply (ge0_int _ _ (K1 i Hi')); auto. now apply whole_at.
    + apply in_seq in Hi. assert (Hi' : i < rows p) by lia. specialize (R2 i Hi'). assert (Q : nth i (relations (meaning p)) Equal = Equal) by (rewrite nth_relations by (now rewrite (wf_b _ H)); unfold rel; rewrite E1; reflexivity).
      rewrite Q in R2. cbn [related] in R2. rewrite <- D' in R2 by auto.
      apply (np_isclose_int _ _ _ (K2 i Hi')); auto; [rewrite D' by auto; apply whole_inner; auto; now apply whole_row|now apply whole_at| |now apply (F2 i)].
      rewrite D' by auto. pose proof (inner_bound (nth i (lA p) []) x). specialize (F1 i Hi'). qclra.
  - destruct K as (K2 & ->). rewrite andb_true_iff, !forallb_forall.
    assert (S1 : forall j, j < cols p -> ((if inb j (lneg p) then qle (at_ x j) 0 else if inb j (lfree p) then true else qle 0 (at_ x j)) = true <-> signed (nth j (signs (meaning p)) Nonnegative) (nth j x 0%Qc))).
    { intros j Hj. rewrite nth_signs by auto. unfold sgn. change (nth j x 0%Qc) with (at_ x j). destruct (inb j (lneg p)) eqn:E1.
      - replace (inb j (lfree p)) with false by (symmetry; apply inb_false; intros Hf; apply inb_In in E1; now apply (wf_disj _ H j)).
        cbn [signed]. destruct (qle_spec (at_ x j) 0); split; intros; try discriminate; auto; contradiction.
      - destruct (inb j (lfree p)); cbn [signed]; [tauto|]. destruct (qle_spec 0 (at_ x j)); split; intros; try discriminate; auto; contradiction. }
    assert (S2 : forall i, i < rows p -> (match dget Nat.eqb i (lineq p) with
       | Some s => negb (String.eqb s "<=" && qlt (at_ (lb p) i) (ax i)) && negb (String.eqb s ">=" && qlt (ax i) (at_ (lb p) i))
       | None => close i end = true <-> related (nth i (relations (meaning p)) Equal) (inner (nth i (lA p) []) x) (nth i (lb p) 0%Qc))).
    { intros i Hi. specialize (F2 i Hi). rewrite nth_relations in * by now rewrite (wf_b _ H). rewrite (rel_cases p i H) in *. rewrite <- D' by auto. change (nth i (lb p) 0%Qc) with (at_ (lb p) i) in *.
      destruct (dget Nat.eqb i (lineq p)) as [s|] eqn:Ed.
      - apply (dget_In _ eqb_reflect), (wf_ineq _ H) in Ed. destruct Ed as (_ & [->| ->]); cbn [String.eqb Ascii.eqb Bool.eqb andb negb related].
        + rewrite andb_true_r. destruct (qlt_spec (at_ (lb p) i) (ax i)) as [K|K]; cbn [negb]; split; intros; try discriminate; auto; first [exfalso; qclra | now apply Qcnot_lt_le].
        + destruct (qlt_spec (ax i) (at_ (lb p) i)) as [K|K]; cbn [negb]; split; intros; try discriminate; auto; first [exfalso; qclra | now apply Qcnot_lt_le].
      - cbn [related]. destruct (F2 eq_refl) as (B1 & B2). apply (math_isclose_int _ _ _ (K2 i Hi)); auto; [rewrite D' by auto; apply whole_inner; auto; now apply whole_row|now apply whole_at|].
        rewrite D' by auto. pose proof (inner_bound (nth i (lA p) []) x). qclra. }
    split; intros (R1 & R2); split.
    + intros j Hj. apply S1; auto. apply R1, in_seq. lia.
    + intros i Hi. apply S2; auto. apply R2, in_seq. lia.
    + intros j Hj. apply in_seq in Hj. apply S1; [lia|]. apply R1. lia.
    + intros i Hi. apply in_seq in Hi. apply S2; [lia|]. apply R2. lia.
Qed.
Print Assumptions C74_is_feasible.

(** ** certificates made of whole numbers, for programs in SEF *)
(** accepted exactly when y A >= 0 and y b < 0; then the program is infeasible *)
Theorem C74_verify_infeasibility p y r : reachable p -> whole_program p -> whole y ->
  (forall j, j < length (lc p) -> (absolute_sum (combine y (column (lA p) j)) <= qz (2 ^ 53))%Qc) -> (absolute_sum (combine y (lb p)) <= qz (2 ^ 53))%Qc ->
  f_verify_infeasibility p y r ->
  (r = true <-> (forall j, j < length (lc p) -> (0 <= inner y (column (lA p) j))%Qc) /\ (inner y (lb p) < 0)%Qc) /\ (r = true -> infeasible (meaning p)).
Proof.
  intros Hr W Wy B1 B2 (Es & L & ya & yb & ge & lt & D1 & D2 & G & T & ->). pose proof (reachable_wf p Hr) as H. pose proof W as (_ & Wb & _ & _).
  assert (D : forall j, j < cols p -> ya j = inner y (column (lA p) j)) by (intros j Hj; apply (dot_int _ _ _ (D1 j Hj)); [exact Wy|exact (whole_column p j W)|now apply B1]).
  apply dot_int in D2; auto. subst yb. rewrite andb_true_iff, forallb_forall, (lt0_int _ _ T) by now apply whole_inner.
  assert (Q : (forall j, In j (seq 0 (cols p)) -> ge j = true) <-> (forall j, j < length (lc p) -> (0 <= inner y (column (lA p) j))%Qc)).
  { split; intros K j Hj.
    - fold (cols p) in Hj. rewrite <- D by auto. apply (ge0_int _ _ (G j Hj)); [rewrite D by auto; apply whole_inner; auto; now apply whole_column|]. apply K, in_seq. lia.
    - apply in_seq in Hj. assert (Hj' : j < cols p) by lia. apply (ge0_int _ _ (G j Hj')); [rewrite D by auto; apply whole_inner; auto; now apply whole_column|]. rewrite D by auto. now apply K. }
  rewrite Q. split; [tauto|]. intros (K1 & K2) x Hx. apply sfeas_iff in Hx; auto. destruct Hx as (X1 & X2 & X3).
  rewrite (inner_Sum (rows p)) in K2 by auto.
  assert (E : Sum (rows p) (fun i => at_ y i * at_ (lb p) i)%Qc = Sum (cols p) (fun j => Sum (rows p) (fun i => at_ y i * ent (lA p) i j) * at_ x j)%Qc).
  { rewrite <- Sum_assoc. apply Sum_ext. intros i Hi. now rewrite X2. }
  rewrite E in K2. assert (0 <= Sum (cols p) (fun j => Sum (rows p) (fun i => at_ y i * ent (lA p) i j) * at_ x j))%Qc; [|qclra].
  apply Sum_nonneg. intros j Hj. apply qmul_nonneg; [|auto]. specialize (K1 j Hj). rewrite (inner_column (rows p)) in K1 by auto. exact K1.
Qed.
Print Assumptions C74_verify_infeasibility.

(** accepted exactly when y A >= c; then y b bounds the objective *)
Theorem C74_verify_optimality p y r : reachable p -> whole_program p -> whole y ->
  (forall j, j < length (lc p) -> (absolute_sum (combine y (column (lA p) j)) <= qz (2 ^ 52) /\ qabs (nth j (lc p) 0) <= qz (2 ^ 52))%Qc) ->
  f_verify_optimality p y r ->
  (r = true <-> forall j, j < length (lc p) -> (nth j (lc p) 0 <= inner y (column (lA p) j))%Qc) /\
  (r = true -> forall x, feasible (meaning p) x -> (inner (lc p) x <= inner y (lb p))%Qc /\ (inner (lc p) x = inner y (lb p) -> optimal (meaning p) x)).
Proof.
  intros Hr W Wy B (Es & L & ya & test & le & D1 & T & G & ->). pose proof (reachable_wf p Hr) as H. pose proof W as (_ & _ & Wc & _).
  assert (D : forall j, j < cols p -> ya j = inner y (column (lA p) j)).
  { intros j Hj. apply (dot_int _ _ _ (D1 j Hj)); [exact Wy|exact (whole_column p j W)|]. apply (Qcle_trans _ _ _ (proj1 (B j Hj))). apply qz_le. lia. }
  assert (T' : forall j, j < cols p -> test j = (nth j (lc p) 0 - inner y (column (lA p) j))%Qc).
  { intros j Hj. specialize (T j Hj). rewrite D in T by auto. destruct (B j Hj) as (B1 & B2). pose proof (inner_bound y (column (lA p) j)) as I.
    destruct (diff_int (at_ (lc p) j) (inner y (column (lA p) j))) as (I1 & I2); [now apply whole_at|apply whole_inner; auto; now apply whole_column|exact B2|qclra|]. apply (rounds_int _ _ T); auto. }
  assert (Q : forallb le (seq 0 (cols p)) = true <-> forall j, j < length (lc p) -> (nth j (lc p) 0 <= inner y (column (lA p) j))%Qc).
  { rewrite forallb_forall. assert (I : forall j, isint (nth j (lc p) 0%Qc - inner y (column (lA p) j))) by (intros j; apply isint_sub; [now apply (whole_at (lc p))|apply whole_inner; auto; now apply whole_column]).
    split; intros K j Hj.
    - fold (cols p) in Hj. specialize (G j Hj). rewrite T' in G by auto. pose proof (proj1 (le0_int _ _ G (I j)) (K j ltac:(apply in_seq; lia))). qclra.
    - apply in_seq in Hj. assert (Hj' : j < cols p) by lia. specialize (G j Hj'). rewrite T' in G by auto. apply (le0_int _ _ G (I j)). specialize (K j Hj'). qclra. }
  split; auto. intros R. rewrite Q in R. pose proof (C38_accepts_certificates p y Hr Es L R) as V. destruct (C38_exact_partial p y Hr V R) as (V1 & V2). intros x Hx. split; auto.
Qed.
Print Assumptions C74_verify_optimality.

(** accepted exactly when x is feasible, A d = 0, d >= 0 and c d > 0; then the program is unbounded *)
Theorem C74_verify_unboundedness p x d r : reachable p -> whole_program p -> whole x -> whole d -> fits p x ->
  (forall i, i < length (lA p) -> (absolute_sum (combine (nth i (lA p) []) d) <= qz (2 ^ 52))%Qc) -> (absolute_sum (combine (lc p) d) <= qz (2 ^ 53))%Qc ->
  f_verify_unboundedness p x d r ->
  (r = true <-> feasible (meaning p) x /\ (0 < inner (lc p) d)%Qc /\ (forall i, i < length (lA p) -> inner (nth i (lA p) []) d = 0%Qc) /\ (forall j, j < length d -> (0 <= nth j d 0)%Qc)) /\
  (r = true -> unbounded (meaning p)).
Proof.
  intros Hr W Wx Wd F B1 B2 (Es & L & fe & cd & le & ad & close & ge & HF & D2 & Le & D1 & C & G & ->). pose proof (reachable_wf p Hr) as H. pose proof W as (_ & _ & Wc & _).
  apply (C74_is_feasible p x fe Hr W Wx F) in HF. apply dot_int in D2; auto. subst cd. apply le0_int in Le; [|now apply whole_inner].
  assert (D : forall i, i < rows p -> ad i = inner (nth i (lA p) []) d). { intros i Hi. apply (dot_int _ _ _ (D1 i Hi)); [now apply whole_row|exact Wd|]. apply (Qcle_trans _ _ _ (B1 i Hi)). apply qz_le. lia. }
  assert (Q1 : forallb close (seq 0 (rows p)) = true <-> forall i, i < length (lA p) -> inner (nth i (lA p) []) d = 0%Qc).
  { rewrite forallb_forall. assert (K : forall i, i < rows p -> (close i = true <-> inner (nth i (lA p) []) d = 0%Qc)).
    { intros i Hi. rewrite <- D by auto. pose proof (inner_bound (nth i (lA p) []) d) as I. specialize (B1 i Hi). apply (np_isclose_int _ _ _ (C i Hi)); [rewrite D by auto; apply whole_inner; auto; now apply whole_row|exists 0%Z; reflexivity|rewrite D by auto; qclra|vm_compute; discriminate]. }
    split; intros R i Hi; [apply K; auto; apply R, in_seq; unfold rows; lia|]. apply in_seq in Hi. apply K; [lia|]. apply R. unfold rows in Hi. lia. }
  assert (Q2 : forallb ge (seq 0 (cols p)) = true <-> forall j, j < length d -> (0 <= nth j d 0)%Qc).
  { rewrite forallb_forall. rewrite L. split; intros R j Hj; [apply (ge0_int _ _ (G j Hj)); [now apply whole_at|]; apply R, in_seq; lia|]. apply in_seq in Hj. assert (Hj' : j < cols p) by lia. apply (ge0_int _ _ (G j Hj')); [now apply whole_at|]. now apply R. }
  assert (Q : (if negb fe then false else if le then false else if negb (forallb close (seq 0 (rows p))) then false else forallb ge (seq 0 (cols p))) = true <->
    feasible (meaning p) x /\ (0 < inner (lc p) d)%Qc /\ (forall i, i < length (lA p) -> inner (nth i (lA p) []) d = 0%Qc) /\ (forall j, j < length d -> (0 <= nth j d 0)%Qc)).
  { rewrite <- HF, <- Q1, <- Q2. assert (Le' : le = false <-> (0 < inner (lc p) d)%Qc). { destruct le; split; try discriminate; auto; intros K; [pose proof (proj1 Le eq_refl); exfalso; qclra|]. apply Qcnot_le_lt. intros N. apply Le in N. discriminate. }
    rewrite <- Le'. destruct fe, le, (forallb close (seq 0 (rows p))), (forallb ge (seq 0 (cols p))); cbn [negb]; intuition discriminate. }
  rewrite Q. split; [tauto|]. intros (K1 & K2 & K3 & K4). apply (ray_unbounded p x d H Es K1 L K3); auto. intros j Hj. apply K4. now rewrite L.
Qed.
Print Assumptions C74_verify_unboundedness.

(** ** all numbers: the error of the value, for every order of the additions *)
Theorem C74_evaluate_error p x r : f_evaluate p x r ->
  (qabs (r - value (meaning p) x) <= error_bound (S (length (lc p))) (absolute_sum (combine (lc p) x) + qabs (lz p)))%Qc.
Proof.
  intros (L & v & D & R). change (value (meaning p) x) with (inner (lc p) x + lz p)%Qc. change (length (lc p)) with (cols p).
  assert (N : length (combine (lc p) x) = cols p) by (rewrite combine_length, L; unfold cols; lia).
  destruct (lc p) as [|c0 cs] eqn:Ec.
  - cbn [combine] in D. apply summed_nil in D. subst v. cbn [inner absolute_sum combine fold_right]. rewrite !Qcplus_0_l in *. apply rounds_error in R. cbn [combine length] in N. rewrite <- N.
    unfold error_bound. rewrite growth_S. change (growth 0) with 1%Qc. change (qz (2 * Z.of_nat 1)) with (1 + 1)%Qc. pose proof u_pos. pose proof h_pos. pose proof (qmul_nonneg unit_roundoff underflow ltac:(qclra) ltac:(qclra)).
    replace (((1 + unit_roundoff) * 1 - 1) * qabs (lz p) + (1 + 1) * ((1 + unit_roundoff) * 1) * underflow)%Qc with (unit_roundoff * qabs (lz p) + underflow + underflow + (1 + 1) * (unit_roundoff * underflow))%Qc by ring. qclra.
  - rewrite <- Ec in *. assert (NE : combine (lc p) x <> []) by (intros E; rewrite E in N; cbn in N; unfold cols in N; rewrite Ec in N; discriminate).
    pose proof (summed_strong _ _ D NE) as S1. rewrite N, exact_inner in S1. pose proof (inner_bound (lc p) x) as I.
    assert (R' : rounds (lz p * 1 + v) r) by (replace (lz p * 1 + v)%Qc with (v + lz p)%Qc by ring; exact R).
    pose proof (fused_error (cols p) _ _ v (lz p) 1 r ltac:(unfold cols; rewrite Ec; cbn; lia) I S1 R') as E. pose proof (strong_weak (1 + cols p) (qabs (lz p * 1) + absolute_sum (combine (lc p) x))) as W.
    replace (lz p * 1)%Qc with (lz p) in * by ring. replace (absolute_sum (combine (lc p) x) + qabs (lz p))%Qc with (qabs (lz p) + absolute_sum (combine (lc p) x))%Qc by ring.
    replace (inner (lc p) x + lz p)%Qc with (lz p + inner (lc p) x)%Qc by ring. change (S (cols p)) with (1 + cols p). qclra.
Qed.
Print Assumptions C74_evaluate_error.
(** what the accepted tests say about the numbers they get *)
Lemma small_u X : (0 <= X)%Qc -> (0 <= unit_roundoff * X /\ unit_roundoff * X <= Q2Qc (1 # 1000) * X)%Qc.
Proof.
  intros H. pose proof u_pos. split; [apply qmul_nonneg; qclra|]. assert (U : (unit_roundoff <= Q2Qc (1 # 1000))%Qc) by (vm_compute; discriminate). exact (qmul_le_r _ _ X U H).
Qed.
Lemma rounds_near x y : rounds x y -> (qabs y <= Q2Qc (1001 # 1000) * qabs x + underflow /\ qabs x <= Q2Qc (1002 # 1000) * qabs y + (1 + 1) * underflow)%Qc.
Proof.
  intros R. apply rounds_error in R. pose proof (qabs_nonneg x) as N. pose proof (small_u (qabs x) N) as (U1 & U2). pose proof h_pos. revert R U1 U2. generalize (unit_roundoff * qabs x)%Qc. intros v R U1 U2. assert (R' : (qabs (y - x) <= v + underflow)%Qc) by exact R. clear R.
  assert (K : (qabs y <= qabs x + (v + underflow) /\ qabs x <= qabs y + (v + underflow))%Qc) by (qab; split; qclra). destruct K as (K1 & K2). clear R'. revert K1 K2 N U2. generalize (qabs x) (qabs y). intros X Y K1 K2 N U2. split; qclra.
Qed.
Lemma ge0_bound v : f_ge0 v true -> (- (1 + 1) * tol_zero <= v)%Qc.
Proof.
  intros (c & (t & R & ->) & E). symmetry in E. apply orb_true_iff in E. destruct E as [E|E].
  - destruct (qlt_spec (qabs v) t) as [K|]; [|discriminate]. apply rounds_near in R. destruct R as (R & _). assert (P : (0 <= tol_zero)%Qc) by discriminate. rewrite (qabs_pos tol_zero P) in R. assert (U : (underflow <= Q2Qc (1 # 10) * tol_zero)%Qc) by (vm_compute; discriminate).
    destruct (qabs_cases t) as [(T1 & T2)|(T1 & T2)]; rewrite T2 in R; destruct (qabs_cases v) as [(V1 & V2)|(V1 & V2)]; rewrite V2 in K; qclra.
  - destruct (qle_spec 0 v) as [K|]; [|discriminate]. assert (P : (0 <= tol_zero)%Qc) by discriminate. qclra.
Qed.
Lemma np_bound a b : f_np_isclose a b true -> (qabs (a - b) <= (1 + 1) * (np_atol + np_rtol * qabs b))%Qc.
Proof.
  intros (d & rt & at' & m & s & R1 & R2 & R3 & R4 & R5 & E). symmetry in E. destruct (qle_spec (qabs d) s) as [K|]; [|discriminate]. clear E.
  apply rounds_near in R1. destruct R1 as (_ & R1). apply rounds_near in R2. destruct R2 as (R2 & _). apply rounds_near in R3. destruct R3 as (R3 & _). apply rounds_near in R4. destruct R4 as (R4 & _). apply rounds_near in R5. destruct R5 as (R5 & _).
  pose proof (qabs_add at' m) as A. rewrite qabs_mul in R4. pose proof (qabs_nonneg b) as B. rewrite (qabs_pos (qabs b) B) in R4. rewrite (qabs_pos np_rtol) in R2 by discriminate. rewrite (qabs_pos np_atol) in R3 by discriminate.
  assert (S1 : (s <= qabs s)%Qc) by (destruct (qabs_cases s) as [(? & ->)|(? & ->)]; qclra).
  pose proof (qmul_le_r _ _ (qabs b) R2 B) as M. assert (U : (underflow <= Q2Qc (1 # 100) * np_atol /\ underflow <= Q2Qc (1 # 100) * np_rtol)%Qc) by (split; vm_compute; discriminate). destruct U as (U1 & U2). pose proof (qmul_le_r _ _ (qabs b) U2 B) as M2.
  change (a - b)%Qc with (a + - b)%Qc in *. revert R1 R2 R3 R4 R5 A S1 M M2 K B. generalize (qabs (a + - b)%Qc) (qabs rt) (qabs at') (qabs m) (qabs (at' + m)) (qabs s) (qabs d). intros X0 X1 X2 X3 X4 X5 X6 R1 R2 R3 R4 R5 A S1 M M2 K B.
  assert (P : (0 <= np_atol)%Qc) by discriminate. pose proof (qmul_nonneg np_rtol (qabs b) ltac:(discriminate) B) as P2.
  replace (Q2Qc (1 # 100) * np_rtol * qabs b)%Qc with (Q2Qc (1 # 100) * (np_rtol * qabs b))%Qc in M2 by ring. replace ((Q2Qc (1001 # 1000) * np_rtol + underflow) * qabs b)%Qc with (Q2Qc (1001 # 1000) * (np_rtol * qabs b) + underflow * qabs b)%Qc in M by ring.
  revert M M2 R4 P2. generalize (np_rtol * qabs b)%Qc (underflow * qabs b)%Qc (X1 * qabs b)%Qc. intros Y1 Y2 Y3 M M2 R4 P2. clear R2. revert U1 P R3. generalize np_atol. intros at0 U1 P R3. qclra.
Qed.
Lemma math_bound a b : f_math_isclose a b true -> (qabs (a - b) <= Q2Qc (2 # 1000000000) * (qabs a + qabs b) + qz 5 * underflow)%Qc.
Proof.
  intros (d & t & m1 & m2 & R1 & R2 & R3 & R4 & E). pose proof h_pos as H. pose proof (qabs_nonneg a) as A. pose proof (qabs_nonneg b) as B.
  assert (Sym : qabs (a - b) = qabs (b - a)) by (rewrite <- (qabs_opp (b - a)); f_equal; ring). rewrite Sym. clear Sym.
  apply rounds_near in R1. destruct R1 as (_ & R1). apply rounds_near in R2. destruct R2 as (R2 & _). apply rounds_near in R3. destruct R3 as (R3 & _). apply rounds_near in R4. destruct R4 as (R4 & _). rewrite qabs_mul in R3, R4. rewrite (qabs_pos (Q2Qc (1 # 1000000000))) in R2 by discriminate.
  assert (T : (qabs t <= Q2Qc (11 # 10000000000))%Qc) by (apply (Qcle_trans _ _ _ R2); vm_compute; discriminate). pose proof (qmul_le_r _ _ (qabs a) T A) as Ma. pose proof (qmul_le_r _ _ (qabs b) T B) as Mb.
  assert (Q5 : qz 5 = (1 + 1 + 1 + 1 + 1)%Qc) by (apply Qc_is_canon; reflexivity). rewrite Q5. clear Q5.
  assert (D : (qabs d <= qabs m1 \/ qabs d <= qabs m2 \/ qabs d <= 0 \/ a = b)%Qc).
  { symmetry in E. rewrite !orb_true_iff in E. destruct E as [[[E|E]|E]|E]; [right; right; right; destruct (qeq_spec a b); [auto|discriminate]|left|right; left|right; right; left]; match type of E with qle ?u ?v = true => destruct (qle_spec u v); [auto|discriminate] end. }
  clear E R2 T. change (b - a)%Qc with (b + - a)%Qc in *.
  destruct D as [D|[D|[D| ->]]]; [| | |replace (b + - b)%Qc with 0%Qc by ring; rewrite qabs_0; pose proof (qmul_nonneg (Q2Qc (2 # 1000000000)) (qabs b + qabs b) ltac:(discriminate) ltac:(qclra)); qclra];
    revert R1 R3 R4 Ma Mb A B D; generalize (qabs (b + - a)%Qc) (qabs t * qabs a)%Qc (qabs t * qabs b)%Qc (qabs d) (qabs m1) (qabs m2) (qabs a) (qabs b); intros; qclra.
Qed.
(** how far a point accepted by [is_feasible] may miss the constraint [i] in double arithmetic: the error of the
    sum and, for equations, twice the tolerance of the comparison *)
Definition miss (p : lp) (x : list Qc) (i : nat) : Qc :=
  let v := inner (nth i (lA p) []) x in let b := nth i (lb p) 0%Qc in
  let e := error_bound (length (lc p)) (absolute_sum (combine (nth i (lA p) []) x)) in
  match nth i (relations (meaning p)) Equal with
  | Equal => if lsef p then (e + Q2Qc (2 # 100000000) + Q2Qc (2 # 100000) * qabs b)%Qc
             else (e + Q2Qc (2 # 1000000000) * (qabs v + e + qabs b) + qz 5 * underflow)%Qc
  | _ => e
  end.
Theorem C74_feasible_error p x : reachable p -> f_is_feasible p x true ->
  length x = length (lc p) /\
  (forall i, i < length (lA p) -> match nth i (relations (meaning p)) Equal with
     | AtMost => (inner (nth i (lA p) []) x <= nth i (lb p) 0 + miss p x i)%Qc
     | AtLeast => (nth i (lb p) 0 - miss p x i <= inner (nth i (lA p) []) x)%Qc
     | Equal => (qabs (inner (nth i (lA p) []) x - nth i (lb p) 0) <= miss p x i)%Qc
     end) /\
  (forall j, j < length (lc p) -> match nth j (signs (meaning p)) Nonnegative with
     | Nonnegative => (- Q2Qc (2 # 10000000000) <= nth j x 0)%Qc
     | Nonpositive => (nth j x 0 <= 0)%Qc
     | Unrestricted => True
     end).
Proof.
  intros Hr (L & ge & ax & close & D & K). pose proof (reachable_wf p Hr) as H. split; [exact L|].
  assert (D' : forall i, i < rows p -> (qabs (ax i - inner (nth i (lA p) []) x) <= error_bound (length (lc p)) (absolute_sum (combine (nth i (lA p) []) x)))%Qc).
  { intros i Hi. specialize (D i Hi). apply dot_error in D. rewrite combine_length, L in D. rewrite (shaped_nth (cols p)) in D by (auto; apply (wf_A _ H)). rewrite Nat.min_id in D. exact D. }
  destruct (lsef p) eqn:Es.
  - destruct (sef_parts p H Es) as (E1 & E2 & E3 & _). destruct K as (K1 & K2 & K). symmetry in K. apply andb_true_iff in K. destruct K as (G & C). rewrite forallb_forall in G, C. split; intros i Hi.
    + unfold miss. rewrite nth_relations by (rewrite (wf_b _ H); auto). unfold rel. rewrite E1. cbn [dget]. rewrite Es. specialize (D' i Hi). set (e := error_bound _ _) in *. clearbody e. specialize (K2 i Hi). rewrite (C i) in K2 by (apply in_seq; unfold rows; lia). apply np_bound in K2.
      change (at_ (lb p) i) with (nth i (lb p) 0%Qc) in K2. set (b := nth i (lb p) 0%Qc) in *. set (v := inner (nth i (lA p) []) x) in *. clearbody b v.
      assert (T : (qabs (v - b) <= qabs (ax i - v) + qabs (ax i - b))%Qc).
      { change (qabs (v + - b) <= qabs (ax i + - v) + qabs (ax i + - b))%Qc. destruct (qabs_cases (v + - b)) as [(? & ->)|(? & ->)], (qabs_cases (ax i + - v)) as [(? & ->)|(? & ->)], (qabs_cases (ax i + - b)) as [(? & ->)|(? & ->)]; qclra. }
      replace (Q2Qc (2 # 100000000)) with ((1 + 1) * np_atol)%Qc by (apply Qc_is_canon; reflexivity). replace (Q2Qc (2 # 100000)) with ((1 + 1) * np_rtol)%Qc by (apply Qc_is_canon; reflexivity).
      revert T K2 D'. generalize (qabs (v - b)) (qabs (ax i - v)) (qabs (ax i - b)). intros X0 X1 X2 T K2 D'. replace (e + (1 + 1) * np_atol + (1 + 1) * np_rtol * qabs b)%Qc with (e + (1 + 1) * (np_atol + np_rtol * qabs b))%Qc by ring. qclra.
    + rewrite nth_signs by auto. unfold sgn. rewrite E2, E3. cbn [inb existsb]. specialize (K1 i Hi). rewrite (G i) in K1 by (rewrite L; apply in_seq; unfold cols; lia). apply ge0_bound in K1.
      replace (- Q2Qc (2 # 10000000000))%Qc with (- (1 + 1) * tol_zero)%Qc by (apply Qc_is_canon; reflexivity). exact K1.
  - destruct K as (K2 & K). symmetry in K. apply andb_true_iff in K. destruct K as (G & C). rewrite forallb_forall in G, C. split; intros i Hi.
    + specialize (C i ltac:(apply in_seq; unfold rows; lia)). cbn beta in C. specialize (D' i Hi). specialize (K2 i Hi). unfold miss. rewrite Es. set (e := error_bound _ _) in *. clearbody e. rewrite nth_relations by (rewrite (wf_b _ H); auto). rewrite (rel_cases p i H). change (nth i (lb p) 0%Qc) with (at_ (lb p) i).
      set (v := inner (nth i (lA p) []) x) in *. set (b := at_ (lb p) i) in *. clearbody b v.
      destruct (dget Nat.eqb i (lineq p)) as [s|] eqn:Ed.
      * apply (dget_In _ eqb_reflect), (wf_ineq _ H) in Ed. apply qabs_le in D'. destruct D'. destruct Ed as (_ & [->| ->]); cbn [String.eqb Ascii.eqb Bool.eqb andb negb] in *.
        -- rewrite andb_true_r in C. destruct (qlt_spec b (ax i)) as [|N1]; [discriminate|]. qclra.
        -- destruct (qlt_spec (ax i) b) as [|N1]; [discriminate|]. qclra.
      * rewrite C in K2. apply math_bound in K2. assert (T : (qabs (v - b) <= qabs (ax i - v) + qabs (ax i - b) /\ qabs (ax i) <= qabs v + qabs (ax i - v))%Qc).
        { change (qabs (v + - b) <= qabs (ax i + - v) + qabs (ax i + - b) /\ qabs (ax i) <= qabs v + qabs (ax i + - v))%Qc. split.
          - destruct (qabs_cases (v + - b)) as [(? & ->)|(? & ->)], (qabs_cases (ax i + - v)) as [(? & ->)|(? & ->)], (qabs_cases (ax i + - b)) as [(? & ->)|(? & ->)]; qclra.
          - destruct (qabs_cases (ax i)) as [(? & ->)|(? & ->)], (qabs_cases (ax i + - v)) as [(? & ->)|(? & ->)], (qabs_cases v) as [(? & ->)|(? & ->)]; qclra. }
        destruct T as (T1 & T2). revert T1 T2 K2 D'. generalize (qabs (v - b)) (qabs (ax i - v)) (qabs (ax i - b)) (qabs (ax i)) (qabs v) (qabs b) (qz 5 * underflow)%Qc. intros X0 X1 X2 X3 X4 X5 X6 T1 T2 K2 D'. qclra.
    + specialize (G i ltac:(rewrite L; apply in_seq; unfold cols; lia)). cbn beta in G. rewrite nth_signs by auto. unfold sgn. change (nth i x 0%Qc) with (at_ x i). destruct (inb i (lneg p)) eqn:E1.
      * replace (inb i (lfree p)) with false by (symmetry; apply inb_false; intros Hf; apply inb_In in E1; now apply (wf_disj _ H i)). destruct (qle_spec (at_ x i) 0); [auto|discriminate].
      * destruct (inb i (lfree p)); auto. destruct (qle_spec 0 (at_ x i)); [|discriminate]. apply (Qcle_trans _ 0%Qc); auto. discriminate.
Qed.
Print Assumptions C74_feasible_error.

(** ** beyond 2^53 the answer depends on the order *)
Lemma isint_list (l : list Z) v : In v (map qz l) -> isint v.
Proof. intros H. apply in_map_iff in H. destruct H as (z & <- & _). exists z. reflexivity. Qed.
Lemma qz_sub a b : qz (a - b) = (qz a - qz b)%Qc.
Proof. unfold Qcminus. rewrite <- qz_opp, <- qz_add. reflexivity. Qed.
(** 2^53 + 1 may be rounded to 2^53 *)
Lemma tie : rounds (qz (2 ^ 53 + 1)) (qz (2 ^ 53)).
Proof.
  split; [apply double_int; lia|]. intros d (m & e & M & E & ->). rewrite <- qz_sub. replace (2 ^ 53 + 1 - 2 ^ 53)%Z with 1%Z by lia. rewrite qz_1, (qabs_pos 1) by discriminate.
  destruct (Z.le_gt_cases 1 e) as [P|P].
  - rewrite pow2_int by lia. rewrite <- qz_mul, <- qz_sub. apply int_gap; [eexists; reflexivity|]. intros N. rewrite <- qz_0 in N. apply qz_inj in N.
    assert (Ev : exists k, (m * 2 ^ e = 2 * k)%Z) by (exists (m * 2 ^ (e - 1))%Z; replace e with (1 + (e - 1))%Z at 1 by lia; rewrite Z.pow_add_r by lia; lia). destruct Ev as (k & Ek). rewrite Ek in N. lia.
  - assert (B : (qz m * pow2 e <= qz (2 ^ 53))%Qc).
    { pose proof (pow2_le e 0 ltac:(lia)) as Q. rewrite pow2_0 in Q. pose proof (pow2_pos e) as Q0. assert (Q1 : (qz m <= qz (2 ^ 53))%Qc) by (apply qz_le; lia). pose proof (qmul_le_r _ _ (pow2 e) Q1 ltac:(qclra)) as Q2.
      pose proof (qmul_le_r _ _ (qz (2 ^ 53)) Q ltac:(vm_compute; discriminate)) as Q3. qclra. }
    assert (S1 : (qz (2 ^ 53 + 1) = qz (2 ^ 53) + 1)%Qc) by (rewrite <- qz_1, <- qz_add; reflexivity). rewrite S1. rewrite qabs_pos; qclra.
Qed.
(** 2^53 x1 + x2 - 2^53 x3 >= 1: (1, 1, 1) is feasible, and the test may say either *)
Theorem C74_order_refuted : exists p x, reachable p /\ whole_program p /\ whole x /\ feasible (meaning p) x /\ f_is_feasible p x true /\ f_is_feasible p x false.
Proof.
  destruct (linear_program (mat 3 [[2 ^ 53; 1; - 2 ^ 53]]%Z) (vec [1]%Z) (vec [1; 1; 1]%Z) 0%Qc "max" (Some [">="]) None None) as [p| |] eqn:E; try discriminate E.
  exists p, [qz 1; qz 1; qz 1]. split; [refine (r_new _ _ _ _ _ _ _ _ _ _ E); repeat constructor|]. injection E as <-.
  assert (P : forall a, (Z.abs a <= 2 ^ 53)%Z -> rounds (qz a * qz 1) (qz a)).
  { intros a Ha. rewrite <- qz_mul, Z.mul_1_r. split; [now apply double_int|]. intros d _. replace (qz a - qz a)%Qc with 0%Qc by ring. rewrite qabs_0. apply qabs_nonneg. }
  assert (Ex : forall a, (Z.abs a <= 2 ^ 53)%Z -> rounds (qz a) (qz a)) by (intros a Ha; pose proof (P a Ha) as Q; rewrite <- qz_mul, Z.mul_1_r in Q; exact Q).
  assert (D1 : f_dot [qz (2 ^ 53); qz 1; qz (- 2 ^ 53)] [qz 1; qz 1; qz 1] (qz 1)).
  { unfold f_dot. cbn [combine]. apply (sum_fused _ (qz 1) (qz 1) [(qz (2 ^ 53), qz 1); (qz (- 2 ^ 53), qz 1)] (qz 0)); [apply perm_swap|discriminate| |].
    - apply (sum_parts _ [(qz (2 ^ 53), qz 1)] [(qz (- 2 ^ 53), qz 1)] (qz (2 ^ 53)) (qz (- 2 ^ 53))); [apply Permutation_refl|discriminate|discriminate|constructor; apply P; lia|constructor; apply P; lia|].
      rewrite <- qz_add. apply Ex. cbn. lia.
    - replace (qz 1 * qz 1 + qz 0)%Qc with (qz 1) by (apply Qc_is_canon; reflexivity). apply Ex. lia. }
  assert (D2 : f_dot [qz (2 ^ 53); qz 1; qz (- 2 ^ 53)] [qz 1; qz 1; qz 1] (qz 0)).
  { unfold f_dot. cbn [combine]. apply (sum_parts _ [(qz (2 ^ 53), qz 1); (qz 1, qz 1)] [(qz (- 2 ^ 53), qz 1)] (qz (2 ^ 53)) (qz (- 2 ^ 53))); [apply Permutation_refl|discriminate|discriminate| |constructor; apply P; lia|].
    - apply (sum_parts _ [(qz (2 ^ 53), qz 1)] [(qz 1, qz 1)] (qz (2 ^ 53)) (qz 1)); [apply Permutation_refl|discriminate|discriminate|constructor; apply P; lia|constructor; apply P; lia|]. rewrite <- qz_add. apply tie.
    - rewrite <- qz_add. apply Ex. cbn. lia. }
  assert (C : forall a, (Z.abs a <= 1)%Z -> exists c, f_math_isclose (qz a) (qz 1) c).
  { intros a Ha. destruct (rounds_some (qz 1 - qz a)) as (d & R1 & _). destruct (rounds_some (Q2Qc (1 # 1000000000))) as (t & R2 & _). destruct (rounds_some (t * qz 1)) as (m1 & R3 & _). destruct (rounds_some (t * qz a)) as (m2 & R4 & _). eexists. exists d, t, m1, m2. split; [exact R1|]. split; [exact R2|]. split; [exact R3|]. split; [exact R4|]. reflexivity. }
  destruct (C 1%Z ltac:(lia)) as (c1 & C1). destruct (C 0%Z ltac:(lia)) as (c0 & C0).
  split; [|split; [|split; [|split]]].
  - split; [|split; [|split]].
    + intros r [<-|[]] v Hv. apply (isint_list [2 ^ 53; 1; - 2 ^ 53]%Z v Hv).
    + intros v Hv. apply (isint_list [1]%Z v Hv).
    + intros v Hv. apply (isint_list [1; 1; 1]%Z v Hv).
    + exists 0%Z. reflexivity.
  - intros v Hv. apply (isint_list [1; 1; 1]%Z v Hv).
  - split; [reflexivity|]. split.
    + intros [|i] Hi; [|cbn in Hi; lia]. vm_compute. discriminate.
    + intros [|[|[|j]]] Hj; [| | |cbn in Hj; lia]; vm_compute; discriminate.
  - split; [reflexivity|]. exists (fun _ => true), (fun _ => qz 1), (fun _ => c1). split; [intros [|i] Hi; [exact D1|cbn in Hi; lia]|]. cbn [lsef]. split; [intros [|i] Hi; [exact C1|cbn in Hi; lia]|]. vm_compute. reflexivity.
  - split; [reflexivity|]. exists (fun _ => true), (fun _ => qz 0), (fun _ => c0). split; [intros [|i] Hi; [exact D2|cbn in Hi; lia]|]. cbn [lsef]. split; [intros [|i] Hi; [exact C0|cbn in Hi; lia]|]. vm_compute. reflexivity.
Qed.
Print Assumptions C74_order_refuted.

(** ** a point that satisfies every inequality with room for the error is accepted *)
Theorem C74_feasible_margin p x r : reachable p -> lsef p = false ->
  (forall j, j < length (lc p) -> signed (nth j (signs (meaning p)) Nonnegative) (nth j x 0%Qc)) ->
  (forall i, i < length (lA p) -> let e := error_bound (length (lc p)) (absolute_sum (combine (nth i (lA p) []) x)) in
     match nth i (relations (meaning p)) Equal with
     | AtMost => (inner (nth i (lA p) []) x + e <= nth i (lb p) 0)%Qc
     | AtLeast => (nth i (lb p) 0 + e <= inner (nth i (lA p) []) x)%Qc
     | Equal => False
     end) ->
  f_is_feasible p x r -> r = true.
Proof.
  intros Hr Es HS HM (L & ge & ax & close & D & K). rewrite Es in K. destruct K as (_ & ->). pose proof (reachable_wf p Hr) as H. apply andb_true_iff. split; apply forallb_forall; intros i Hi; apply in_seq in Hi.
  - rewrite L in Hi. assert (Hi' : i < cols p) by lia. specialize (HS i Hi'). rewrite nth_signs in HS by auto. unfold sgn in HS. change (nth i x 0%Qc) with (at_ x i) in HS. destruct (inb i (lneg p)) eqn:E1.
    + replace (inb i (lfree p)) with false in HS by (symmetry; apply inb_false; intros Hf; apply inb_In in E1; now apply (wf_disj _ H i)). cbn [signed] in HS. destruct (qle_spec (at_ x i) 0); auto; contradiction.
    + destruct (inb i (lfree p)); cbn [signed] in HS; auto. destruct (qle_spec 0 (at_ x i)); auto; contradiction.
  - assert (Hi' : i < rows p) by lia. specialize (HM i Hi'). cbv zeta in HM. specialize (D i Hi'). apply dot_error in D.
    assert (N : length (combine (nth i (lA p) []) x) = length (lc p)) by (rewrite combine_length, L; rewrite (shaped_nth (cols p)) by (auto; apply (wf_A _ H)); unfold cols; lia).
    rewrite N in D. set (e := error_bound (length (lc p)) (absolute_sum (combine (nth i (lA p) []) x))) in *. clearbody e. rewrite nth_relations in HM by (rewrite (wf_b _ H); auto). rewrite (rel_cases p i H) in HM. change (nth i (lb p) 0%Qc) with (at_ (lb p) i) in HM.
    apply qabs_le in D. destruct D as (D1 & D2).
    destruct (dget Nat.eqb i (lineq p)) as [s|] eqn:Ed; [|contradiction]. apply (dget_In _ eqb_reflect), (wf_ineq _ H) in Ed. destruct Ed as (_ & [->| ->]); cbn [String.eqb Ascii.eqb Bool.eqb andb negb] in *.
    + rewrite andb_true_r. destruct (qlt_spec (at_ (lb p) i) (ax i)); cbn [negb]; auto. exfalso. qclra.
    + destruct (qlt_spec (ax i) (at_ (lb p) i)); cbn [negb]; auto. exfalso. qclra.
Qed.
Print Assumptions C74_feasible_margin.

(** ** the relations are not empty: every call with arguments of the right length has a result *)
Lemma choices {A} (P : nat -> A -> Prop) (a : A) n : (forall i, i < n -> exists v, P i v) -> exists f, forall i, i < n -> P i (f i).
Proof.
  induction n as [|n IH]; intros H; [exists (fun _ => a); intros i Hi; lia|]. destruct IH as (f & Hf); [intros i Hi; apply H; lia|]. destruct (H n ltac:(lia)) as (v & Hv).
  exists (fun i => if Nat.eqb i n then v else f i). intros i Hi. destruct (Nat.eqb_spec i n) as [->|N]; auto. apply Hf. lia.
Qed.
Lemma dot_some u v : exists r, f_dot u v r. Proof. apply summed_exists. Qed.
Lemma close_some v : exists r, f_close_to_zero v r.
Proof. destruct (rounds_some tol_zero) as (t & R & _). eexists. exists t. split; [exact R|reflexivity]. Qed.
Lemma ge0_some v : exists r, f_ge0 v r. Proof. destruct (close_some v) as (c & C). eexists. exists c. split; [exact C|reflexivity]. Qed.
Lemma le0_some v : exists r, f_le0 v r. Proof. destruct (close_some v) as (c & C). eexists. exists c. split; [exact C|reflexivity]. Qed.
Lemma lt0_some v : exists r, f_lt0 v r. Proof. destruct (close_some v) as (c & C). eexists. exists c. split; [exact C|reflexivity]. Qed.
Lemma np_some a b : exists r, f_np_isclose a b r.
Proof.
  destruct (rounds_some (a - b)) as (d & R1 & _). destruct (rounds_some np_rtol) as (rt & R2 & _). destruct (rounds_some np_atol) as (at' & R3 & _). destruct (rounds_some (rt * qabs b)) as (m & R4 & _). destruct (rounds_some (at' + m)) as (s & R5 & _).
  eexists. exists d, rt, at', m, s. split; [exact R1|]. split; [exact R2|]. split; [exact R3|]. split; [exact R4|]. split; [exact R5|]. reflexivity.
Qed.
Lemma math_some a b : exists r, f_math_isclose a b r.
Proof.
  destruct (rounds_some (b - a)) as (d & R1 & _). destruct (rounds_some (Q2Qc (1 # 1000000000))) as (t & R2 & _). destruct (rounds_some (t * b)) as (m1 & R3 & _). destruct (rounds_some (t * a)) as (m2 & R4 & _).
  eexists. exists d, t, m1, m2. split; [exact R1|]. split; [exact R2|]. split; [exact R3|]. split; [exact R4|]. reflexivity.
Qed.
Lemma feasible_some p x : length x = cols p -> exists r, f_is_feasible p x r.
Proof.
  intros L. destruct (choices _ 0%Qc (rows p) (fun i _ => dot_some (nth i (lA p) []) x)) as (ax & D).
  destruct (choices _ true (cols p) (fun j _ => ge0_some (at_ x j))) as (ge & G). destruct (choices _ true (rows p) (fun i _ => np_some (ax i) (at_ (lb p) i))) as (c1 & C1). destruct (choices _ true (rows p) (fun i _ => math_some (ax i) (at_ (lb p) i))) as (c2 & C2).
  destruct (lsef p) eqn:Es; eexists; split; auto; [exists ge, ax, c1|exists ge, ax, c2]; (split; [exact D|]); rewrite Es; [split; [exact G|]; split; [exact C1|]; reflexivity|split; [exact C2|]; reflexivity].
Qed.
Theorem C74_answers p x y d : length x = length (lc p) -> length d = length (lc p) -> length y = length (lA p) ->
  (exists r, f_evaluate p x r) /\ (exists r, f_is_feasible p x r) /\
  (lsef p = true -> (exists r, f_verify_infeasibility p y r) /\ (exists r, f_verify_unboundedness p x d r) /\ (exists r, f_verify_optimality p y r)).
Proof.
  intros Lx Ld Ly. split; [|split; [now apply feasible_some|]].
  - destruct (dot_some (lc p) x) as (v & D). destruct (rounds_some (v + lz p)) as (r & R & _). exists r. split; auto. exists v. auto.
  - intros Es. destruct (choices _ 0%Qc (cols p) (fun j _ => dot_some y (f_column (lA p) j))) as (ya & D1). split; [|split].
    + destruct (dot_some y (lb p)) as (yb & D2). destruct (choices _ true (cols p) (fun j _ => ge0_some (ya j))) as (ge & G). destruct (lt0_some yb) as (lt & T). eexists. split; auto. split; auto. exists ya, yb, ge, lt. repeat (split; [eassumption|]). reflexivity.
    + destruct (feasible_some p x Lx) as (fe & F). destruct (dot_some (lc p) d) as (cd & D2). destruct (le0_some cd) as (le & Le). destruct (choices _ 0%Qc (rows p) (fun i _ => dot_some (nth i (lA p) []) d)) as (ad & D).
      destruct (choices _ true (rows p) (fun i _ => np_some (ad i) 0)) as (c1 & C1). destruct (choices _ true (cols p) (fun j _ => ge0_some (at_ d j))) as (ge & G). eexists. split; auto. split; auto. exists fe, cd, le, ad, c1, ge. repeat (split; [eassumption|]). reflexivity.
    + destruct (choices _ 0%Qc (cols p) (fun j _ => let (t, H) := rounds_some (at_ (lc p) j - ya j) in ex_intro _ t (proj1 H))) as (ts & T). destruct (choices _ true (cols p) (fun j _ => le0_some (ts j))) as (le & Le). eexists. split; auto. split; auto. exists ya, ts, le. repeat (split; [eassumption|]). reflexivity.
Qed.
Print Assumptions C74_answers.

(** ** concrete cases *)
Definition pt (l : list Z) : list Qc := map qz l.
Lemma whole_vec l : whole (pt l). Proof. intros v Hv. now apply (isint_list l). Qed.
(** max 3 x1 + 2 x2 with x1 + x2 <= 1000, x1 - x2 >= -7, x1 + 3 x2 = 900 at (600, 100) *)
Example C74_nontrivial : exists p r v, reachable p /\ whole_program p /\ whole (pt [600; 100]%Z) /\ fits p (pt [600; 100]%Z) /\
  f_is_feasible p (pt [600; 100]%Z) r /\ r = true /\ f_evaluate p (pt [600; 100]%Z) v /\ v = qz 2005.
Proof.
  destruct (linear_program (mat 2 [[1; 1]; [1; -1]; [1; 3]]%Z) (vec [1000; -7; 900]%Z) (vec [3; 2]%Z) (qz 5) "max" (Some ["<="; ">="; "="]) None None) as [p| |] eqn:E; try discriminate E.
  assert (R : reachable p) by (refine (r_new _ _ _ _ _ _ _ _ _ _ E); repeat constructor). injection E as <-.
  match type of R with reachable ?t => set (p := t) in * end.
  assert (W : whole_program p). { split; [|split; [|split]]; [|apply (whole_vec [1000; -7; 900]%Z)|apply (whole_vec [3; 2]%Z)|exists 5%Z; reflexivity]. intros r [<-|[<-|[<-|[]]]]; [apply (whole_vec [1; 1]%Z)|apply (whole_vec [1; -1]%Z)|apply (whole_vec [1; 3]%Z)]. }
  assert (F : fits p (pt [600; 100]%Z)). { split; intros [|[|[|i]]] Hi; try (cbn in Hi; lia); try (vm_compute; discriminate); intros Q; try (vm_compute in Q; discriminate). cbn [lsef p]. split; vm_compute; discriminate. }
  destruct (C74_answers p (pt [600; 100]%Z) (pt [0; 0; 0]%Z) (pt [0; 0]%Z) eq_refl eq_refl eq_refl) as ((v & V) & (r & Hr) & _).
  exists p, r, v. split; auto. split; auto. split; [apply whole_vec|]. split; auto. split; auto. split; [|split; auto].
  - apply (C74_is_feasible p _ r R W (whole_vec _) F Hr). split; [reflexivity|]. split.
    + intros [|[|[|i]]] Hi; [| | |cbn in Hi; lia]; vm_compute; first [discriminate | reflexivity].
    + intros [|[|j]] Hj; [| |cbn in Hj; lia]; vm_compute; discriminate.
  - rewrite (C74_evaluate p (pt [600; 100]%Z) v W (whole_vec _) ltac:(vm_compute; discriminate) V). apply Qc_is_canon. reflexivity.
Qed.
(** certificates: x1 + x2 = -3 is infeasible by y = 7; max 4 x1 + x2 with x1 - x2 = 2 is unbounded along
    (5, 5); max x1 + x2 with 2 x1 + 3 x2 = 6 is bounded by y = 1 *)
Example C74_certificates :
  (exists p r, reachable p /\ whole_program p /\ f_verify_infeasibility p (pt [7]%Z) r /\ r = true) /\
  (exists p r, reachable p /\ whole_program p /\ fits p (pt [2; 0]%Z) /\ f_verify_unboundedness p (pt [2; 0]%Z) (pt [5; 5]%Z) r /\ r = true) /\
  (exists p r, reachable p /\ whole_program p /\ f_verify_optimality p (pt [1]%Z) r /\ r = true).
Proof.
  split; [|split].
  - destruct (linear_program (mat 2 [[1; 1]]%Z) (vec [-3]%Z) (vec [4; 1]%Z) 0%Qc "max" None None None) as [p| |] eqn:E; try discriminate E.
    assert (R : reachable p) by (refine (r_new _ _ _ _ _ _ _ _ _ _ E); repeat constructor). injection E as <-. match type of R with reachable ?t => set (p := t) in * end.
    assert (W : whole_program p). { split; [|split; [|split]]; [|apply (whole_vec [-3]%Z)|apply (whole_vec [4; 1]%Z)|exists 0%Z; reflexivity]. intros r [<-|[]]. apply (whole_vec [1; 1]%Z). }
    destruct (C74_answers p (pt [0; 0]%Z) (pt [7]%Z) (pt [0; 0]%Z) eq_refl eq_refl eq_refl) as (_ & _ & H). destruct (H eq_refl) as ((r & Hr) & _ & _). exists p, r. split; auto. split; auto. split; auto.
    refine (proj2 (proj1 (C74_verify_infeasibility p _ r R W (whole_vec _) _ _ Hr)) _); [intros [|[|j]] Hj; [| |cbn in Hj; lia]; vm_compute; discriminate|vm_compute; discriminate|].
    split; [intros [|[|j]] Hj; [| |cbn in Hj; lia]; vm_compute; discriminate|vm_compute; reflexivity].
  - destruct (linear_program (mat 2 [[1; -1]]%Z) (vec [2]%Z) (vec [4; 1]%Z) 0%Qc "max" None None None) as [p| |] eqn:E; try discriminate E.
    assert (R : reachable p) by (refine (r_new _ _ _ _ _ _ _ _ _ _ E); repeat constructor). injection E as <-. match type of R with reachable ?t => set (p := t) in * end.
    assert (W : whole_program p). { split; [|split; [|split]]; [|apply (whole_vec [2]%Z)|apply (whole_vec [4; 1]%Z)|exists 0%Z; reflexivity]. intros r [<-|[]]. apply (whole_vec [1; -1]%Z). }
    assert (F : fits p (pt [2; 0]%Z)). { split; intros [|i] Hi; try (cbn in Hi; lia); [vm_compute; discriminate|]. intros _. cbn [lsef p]. vm_compute. discriminate. }
    destruct (C74_answers p (pt [2; 0]%Z) (pt [7]%Z) (pt [5; 5]%Z) eq_refl eq_refl eq_refl) as (_ & _ & H). destruct (H eq_refl) as (_ & (r & Hr) & _). exists p, r. split; auto. split; auto. split; auto. split; auto.
    refine (proj2 (proj1 (C74_verify_unboundedness p _ _ r R W (whole_vec _) (whole_vec _) F _ _ Hr)) _); [intros [|i] Hi; [|cbn in Hi; lia]; vm_compute; discriminate|vm_compute; discriminate|].
    split; [|split; [vm_compute; reflexivity|split]].
    + split; [reflexivity|]. split; [intros [|i] Hi; [|cbn in Hi; lia]; vm_compute; reflexivity|intros [|[|j]] Hj; [| |cbn in Hj; lia]; vm_compute; discriminate].
    + intros [|i] Hi; [|cbn in Hi; lia]. apply Qc_is_canon. reflexivity.
    + intros [|[|j]] Hj; [| |cbn in Hj; lia]; vm_compute; discriminate.
  - destruct (linear_program (mat 2 [[2; 3]]%Z) (vec [6]%Z) (vec [1; 1]%Z) 0%Qc "max" None None None) as [p| |] eqn:E; try discriminate E.
    assert (R : reachable p) by (refine (r_new _ _ _ _ _ _ _ _ _ _ E); repeat constructor). injection E as <-. match type of R with reachable ?t => set (p := t) in * end.
    assert (W : whole_program p). { split; [|split; [|split]]; [|apply (whole_vec [6]%Z)|apply (whole_vec [1; 1]%Z)|exists 0%Z; reflexivity]. intros r [<-|[]]. apply (whole_vec [2; 3]%Z). }
    destruct (C74_answers p (pt [0; 0]%Z) (pt [1]%Z) (pt [0; 0]%Z) eq_refl eq_refl eq_refl) as (_ & _ & H). destruct (H eq_refl) as (_ & _ & (r & Hr)). exists p, r. split; auto. split; auto. split; auto.
    refine (proj2 (proj1 (C74_verify_optimality p _ r R W (whole_vec _) _ Hr)) _); [intros [|[|j]] Hj; [| |cbn in Hj; lia]; split; vm_compute; discriminate|].
    intros [|[|j]] Hj; [| |cbn in Hj; lia]; vm_compute; discriminate.
Qed.
(** a point with fractional entries and room: 0.1 x1 + 0.7 x2 <= 1 at (0.3, 0.9) *)
Example C74_margin_case : exists p x r, reachable p /\ lsef p = false /\ f_is_feasible p x r /\ r = true.
Proof.
  destruct (linear_program (Nd (Mat 2 [[Q2Qc (1 # 10); Q2Qc (7 # 10)]])) (vec [1]%Z) (vec [1; 1]%Z) 0%Qc "max" (Some ["<="]) None None) as [p| |] eqn:E; try discriminate E.
  assert (R : reachable p) by (refine (r_new _ _ _ _ _ _ _ _ _ _ E); repeat constructor). injection E as <-. match type of R with reachable ?t => set (p := t) in * end.
  destruct (feasible_some p [Q2Qc (3 # 10); Q2Qc (9 # 10)] eq_refl) as (r & Hr). exists p, [Q2Qc (3 # 10); Q2Qc (9 # 10)], r. split; auto. split; [reflexivity|]. split; auto.
  apply (C74_feasible_margin p [Q2Qc (3 # 10); Q2Qc (9 # 10)] r R eq_refl); auto.
  - intros [|[|j]] Hj; [| |cbn in Hj; lia]; vm_compute; discriminate.
  - intros [|i] Hi; [|cbn in Hi; lia]. vm_compute. discriminate.
Qed.
