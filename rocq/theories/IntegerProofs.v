(** Proofs about branch and bound. *)
From Coq Require Import String List Bool Arith ZArith QArith Qcanon Qround Lia Sorted.
From Verif Require Import Py QcTac QSum QInt ComparatorModel ComparatorSpec ComparatorProofs MatModel MatTheory LinearModel LinearSpec LinearProofs LinearInv DualProofs LinearProps IntegerModel IntegerSpec.
Import ListNotations.
Open Scope nat_scope.
Open Scope string_scope.
Open Scope list_scope.

(** ** rounding *)
Lemma isint_near v : isint v -> near_integer v.
Proof.
  intros (z & ->). exists z. change (Q2Qc (inject_Z z)) with (qz z). assert (K : (0 < eps10)%Qc) by reflexivity. generalize dependent eps10. intros e K. split; clear - K; qclra.
Qed.
Lemma floor_le x : (qz (floor x) <= x)%Qc.
Proof. unfold floor, qz, Qcle. rewrite this_Q2Qc. apply Qfloor_le. Qed.
Lemma ceil_ge x : (x <= qz (ceil x))%Qc.
Proof. unfold ceil, qz, Qcle. rewrite this_Q2Qc. apply Qle_ceiling. Qed.
Lemma floor_int x k : (qz k <= x)%Qc -> (k <= floor x)%Z.
Proof. unfold floor, qz, Qcle. rewrite this_Q2Qc. intros H. rewrite <- (Qfloor_Z k). now apply Qfloor_resp_le. Qed.
Lemma ceil_int x k : (x <= qz k)%Qc -> (ceil x <= k)%Z.
Proof. unfold ceil, qz, Qcle. rewrite this_Q2Qc. intros H. rewrite <- (Qceiling_Z k). now apply Qceiling_resp_le. Qed.
(** an integer lies on one side *)
Lemma split_int x k : ~ isint x -> (qz k <= qz (floor x))%Qc \/ (qz (ceil x) <= qz k)%Qc.
Proof.
  intros H. destruct (Qclt_le_dec x (qz k)) as [K|K].
  - right. apply qz_le, ceil_int. now apply Qclt_le_weak.
  - left. apply qz_le, floor_int. exact K.
Qed.

(** ** the program of a branch *)
Lemma inner_unit n i x : i < n -> length x = n -> inner (unit_row n i) x = nth i x 0%Qc.
Proof.
  intros Hi Hx. rewrite (inner_Sum n) by (unfold unit_row; now rewrite map_length, seq_length). rewrite (Sum_single n i) by (auto; intros j Hj K; unfold unit_row, at_; rewrite nth_map_seq by auto; apply Nat.eqb_neq in K; rewrite K; ring).
  unfold unit_row, at_. rewrite nth_map_seq by auto. rewrite Nat.eqb_refl. ring.
Qed.
Definition rows_hold (p : lp) (y : list Qc) : Prop :=
  forall i, i < length (rhs (meaning p)) -> related (nth i (relations (meaning p)) Equal) (inner (nth i (coefficients (meaning p)) []) y) (nth i (rhs (meaning p)) 0%Qc).
Lemma nonneg_feasible p y : nonnegative_variables p -> (feasible (meaning p) y <-> length y = cols p /\ rows_hold p y /\ forall j, j < cols p -> (0 <= nth j y 0)%Qc).
Proof.
  intros (F & N). unfold feasible. fold (rows_hold p y). change (length (costs (meaning p))) with (cols p).
  assert (K : forall j, j < cols p -> nth j (signs (meaning p)) Nonnegative = Nonnegative).
  { intros j Hj. unfold meaning. cbn [signs]. change (length (lc p)) with (cols p). rewrite nth_map_seq by auto. unfold sign_of. rewrite F, N. reflexivity. }
  split; intros (H1 & H2 & H3); repeat split; auto; intros j Hj; specialize (H3 j Hj); rewrite K in * by auto; exact H3.
Qed.
Definition bound_sign (s : string) : Prop := s = "<=" \/ s = ">=".
Lemma child_spec p i s k q : wf p -> i < cols p -> bound_sign s -> child p i s k = Ok q ->
  reachable q /\ cols q = cols p /\ rows q = S (rows p) /\ lA q = lA p ++ [unit_row (cols p) i] /\ lb q = lb p ++ [qz k] /\ lc q = lc p /\ lz q = lz p /\ lobj q = lobj p /\ inequalities q = inequalities p ++ [s] /\ nonnegative_variables q /\
  forall y, feasible (meaning q) y <-> length y = cols p /\ rows_hold p y /\ related (relation_of s) (nth i y 0%Qc) (qz k) /\ forall j, j < cols p -> (0 <= nth j y 0)%Qc.
Proof.
  intros H Hi Hs E. unfold child in E.
  destruct (C28_reads_back (cols p) (lA p ++ [unit_row (cols p) i]) (lb p ++ [qz k]) (lc p) (Nd (Mat (cols p) (lA p ++ [unit_row (cols p) i]))) (Nd (Vec (lb p ++ [qz k]))) (Nd (Vec (lc p))) _ _ _ _ _ q eq_refl eq_refl eq_refl E) as (R1 & R2 & R3 & R4 & R5 & R6 & (_ & R7) & (_ & R8) & _ & _).
  cbn [opt_list] in R6, R7, R8. assert (N : nonnegative_variables q).
  { split; [destruct (free_variables q) as [|a l] eqn:K; auto; exfalso; apply (R7 a); simpl; auto|destruct (negative_variables q) as [|a l] eqn:K; auto; exfalso; apply (R8 a); simpl; auto]. }
  assert (Lu : length (unit_row (cols p) i) = cols p) by (unfold unit_row; now rewrite map_length, seq_length).
  assert (Sh : shaped (cols p) (lA p ++ [unit_row (cols p) i])) by (apply Forall_app; split; [exact (wf_A _ H)|repeat constructor; exact Lu]).
  assert (Cq : cols q = cols p) by (unfold cols; now rewrite R3).
  assert (Lb : length (lb p) = length (lA p)) by exact (wf_b _ H). assert (Li : length (inequalities p) = length (lb p)) by (unfold inequalities; now rewrite map_length, seq_length).
  split; [refine (r_new _ _ _ _ _ _ _ _ _ _ E); exact Sh|]. split; auto. split; [unfold rows; rewrite R1, app_length; cbn; lia|]. do 7 (split; [assumption|]).
  intros y. rewrite nonneg_feasible by auto. rewrite Cq. unfold rows_hold, meaning. cbn [rhs relations coefficients]. rewrite R1, R2, R6, app_length, map_app. cbn [length map].
  split.
  - intros (L & HR & HS). split; auto. split; [|split; auto].
    + intros j Hj. specialize (HR j ltac:(lia)). rewrite !app_nth1 in HR by (rewrite ?map_length; lia). exact HR.
    + specialize (HR (length (lb p)) ltac:(lia)). rewrite !app_nth2 in HR by (rewrite ?map_length; lia). rewrite map_length, Li, Nat.sub_diag in HR. replace (length (lb p) - length (lA p)) with 0 in HR by lia. cbn [nth] in HR. rewrite inner_unit in HR by auto. exact HR.
  - intros (L & HR & HB & HS). split; auto. split; auto. intros j Hj. destruct (Nat.eq_dec j (length (lb p))) as [->|K].
    + rewrite !app_nth2 by (rewrite ?map_length; lia). rewrite map_length, Li, Nat.sub_diag. replace (length (lb p) - length (lA p)) with 0 by lia. cbn [nth]. rewrite inner_unit by auto. exact HB.
    + rewrite !app_nth1 by (rewrite ?map_length; lia). apply HR. lia.
Qed.
Lemma inequality_names p s : wf p -> In s (inequalities p) -> s = "=" \/ s = "<=" \/ s = ">=".
Proof.
  intros H Hs. unfold inequalities in Hs. apply in_map_iff in Hs. destruct Hs as (i & <- & _). destruct (dget Nat.eqb i (lineq p)) as [t|] eqn:E; auto.
  apply (dget_In Nat.eqb Nat.eqb_spec) in E. apply (wf_ineq _ H) in E. tauto.
Qed.
Lemma child_total p i s k : wf p -> i < cols p -> bound_sign s -> exists q, child p i s k = Ok q.
Proof.
  intros H Hi Hs. unfold child. apply (C28_accepts_exactly (cols p) (lA p ++ [unit_row (cols p) i]) (lb p ++ [qz k]) (lc p) (Nd (Mat (cols p) (lA p ++ [unit_row (cols p) i]))) (Nd (Vec (lb p ++ [qz k]))) (Nd (Vec (lc p))) _ _ _ _ _ eq_refl eq_refl eq_refl).
  assert (Lb : length (lb p) = length (lA p)) by exact (wf_b _ H). assert (Li : length (inequalities p) = length (lb p)) by (unfold inequalities; now rewrite map_length, seq_length).
  split; [rewrite !app_length; cbn; lia|]. split; [reflexivity|]. split; [exact (wf_obj _ H)|]. split; [split; [rewrite !app_length; cbn; lia|]|].
  - intros t Ht. apply in_app_iff in Ht. destruct Ht as [Ht|[<-|[]]]; [now apply (inequality_names p)|]. destruct Hs; auto.
  - cbn [opt_list]. split; [|split]; try (split; [constructor|contradiction]). contradiction.
Qed.
Lemma relax_spec p : reachable p -> exists q, relax p = Ok q /\ reachable q /\ meaning q = meaning p /\ (nonnegative_variables p -> nonnegative_variables q) /\ cols q = cols p /\ lA q = lA p /\ lb q = lb p /\ lc q = lc p /\ lobj q = lobj p /\ inequalities q = inequalities p.
Proof.
  intros Hr. pose proof (reachable_wf p Hr) as H. unfold relax.
  assert (Lb : length (lb p) = length (lA p)) by exact (wf_b _ H). assert (Li : length (inequalities p) = length (lb p)) by (unfold inequalities; now rewrite map_length, seq_length).
  destruct (C28_accepts_exactly (cols p) (lA p) (lb p) (lc p) (Nd (Mat (cols p) (lA p))) (Nd (Vec (lb p))) (Nd (Vec (lc p))) (lz p) (lobj p) (Some (inequalities p)) (Some (free_variables p)) (Some (negative_variables p)) eq_refl eq_refl eq_refl) as (T & _).
  assert (M : forall l, StronglySorted lt l -> (forall j, In j l -> j < cols p) -> indices_ok (cols p) (to_math_indexing l)).
  { intros l S1 S2. split.
    - unfold to_math_indexing. apply FinFun.Injective_map_NoDup; [intros a b; lia|]. clear - S1. induction S1 as [|a l S IH F]; constructor; auto. intros K. rewrite Forall_forall in F. apply F in K. lia.
    - intros i Hi. unfold to_math_indexing in Hi. apply in_map_iff in Hi. destruct Hi as (j & <- & Hj). apply S2 in Hj. lia. }
  destruct T as (q & E).
  { split; auto. split; [reflexivity|]. split; [exact (wf_obj _ H)|]. split; [split; [lia|intros s; now apply inequality_names]|]. cbn [opt_list]. split; [apply M; [exact (wf_free _ H)|exact (wf_free_lt _ H)]|]. split; [apply M; [exact (wf_neg _ H)|exact (wf_neg_lt _ H)]|].
    intros i Hi Hj. unfold free_variables, negative_variables, to_math_indexing in *. apply in_map_iff in Hi, Hj. destruct Hi as (a & <- & Ha), Hj as (b & Eb & Hb). apply (wf_disj _ H a Ha). replace a with b by lia. exact Hb. }
  exists q. split; auto. split; [refine (r_new _ _ _ _ _ _ _ _ _ _ E); exact (wf_A _ H)|].
  destruct (C28_reads_back (cols p) (lA p) (lb p) (lc p) (Nd (Mat (cols p) (lA p))) (Nd (Vec (lb p))) (Nd (Vec (lc p))) _ _ _ _ _ q eq_refl eq_refl eq_refl E) as (R1 & R2 & R3 & R4 & R5 & R6 & (_ & R7) & (_ & R8) & _ & _). cbn [opt_list] in R6, R7, R8.
  split; [|split; [|split; [unfold cols; now rewrite R3|auto 8]]].
  - unfold meaning. rewrite R1, R2, R3, R4, R5, R6. f_equal. apply map_ext. intros j. unfold sign_of.
    assert (B : forall l m, (forall i, In i l <-> In i m) -> existsb (Z.eqb (Z.of_nat (S j))) l = existsb (Z.eqb (Z.of_nat (S j))) m).
    { intros l m K. apply eq_true_iff_eq. rewrite !existsb_exists. split; intros (i & I1 & I2); exists i; split; auto; now apply K. }
    now rewrite (B _ _ R7), (B _ _ R8).
  - intros (F & N). rewrite F in R7. rewrite N in R8. split; [destruct (free_variables q) as [|a l] eqn:K; auto; exfalso; apply (R7 a); simpl; auto|destruct (negative_variables q) as [|a l] eqn:K; auto; exfalso; apply (R8 a); simpl; auto].
Qed.

(** ** the fractional variable *)
Lemma looked_at_required ints i : looked_at ints i = true <-> required ints i.
Proof.
  destruct ints as [l|]; cbn; [|tauto]. rewrite existsb_exists. split; [intros (z & H & E); apply Z.eqb_eq in E; now subst|]. intros H. exists (Z.of_nat i). split; auto. apply Z.eqb_refl.
Qed.
Lemma first_fraction_spec ints x : forall k, match first_fraction ints k x with
  | Some i => k <= i /\ i - k < length x /\ required ints i /\ ~ near_integer (nth (i - k) x 0%Qc)
  | None => forall i, i < length x -> required ints (k + i) -> near_integer (nth i x 0%Qc)
  end.
Proof.
  induction x as [|v x IH]; intros k; cbn [first_fraction]; [cbn; lia|]. destruct (looked_at ints k && negb (is_integer v)) eqn:E.
  - apply andb_true_iff in E. destruct E as (E1 & E2). apply looked_at_required in E1. apply negb_true_iff in E2. rewrite Nat.sub_diag. cbn. split; [lia|]. split; [lia|]. split; auto. destruct (is_integer_spec v); congruence.
  - specialize (IH (S k)). destruct (first_fraction ints (S k) x) as [i|].
    + destruct IH as (I1 & I2 & I3 & I4). split; [lia|]. cbn [length]. split; [lia|]. split; auto. replace (i - k) with (S (i - S k)) by lia. exact I4.
    + intros [|i] Hi Hr; cbn [nth length] in *; [|apply IH; [lia|now replace (S k + i) with (k + S i) by lia]]. rewrite Nat.add_0_r in Hr. apply looked_at_required in Hr. rewrite Hr in E. cbn [andb] in E. apply negb_false_iff in E. destruct (is_integer_spec v); congruence.
Qed.
Lemma evaluate_ok p x : length x = cols p -> evaluate p x = Ok (value (meaning p) x).
Proof. intros L. unfold evaluate, value. rewrite L, Nat.eqb_refl. cbn [meaning costs constant]. now rewrite inner_dot. Qed.
Lemma visited_trans fuel ints p q r : visited fuel ints p q -> visited fuel ints q r -> visited fuel ints p r.
Proof. intros H1 H2. induction H2; [auto|eapply v_lower; eauto|eapply v_higher; eauto]. Qed.

(** ** optimality *)
Definition outcome_right (ints : option (list Z)) (q : lp) (r : option (list Qc * Qc)) : Prop :=
  match r with
  | Some (x, v) => feasible (meaning q) x /\ nearly_integral_point ints x /\ v = value (meaning q) x /\
      forall y, feasible (meaning q) y -> integral_point ints y -> (value (meaning q) y <= v)%Qc
  | None => (forall y, feasible (meaning q) y -> ~ integral_point ints y) \/ unbounded (meaning q)
  end.
Lemma branch_right fuel ints : forall depth q r, reachable q -> nonnegative_variables q -> lobj q = "max" ->
  (forall q', visited fuel ints q q' -> right_answer fuel q') -> branch depth fuel ints q = Ok r -> outcome_right ints q r.
Proof.
  induction depth as [|depth IH]; intros q r Hr Hn Ho HV E; [discriminate E|]. cbn [branch] in E. pose proof (reachable_wf q Hr) as H.
  destruct (HV q (v_root _ _ _)) as (A1 & A2). destruct (solve fuel q) as (q' & s) eqn:Es. cbn [snd] in A1, A2.
  destruct s as [[x|]| |]; cbn [bind] in E; try discriminate E; [|injection E as <-; cbn; destruct (A2 eq_refl) as [K|K]; auto; left; intros y Hy; destruct (K y Hy)].
  assert (Eq : q' = q) by (destruct (C45_unchanged_when_returning_partial fuel q Hr) as (_ & _ & K); specialize (K (Some x)); rewrite Es in K; now apply K). subst q'.
  destruct (A1 x eq_refl) as (Fx & Ox). assert (Lx : length x = cols q) by apply Fx. rewrite evaluate_ok in E by auto. cbn [bind] in E.
  pose proof (first_fraction_spec ints x 0) as FF. destruct (first_fraction ints 0 x) as [i|].
  2:{ injection E as <-. cbn. split; auto. split; [exact FF|]. split; auto. intros y Hy _. specialize (Ox y Hy). unfold as_good in Ox. cbn [maximise meaning] in Ox. rewrite Ho in Ox. exact Ox. }
  destruct FF as (_ & F2 & F3 & F4). rewrite Nat.sub_0_r in *. set (v := nth i x 0%Qc) in *. assert (Hi : i < cols q) by lia.
  destruct (child q i "<=" (floor v)) as [ql| |] eqn:El; cbn [bind] in E; try discriminate E. destruct (branch depth fuel ints ql) as [rl| |] eqn:Bl; cbn [bind] in E; try discriminate E.
  destruct (child q i ">=" (ceil v)) as [qh| |] eqn:Eh; cbn [bind] in E; try discriminate E. destruct (branch depth fuel ints qh) as [rh| |] eqn:Bh; cbn [bind] in E; try discriminate E. injection E as <-.
  destruct (child_spec q i "<=" (floor v) ql H Hi (or_introl eq_refl) El) as (Rl & Cl & _ & _ & _ & L1 & L2 & L3 & _ & Nl & Fl).
  destruct (child_spec q i ">=" (ceil v) qh H Hi (or_intror eq_refl) Eh) as (Rh & Ch & _ & _ & _ & H1 & H2 & H3 & _ & Nh & Fh).
  assert (Vl : visited fuel ints q ql) by (eapply v_lower; [apply v_root|rewrite Es; reflexivity|exact F2|exact F3|exact F4|exact El]).
  assert (Vh : visited fuel ints q qh) by (eapply v_higher; [apply v_root|rewrite Es; reflexivity|exact F2|exact F3|exact F4|exact Eh]).
  assert (Il : outcome_right ints ql rl) by (apply (IH ql rl); auto; [congruence|]; intros q' Hq'; apply HV; exact (visited_trans _ _ _ _ _ Vl Hq')).
  assert (Ih : outcome_right ints qh rh) by (apply (IH qh rh); auto; [congruence|]; intros q' Hq'; apply HV; exact (visited_trans _ _ _ _ _ Vh Hq')).
  assert (Gl : forall y, value (meaning ql) y = value (meaning q) y) by (intros y; unfold value; cbn [meaning costs constant]; now rewrite L1, L2).
  assert (Gh : forall y, value (meaning qh) y = value (meaning q) y) by (intros y; unfold value; cbn [meaning costs constant]; now rewrite H1, H2).
  assert (Sl : forall y, feasible (meaning ql) y -> feasible (meaning q) y) by (intros y Hy; apply Fl in Hy; apply nonneg_feasible; tauto).
  assert (Sh : forall y, feasible (meaning qh) y -> feasible (meaning q) y) by (intros y Hy; apply Fh in Hy; apply nonneg_feasible; tauto).
  assert (Sp : forall y, feasible (meaning q) y -> integral_point ints y -> feasible (meaning ql) y \/ feasible (meaning qh) y).
  { intros y Hy HI. apply nonneg_feasible in Hy; auto. destruct Hy as (Y1 & Y2 & Y3). destruct (HI i ltac:(lia) F3) as (k & Ek). destruct (split_int v k) as [K|K].
    - intros K. apply F4. now apply isint_near.
    - left. apply Fl. split; auto. split; auto. split; auto. cbn. rewrite Ek. exact K.
    - right. apply Fh. split; auto. split; auto. split; auto. cbn. rewrite Ek. exact K. }
  assert (Bd : forall qc, (forall y, feasible (meaning qc) y -> feasible (meaning q) y) -> (forall y, value (meaning qc) y = value (meaning q) y) -> lobj qc = "max" -> ~ unbounded (meaning qc)).
  { intros qc S G O U. destruct (U (value (meaning q) x + 1)%Qc) as (y & Fy & Gy). unfold as_good in Gy. cbn [maximise meaning] in Gy. rewrite O in Gy. cbn in Gy. rewrite G in Gy. specialize (Ox y (S y Fy)). unfold as_good in Ox. cbn [maximise meaning] in Ox. rewrite Ho in Ox. cbn in Ox. clear - Gy Ox. change (Q2Qc 1) with 1%Qc in Gy. qclra. }
  assert (Nl' : rl = None -> forall y, feasible (meaning ql) y -> ~ integral_point ints y) by (intros ->; destruct Il as [K|K]; auto; destruct (Bd ql Sl Gl ltac:(congruence) K)).
  assert (Nh' : rh = None -> forall y, feasible (meaning qh) y -> ~ integral_point ints y) by (intros ->; destruct Ih as [K|K]; auto; destruct (Bd qh Sh Gh ltac:(congruence) K)).
  assert (Ul : forall xl vl, rl = Some (xl, vl) -> feasible (meaning q) xl /\ nearly_integral_point ints xl /\ vl = value (meaning q) xl /\ forall y, feasible (meaning ql) y -> integral_point ints y -> (value (meaning q) y <= vl)%Qc).
  { intros xl vl ->. destruct Il as (I1 & I2 & I3 & I4). split; auto. split; auto. split; [now rewrite <- Gl|]. intros y Y1 Y2. rewrite <- Gl. auto. }
  assert (Uh : forall xl vl, rh = Some (xl, vl) -> feasible (meaning q) xl /\ nearly_integral_point ints xl /\ vl = value (meaning q) xl /\ forall y, feasible (meaning qh) y -> integral_point ints y -> (value (meaning q) y <= vl)%Qc).
  { intros xl vl ->. destruct Ih as (I1 & I2 & I3 & I4). split; auto. split; auto. split; [now rewrite <- Gh|]. intros y Y1 Y2. rewrite <- Gh. auto. }
  clear Il Ih. rewrite Ho. unfold better. destruct rl as [(xl & vl)|], rh as [(xh & vh)|]; cbn [String.eqb Ascii.eqb Bool.eqb snd].
  - destruct (Ul xl vl eq_refl) as (U1 & U2 & U3 & U4). destruct (Uh xh vh eq_refl) as (W1 & W2 & W3 & W4). destruct (qlt_spec vl vh) as [K|K]; cbn [outcome_right].
    + split; auto. split; auto. split; auto. intros y Y1 Y2. destruct (Sp y Y1 Y2) as [S|S]; auto. specialize (U4 y S Y2). clear - U4 K. qclra.
    + split; auto. split; auto. split; auto. intros y Y1 Y2. destruct (Sp y Y1 Y2) as [S|S]; auto. specialize (W4 y S Y2). clear - W4 K. qclra.
  - destruct (Ul xl vl eq_refl) as (U1 & U2 & U3 & U4). cbn [outcome_right]. split; auto. split; auto. split; auto. intros y Y1 Y2. destruct (Sp y Y1 Y2) as [S|S]; auto. destruct (Nh' eq_refl y S Y2).
  - destruct (Uh xh vh eq_refl) as (U1 & U2 & U3 & U4). cbn [outcome_right]. split; auto. split; auto. split; auto. intros y Y1 Y2. destruct (Sp y Y1 Y2) as [S|S]; auto. destruct (Nl' eq_refl y S Y2).
  - cbn [outcome_right]. left. intros y Y1 Y2. destruct (Sp y Y1 Y2) as [S|S]; [destruct (Nl' eq_refl y S Y2)|destruct (Nh' eq_refl y S Y2)].
Qed.
