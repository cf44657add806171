(** C69: comparison of programs.  C70: is_solution_optimal.  C71: integer programs as objects. *)
From Coq Require Import String List Bool Arith ZArith QArith Qcanon Lia Sorted.
From Verif Require Import Py QcTac QSum QInt ComparatorModel MatModel MatTheory LinearModel LinearSpec LinearProofs LinearInv DualProofs LinearProps SimplexProps IntegerModel IntegerSpec IntegerProps TextModel TextProps ObjectModel ObjectSpec.
Import ListNotations.
Open Scope nat_scope.
Open Scope string_scope.
Open Scope list_scope.

(** * Comparison *)
Lemma qeq_spec x y : qeq x y = true <-> x = y.
Proof. unfold qeq. destruct (Qc_eq_dec x y); split; congruence. Qed.
Lemma list_eq_spec : forall l l', list_eq l l' = true <-> l = l'.
Proof.
  induction l as [|x l IH]; intros [|y l']; cbn [list_eq]; split; intros H; try discriminate; auto.
  - apply andb_true_iff in H. destruct H as (H1 & H2). apply Nat.eqb_eq in H1. apply IH in H2. congruence.
  - injection H as -> ->. rewrite Nat.eqb_refl. cbn. now apply IH.
Qed.
Lemma one_list l : StronglySorted lt l -> (forall j, In j l -> j < 1) -> l = [] \/ l = [0].
Proof.
  intros SS L. destruct l as [|a [|b l]]; auto.
  - right. f_equal. specialize (L a (or_introl eq_refl)). lia.
  - exfalso. inversion SS as [|? ? _ F]; subst. inversion F as [|? ? K]; subst. pose proof (L b ltac:(simpl; auto)). lia.
Qed.
Lemma one_dict (d : list (nat * string)) : NoDup (dkeys d) -> (forall i s, In (i, s) d -> i < 1 /\ (s = "<=" \/ s = ">=")) ->
  d = [] \/ d = [(0, "<=")] \/ d = [(0, ">=")].
Proof.
  intros ND L. destruct d as [|(i, s) [|(i', s') d]]; auto.
  - destruct (L i s (or_introl eq_refl)) as (Hi & [-> | ->]); replace i with 0 by lia; auto.
  - exfalso. destruct (L i s ltac:(simpl; auto)) as (Hi & _). destruct (L i' s' ltac:(simpl; auto)) as (Hi' & _).
    unfold dkeys in ND. cbn [map fst] in ND. inversion ND as [|? ? K]; subst. apply K. simpl. left. lia.
Qed.
Lemma one_by_one p : wf p -> rows p = 1 -> cols p = 1 -> exists a b c, lA p = [[a]] /\ lb p = [b] /\ lc p = [c].
Proof.
  intros H R C. pose proof (wf_b _ H) as Lb. pose proof (wf_A _ H) as HA. rewrite R in Lb. unfold rows, cols in *.
  destruct (lA p) as [|r [|? ?]]; try discriminate R. destruct (lb p) as [|b [|? ?]]; try discriminate Lb. destruct (lc p) as [|c [|? ?]] eqn:Ec; try discriminate C.
  assert (Lr : length r = 1) by (inversion HA; assumption). destruct r as [|a [|? ?]]; try discriminate Lr. now exists a, b, c.
Qed.
Definition attributes_eq (p q : lp) : bool :=
  qeq (lz q) (lz p) && String.eqb (lobj q) (lobj p) && dict_eq (lineq q) (lineq p) && list_eq (lfree q) (lfree p) && list_eq (lneg q) (lneg p) && Bool.eqb (lsef q) (lsef p).
(** with one constraint and one variable the attributes are the same when the problems are *)
Lemma attributes_one p q : wf p -> wf q -> rows p = 1 -> cols p = 1 -> rows q = 1 -> cols q = 1 ->
  attributes_eq p q = true <->
  constant (meaning p) = constant (meaning q) /\ maximise (meaning p) = maximise (meaning q) /\ relations (meaning p) = relations (meaning q) /\ signs (meaning p) = signs (meaning q).
Proof.
  intros Hp Hq Rp Cp Rq Cq.
  destruct (one_dict (lineq p) (wf_keys _ Hp)) as [Dp|Dp]; [intros i s K; rewrite <- Rp; now apply (wf_ineq _ Hp)|..];
  destruct (one_dict (lineq q) (wf_keys _ Hq)) as [Dq|Dq]; try (intros i s K; rewrite <- Rq; now apply (wf_ineq _ Hq)).
  all: destruct (one_list (lfree p) (wf_free _ Hp)) as [Fp|Fp]; [rewrite <- Cp; apply (wf_free_lt _ Hp)|..];
       destruct (one_list (lfree q) (wf_free _ Hq)) as [Fq|Fq]; try (rewrite <- Cq; apply (wf_free_lt _ Hq)).
  all: destruct (one_list (lneg p) (wf_neg _ Hp)) as [Np|Np]; [rewrite <- Cp; apply (wf_neg_lt _ Hp)|..];
       destruct (one_list (lneg q) (wf_neg _ Hq)) as [Nq|Nq]; try (rewrite <- Cq; apply (wf_neg_lt _ Hq)).
  all: pose proof (wf_disj _ Hp) as DJp; pose proof (wf_disj _ Hq) as DJq; rewrite Fp, Np in DJp; rewrite Fq, Nq in DJq;
       try (exfalso; apply (DJp 0); simpl; auto; fail); try (exfalso; apply (DJq 0); simpl; auto; fail); clear DJp DJq.
  all: try destruct Dp as [Dp|Dp]; try destruct Dq as [Dq|Dq].
  all: pose proof (wf_sef _ Hp) as Sp; pose proof (wf_sef _ Hq) as Sq; rewrite Dp, Fp, Np in Sp; rewrite Dq, Fq, Nq in Sq.
  all: assert (Lbp : length (lb p) = 1) by (rewrite (wf_b _ Hp); exact Rp); assert (Lbq : length (lb q) = 1) by (rewrite (wf_b _ Hq); exact Rq); unfold cols in Cp, Cq.
  all: unfold attributes_eq, meaning, inequalities, free_variables, negative_variables; cbn [constant maximise relations signs];
       rewrite Lbp, Lbq, Cp, Cq, Sp, Sq, Dp, Dq, Fp, Fq, Np, Nq.
  all: destruct (wf_obj _ Hp) as [Op|Op]; destruct (wf_obj _ Hq) as [Oq|Oq]; rewrite Op, Oq.
  all: destruct (Qc_eq_dec (lz q) (lz p)) as [Z|Z]; cbn; unfold qeq; [destruct (Qc_eq_dec (lz q) (lz p)); [|contradiction]|destruct (Qc_eq_dec (lz q) (lz p)); [contradiction|]]; cbn.
  all: split; [intros K; try discriminate K; auto|intros (K1 & K2 & K3 & K4); first [reflexivity|discriminate|congruence]].
Qed.

Lemma program_eq_unfold np p q : program_eq np p q =
  (do a <- eq_mat np (cols q) (cols p) (lA q) (lA p) ; if negb a then Ok false else do b <- eq_vec np (lb q) (lb p) ; if negb b then Ok false else
   do c <- eq_vec np (lc q) (lc p) ; if negb c then Ok false else Ok (attributes_eq p q)).
Proof. reflexivity. Qed.

(** with one constraint and one variable == answers whether the two problems are the same *)
Theorem C69_one_by_one np p q : reachable p -> reachable q -> length (lb p) = 1 -> length (lc p) = 1 -> length (lb q) = 1 -> length (lc q) = 1 ->
  exists r, program_eq np p q = Ok r /\ (r = true <-> meaning p = meaning q).
Proof.
  intros Rp Rq Bp Cp Bq Cq. apply reachable_wf in Rp, Rq. rewrite (wf_b _ Rp) in Bp. rewrite (wf_b _ Rq) in Bq.
  pose proof (attributes_one p q Rp Rq Bp Cp Bq Cq) as AT.
  destruct (one_by_one p Rp Bp Cp) as (a & b & c & E1 & E2 & E3). destruct (one_by_one q Rq Bq Cq) as (a' & b' & c' & F1 & F2 & F3).
  rewrite program_eq_unfold. unfold eq_mat, eq_vec, cols. rewrite E1, E2, E3, F1, F2, F3. cbn [length broadcast Nat.eqb truth Nat.mul Nat.add nth at_ bind].
  assert (D : meaning p = meaning q <-> a = a' /\ b = b' /\ c = c' /\
    (constant (meaning p) = constant (meaning q) /\ maximise (meaning p) = maximise (meaning q) /\ relations (meaning p) = relations (meaning q) /\ signs (meaning p) = signs (meaning q))).
  { split.
    - intros M. assert (M1 := f_equal coefficients M). assert (M2 := f_equal rhs M). assert (M3 := f_equal costs M). cbn [meaning coefficients rhs costs] in M1, M2, M3.
      rewrite E1, F1 in M1. rewrite E2, F2 in M2. rewrite E3, F3 in M3. rewrite M. repeat split; congruence.
    - intros (-> & -> & -> & M4 & M5 & M6 & M7). destruct (meaning p) as [x1 x2 x3 x4 x5 x6 x7] eqn:Mp. destruct (meaning q) as [y1 y2 y3 y4 y5 y6 y7] eqn:Mq.
      unfold meaning in Mp, Mq. cbn [constant maximise relations signs] in *. rewrite E1, E2, E3 in Mp. rewrite F1, F2, F3 in Mq. congruence. }
  destruct (qeq a' a) eqn:Qa; cbn [negb]; [|exists false; split; auto; split; [discriminate|]; intros M; apply D in M; destruct M as (M & _); symmetry in M; apply qeq_spec in M; congruence].
  destruct (qeq b' b) eqn:Qb; cbn [negb]; [|exists false; split; auto; split; [discriminate|]; intros M; apply D in M; destruct M as (_ & M & _); symmetry in M; apply qeq_spec in M; congruence].
  destruct (qeq c' c) eqn:Qd; cbn [negb]; [|exists false; split; auto; split; [discriminate|]; intros M; apply D in M; destruct M as (_ & _ & M & _); symmetry in M; apply qeq_spec in M; congruence].
  apply qeq_spec in Qa, Qb, Qd. exists (attributes_eq p q). split; auto. rewrite AT, D. intuition congruence.
Qed.
Print Assumptions C69_one_by_one.

(** an answer True is right, whatever the sizes *)
Theorem C69_sound np p q : some_release np -> reachable p -> reachable q -> program_eq np p q = Ok true -> meaning p = meaning q.
Proof.
  intros (N1 & N2) Rp Rq E.
  assert (T : forall s f, truth np s f = Ok true -> s = Some 1).
  { intros [[|[|n]]|] f K; cbn [truth] in K; auto; try discriminate K; [destruct N2|destruct N1]; congruence. }
  assert (BC : forall m n, broadcast m n = Some 1 -> m = 1 /\ n = 1).
  { intros m n. unfold broadcast. destruct (Nat.eqb_spec m n) as [-> |]; [intros [= ->]; auto|]. destruct (Nat.eqb_spec m 1) as [-> |]; [intros [= ->]; auto|]. destruct (Nat.eqb_spec n 1) as [-> |]; [intros [= ->]; auto|discriminate]. }
  assert (K : rows q = 1 /\ rows p = 1 /\ cols q = 1 /\ cols p = 1).
  { unfold program_eq in E. destruct (eq_mat np (cols q) (cols p) (lA q) (lA p)) as [[]| |] eqn:EM; cbn [bind negb] in E; try discriminate E. unfold eq_mat in EM. apply T in EM.
    destruct (broadcast (length (lA q)) (length (lA p))) as [r|] eqn:B1; [|discriminate EM]. destruct (broadcast (cols q) (cols p)) as [s|] eqn:B2; [|discriminate EM].
    injection EM as EM. assert (r = 1 /\ s = 1) as (-> & ->) by (apply Nat.eq_mul_1; exact EM). apply BC in B1, B2. unfold rows. tauto. }
  destruct K as (K1 & K2 & K3 & K4). pose proof (reachable_wf _ Rp) as Hp. pose proof (reachable_wf _ Rq) as Hq.
  destruct (C69_one_by_one np p q Rp Rq) as (r & Er & D); auto; [rewrite (wf_b _ Hp)|rewrite (wf_b _ Hq)|]; auto. apply D. congruence.
Qed.
Print Assumptions C69_sound.

(** two programs of the same size, with more than one coefficient, cannot be compared: even p == p
    raises ValueError *)
Theorem C69_refuted np p q : reachable p -> reachable q -> length (lb p) = length (lb q) -> length (lc p) = length (lc q) -> 1 < length (lb p) * length (lc p) ->
  program_eq np p q = Raise ValueError.
Proof.
  intros Rp Rq E1 E2 L. apply reachable_wf in Rp, Rq. rewrite (wf_b _ Rp), (wf_b _ Rq) in E1. rewrite (wf_b _ Rp) in L. unfold program_eq, eq_mat, cols. unfold rows in E1, L.
  rewrite <- E1, <- E2. unfold broadcast. rewrite !Nat.eqb_refl. destruct (length (lA p) * length (lc p)) as [|[|n]]; try lia. reflexivity.
Qed.
Print Assumptions C69_refuted.
(** nor is a program without constraints or without variables equal to itself *)
Theorem C69_empty_refuted np p : some_release np -> reachable p -> length (lb p) = 0 \/ length (lc p) = 0 -> program_eq np p p = Ok false \/ program_eq np p p = Raise ValueError.
Proof.
  intros (_ & N) R H. apply reachable_wf in R. rewrite (wf_b _ R) in H. unfold program_eq, eq_mat, cols. unfold rows in H. unfold broadcast. rewrite !Nat.eqb_refl.
  replace (length (lA p) * length (lc p)) with 0 by (destruct H as [-> | ->]; lia). cbn [truth]. destruct N as [-> | ->]; cbn; auto.
Qed.
Print Assumptions C69_empty_refuted.

Definition unit_program (s : string) : res lp := linear_program (mat 1 [[1]]%Z) (vec [2]%Z) (vec [3]%Z) 0%Qc "max" (Some [s]) None None.
Example C69_nontrivial : exists p q r, unit_program "<=" = Ok p /\ unit_program ">=" = Ok q /\ small_program = Ok r /\ reachable p /\ reachable q /\ reachable r /\
  forall np, program_eq np p p = Ok true /\ program_eq np p q = Ok false /\ meaning p <> meaning q /\ program_eq np r r = Raise ValueError.
Proof.
  destruct (unit_program "<=") as [p| |] eqn:E1; try discriminate E1. destruct (unit_program ">=") as [q| |] eqn:E2; try discriminate E2. destruct small_program as [r| |] eqn:E3; try discriminate E3.
  exists p, q, r. split; auto. split; auto. split; auto. unfold unit_program in E1, E2.
  split; [refine (r_new _ _ _ _ _ _ _ _ _ _ E1); repeat constructor|]. split; [refine (r_new _ _ _ _ _ _ _ _ _ _ E2); repeat constructor|]. split; [now apply small_program_reachable|].
  injection E1 as <-. injection E2 as <-. injection E3 as <-. intros np. split; [reflexivity|]. split; [reflexivity|]. split; [discriminate|reflexivity].
Qed.

(** * is_solution_optimal *)
(** it never answers: the result is None for every point, optimal or not *)
Theorem C70_no_answer_refuted p x : reachable p ->
  (length x = length (lc p) -> is_solution_optimal p x = Ok None) /\ (length x <> length (lc p) -> is_solution_optimal p x = Raise ValueError).
Proof.
  intros R. destruct (C40_decides_near_feasibility_partial p x R) as (N & Y). unfold is_solution_optimal. split; intros L.
  - destruct (Y L) as (r & -> & _). reflexivity.
  - now rewrite (N L).
Qed.
Print Assumptions C70_no_answer_refuted.
Example C70_nontrivial : exists p x y, unit_program "<=" = Ok p /\ reachable p /\ optimal (meaning p) x /\ feasible (meaning p) y /\ ~ optimal (meaning p) y /\
  is_solution_optimal p x = Ok None /\ is_solution_optimal p y = Ok None.
Proof.
  destruct (unit_program "<=") as [p| |] eqn:E1; try discriminate E1. unfold unit_program in E1. exists p, [qz 2], [0%Qc].
  split; auto. split; [refine (r_new _ _ _ _ _ _ _ _ _ _ E1); repeat constructor|]. injection E1 as <-.
  assert (F : forall t, feasible (meaning (mklp [[1%Qc]] [qz 2] [qz 3] 0%Qc "max" [(0, "<=")] false [] [])) [t] <-> (0 <= t <= qz 2)%Qc).
  { intros t. split.
    - intros (_ & K1 & K2). specialize (K1 0 ltac:(cbn; lia)). specialize (K2 0 ltac:(cbn; lia)). cbn in K1, K2. split; auto. replace t with (1 * t + 0)%Qc by ring. exact K1.
    - intros (K1 & K2). split; [reflexivity|]. split; intros [|i] Hi; cbn in Hi; try lia; cbn; auto. replace (1 * t + 0)%Qc with t by ring. exact K2. }
  change (mklp _ _ _ _ _ _ _ _ _) with (mklp [[1%Qc]] [qz 2] [qz 3] 0%Qc "max" [(0, "<=")] false [] []).
  split; [|split; [apply F; split; [apply Qcle_refl|discriminate]|split; [|split; reflexivity]]].
  - split; [apply F; split; [discriminate|apply Qcle_refl]|]. intros y Fy. pose proof Fy as (L & _). destruct y as [|t [|? ?]]; try discriminate L. apply F in Fy. destruct Fy as (_ & Fy). change (qz 3 * t + 0 + 0 <= qz 3 * qz 2 + 0 + 0)%Qc.
    assert (K : (qz 3 * t <= qz 3 * qz 2)%Qc) by (rewrite !(Qcmult_comm (qz 3)); apply Qcmult_le_compat_r; [exact Fy|discriminate]). rewrite !Qcplus_0_r. exact K.
  - intros (_ & K). specialize (K [qz 2] ltac:(apply F; split; [discriminate|apply Qcle_refl])). vm_compute in K. now apply K.
Qed.

(** * Integer programs as objects *)

(** ** which operations keep the requirement *)
(** every method that hands back a new program hands back one without integrality *)
Theorem C71_copy_refuted p m o : returned false (Integer p) m = Ok o -> forall i, ~ must_be_integral o i.
Proof.
  unfold returned. cbn [base]. destruct (effect (program_of p) m) as [q| |]; try discriminate. cbn [bind]. intros E i. destruct m; injection E as <-; cbn; auto.
Qed.
Print Assumptions C71_copy_refuted.
(** the methods that work in place keep the list of integral variables as it was given *)
Theorem C71_in_place p m o : returned true (Integer p) m = Ok o -> match m with Copy | Dual | Auxiliary => True | _ => exists q, effect (program_of p) m = Ok q /\ o = Integer (mkip q (integral_variables p)) end.
Proof.
  unfold returned. cbn [base]. destruct (effect (program_of p) m) as [q| |]; try discriminate. cbn [bind with_base]. intros E. destruct m; auto; injection E as <-; exists q; auto.
Qed.
Print Assumptions C71_in_place.
(** adding a constraint in place removes exactly the points that violate it *)
Theorem C71_add_constraint o a av op v : reachable_object o -> to_ndarray a = Ok (Vec av) -> length av = length (lc (base o)) -> op = "=" \/ op = "<=" \/ op = ">=" ->
  exists o', returned true o (AddConstraint a op v) = Ok o' /\ reachable_object o' /\
  (forall x, admissible o' x <-> admissible o x /\ related (relation_of op) (inner av x) v) /\ (forall x, value (meaning (base o')) x = value (meaning (base o)) x).
Proof.
  intros R E L Hop. pose proof (C43_add_constraint (base o) a av op v R E) as K. pose proof (r_constraint (base o) a op v R) as R'.
  unfold returned, effect. destruct (add_constraint (base o) a op v) as (q & r). destruct K as (K & _). destruct K as (-> & _ & _ & _ & K & V & _); auto. cbn [fst snd bind] in *.
  exists (with_base o q). split; auto. assert (B : base (with_base o q) = q) by (destruct o; reflexivity).
  assert (M : forall i, must_be_integral (with_base o q) i <-> must_be_integral o i) by (intros i; destruct o; cbn; tauto).
  unfold reachable_object, admissible. rewrite B. split; auto. split; auto. intros x. rewrite K. setoid_rewrite M. tauto.
Qed.
Print Assumptions C71_add_constraint.

(** max x subject to x / 2 <= 7 / 4, x integer: x = 3 is best; after to_sef in place the slack has
    to be an integer too and no point is left *)
Definition quarter_program : res lp :=
  linear_program (Nd (Mat 1 [[Q2Qc (1 # 2)]])) (Nd (Vec [Q2Qc (7 # 4)])) (vec [1]%Z) 0%Qc "max" (Some ["<="]) None None.
Lemma quarter_best p : quarter_program = Ok p -> reachable p /\ best_admissible (Integer (mkip p None)) [qz 3].
Proof.
  intros E. unfold quarter_program in E. assert (Hr : reachable p) by (refine (r_new _ _ _ _ _ _ _ _ _ _ E); repeat constructor). split; [exact Hr|]. injection E as <-. split.
  - split; [|intros [|i] Hi _; [exists 3%Z; reflexivity|cbn in Hi; lia]]. split; [reflexivity|]. split; intros [|i] Hi; cbn in Hi; try lia; cbn; discriminate.
  - intros y ((L & F1 & F2) & I). destruct y as [|t [|? ?]]; try discriminate L. specialize (F1 0 ltac:(cbn; lia)). destruct (I 0 ltac:(cbn; lia) Logic.I) as (k & Ek). cbn [nth] in Ek. subst t.
    assert (K : (Q2Qc (1 # 2) * qz k + 0 <= Q2Qc (7 # 4))%Qc) by exact F1. assert (Kk : (k <= 3)%Z).
    { destruct (Z_le_gt_dec k 3) as [|Hk]; auto. exfalso. assert (K4 : (qz 4 <= qz k)%Qc) by (apply qz_le; lia).
      assert (K5 : (qz 4 * Q2Qc (1 # 2) <= qz k * Q2Qc (1 # 2))%Qc) by (apply Qcmult_le_compat_r; [exact K4|discriminate]).
      rewrite Qcplus_0_r, Qcmult_comm in K. assert (K6 := Qcle_trans _ _ _ K5 K). now apply K6. }
    change (1 * qz k + 0 + 0 <= 1 * qz 3 + 0 + 0)%Qc. rewrite !Qcplus_0_r, !Qcmult_1_l. now apply qz_le.
Qed.
Theorem C71_to_sef_refuted : exists o o' x, reachable_object o /\ best_admissible o x /\ returned true o ToSef = Ok o' /\ (forall y, ~ admissible o' y) /\
  branch_and_bound 10 64 (mkip (base o) None) = Ok (Some x) /\ branch_and_bound 10 64 (mkip (base o') None) = Ok None.
Proof.
  destruct quarter_program as [p| |] eqn:E; try discriminate E. destruct (quarter_best p E) as (Hr & HB). unfold quarter_program in E. injection E as E.
  assert (G : match branch_and_bound 10 64 (mkip p None) with Ok (Some x) => map this x = [3]%Q | _ => False end) by (rewrite <- E; vm_compute; reflexivity).
  destruct (branch_and_bound 10 64 (mkip p None)) as [[x|]| |] eqn:ES; try contradiction. apply of_this in G. change (map Q2Qc [3]%Q) with [qz 3] in G.
  exists (Integer (mkip p None)). eexists. exists x. split; [exact Hr|]. split; [subst x; exact HB|]. split; [reflexivity|]. split; [|split; [exact ES|subst p; vm_compute; reflexivity]].
  - subst p. intros y ((L & F1 & F2) & I). cbn [returned] in *. cbn in L. destruct y as [|s [|t [|? ?]]]; try discriminate L. specialize (F1 0 ltac:(cbn; lia)).
    destruct (I 0 ltac:(cbn; lia) Logic.I) as (k & Ek). destruct (I 1 ltac:(cbn; lia) Logic.I) as (l & El). cbn [nth] in Ek, El. subst s t.
    assert (K : (Q2Qc (1 # 2) * qz k + (1 * qz l + 0) = Q2Qc (7 # 4))%Qc) by exact F1. apply (f_equal (fun v => v * qz 4)%Qc) in K.
    assert (K' : qz (2 * k + 4 * l) = qz 7).
    { rewrite qz_add, !qz_mul. transitivity ((Q2Qc (1 # 2) * qz k + (1 * qz l + 0)) * qz 4)%Qc; [|rewrite K; apply Qc_is_canon; reflexivity].
      assert (H2 : (Q2Qc (1 # 2) * qz 4 = qz 2)%Qc) by (apply Qc_is_canon; reflexivity). rewrite <- H2. ring. }
    apply qz_inj in K'. lia.
Qed.
Print Assumptions C71_to_sef_refuted.

(** ** feasibility and solving *)
(** every point of the integer program is accepted; but integrality is not looked at, and every
    feasible point of the relaxation is accepted as well *)
Theorem C71_is_feasible o x : reachable_object o -> admissible o x -> object_is_feasible o x = Ok true.
Proof.
  intros R (F & _). unfold object_is_feasible. destruct (C40_decides_near_feasibility_partial (base o) x R) as (_ & Y). destruct (Y (proj1 F)) as (r & -> & D). f_equal. apply D.
  apply feasible_near; auto. now apply reachable_wf.
Qed.
Print Assumptions C71_is_feasible.
Theorem C71_is_feasible_refuted p ints x : reachable p -> feasible (meaning p) x -> object_is_feasible (Integer (mkip p ints)) x = Ok true.
Proof. intros R F. apply (C71_is_feasible (Linear p)); auto. split; auto. intros i _ []. Qed.
Print Assumptions C71_is_feasible_refuted.
(** solve of an integer program is the one of its relaxation: the answer need not be integral *)
Theorem C71_solve_refuted : exists o x y, reachable_object o /\ must_be_integral o 0 /\ object_solve 64 o = Ok (Some x) /\ feasible (meaning (base o)) x /\ ~ admissible o x /\ best_admissible o y.
Proof.
  destruct quarter_program as [p| |] eqn:E; try discriminate E. destruct (quarter_best p E) as (Hr & HB). unfold quarter_program in E. injection E as E.
  assert (G : match snd (solve 64 p) with Ok (Some x) => map this x = [7 # 2]%Q | _ => False end) by (rewrite <- E; vm_compute; reflexivity).
  destruct (snd (solve 64 p)) as [[x|]| |] eqn:ES; try contradiction. apply of_this in G.
  exists (Integer (mkip p None)), x, [qz 3]. split; [exact Hr|]. split; [exact Logic.I|]. split; [exact ES|]. split; [|split; [|exact HB]]; subst x.
  - subst p. split; [reflexivity|]. split; intros [|i] Hi; cbn in Hi; try lia; cbn; discriminate.
  - intros (_ & I). destruct (I 0 ltac:(cbn; lia) Logic.I) as (k & Ek). cbn [nth map] in Ek. apply (f_equal (fun v => v * qz 2)%Qc) in Ek. rewrite <- qz_mul in Ek.
    assert (K : qz 7 = qz (k * 2)) by (rewrite <- Ek; apply Qc_is_canon; reflexivity). apply qz_inj in K. lia.
Qed.
Print Assumptions C71_solve_refuted.
(** cutting_plane reports nothing for any program, also where there is a best point *)
Theorem C71_cutting_plane_refuted : (forall p, cutting_plane p = Ok None) /\ exists p x, reachable (program_of p) /\ best_admissible (Integer p) x.
Proof.
  split; [reflexivity|]. destruct quarter_program as [p| |] eqn:E; try discriminate E. destruct (quarter_best p E) as (Hr & HB). now exists (mkip p None), [qz 3].
Qed.
Print Assumptions C71_cutting_plane_refuted.

(** ** printed form *)
(** a program's text ends with exactly one line break *)
Lemma row_text_end p w bw i r y : exists u, row_text p w bw i r y = u ++ [93%Z; 10%Z].
Proof. unfold row_text. eexists. rewrite !app_assoc. rewrite <- (app_assoc _ (lit "]") [10%Z]). reflexivity. Qed.
Lemma sign_line_end (b1 b2 : bool) (c : Z) (y : text) :
  (if b1 then lit "x " ++ [c] ++ lit " 0" ++ [10%Z] else if b2 then y ++ lit " " ++ [c] ++ lit " 0" ++ [10%Z] else []) = [] \/
  exists u, (if b1 then lit "x " ++ [c] ++ lit " 0" ++ [10%Z] else if b2 then y ++ lit " " ++ [c] ++ lit " 0" ++ [10%Z] else []) = u ++ [48%Z; 10%Z].
Proof.
  destruct b1; [right; exists (lit "x " ++ [c; 32]%Z); reflexivity|]. destruct b2; [right|auto]. exists (y ++ lit " " ++ [c; 32]%Z). rewrite <- !app_assoc. reflexivity.
Qed.
Lemma signs_text_end p : signs_text p = [] \/ exists u, signs_text p = u ++ [48%Z; 10%Z].
Proof.
  unfold signs_text. cbv zeta.
  match goal with |- ?a ++ ?b = [] \/ _ => assert (H1 : a = [] \/ exists u, a = u ++ [48%Z; 10%Z]) by apply sign_line_end; assert (H2 : b = [] \/ exists u, b = u ++ [48%Z; 10%Z]) by apply sign_line_end; set (S1 := a) in *; set (S2 := b) in *; clearbody S1 S2 end.
  destruct H2 as [-> |(u & ->)].
  - rewrite app_nil_r. exact H1.
  - right. exists (S1 ++ u). now rewrite app_assoc.
Qed.
Definition ends (t : text) : Prop := exists u c, t = u ++ [c; 10%Z] /\ c <> 10%Z.
Lemma ends_app (a b : text) : ends b -> ends (a ++ b).
Proof. intros (u & c & -> & H). exists (a ++ u), c. split; auto. now rewrite app_assoc. Qed.
Lemma ends_cons x (b : text) : ends b -> ends (x :: b).
Proof. apply (ends_app [x]). Qed.
Lemma repr_end p t : wf p -> TextModel.repr p = Ok t -> ends t.
Proof.
  intros H. unfold TextModel.repr.
  destruct (mapM format_number (lc p)) as [cs| |]; cbn [bind]; try discriminate.
  destruct (if is_close_to_zero (lz p) then _ else _) as [zt| |]; cbn [bind]; try discriminate.
  destruct (mapM (mapM format_number) (lA p)) as [A| |] eqn:EA; cbn [bind]; try discriminate.
  destruct (mapM format_number (lb p)) as [b| |] eqn:Eb; cbn [bind]; try discriminate.
  assert (LM : forall X Y (f : X -> res Y) l l', mapM f l = Ok l' -> length l' = length l).
  { intros X Y f. induction l as [|x l IH]; intros l' E; cbn [mapM] in E; [injection E as <-; reflexivity|]. destruct (f x); cbn [bind] in E; try discriminate E. destruct (mapM f l) eqn:El; cbn [bind] in E; try discriminate E. injection E as <-. cbn. f_equal. now apply IH. }
  apply LM in EA, Eb. rewrite (wf_b _ H) in Eb. unfold rows in *. destruct (Nat.eqb_spec (length (lA p)) 0) as [|Hn]; [discriminate|]. intros E. injection E as <-.
  destruct (signs_text_end p) as [-> |(u & ->)].
  - assert (Q : exists v c, combine (seq 0 (length (lA p))) (combine A b) = v ++ [c]).
    { assert (L : length (combine (seq 0 (length (lA p))) (combine A b)) = length (lA p)) by (rewrite !combine_length, seq_length; lia). destruct (combine (seq 0 (length (lA p))) (combine A b)) as [|x l] eqn:Q; [cbn in L; lia|].
      destruct (@exists_last _ (x :: l)) as (v & c & ->); [discriminate|]. now exists v, c. }
    destruct Q as (v & c & ->). rewrite map_app, concat_app. cbn [map concat]. match goal with |- context [row_text p ?w ?bw ?i ?r ?y] => destruct (row_text_end p w bw i r y) as (u & Eu); rewrite Eu end.
    rewrite !app_nil_r. repeat match goal with |- ends (?a ++ ?b) => apply (ends_app a b) | |- ends (_ :: _ :: _ :: _) => apply ends_cons | |- ends (_ :: _ :: _ ++ _) => apply ends_cons | |- ends (_ :: _ ++ _) => apply ends_cons end. exists [], 93%Z. split; [reflexivity|discriminate].
  - repeat match goal with |- ends (?a ++ ?b) => apply (ends_app a b) | |- ends (_ :: _ :: _ :: _) => apply ends_cons | |- ends (_ :: _ :: _ ++ _) => apply ends_cons | |- ends (_ :: _ ++ _) => apply ends_cons end. exists [], 48%Z. split; [reflexivity|discriminate].
Qed.
Lemma rstrip_one u c : c <> 10%Z -> rstrip_newlines (u ++ [c; 10%Z]) = u ++ [c].
Proof.
  intros H. unfold rstrip_newlines. rewrite rev_app_distr. cbn [rev app lstrip_newlines]. rewrite Z.eqb_refl. destruct (Z.eqb_spec c 10); [contradiction|]. cbn [rev]. now rewrite rev_involutive.
Qed.
(** the text of a pure integer program tells the linear program it extends *)
Theorem C71_repr p q t : reachable p -> reachable q -> integer_repr (mkip p None) = Ok t -> integer_repr (mkip q None) = Ok t -> exists t0, TextModel.repr p = Ok t0 /\ TextModel.repr q = Ok t0.
Proof.
  intros Rp Rq. apply reachable_wf in Rp, Rq. unfold integer_repr. cbn [program_of integral_variables].
  destruct (TextModel.repr p) as [t1| |] eqn:E1; cbn [bind]; try discriminate. destruct (TextModel.repr q) as [t2| |] eqn:E2; cbn [bind]; try discriminate.
  destruct (repr_end p t1 Rp E1) as (u & c & -> & Hc). destruct (repr_end q t2 Rq E2) as (u' & c' & -> & Hc'). rewrite !rstrip_one by auto. intros K1 K2. rewrite <- K2 in K1. injection K1 as K1. apply app_inv_tail in K1.
  exists (u ++ [c; 10%Z]). split; auto. f_equal. change [c; 10%Z] with ([c] ++ [10%Z]). change [c'; 10%Z] with ([c'] ++ [10%Z]). rewrite !app_assoc. now rewrite K1.
Qed.
Print Assumptions C71_repr.
(** but the mark for integrality is glued to the last line, without a line break *)
Theorem C71_repr_glued_refuted p t : reachable p -> integer_repr (mkip p None) = Ok t -> exists u c, t = u ++ [c] ++ lit "x " ++ [8712%Z] ++ lit " Z" /\ c <> 10%Z.
Proof.
  intros R. apply reachable_wf in R. unfold integer_repr. cbn [program_of integral_variables]. destruct (TextModel.repr p) as [t1| |] eqn:E1; cbn [bind]; try discriminate.
  destruct (repr_end p t1 R E1) as (u & c & -> & Hc). rewrite rstrip_one by auto. intros K. injection K as <-. exists u, c. split; auto. now rewrite <- app_assoc.
Qed.
Print Assumptions C71_repr_glued_refuted.
(** and a list of integral variables is not shown at all *)
Theorem C71_repr_list_refuted p l l' : integer_repr (mkip p (Some l)) = integer_repr (mkip p (Some l')).
Proof. reflexivity. Qed.
Print Assumptions C71_repr_list_refuted.
Example C71_nontrivial : exists p t, quarter_program = Ok p /\ reachable p /\ integer_repr (mkip p None) = Ok t /\
  exists o, returned false (Integer (mkip p None)) Copy = Ok o /\ ~ admissible (Integer (mkip p None)) [Q2Qc (1 # 2)] /\ admissible o [Q2Qc (1 # 2)].
Proof.
  destruct quarter_program as [p| |] eqn:E; try discriminate E. destruct (quarter_best p E) as (Hr & _). unfold quarter_program in E. injection E as E.
  assert (G : match integer_repr (mkip p None) with Ok _ => True | _ => False end) by (rewrite <- E; vm_compute; exact Logic.I). destruct (integer_repr (mkip p None)) as [t| |] eqn:ET; try contradiction.
  exists p, t. split; [now subst p|]. split; [exact Hr|]. split; [exact ET|]. exists (Linear p). split; [reflexivity|]. split.
  - intros (_ & I). destruct (I 0 ltac:(cbn; lia) Logic.I) as (k & Ek). cbn [nth map] in Ek. apply (f_equal (fun v => v * qz 2)%Qc) in Ek. rewrite <- qz_mul in Ek.
    assert (K : qz 1 = qz (k * 2)) by (rewrite <- Ek; apply Qc_is_canon; reflexivity). apply qz_inj in K. lia.
  - split; [|intros i _ []]. subst p. split; [reflexivity|]. split; intros [|i] Hi; cbn in Hi; try lia; cbn; discriminate.
Qed.
