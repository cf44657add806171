(** C46: branch and bound. *)
From Coq Require Import String List Bool Arith ZArith QArith Qcanon Qround Lia Factorial.
From Verif Require Import Py QcTac QSum QInt ComparatorModel ComparatorSpec ComparatorProofs MatModel MatTheory LinearModel LinearSpec LinearProofs LinearInv DualProofs LinearProps SmallProofs SimplexProps IntegerModel IntegerSpec IntegerProofs IntegerSmall.
Import ListNotations.
Open Scope nat_scope.
Open Scope string_scope.
Open Scope list_scope.

(** ** relax *)
(** relax always returns a linear program with the same constraints, costs and signs *)
Theorem C46_relax p ints : reachable p -> exists q, relax (program_of (mkip p ints)) = Ok q /\ reachable q /\ meaning q = meaning p.
Proof. intros Hr. destruct (relax_spec p Hr) as (q & E & R & Mq & _). exists q. auto. Qed.
Print Assumptions C46_relax.

(** ** optimality *)
(** maximisation, no free or negative variables, and every relaxation solved on the way answered
    correctly; missing: minimisation, free and negative variables, wrong answers of [solve] (all
    refuted below), and exact instead of near integrality (exact for small data below) *)
Theorem C46_optimal_partial depth fuel p ints r q : reachable p -> lobj p = "max" -> nonnegative_variables p ->
  relax p = Ok q -> (forall q', visited fuel ints q q' -> right_answer fuel q') ->
  branch_and_bound depth fuel (mkip p ints) = Ok r ->
  match r with
  | Some x => feasible (meaning p) x /\ nearly_integral_point ints x /\
      forall y, feasible (meaning p) y -> integral_point ints y -> (value (meaning p) y <= value (meaning p) x)%Qc
  | None => (forall y, feasible (meaning p) y -> ~ integral_point ints y) \/ unbounded (meaning p)
  end.
Proof.
  intros Hr Ho Hn Eq HV E. destruct (relax_spec p Hr) as (q' & E' & R & Mq & N & _ & _ & _ & _ & O & _). assert (q' = q) by congruence. subst q'.
  unfold branch_and_bound in E. cbn [program_of integral_variables] in E. rewrite Eq in E. cbn [bind] in E.
  destruct (branch depth fuel ints q) as [b| |] eqn:B; cbn [bind] in E; try discriminate E. injection E as <-.
  pose proof (branch_right fuel ints depth q b R (N Hn) ltac:(congruence) HV B) as K. destruct b as [(x & v)|]; cbn [outcome_right] in K; rewrite ?Mq in K; auto.
  destruct K as (K1 & K2 & K3 & K4). split; auto. split; auto. intros y Y1 Y2. rewrite <- K3. auto.
Qed.
Print Assumptions C46_optimal_partial.

(** any objective and any signs: when the optimum of the relaxation is integral it is returned *)
Theorem C46_integral_relaxation_partial depth fuel p ints q x : reachable p -> relax p = Ok q -> right_answer fuel q ->
  snd (solve fuel q) = Ok (Some x) -> nearly_integral_point ints x ->
  branch_and_bound (S depth) fuel (mkip p ints) = Ok (Some x) /\ optimal (meaning p) x.
Proof.
  intros Hr Eq (A & _) Es Hx. destruct (relax_spec p Hr) as (q' & E' & R & Mq & _). assert (q' = q) by congruence. subst q'.
  pose proof (A x Es) as O. split; [|now rewrite <- Mq]. unfold branch_and_bound. cbn [program_of integral_variables]. rewrite Eq. cbn [bind branch].
  pose proof (C45_unchanged_when_returning_partial fuel q R) as (_ & _ & K). specialize (K (Some x) Es). destruct (solve fuel q) as (q' & s). cbn [fst snd] in *. subst q' s. cbn [bind].
  rewrite evaluate_ok by apply O. cbn [bind]. pose proof (first_fraction_spec ints x 0) as FF. destruct (first_fraction ints 0 x) as [i|]; [|reflexivity].
  destruct FF as (_ & F2 & F3 & F4). rewrite Nat.sub_0_r in *. destruct (F4 (Hx i F2 F3)).
Qed.
Print Assumptions C46_integral_relaxation_partial.

(** ** termination *)
(** when the integral variables of feasible points of the relaxation are at most U, the search is
    never deeper than n U + 1 *)
Theorem C46_terminates fuel p ints U q : reachable p -> nonnegative_variables p ->
  (forall y i, feasible (meaning p) y -> i < length y -> required ints i -> (nth i y 0 <= qz (Z.of_nat U))%Qc) ->
  relax p = Ok q -> (forall q', visited fuel ints q q' -> answers fuel q' /\ right_answer fuel q') ->
  forall depth, length (lc p) * U < depth -> exists r, branch_and_bound depth fuel (mkip p ints) = Ok r.
Proof.
  intros Hr Hn HB Eq HV depth Hd. destruct (relax_spec p Hr) as (q' & E' & R & Mq & N & C & _). assert (q' = q) by congruence. subst q'.
  destruct (branch_terminates fuel ints depth q (fun _ => 0%Z) (fun _ => Z.of_nat U) R (N Hn)) as (r & B).
  - split; [intros; lia|]. intros y Hy i Hi Hq. pose proof (proj1 (nonneg_feasible q y (N Hn)) Hy) as (Y1 & _ & Y2). split; [apply Y2; auto|]. rewrite Mq in Hy. apply HB; auto. now rewrite Y1.
  - rewrite width_const, C. exact Hd.
  - intros q' Hq'. destruct (HV q' Hq') as (A1 & (A2 & _)). split; auto. intros x Ex. now apply A2.
  - unfold branch_and_bound. cbn [program_of integral_variables]. rewrite Eq. cbn [bind]. rewrite B. cbn [bind]. eexists. reflexivity.
Qed.
Print Assumptions C46_terminates.

(** ** bounded integer programs with moderate minors: nothing is assumed about [solve] *)
(** inequalities only, more constraints than variables, integral variables at most U, integer data, square
    submatrices of all sizes with determinants up to K, right hand sides and bounds adding up to T, and
    K^2 (1 + 1000 T) < 10^8: the search ends, and returns an exactly integral optimum, or None when there is
    none *)
Theorem C46_minors_partial p ints e K T U fuel depth : reachable p -> lobj p = "max" -> nonnegative_variables p ->
  (forall s, In s (inequalities p) -> s = "<=" \/ s = ">=") -> length (lc p) < length (lA p) ->
  (forall y i, feasible (meaning p) y -> i < length y -> required ints i -> (nth i y 0 <= qz (Z.of_nat U))%Qc) ->
  bounded_minors p e K T U -> 2 ^ (length (lc p) + 2 * (length (lA p) + length (lc p) * U)) <= fuel -> length (lc p) * U < depth ->
  (exists x, branch_and_bound depth fuel (mkip p ints) = Ok (Some x) /\ feasible (meaning p) x /\ integral_point ints x /\
     forall y, feasible (meaning p) y -> integral_point ints y -> (value (meaning p) y <= value (meaning p) x)%Qc) \/
  (branch_and_bound depth fuel (mkip p ints) = Ok None /\ ((forall y, feasible (meaning p) y -> ~ integral_point ints y) \/ unbounded (meaning p))).
Proof.
  intros Hr Ho Hn HI Hmn HB HS Hfuel Hd. destruct (relax_spec p Hr) as (q & Eq & R & Mq & N & C & EA & Eb & Ec & EO & EI).
  assert (HS' : bounded_minors q e K T U) by (destruct HS as [S1 S2 S3 S4 S5 S6 S7 S8]; constructor; rewrite ?EA, ?Eb, ?Ec; auto).
  pose proof (wf_b _ (reachable_wf q R)) as Lb. unfold rows in Lb.
  assert (Hmn' : cols q < rows q) by (unfold cols, rows; now rewrite EA, Ec). assert (Hfuel' : 2 ^ (cols q + 2 * (rows q + cols q * U)) <= fuel) by (unfold cols, rows; now rewrite EA, Ec).
  assert (HQ : inv q ints U q).
  { split; auto. split; auto. split; auto. split; auto. split; auto. split; auto. split; [|split].
    - intros s Hs. rewrite EI in Hs. destruct (HI s Hs) as [-> | ->]; discriminate.
    - exists [], []. cbn [map]. rewrite !app_nil_r. split; auto. split; auto. intros k [].
    - exists (fun _ => 0%Z), (fun _ => Z.of_nat U). split; [split; [intros; lia|]|split; [intros; lia|rewrite width_const; lia]].
      intros y Hy i Hi Hq. pose proof (proj1 (nonneg_feasible q y (N Hn)) Hy) as (Y1 & _ & Y2). split; [apply Y2; auto|]. rewrite Mq in Hy. apply HB; auto. now rewrite Y1. }
  assert (HV : forall q', visited fuel ints q q' -> inv q ints U q') by (intros q' Hq'; exact (inv_visited q ints e K T U fuel HS' Lb Hmn' Hfuel' q' HQ Hq')).
  destruct (C46_terminates fuel p ints U q Hr Hn HB Eq) with (depth := depth) as (r & E); auto; [intros q' Hq'; exact (inv_answer q ints e K T U fuel HS' Lb Hmn' Hfuel' q' (HV q' Hq'))|].
  pose proof (C46_optimal_partial depth fuel p ints r q Hr Ho Hn Eq) as KO. specialize (KO ltac:(intros q' Hq'; exact (proj2 (inv_answer q ints e K T U fuel HS' Lb Hmn' Hfuel' q' (HV q' Hq')))) E).
  destruct r as [x|]; [left|right; auto]. exists x. split; auto. destruct KO as (K1 & K2 & K3). split; auto. split; auto.
  intros i Hi Hq. apply small_fraction_near; [|now apply K2].
  unfold branch_and_bound in E. cbn [program_of integral_variables] in E. rewrite Eq in E. cbn [bind] in E. destruct (branch depth fuel ints q) as [[(x' & v)|]| |] eqn:B; cbn [bind] in E; try discriminate E. injection E as ->.
  assert (Lx : length x = cols q) by (rewrite C; apply K1). apply (branch_result q ints e K T U fuel HS' Lb Hmn' Hfuel' depth q x v HV B Lx). lia.
Qed.
Print Assumptions C46_minors_partial.

(** *** non-vacuity: maximise x1 + x2, x1 + x2 <= 1, x1 <= x2, x2 <= x1: the relaxation has the
    optimum (1/2, 1/2), the only integral point is (0, 0) *)
Definition half_program : res lp :=
  linear_program (mat 2 [[1; 1]; [1; -1]; [-1; 1]]%Z) (vec [1; 0; 0]%Z) (vec [1; 1]%Z) 0%Qc "max" (Some ["<="; "<="; "<="]) None None.
Example C46_minors_example : exists p, half_program = Ok p /\ reachable p /\ lobj p = "max" /\ nonnegative_variables p /\
  (forall s, In s (inequalities p) -> s = "<=" \/ s = ">=") /\ length (lc p) < length (lA p) /\
  (forall y i, feasible (meaning p) y -> i < length y -> required None i -> (nth i y 0 <= qz (Z.of_nat 1))%Qc) /\ bounded_minors p 1 2 3 1 /\
  exists x, snd (solve 64 p) = Ok (Some x) /\ first_fraction None 0 x = Some 0.
Proof.
  destruct half_program as [p| |] eqn:E; try discriminate E. exists p. split; auto. unfold half_program in E. assert (Hr : reachable p) by (refine (r_new _ _ _ _ _ _ _ _ _ _ E); repeat constructor). split; auto. injection E as <-.
  split; [reflexivity|]. split; [split; reflexivity|]. split; [cbn; intros s [<-|[<-|[<-|[]]]]; auto|]. split; [cbn; lia|]. split; [|split].
  - intros y i (L & HA & HB) Hi _. cbn in L. destruct y as [|y1 [|y2 [|]]]; try discriminate L. pose proof (HA 0 ltac:(cbn; lia)) as K. pose proof (HB 0 ltac:(cbn; lia)) as K1. pose proof (HB 1 ltac:(cbn; lia)) as K2. cbn in K, K1, K2.
    change (qz (Z.of_nat 1)) with 1%Qc. change (Q2Qc 1) with 1%Qc in *. change (Q2Qc 0) with 0%Qc in *. change (qz 1) with 1%Qc in *. destruct i as [|[|]]; cbn in Hi; try lia; cbn [nth]; clear - K K1 K2; qclra.
  - constructor.
    + cbn. intros r v [<-|[<-|[<-|[]]]] [<-|[<-|[]]]; eexists; reflexivity.
    + cbn. intros v [<-|[<-|[<-|[]]]]; eexists; reflexivity.
    + cbn. intros v [<-|[<-|[]]]; exists 1%Z; apply Qc_is_canon; reflexivity.
    + lia.
    + apply minors_check_ok. vm_compute. reflexivity.
    + lia.
    + vm_compute. discriminate.
    + lia.
  - match goal with |- exists x, snd (solve 64 ?p) = _ /\ _ => assert (G : match snd (solve 64 p) with Ok (Some x) => first_fraction None 0 x = Some 0 | _ => False end) by (vm_compute; reflexivity); destruct (snd (solve 64 p)) as [[x|]| |]; try contradiction end.
    exists x. auto.
Qed.
(** the theorem decides it: the answer is (0, 0) *)
Example C46_minors_answer : exists p x, half_program = Ok p /\ branch_and_bound 3 4096 (mkip p None) = Ok (Some x) /\ map this x = [0; 0]%Q.
Proof.
  destruct half_program as [p| |] eqn:E; try discriminate E. exists p. unfold half_program in E. injection E as E.
  assert (G : match branch_and_bound 3 4096 (mkip p None) with Ok (Some x) => map this x = [0; 0]%Q | _ => False end) by (rewrite <- E; vm_compute; reflexivity).
  destruct (branch_and_bound 3 4096 (mkip p None)) as [[x|]| |]; try contradiction. exists x. auto.
Qed.

(** ** where it fails *)
(** the vector is feasible, integral and beats the one returned *)
Definition beaten (p : lp) (ints : option (list Z)) (x y : list Qc) : Prop :=
  feasible (meaning p) y /\ integral_point ints y /\ if maximise (meaning p) then (value (meaning p) x < value (meaning p) y)%Qc else (value (meaning p) y < value (meaning p) x)%Qc.
Lemma integral_list ints (l : list Z) : integral_point ints (map qz l).
Proof. intros i Hi _. rewrite map_length in Hi. exists (nth i l 0%Z). change 0%Qc with (qz 0). now rewrite map_nth. Qed.

(** minimise - x2: (0, 0) is returned and (1, 1) is feasible and better *)
Theorem C46_min_refuted : exists p x y, reachable p /\ lobj p = "min" /\ nonnegative_variables p /\ branch_and_bound 10 64 (mkip p None) = Ok (Some x) /\ beaten p None x y.
Proof.
  destruct (linear_program (mat 2 [[-2; 1]; [1; 10]; [1; 0]]%Z) (vec [0; 12; 5]%Z) (vec [0; -1]%Z) 0%Qc "min" (Some ["<="; "<="; "<="]) None None) as [p| |] eqn:E; try discriminate E.
  assert (Hr : reachable p) by (refine (r_new _ _ _ _ _ _ _ _ _ _ E); repeat constructor). injection E as E.
  assert (G : match branch_and_bound 10 64 (mkip p None) with Ok (Some x) => map this x = [0; 0]%Q | _ => False end) by (rewrite <- E; vm_compute; reflexivity).
  destruct (branch_and_bound 10 64 (mkip p None)) as [[x|]| |] eqn:ES; try contradiction. apply of_this in G.
  exists p, x, (map qz [1; 1]%Z). split; [exact Hr|]. split; [now subst p|]. split; [subst p; split; reflexivity|]. split; [exact ES|]. subst p x. split; [|split; [apply integral_list|reflexivity]].
  split; [reflexivity|]. split; intros i Hi; cbn in Hi; destruct i as [|[|[|i]]]; try lia; cbn; discriminate.
Qed.
Print Assumptions C46_min_refuted.
(** x2 <= 0: the branches forget the sign, and the point returned has x2 = 1 *)
Theorem C46_negative_infeasible_refuted : exists p x, reachable p /\ negative_variables p = [1%Z] /\ lobj p = "max" /\ branch_and_bound 10 64 (mkip p None) = Ok (Some x) /\ ~ feasible (meaning p) x.
Proof.
  destruct (linear_program (mat 2 [[1; 0]; [0; 2]; [1; 1]]%Z) (vec [5; 3; 9]%Z) (vec [1; 1]%Z) 0%Qc "max" (Some ["<="; "<="; "<="]) None (Some [1%Z])) as [p| |] eqn:E; try discriminate E.
  assert (Hr : reachable p) by (refine (r_new _ _ _ _ _ _ _ _ _ _ E); repeat constructor). injection E as E.
  assert (G : match branch_and_bound 10 64 (mkip p None) with Ok (Some x) => map this x = [5; 1]%Q | _ => False end) by (rewrite <- E; vm_compute; reflexivity).
  destruct (branch_and_bound 10 64 (mkip p None)) as [[x|]| |] eqn:ES; try contradiction. apply of_this in G.
  exists p, x. split; [exact Hr|]. split; [subst p; reflexivity|]. split; [now subst p|]. split; [exact ES|]. subst p x. intros (_ & _ & K). specialize (K 0 ltac:(cbn; lia)). cbn in K. apply K. reflexivity.
Qed.
Print Assumptions C46_negative_infeasible_refuted.
(** a free variable is treated as nonnegative once a branch is taken *)
Theorem C46_free_refuted : exists p x y, reachable p /\ free_variables p = [1%Z] /\ lobj p = "max" /\ branch_and_bound 10 64 (mkip p None) = Ok (Some x) /\ beaten p None x y.
Proof.
  destruct (linear_program (mat 2 [[-1; 0]; [0; 2]; [1; 1]]%Z) (vec [2; 3; 9]%Z) (vec [-1; 1]%Z) 0%Qc "max" (Some ["<="; "<="; "<="]) (Some [1%Z]) None) as [p| |] eqn:E; try discriminate E.
  assert (Hr : reachable p) by (refine (r_new _ _ _ _ _ _ _ _ _ _ E); repeat constructor). injection E as E.
  assert (G : match branch_and_bound 10 64 (mkip p None) with Ok (Some x) => map this x = [0; 1]%Q | _ => False end) by (rewrite <- E; vm_compute; reflexivity).
  destruct (branch_and_bound 10 64 (mkip p None)) as [[x|]| |] eqn:ES; try contradiction. apply of_this in G.
  exists p, x, (map qz [-2; 1]%Z). split; [exact Hr|]. split; [now subst p|]. split; [now subst p|]. split; [exact ES|]. subst p x. split; [|split; [apply integral_list|reflexivity]].
  split; [reflexivity|]. split; intros i Hi; cbn in Hi; destruct i as [|[|[|i]]]; try lia; first [exact I|vm_compute; discriminate].
Qed.
Print Assumptions C46_free_refuted.
(** a branch with as many constraints as variables: [solve] returns None for a feasible branch, and
    the better integral point is lost *)
Theorem C46_lost_branch_refuted : exists p x y, reachable p /\ lobj p = "max" /\ nonnegative_variables p /\ branch_and_bound 10 64 (mkip p None) = Ok (Some x) /\ beaten p None x y.
Proof.
  destruct (linear_program (mat 3 [[-2; 1; 0]; [1; 10; 0]]%Z) (vec [0; 12]%Z) (vec [0; 1; 0]%Z) 0%Qc "max" (Some ["<="; "<="]) None None) as [p| |] eqn:E; try discriminate E.
  assert (Hr : reachable p) by (refine (r_new _ _ _ _ _ _ _ _ _ _ E); repeat constructor). injection E as E.
  assert (G : match branch_and_bound 10 64 (mkip p None) with Ok (Some x) => map this x = [0; 0; 0]%Q | _ => False end) by (rewrite <- E; vm_compute; reflexivity).
  destruct (branch_and_bound 10 64 (mkip p None)) as [[x|]| |] eqn:ES; try contradiction. apply of_this in G.
  exists p, x, (map qz [1; 1; 0]%Z). split; [exact Hr|]. split; [now subst p|]. split; [subst p; split; reflexivity|]. split; [exact ES|]. subst p x. split; [|split; [apply integral_list|reflexivity]].
  split; [reflexivity|]. split; intros i Hi; cbn in Hi; destruct i as [|[|[|i]]]; try lia; cbn; discriminate.
Qed.
Print Assumptions C46_lost_branch_refuted.
(** the list of integral variables counts from 0, unlike the lists of free and negative variables:
    with [1] given, maximise x1 with 2 x1 <= 3: the first variable stays fractional *)
Theorem C46_counting_refuted : exists p x, reachable p /\ branch_and_bound 10 64 (mkip p (Some [1%Z])) = Ok (Some x) /\ ~ near_integer (nth 0 x 0%Qc).
Proof.
  destruct (linear_program (mat 2 [[2; 0]; [0; 1]; [1; 1]]%Z) (vec [3; 4; 9]%Z) (vec [1; 1]%Z) 0%Qc "max" (Some ["<="; "<="; "<="]) None None) as [p| |] eqn:E; try discriminate E.
  assert (Hr : reachable p) by (refine (r_new _ _ _ _ _ _ _ _ _ _ E); repeat constructor). injection E as E.
  assert (G : match branch_and_bound 10 64 (mkip p (Some [1%Z])) with Ok (Some x) => map this x = [3 # 2; 4]%Q | _ => False end) by (rewrite <- E; vm_compute; reflexivity).
  destruct (branch_and_bound 10 64 (mkip p (Some [1%Z]))) as [[x|]| |] eqn:ES; try contradiction. apply of_this in G.
  exists p, x. split; [exact Hr|]. split; [exact ES|]. subst x. cbn [map nth]. intros K. assert (B : is_integer (Q2Qc (3 # 2)) = false) by (vm_compute; reflexivity). destruct (is_integer_spec (Q2Qc (3 # 2))) as [Q|Q]; [discriminate B|now apply Q].
Qed.
Print Assumptions C46_counting_refuted.
