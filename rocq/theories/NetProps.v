(** C73: network programs (transportation, assignment, flows) of any size. *)
From Coq Require Import String List Bool Arith ZArith QArith Qcanon Qround Lia.
From Verif Require Import Py QcTac QSum QInt ComparatorModel MatModel MatTheory LinearModel LinearSpec LinearProofs LinearInv DualProofs LinearProps SefProofs BasisProofs SimplexProofs SmallProofs SimplexProps TwoPhaseProofs TwoPhaseProps IntegerModel IntegerSpec IntegerProofs IntegerProps NetSpec NetProofs.
Import ListNotations.
Open Scope nat_scope.
Open Scope string_scope.
Open Scope list_scope.

(** ** what solve returns is optimal and made of integers *)
Theorem C73_optimal fuel p e p' x : reachable p -> network_program p e -> solve fuel p = (p', Ok (Some x)) ->
  optimal (meaning p) x /\ forall v, In v x -> isint v.
Proof.
  intros Hr HN E. pose proof (reachable_wf p Hr) as H. split.
  - apply (C41_optimal_partial fuel p p'); auto. now apply (network_moderate p e).
  - now apply (network_integral fuel p e p').
Qed.
Print Assumptions C73_optimal.

(** ** and there is an answer; missing: dependent equations, and the shapes for which the code takes its
    short cut wrongly (C42_refuted) *)
Theorem C73_complete_partial fuel p e : reachable p -> 0 < length (lA p) -> independent_equations p -> network_program p e ->
  2 ^ (length (lc (fst (to_sef p))) + length (lA p)) <= fuel ->
  lsef p = true \/ length (lc (fst (to_sef p))) <> 2 * length (lA p) \/
    ((forall i, i < length (lA p) -> nth i (inequalities p) "=" = "<=") /\ (forall i, i < length (lb p) -> (0 <= nth i (lb p) 0)%Qc)) ->
  (exists x, solve fuel p = (p, Ok (Some x)) /\ optimal (meaning p) x /\ forall v, In v x -> isint v) \/
  (solve fuel p = (p, Ok None) /\ (infeasible (meaning p) \/ unbounded (meaning p))).
Proof.
  intros Hr Hm HI HN Hf HG. pose proof (reachable_wf p Hr) as H.
  destruct (C42_complete_partial p fuel Hr Hm HI (network_moderate p e H HN) Hf HG) as [(x & E & O)|K]; [left|now right].
  exists x. split; auto. split; auto. now apply (network_integral fuel p e p).
Qed.
Print Assumptions C73_complete_partial.

(** ** integer network programs: branch and bound stops at the first relaxation, whatever the objective,
    the signs of the variables and the variables that must be integral *)
Theorem C73_integer_program depth fuel p e ints q x : reachable p -> network_program p e -> relax p = Ok q -> snd (solve fuel q) = Ok (Some x) ->
  branch_and_bound (S depth) fuel (mkip p ints) = Ok (Some x) /\ optimal (meaning p) x /\ forall v, In v x -> isint v.
Proof.
  intros Hr HN Eq E. destruct (relax_spec p Hr) as (q' & E' & R & Mq & _ & _ & EA & Eb & Ec & _). assert (q' = q) by congruence. subst q'.
  assert (HN' : network_program q e) by (destruct HN; constructor; rewrite ?EA, ?Eb, ?Ec; auto).
  destruct (solve fuel q) as (p' & s) eqn:ES. cbn [snd] in E. subst s. destruct (C73_optimal fuel q e p' x R HN' ES) as (O & I). rewrite Mq in O.
  destruct (C46_integral_relaxation_partial depth fuel p ints q x Hr Eq) as (K & _); auto; [|now rewrite ES|].
  - split; rewrite ES; cbn [snd]; [|discriminate]. intros y [= <-]. now rewrite Mq.
  - intros i Hi _. apply isint_near, I. now apply nth_In.
Qed.
Print Assumptions C73_integer_program.
Theorem C73_integer_complete_partial depth fuel p e ints q : reachable p -> relax p = Ok q -> 0 < length (lA p) -> independent_equations p -> network_program p e ->
  2 ^ (length (lc (fst (to_sef q))) + length (lA q)) <= fuel ->
  lsef q = true \/ length (lc (fst (to_sef q))) <> 2 * length (lA q) \/
    ((forall i, i < length (lA q) -> nth i (inequalities q) "=" = "<=") /\ (forall i, i < length (lb q) -> (0 <= nth i (lb q) 0)%Qc)) ->
  (exists x, branch_and_bound (S depth) fuel (mkip p ints) = Ok (Some x) /\ optimal (meaning p) x /\ forall v, In v x -> isint v) \/
  (branch_and_bound (S depth) fuel (mkip p ints) = Ok None /\ (infeasible (meaning p) \/ unbounded (meaning p))).
Proof.
  intros Hr Eq Hm HI HN Hf HG. destruct (relax_spec p Hr) as (q' & E' & R & Mq & _ & _ & EA & Eb & Ec & _ & EI). assert (q' = q) by congruence. subst q'.
  assert (HI' : independent_equations q) by (unfold independent_equations in *; rewrite EA, Ec, EI; exact HI).
  assert (HN' : network_program q e) by (destruct HN; constructor; rewrite ?EA, ?Eb, ?Ec; auto).
  destruct (C73_complete_partial fuel q e R ltac:(now rewrite EA) HI' HN' Hf HG) as [(x & E & _)|(E & K)].
  - left. exists x. apply (C73_integer_program depth fuel p e ints q x); auto. now rewrite E.
  - right. rewrite Mq in K. split; auto. unfold branch_and_bound. cbn [program_of integral_variables]. rewrite Eq. cbn [bind branch]. now rewrite E.
Qed.
Print Assumptions C73_integer_complete_partial.

(** ** dependent equations: no answer is ever found *)
Theorem C73_dependent fuel p e : reachable p -> 0 < length (lA p) -> ~ independent_equations p -> network_program p e ->
  2 ^ (length (lc (fst (to_sef p))) + length (lA p)) <= fuel ->
  (snd (solve fuel p) = Raise ValueError /\ exists x, feasible (meaning p) x) \/ (solve fuel p = (p, Ok None) /\ infeasible (meaning p)).
Proof. intros Hr Hm HI HN Hf. apply C42_dependent; auto. apply (network_moderate p e); auto. now apply reachable_wf. Qed.
Print Assumptions C73_dependent.
Lemma complete_dependent p : reachable p -> 0 < length (lA p) -> complete_network (lA p) (length (lA p)) (length (lc p)) ->
  (forall i, i < length (lA p) -> nth i (inequalities p) "=" = "=") -> ~ independent_equations p.
Proof.
  intros Hr Hm (side & HC) HE HI. set (y := map (fun i => if side i then 1%Qc else (- (1))%Qc) (seq 0 (length (lA p)))). assert (Ly : length y = length (lA p)) by (unfold y; now rewrite map_length, seq_length).
  assert (Y : forall i, i < length (lA p) -> nth i y 0%Qc = if side i then 1%Qc else (- (1))%Qc) by (intros i Hi; unfold y; now rewrite nth_map_seq).
  specialize (HI y Ly). assert (K : nth 0 y 0%Qc = 0%Qc).
  { apply HI; [intros i Hi K; now rewrite HE in K by auto| |lia]. intros j Hj. destruct (HC j Hj) as (h & t & Hh & Ht & HA). rewrite (inner_Sum (length (lA p))) by auto.
    rewrite (Sum_ext _ _ (fun i => (if Nat.eqb i h then 1 else 0) - (if Nat.eqb i t then 1 else 0))%Qc).
    - rewrite Sum_sub, !Sum_delta by auto. ring.
    - intros i Hi. unfold at_. rewrite Y by auto. unfold column. rewrite (nth_indep (map (fun r => nth j r 0%Qc) (lA p)) 0%Qc (nth j [] 0%Qc)) by (now rewrite map_length). rewrite (map_nth (fun r => nth j r 0%Qc)).  rewrite HA by auto. unfold indicator. cbv zeta. destruct (side i); ring. }
  rewrite Y in K by auto. destruct (side 0); discriminate K.
Qed.
(** a transportation, assignment or flow problem in which everything is an equation: solve raises ValueError whenever the
    problem has a solution *)
Theorem C73_equations_refuted fuel p e : reachable p -> 0 < length (lA p) -> network_program p e ->
  complete_network (lA p) (length (lA p)) (length (lc p)) -> (forall i, i < length (lA p) -> nth i (inequalities p) "=" = "=") ->
  2 ^ (length (lc (fst (to_sef p))) + length (lA p)) <= fuel ->
  (snd (solve fuel p) = Raise ValueError /\ exists x, feasible (meaning p) x) \/ (solve fuel p = (p, Ok None) /\ infeasible (meaning p)).
Proof. intros Hr Hm HN HC HE Hf. apply (C73_dependent fuel p e); auto. now apply complete_dependent. Qed.
Print Assumptions C73_equations_refuted.

(** *** the same for integer programs: the relaxation raises, so branch_and_bound does, however many variables are
    integral *)
Theorem C46_dependent depth fuel p ints q : reachable p -> relax p = Ok q -> 0 < length (lA p) -> ~ independent_equations p -> moderate_data p ->
  2 ^ (length (lc (fst (to_sef q))) + length (lA q)) <= fuel ->
  (branch_and_bound (S depth) fuel (mkip p ints) = Raise ValueError /\ exists x, feasible (meaning p) x) \/
  (branch_and_bound (S depth) fuel (mkip p ints) = Ok None /\ infeasible (meaning p)).
Proof.
  intros Hr Eq Hm HI HE Hf. destruct (relax_spec p Hr) as (q' & E' & R & Mq & _ & _ & EA & Eb & Ec & _ & EI). assert (q' = q) by congruence. subst q'.
  assert (HI' : ~ independent_equations q) by (unfold independent_equations in *; rewrite EA, Ec, EI; exact HI).
  assert (HE' : moderate_data q) by (destruct HE as (d & e & K & L & [[] ? ? ? ?]); exists d, e, K, L; constructor; [constructor| | | |]; unfold wide in *; rewrite ?EA, ?Eb, ?Ec; auto).
  unfold branch_and_bound. cbn [program_of integral_variables]. rewrite Eq. cbn [bind branch].
  destruct (C42_dependent q fuel R ltac:(now rewrite EA) HI' HE' Hf) as [(E & F)|(E & F)].
  - left. rewrite Mq in F. split; [|exact F]. destruct (solve fuel q) as (p' & r). cbn [snd] in E. now subst r.
  - right. rewrite Mq in F. split; [|exact F]. now rewrite E.
Qed.
Print Assumptions C46_dependent.
Theorem C73_integer_equations_refuted depth fuel p e ints q : reachable p -> relax p = Ok q -> 0 < length (lA p) -> network_program p e ->
  complete_network (lA p) (length (lA p)) (length (lc p)) -> (forall i, i < length (lA p) -> nth i (inequalities p) "=" = "=") ->
  2 ^ (length (lc (fst (to_sef q))) + length (lA q)) <= fuel ->
  (branch_and_bound (S depth) fuel (mkip p ints) = Raise ValueError /\ exists x, feasible (meaning p) x) \/
  (branch_and_bound (S depth) fuel (mkip p ints) = Ok None /\ infeasible (meaning p)).
Proof.
  intros Hr Eq Hm HN HC HE Hf. apply (C46_dependent depth fuel p ints q); auto; [now apply complete_dependent|]. apply (network_moderate p e); auto. now apply reachable_wf.
Qed.
Print Assumptions C73_integer_equations_refuted.

(** ** non-vacuity *)
(** *** a transportation problem: supplies 40 and 60, demands 30, 25 and 35, costs 8 6 10 / 9 12 13;
    minimise the cost of the shipments x11 x12 x13 x21 x22 x23 *)
Definition transportation : res lp :=
  linear_program (mat 6 [[1; 1; 1; 0; 0; 0]; [0; 0; 0; 1; 1; 1]; [1; 0; 0; 1; 0; 0]; [0; 1; 0; 0; 1; 0]; [0; 0; 1; 0; 0; 1]]%Z) (vec [40; 60; 30; 25; 35]%Z) (vec [8; 6; 10; 9; 12; 13]%Z) 0%Qc
    "min" (Some ["<="; "<="; ">="; ">="; ">="]) None None.
Lemma check_columns A m n (side : nat -> bool) (f : nat -> nat * nat) :
  forallb (fun j => forallb (fun i => Qc_eq_bool (nth j (nth i A []) 0%Qc) (let v := (indicator i (fst (f j)) - indicator i (snd (f j)))%Qc in if side i then v else - v)%Qc) (seq 0 m)) (seq 0 n) = true ->
  network_matrix A m n.
Proof.
  intros H. exists side. intros j Hj. exists (fst (f j)), (snd (f j)). intros i Hi. rewrite forallb_forall in H. specialize (H j ltac:(apply in_seq; lia)). rewrite forallb_forall in H. specialize (H i ltac:(apply in_seq; lia)).
  cbn beta in H. now apply Qc_eq_bool_correct in H.
Qed.
Example C73_nontrivial : exists p x, transportation = Ok p /\ reachable p /\ network_program p 1 /\ 0 < length (lA p) /\ independent_equations p /\
  length (lc (fst (to_sef p))) <> 2 * length (lA p) /\ snd (solve 1000 p) = Ok (Some x) /\ map this x = [0; 25; 15; 30; 0; 20]%Q.
Proof.
  destruct transportation as [p| |] eqn:E; try discriminate E. unfold transportation in E.
  assert (Hr : reachable p) by (refine (r_new _ _ _ _ _ _ _ _ _ _ E); repeat constructor). injection E as E.
  assert (G : match snd (solve 1000 p) with Ok (Some x) => map this x = [0; 25; 15; 30; 0; 20]%Q | _ => False end) by (rewrite <- E; vm_compute; reflexivity).
  assert (C : length (lc (fst (to_sef p))) = 11) by (rewrite <- E; vm_compute; reflexivity).
  destruct (snd (solve 1000 p)) as [[x|]| |] eqn:ES; try contradiction. exists p, x. split; [reflexivity|]. split; [exact Hr|]. rewrite C. subst p. split; [|split; [cbn; lia|split; [|split; [cbn; lia|auto]]]].
  - constructor.
    + apply (check_columns _ _ _ (fun i => Nat.ltb i 2) (fun j => (j / 3, 2 + j mod 3))). vm_compute. reflexivity.
    + cbn [lb]. intros v Hv. apply (isint_map [40; 60; 30; 25; 35]%Z v Hv).
    + vm_compute. discriminate.
    + lia.
    + cbn [lc]. intros v Hv. apply (isint_map [8; 6; 10; 9; 12; 13]%Z) in Hv. destruct Hv as (z & ->). exists (1 * z)%Z. now rewrite qz_mul.
  - apply no_equations. intros [|[|[|[|[|i]]]]] Hi; [| | | | |cbn in Hi; lia]; vm_compute; discriminate.
Qed.
(** the integer version, with every variable integral, has the same answer *)
Example C73_integer : exists p x, transportation = Ok p /\ branch_and_bound 1 1000 (mkip p None) = Ok (Some x) /\ map this x = [0; 25; 15; 30; 0; 20]%Q.
Proof.
  destruct transportation as [p| |] eqn:E; try discriminate E. exists p. unfold transportation in E. injection E as E.
  assert (G : match branch_and_bound 1 1000 (mkip p None) with Ok (Some x) => map this x = [0; 25; 15; 30; 0; 20]%Q | _ => False end) by (rewrite <- E; vm_compute; reflexivity).
  destruct (branch_and_bound 1 1000 (mkip p None)) as [[x|]| |]; try contradiction. exists x. auto.
Qed.
(** *** an assignment problem with two persons and two tasks, everything an equation *)
Definition assignment : res lp :=
  linear_program (mat 4 [[1; 1; 0; 0]; [0; 0; 1; 1]; [1; 0; 1; 0]; [0; 1; 0; 1]]%Z) (vec [1; 1; 1; 1]%Z) (vec [3; 1; 2; 4]%Z) 0%Qc "max" None None None.
Example C73_assignment : exists p, assignment = Ok p /\ reachable p /\ network_program p 1 /\ 0 < length (lA p) /\ complete_network (lA p) (length (lA p)) (length (lc p)) /\
  (forall i, i < length (lA p) -> nth i (inequalities p) "=" = "=") /\ feasible (meaning p) (map qz [1; 0; 0; 1]%Z) /\ snd (solve 1000 p) = Raise ValueError.
Proof.
  destruct assignment as [p| |] eqn:E; try discriminate E. unfold assignment in E.
  assert (Hr : reachable p) by (refine (r_new _ _ _ _ _ _ _ _ _ _ E); repeat constructor). injection E as E. exists p. split; auto. split; auto. subst p. split; [|split; [cbn; lia|split; [|split; [|split]]]].
  - constructor.
    + apply (check_columns _ _ _ (fun i => Nat.ltb i 2) (fun j => (j / 2, 2 + j mod 2))). vm_compute. reflexivity.
    + cbn [lb]. intros v Hv. apply (isint_map [1; 1; 1; 1]%Z v Hv).
    + vm_compute. discriminate.
    + lia.
    + cbn [lc]. intros v Hv. apply (isint_map [3; 1; 2; 4]%Z) in Hv. destruct Hv as (z & ->). exists (1 * z)%Z. now rewrite qz_mul.
  - exists (fun i => Nat.ltb i 2). intros j Hj. exists (j / 2), (2 + j mod 2). cbn in Hj. cbn [lA length]. destruct j as [|[|[|[|j]]]]; [| | | |lia]; (split; [cbn; lia|split; [cbn; lia|]]); intros [|[|[|[|i]]]] Hi; try lia; vm_compute; reflexivity.
  - intros [|[|[|[|i]]]] Hi; [| | | |cbn in Hi; lia]; vm_compute; reflexivity.
  - split; [reflexivity|]. split; intros [|[|[|[|i]]]] Hi; try (cbn in Hi; lia); vm_compute; (reflexivity || discriminate).
  - vm_compute. reflexivity.
Qed.
(** the integer version of the same problem, every variable integral *)
Example C73_integer_assignment : exists p, assignment = Ok p /\ branch_and_bound 1 1000 (mkip p None) = Raise ValueError.
Proof. destruct assignment as [p| |] eqn:E; try discriminate E. exists p. split; [reflexivity|]. unfold assignment in E. injection E as <-. vm_compute. reflexivity. Qed.
