(** C46, any objective: branch and bound returns integral feasible points, and None only when there are none. *)
From Coq Require Import String List Bool Arith ZArith QArith Qcanon Qround Lia.
From Verif Require Import Py QcTac QSum QInt ComparatorModel ComparatorSpec ComparatorProofs MatModel MatTheory LinearModel LinearSpec LinearProofs LinearInv DualProofs LinearProps SmallProofs SimplexProps IntegerModel IntegerSpec IntegerProofs IntegerSmall IntegerProps RoundedModel RoundedRunModel RoundedBranchModel.
Import ListNotations.
Open Scope nat_scope.
Open Scope string_scope.
Open Scope list_scope.

(** ** integrality: every program, nothing assumed *)
Lemma better_one o l h r : better o l h = Some r -> l = Some r \/ h = Some r.
Proof. unfold better. destruct l as [l|], h as [h|]; auto. destruct (String.eqb o "max"), (qlt (snd l) (snd h)); auto. Qed.
Lemma branch_integral fuel ints : forall depth q x v, branch depth fuel ints q = Ok (Some (x, v)) -> nearly_integral_point ints x.
Proof.
  induction depth as [|depth IH]; intros q x v E; [discriminate E|]. cbn [branch] in E. destruct (solve fuel q) as (q' & s). destruct s as [[y|]| |]; cbn [bind] in E; try discriminate E.
  destruct (evaluate q' y) as [w| |]; cbn [bind] in E; try discriminate E. pose proof (first_fraction_spec ints y 0) as FF. destruct (first_fraction ints 0 y) as [i|]; [|injection E as <- <-; exact FF].
  destruct (child q' i "<=" _) as [ql| |]; cbn [bind] in E; try discriminate E. destruct (branch depth fuel ints ql) as [rl| |] eqn:Bl; cbn [bind] in E; try discriminate E.
  destruct (child q' i ">=" _) as [qh| |]; cbn [bind] in E; try discriminate E. destruct (branch depth fuel ints qh) as [rh| |] eqn:Bh; cbn [bind] in E; try discriminate E. injection E as E.
  destruct (better_one _ _ _ _ E) as [-> | ->]; eauto.
Qed.
(** whatever the program, its signs and its objective: the variables that have to be integral are, up to the tolerance *)
Theorem C46_always_integral depth fuel p ints x : branch_and_bound depth fuel (mkip p ints) = Ok (Some x) -> nearly_integral_point ints x.
Proof.
  unfold branch_and_bound. cbn [program_of integral_variables]. destruct (relax p) as [q| |]; cbn [bind]; try discriminate. destruct (branch depth fuel ints q) as [[(y & v)|]| |] eqn:B; cbn [bind]; try discriminate. intros E. injection E as <-.
  exact (branch_integral _ _ _ _ _ _ B).
Qed.
Print Assumptions C46_always_integral.
(** the same with any rounding errors *)
Theorem C84_always_integral e p ints x : run_branch_and_bound e (mkip p ints) (Ok (Some x)) -> nearly_integral_point ints x.
Proof.
  unfold run_branch_and_bound. cbn [program_of integral_variables]. destruct (relax p) as [q| |]; try discriminate; [|contradiction]. intros (r & RB & E). destruct r as [[(y & v)|]| |]; cbn in E; try discriminate E. injection E as ->.
  remember (Ok (Some (y, v))) as o eqn:Eo. revert y v Eo. induction RB as [| | |q z w S L W FF| | | | |q z i l r h s SP El RL IHl Eh RH IHh]; intros a b Eo; try discriminate Eo.
  - injection Eo as <- <-. pose proof (first_fraction_spec ints z 0) as K. rewrite FF in K. exact K.
  - injection Eo as Eo. destruct (better_one _ _ _ _ Eo) as [-> | ->]; eauto.
Qed.
Print Assumptions C84_always_integral.

(** ** feasibility and the verdict for both objectives *)
Definition outcome_sound (ints : option (list Z)) (q : lp) (r : option (list Qc * Qc)) : Prop :=
  match r with
  | Some (x, v) => feasible (meaning q) x
  | None => nonnegative_variables q -> (forall y, feasible (meaning q) y -> ~ integral_point ints y) \/ unbounded (meaning q)
  end.
Definition no_negative (q : lp) : Prop := forall j, j < cols q -> nth j (signs (meaning q)) Nonnegative <> Nonpositive.
Lemma no_negative_variables p : negative_variables p = [] -> no_negative p.
Proof. intros N j Hj. unfold meaning. cbn [signs]. change (length (lc p)) with (cols p). rewrite nth_map_seq by auto. unfold sign_of. rewrite N. cbn [existsb]. destruct (existsb _ _); discriminate. Qed.
Lemma rows_feasible p y : no_negative p -> length y = cols p -> rows_hold p y -> (forall j, j < cols p -> (0 <= nth j y 0)%Qc) -> feasible (meaning p) y.
Proof.
  intros N L R K. split; [exact L|]. split; [exact R|]. intros j Hj. change (length (costs (meaning p))) with (cols p) in Hj. specialize (N j Hj). specialize (K j Hj). destruct (nth j (signs (meaning p)) Nonnegative); cbn [signed]; auto. congruence.
Qed.
Lemma branch_sound fuel ints : forall depth q r, reachable q -> no_negative q ->
  (forall q', visited fuel ints q q' -> right_answer fuel q') -> branch depth fuel ints q = Ok r -> outcome_sound ints q r.
Proof.
  induction depth as [|depth IH]; intros q r Hr Hn HV E; [discriminate E|]. cbn [branch] in E. pose proof (reachable_wf q Hr) as H.
  destruct (HV q (v_root _ _ _)) as (A1 & A2). destruct (solve fuel q) as (q' & s) eqn:Es. cbn [snd] in A1, A2.
  destruct s as [[x|]| |]; cbn [bind] in E; try discriminate E; [|injection E as <-; cbn; intros _; destruct (A2 eq_refl) as [K|K]; auto; left; intros y Hy; destruct (K y Hy)].
  assert (Eq : q' = q) by (destruct (C45_unchanged_when_returning_partial fuel q Hr) as (_ & _ & K); specialize (K (Some x)); rewrite Es in K; now apply K). subst q'.
  destruct (A1 x eq_refl) as (Fx & Ox). assert (Lx : length x = cols q) by apply Fx. rewrite evaluate_ok in E by auto. cbn [bind] in E.
  pose proof (first_fraction_spec ints x 0) as FF. destruct (first_fraction ints 0 x) as [i|].
  2:{ injection E as <-. exact Fx. }
  destruct FF as (_ & F2 & F3 & F4). rewrite Nat.sub_0_r in *. set (v := nth i x 0%Qc) in *. assert (Hi : i < cols q) by lia.
  destruct (child q i "<=" (floor v)) as [ql| |] eqn:El; cbn [bind] in E; try discriminate E. destruct (branch depth fuel ints ql) as [rl| |] eqn:Bl; cbn [bind] in E; try discriminate E.
  destruct (child q i ">=" (ceil v)) as [qh| |] eqn:Eh; cbn [bind] in E; try discriminate E. destruct (branch depth fuel ints qh) as [rh| |] eqn:Bh; cbn [bind] in E; try discriminate E. injection E as <-.
  destruct (child_spec q i "<=" (floor v) ql H Hi (or_introl eq_refl) El) as (Rl & Cl & _ & _ & _ & L1 & L2 & L3 & _ & Nl & Fl).
  destruct (child_spec q i ">=" (ceil v) qh H Hi (or_intror eq_refl) Eh) as (Rh & Ch & _ & _ & _ & H1 & H2 & H3 & _ & Nh & Fh).
  assert (Vl : visited fuel ints q ql) by (eapply v_lower; [apply v_root|rewrite Es; reflexivity|exact F2|exact F3|exact F4|exact El]).
  assert (Vh : visited fuel ints q qh) by (eapply v_higher; [apply v_root|rewrite Es; reflexivity|exact F2|exact F3|exact F4|exact Eh]).
  assert (Il : outcome_sound ints ql rl) by (apply (IH ql rl); auto; [apply no_negative_variables; apply Nl|]; intros q' Hq'; apply HV; exact (visited_trans _ _ _ _ _ Vl Hq')).
  assert (Ih : outcome_sound ints qh rh) by (apply (IH qh rh); auto; [apply no_negative_variables; apply Nh|]; intros q' Hq'; apply HV; exact (visited_trans _ _ _ _ _ Vh Hq')).
  assert (Gl : forall y, value (meaning ql) y = value (meaning q) y) by (intros y; unfold value; cbn [meaning costs constant]; now rewrite L1, L2).
  assert (Gh : forall y, value (meaning qh) y = value (meaning q) y) by (intros y; unfold value; cbn [meaning costs constant]; now rewrite H1, H2).
  assert (Sl : forall y, feasible (meaning ql) y -> feasible (meaning q) y) by (intros y Hy; apply Fl in Hy; apply rows_feasible; tauto).
  assert (Sh : forall y, feasible (meaning qh) y -> feasible (meaning q) y) by (intros y Hy; apply Fh in Hy; apply rows_feasible; tauto).
  assert (Sp : nonnegative_variables q -> forall y, feasible (meaning q) y -> integral_point ints y -> feasible (meaning ql) y \/ feasible (meaning qh) y).
  { intros HN y Hy HI. apply nonneg_feasible in Hy; auto. destruct Hy as (Y1 & Y2 & Y3). destruct (HI i ltac:(lia) F3) as (k & Ek). destruct (split_int v k) as [K|K].
    - intros K. apply F4. now apply isint_near.
    - left. apply Fl. split; auto. split; auto. split; auto. cbn. rewrite Ek. exact K.
    - right. apply Fh. split; auto. split; auto. split; auto. cbn. rewrite Ek. exact K. }
  assert (Bd : forall qc, (forall y, feasible (meaning qc) y -> feasible (meaning q) y) -> (forall y, value (meaning qc) y = value (meaning q) y) -> lobj qc = lobj q -> ~ unbounded (meaning qc)).
  { intros qc S G O U. destruct (U (if String.eqb (lobj q) "max" then value (meaning q) x + 1 else value (meaning q) x - 1)%Qc) as (y & Fy & Gy). unfold as_good in Gy. cbn [maximise meaning] in Gy. rewrite O, G in Gy. specialize (Ox y (S y Fy)). unfold as_good in Ox. cbn [maximise meaning] in Ox.
    set (a := value (meaning q) x) in *. set (b := value (meaning q) y) in *. clearbody a b. clear - Gy Ox. destruct (String.eqb (lobj q) "max"); qclra. }
  destruct (better (lobj q) rl rh) as [(x' & v')|] eqn:EB; cbn [outcome_sound].
  - destruct (better_one _ _ _ _ EB) as [-> | ->]; [apply Sl; exact Il|apply Sh; exact Ih].
  - intros HN. assert (rl = None /\ rh = None) as (-> & ->). { unfold better in EB. destruct rl, rh; auto; try discriminate EB. destruct (String.eqb (lobj q) "max"), (qlt _ _); discriminate EB. }
    left. intros y Y1 Y2. destruct (Sp HN y Y1 Y2) as [S|S].
    + destruct (Il Nl) as [K|K]; [exact (K y S Y2)|destruct (Bd ql Sl Gl L3 K)].
    + destruct (Ih Nh) as [K|K]; [exact (K y S Y2)|destruct (Bd qh Sh Gh H3 K)].
Qed.
(** both objectives, free variables allowed, no negative ones, and every relaxation on the way answered correctly:
    a point that is returned is feasible.  Without free variables None means that there is no integral
    point, or that the relaxation is unbounded.  Missing: the best value (refuted for minimisation and for free variables) *)
Theorem C46_feasible_partial depth fuel p ints r q : reachable p -> negative_variables p = [] ->
  relax p = Ok q -> (forall q', visited fuel ints q q' -> right_answer fuel q') ->
  branch_and_bound depth fuel (mkip p ints) = Ok r ->
  match r with
  | Some x => feasible (meaning p) x /\ nearly_integral_point ints x
  | None => free_variables p = [] -> (forall y, feasible (meaning p) y -> ~ integral_point ints y) \/ unbounded (meaning p)
  end.
Proof.
  intros Hr Hn Eq HV E. destruct (relax_spec p Hr) as (q' & E' & R & Mq & N & C & _ & _ & _ & O & _). assert (q' = q) by congruence. subst q'. pose proof E as EI.
  unfold branch_and_bound in E. cbn [program_of integral_variables] in E. rewrite Eq in E. cbn [bind] in E.
  destruct (branch depth fuel ints q) as [b| |] eqn:B; cbn [bind] in E; try discriminate E. injection E as <-.
  assert (NN : no_negative q) by (intros j Hj; rewrite C in Hj; rewrite Mq; now apply no_negative_variables).
  pose proof (branch_sound fuel ints depth q b R NN HV B) as K. destruct b as [(x & v)|]; cbn [outcome_sound] in K; rewrite ?Mq in K.
  - split; auto. exact (C46_always_integral _ _ _ _ _ EI).
  - intros F. apply K. apply N. split; auto.
Qed.
Print Assumptions C46_feasible_partial.
(** the same without an assumption about [solve]: inequalities only, more constraints than variables, integral
    variables at most U, integer data with determinants up to K; the search ends for both objectives *)
Theorem C46_any_minors_partial p ints e K T U fuel depth : reachable p -> nonnegative_variables p ->
  (forall s, In s (inequalities p) -> s = "<=" \/ s = ">=") -> length (lc p) < length (lA p) ->
  (forall y i, feasible (meaning p) y -> i < length y -> required ints i -> (nth i y 0 <= qz (Z.of_nat U))%Qc) ->
  bounded_minors p e K T U -> 2 ^ (length (lc p) + 2 * (length (lA p) + length (lc p) * U)) <= fuel -> length (lc p) * U < depth ->
  (exists x, branch_and_bound depth fuel (mkip p ints) = Ok (Some x) /\ feasible (meaning p) x /\ integral_point ints x) \/
  (branch_and_bound depth fuel (mkip p ints) = Ok None /\ ((forall y, feasible (meaning p) y -> ~ integral_point ints y) \/ unbounded (meaning p))).
Proof.
  intros Hr Hn HI Hmn HB HS Hfuel Hd. destruct (relax_spec p Hr) as (q & Eq & R & Mq & N & C & EA & Eb & Ec & EO & EI).
  assert (HS' : bounded_minors q e K T U) by (destruct HS as [S1 S2 S3 S4 S5 S6 S7 S8]; constructor; rewrite ?EA, ?Eb, ?Ec; auto).
  pose proof (wf_b _ (reachable_wf q R)) as Lb. unfold rows in Lb.
  assert (Hmn' : cols q < rows q) by (unfold cols, rows; now rewrite EA, Ec). assert (Hfuel' : 2 ^ (cols q + 2 * (rows q + cols q * U)) <= fuel) by (unfold cols, rows; now rewrite EA, Ec).
  assert (HQ : inv q ints U q).
  { split; auto. split; auto. split; auto. split; auto. split; auto. split; auto. split; [|split].
    - intros s Hs. rewrite EI in Hs. destruct (HI s Hs) as [-> | ->]; discriminate.
    - exists [], []. cbn [map]. rewrite !app_nil_r. split; auto. split; auto. intros k [].
    - exists (fun _ => 0%Z), (fun _ => Z.of_nat U). split; [split; [intros; lia|]|split; [intros; lia|rewrite width_const; lia]].
      intros y Hy i Hi Hq. pose proof (proj1 (nonneg_feasible q y (N Hn)) Hy) as (Y1 & _ & Y2). split; [apply Y2; auto|]. rewrite Mq in Hy. apply HB; auto. now rewrite Y1. }
  assert (HV : forall q', visited fuel ints q q' -> inv q ints U q') by (intros q' Hq'; exact (inv_visited q ints e K T U fuel HS' Lb Hmn' Hfuel' q' HQ Hq')).
  destruct (C46_terminates fuel p ints U q Hr Hn HB Eq) with (depth := depth) as (r & E); auto; [intros q' Hq'; exact (inv_answer q ints e K T U fuel HS' Lb Hmn' Hfuel' q' (HV q' Hq'))|].
  pose proof (C46_feasible_partial depth fuel p ints r q Hr (proj2 Hn) Eq) as KO. specialize (KO ltac:(intros q' Hq'; exact (proj2 (inv_answer q ints e K T U fuel HS' Lb Hmn' Hfuel' q' (HV q' Hq')))) E).
  destruct r as [x|]; [left|right; split; auto; apply KO; apply Hn]. exists x. split; auto. destruct KO as (K1 & K2). split; auto.
  intros i Hi Hq. apply small_fraction_near; [|now apply K2].
  unfold branch_and_bound in E. cbn [program_of integral_variables] in E. rewrite Eq in E. cbn [bind] in E. destruct (branch depth fuel ints q) as [[(x' & v)|]| |] eqn:B; cbn [bind] in E; try discriminate E. injection E as ->.
  assert (Lx : length x = cols q) by (rewrite C; apply K1). apply (branch_result q ints e K T U fuel HS' Lb Hmn' Hfuel' depth q x v HV B Lx). lia.
Qed.
Print Assumptions C46_any_minors_partial.

(** *** non-vacuity: minimise - x1 - x2 with x1 + x2 <= 1, x1 <= x2 and x2 <= x1; the relaxation has the fractional
    optimum (1/2, 1/2) *)
Definition half_minimise : res lp :=
  linear_program (mat 2 [[1; 1]; [1; -1]; [-1; 1]]%Z) (vec [1; 0; 0]%Z) (vec [-1; -1]%Z) 0%Qc "min" (Some ["<="; "<="; "<="]) None None.
Example C46_any_example : exists p x, half_minimise = Ok p /\ reachable p /\ lobj p = "min" /\ nonnegative_variables p /\
  (forall s, In s (inequalities p) -> s = "<=" \/ s = ">=") /\ length (lc p) < length (lA p) /\
  (forall y i, feasible (meaning p) y -> i < length y -> required None i -> (nth i y 0 <= qz (Z.of_nat 1))%Qc) /\ bounded_minors p 1 2 3 1 /\
  branch_and_bound 3 4096 (mkip p None) = Ok (Some x) /\ map this x = [0; 0]%Q.
Proof.
  destruct half_minimise as [p| |] eqn:E; try discriminate E. exists p. unfold half_minimise in E. assert (Hr : reachable p) by (refine (r_new _ _ _ _ _ _ _ _ _ _ E); repeat constructor). injection E as E.
  assert (G : match branch_and_bound 3 4096 (mkip p None) with Ok (Some x) => map this x = [0; 0]%Q | _ => False end) by (rewrite <- E; vm_compute; reflexivity).
  destruct (branch_and_bound 3 4096 (mkip p None)) as [[x|]| |] eqn:B; try contradiction. exists x. split; auto. split; auto. subst p.
  split; [reflexivity|]. split; [split; reflexivity|]. split; [cbn; intros s [<-|[<-|[<-|[]]]]; auto|]. split; [cbn; lia|]. split; [|split; [|auto]].
  - intros y i (L & HA & HB) Hi _. cbn in L. destruct y as [|y1 [|y2 [|]]]; try discriminate L. pose proof (HA 0 ltac:(cbn; lia)) as K. pose proof (HB 0 ltac:(cbn; lia)) as K1. pose proof (HB 1 ltac:(cbn; lia)) as K2. cbn in K, K1, K2.
    change (qz (Z.of_nat 1)) with 1%Qc. change (Q2Qc 1) with 1%Qc in *. change (Q2Qc 0) with 0%Qc in *. change (qz 1) with 1%Qc in *. destruct i as [|[|]]; cbn in Hi; try lia; cbn [nth]; clear - K K1 K2; qclra.
  - constructor.
    + cbn. intros r v [<-|[<-|[<-|[]]]] [<-|[<-|[]]]; eexists; reflexivity.
    + cbn. intros v [<-|[<-|[<-|[]]]]; eexists; reflexivity.
    + cbn. intros v [<-|[<-|[]]]; exists (-1)%Z; apply Qc_is_canon; reflexivity.
    + lia.
    + apply minors_check_ok. vm_compute. reflexivity.
    + lia.
    + vm_compute. discriminate.
    + lia.
Qed.
