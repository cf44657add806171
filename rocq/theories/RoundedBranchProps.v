(** Branch and bound with rounding errors: it ends, and the point is next to an integral point that is as good as any. *)
From Coq Require Import String List Bool Arith ZArith QArith Qcanon Qround Lia Sorted.
From Verif Require Import Py QcTac QSum QInt ComparatorModel ComparatorSpec ComparatorProofs MatModel DetTheory MatTheory LinearModel LinearSpec LinearProofs SefProofs LinearInv DualProofs SimplexProofs SmallProofs TwoPhaseProofs LinearProps SimplexProps TwoPhaseProps IntegerModel IntegerSpec IntegerProofs IntegerSmall IntegerProps RoundedModel RoundedSpec RoundedProofs RoundedSolveModel RoundedSolveSpec RoundedRunModel RoundedRunSpec RoundedRunProps FloatModel DoubleSpec RoundedBranchModel RoundedBranchSpec RoundedBranchProofs RoundedBranchMinors.
Import ListNotations.
Open Scope nat_scope.
Open Scope string_scope.
Open Scope list_scope.

(** 0.5e-10 *)
Definition half_eps : Qc := Q2Qc (1 # 20000000000).
(** values of vectors with small denominators are equal or far apart *)
Lemma vectors_apart p x y : (forall v, In v (lc p) -> isint v) -> small_vector x -> small_vector y -> (value (meaning p) y <= value (meaning p) x + Q2Qc (4 # 10000000000))%Qc -> (value (meaning p) y <= value (meaning p) x)%Qc.
Proof.
  intros HC (D & D1 & D2 & D3 & D4) (E & E1 & E2 & E3 & E4) L. destruct (Qclt_le_dec (value (meaning p) x) (value (meaning p) y)) as [K|K]; auto. exfalso.
  set (g := (value (meaning p) y - value (meaning p) x)%Qc). assert (IV : forall F z, (forall j, isint (F * nth j z 0)%Qc) -> isint (F * inner (lc p) z)%Qc).
  { intros F z Hz. rewrite (inner_Sum (cols p)) by reflexivity. rewrite <- Sum_scal. apply Sum_int. intros i Hi. replace (F * (at_ (lc p) i * at_ z i))%Qc with (at_ (lc p) i * (F * nth i z 0))%Qc by (unfold at_; ring). apply isint_mul; [now apply at_int|apply Hz]. }
  assert (IG : isint (D * E * g)%Qc).
  { unfold g, value. cbn [meaning costs constant]. replace (D * E * (inner (lc p) y + lz p - (inner (lc p) x + lz p)))%Qc with (D * (E * inner (lc p) y) - E * (D * inner (lc p) x))%Qc by ring. apply isint_sub; apply isint_mul; auto. }
  assert (g0 : (0 < g)%Qc) by (unfold g; set (a := value (meaning p) x) in *; set (b := value (meaning p) y) in *; clearbody a b; clear - K; qclra). assert (g1 : (g <= Q2Qc (4 # 10000000000))%Qc) by (unfold g; set (a := value (meaning p) x) in *; set (b := value (meaning p) y) in *; clearbody a b; clear - L; qclra).
  assert (N : (D * E * g <> 0)%Qc). { intros Z. apply Qcmult_integral in Z. destruct Z as [Z|Z]; [apply Qcmult_integral in Z; tauto|]. rewrite Z in g0. discriminate g0. }
  assert (A : (qabs (D * E * g) < 1)%Qc).
  { rewrite !qabs_mul. assert (P : (qabs D * qabs E <= qz 10000 * qz 10000)%Qc) by (apply mul_mono; auto; apply QcTac.qabs_nonneg). replace (qabs g) with g by (unfold qabs; destruct (qlt_spec g 0) as [G|]; auto; exfalso; clear - G g0; clearbody g; qclra).
    apply Qcle_lt_trans with (qz 10000 * qz 10000 * Q2Qc (4 # 10000000000))%Qc; [apply mul_mono; auto|reflexivity]. apply qmul_nonneg; apply QcTac.qabs_nonneg. now apply Qclt_le_weak. }
  set (w := (D * E * g)%Qc) in *. destruct (int_nonzero w IG N) as [W|W]; unfold qabs in A; destruct (qlt_spec w 0) as [V|V]; clear - W A V; qclra.
Qed.
Lemma solvable_costs e q : wf q -> nonnegative_variables q -> solvable_with e q -> forall v, In v (lc q) -> isint v.
Proof.
  intros H Hn (K & _ & _ & [(_ & _ & W) _ _ _ _] & _) v Hv. destruct (sef_costs q H Hn) as (n & c & E & [-> | ->]).
  - apply W. rewrite E. apply in_app_iff. auto.
  - rewrite <- (Qcopp_involutive v). apply isint_opp. apply W. rewrite E. apply in_app_iff. left. now apply in_map.
Qed.
(** every relaxation that exact branch and bound may meet is solved reliably: no run raises an exception, and for
    both objectives what a run returns is next to an integral feasible point, or there is none.  With bounds on the integral
    variables every run ends.  Missing: the best value when minimising (C46_min_refuted) *)
Theorem C84_any_partial e p ints q : reachable p -> nonnegative_variables p -> relax p = Ok q ->
  (forall q', relaxation ints q q' -> solvable_with e q') ->
  (forall o, run_branch_and_bound e (mkip p ints) o ->
     (exists x, o = Ok (Some x) /\ next_to_integral half_eps p ints x /\ (lobj p = "max" -> next_to_best half_eps p ints x)) \/
     (o = Ok None /\ ((forall y, feasible (meaning p) y -> ~ integral_point ints y) \/ unbounded (meaning p)))) /\
  (forall U, (forall y i, feasible (meaning p) y -> i < length y -> required ints i -> (nth i y 0 <= qz (Z.of_nat U))%Qc) ->
     ~ branch_and_bound_hangs e (mkip p ints)).
Proof.
  intros Hr Hn Eq HV. destruct (relax_spec p Hr) as (q1 & Eq' & R & Mq & N & C & EA & Eb & Ec & EO & EI). rewrite Eq in Eq'. injection Eq' as <-. specialize (N Hn). split.
  - intros o RO. unfold run_branch_and_bound in RO. cbn [program_of integral_variables] in RO. rewrite Eq in RO. destruct RO as (r & RB & ->). pose proof (run_branch_right e ints q r RB R N HV) as G.
    destruct r as [[(x & v)|]| |]; cbn [run_right] in G; try contradiction; cbn [rmap option_map fst].
    2:{ right. split; auto. rewrite Mq in G. exact G. }
    left. exists x. split; auto. destruct G as (x0 & G1 & G2 & G3 & G4 & G6 & G5). rewrite Mq in *. split; [exists x0; auto|]. intros Ho. exists x0. split; auto. split; auto. split; auto. intros y Y1 Y2. destruct (G5 ltac:(congruence) y Y1 Y2) as (w & W1 & W2 & W3).
    assert (HC : forall v, In v (lc p) -> isint v). { rewrite <- Ec. apply (solvable_costs e q); auto; [now apply reachable_wf|]. apply HV. apply rx_root. }
    apply Qcle_trans with (1 := W2). apply vectors_apart; auto. apply SmallProofs.qabs_le in G4. destruct G4 as (G41 & G42). set (a := value (meaning p) x0) in *. set (b := value (meaning p) w) in *. clearbody a b. clear - G41 G42 W3. unfold two_tol in *. qclra.
  - intros U HB (q' & E & BH). cbn [program_of integral_variables] in *. rewrite Eq in E. injection E as <-.
    refine (branch_ends e ints (S (width (cols q) (fun _ => 0%Z) (fun _ => Z.of_nat U))) q (fun _ => 0%Z) (fun _ => Z.of_nat U) R N _ (Nat.lt_succ_diag_r _) HV BH). split; [intros; lia|].
    intros y Hy i Hi Hq. pose proof (proj1 (nonneg_feasible q y N) Hy) as (Y1 & _ & Y2). split; [apply Y2; auto|]. rewrite Mq in Hy. apply HB; auto. now rewrite Y1.
Qed.
Print Assumptions C84_any_partial.
(** the same for maximisation *)
Theorem C84_branch_partial e p ints q : reachable p -> lobj p = "max" -> nonnegative_variables p -> relax p = Ok q ->
  (forall q', relaxation ints q q' -> solvable_with e q') ->
  (forall o, run_branch_and_bound e (mkip p ints) o ->
     (exists x, o = Ok (Some x) /\ next_to_best half_eps p ints x) \/
     (o = Ok None /\ ((forall y, feasible (meaning p) y -> ~ integral_point ints y) \/ unbounded (meaning p)))) /\
  (forall U, (forall y i, feasible (meaning p) y -> i < length y -> required ints i -> (nth i y 0 <= qz (Z.of_nat U))%Qc) ->
     ~ branch_and_bound_hangs e (mkip p ints)).
Proof.
  intros Hr Ho Hn Eq HV. destruct (C84_any_partial e p ints q Hr Hn Eq HV) as (G1 & G2). split; auto. intros o R. destruct (G1 o R) as [(x & -> & _ & K)|K]; eauto.
Qed.
Print Assumptions C84_branch_partial.

(** inequalities only, more constraints than variables, integral variables at most U, whole numbers, square
    submatrices with determinants up to K, right hand sides and bounds adding up to T, K T <= 300 and errors that
    are small compared with all this: nothing is assumed about the relaxations *)
Theorem C84_any_minors_partial e p ints K T U : reachable p -> nonnegative_variables p ->
  (forall s, In s (inequalities p) -> s = "<=" \/ s = ">=") -> length (lc p) < length (lA p) ->
  (forall y i, feasible (meaning p) y -> i < length y -> required ints i -> (nth i y 0 <= qz (Z.of_nat U))%Qc) ->
  bounded_minors p 1 K T U -> (K * T <= 300)%Z -> (0 <= e)%Qc ->
  let n := Z.of_nat (length (lc p) * U) in let m := (Z.of_nat (length (lA p)) + n)%Z in
  (qz 16 * e * (weight p + qz n + qz (n * Z.of_nat U) + qz (3 * m)) * (1 + qz (m * (K * T))) * qz (K * T) < Q2Qc (1 # 10000000000))%Qc ->
  ~ branch_and_bound_hangs e (mkip p ints) /\
  forall o, run_branch_and_bound e (mkip p ints) o ->
    (exists x, o = Ok (Some x) /\ next_to_integral half_eps p ints x /\ (lobj p = "max" -> next_to_best half_eps p ints x)) \/
    (o = Ok None /\ ((forall y, feasible (meaning p) y -> ~ integral_point ints y) \/ unbounded (meaning p))).
Proof.
  intros Hr Hn HI Hmn HB HS HL He n m HE. destruct (relax_spec p Hr) as (q & Eq & R & Mq & N & C & EA & Eb & Ec & EO & EI).
  assert (HS' : bounded_minors q 1 K T U) by (destruct HS as [S1 S2 S3 S4 S5 S6 S7 S8]; constructor; rewrite ?EA, ?Eb, ?Ec; auto).
  pose proof (wf_b _ (reachable_wf q R)) as Lb. unfold rows in Lb.
  assert (Hmn' : cols q < rows q) by (unfold cols, rows; now rewrite EA, Ec). 
  assert (HQ : inv q ints U q).
  { split; auto. split; auto. split; auto. split; auto. split; auto. split; auto. split; [|split].
    - intros s Hs. rewrite EI in Hs. destruct (HI s Hs) as [-> | ->]; discriminate.
    - exists [], []. cbn [map]. rewrite !app_nil_r. split; auto. split; auto. intros k [].
    - exists (fun _ => 0%Z), (fun _ => Z.of_nat U). split; [split; [intros; lia|]|split; [intros; lia|rewrite width_const; lia]].
      intros y Hy i Hi Hq. pose proof (proj1 (nonneg_feasible q y (N Hn)) Hy) as (Y1 & _ & Y2). split; [apply Y2; auto|]. rewrite Mq in Hy. apply HB; auto. now rewrite Y1. }
  assert (HE' : (qz 16 * e * (weight q + qz (Z.of_nat (length (lc q) * U)) + qz (Z.of_nat (length (lc q) * U * U)) + qz 3 * qz (Z.of_nat (length (lA q) + length (lc q) * U))) * (1 + qz (Z.of_nat (length (lA q) + length (lc q) * U)) * qz (K * T)) * qz (K * T) < Q2Qc (1 # 10000000000))%Qc).
  { replace (weight q) with (weight p) by (unfold weight; now rewrite EA, Eb, Ec). rewrite EA, Ec. rewrite Nat2Z.inj_add, (Nat2Z.inj_mul (length (lc p) * U) U). fold n. fold m. rewrite <- !qz_mul. exact HE. }
  destruct (C84_any_partial e p ints q Hr Hn Eq) as (G1 & G2); [|split; [exact (G2 U HB)|exact G1]].
  intros q' Hq'. apply (inv_solvable q ints e K T U HS' Lb Hmn' HL He HE'). apply (inv_relaxation q ints U Lb Hmn'); auto.
Qed.
Print Assumptions C84_any_minors_partial.

(** the same for maximisation *)
Theorem C84_minors_partial e p ints K T U : reachable p -> lobj p = "max" -> nonnegative_variables p ->
  (forall s, In s (inequalities p) -> s = "<=" \/ s = ">=") -> length (lc p) < length (lA p) ->
  (forall y i, feasible (meaning p) y -> i < length y -> required ints i -> (nth i y 0 <= qz (Z.of_nat U))%Qc) ->
  bounded_minors p 1 K T U -> (K * T <= 300)%Z -> (0 <= e)%Qc ->
  let n := Z.of_nat (length (lc p) * U) in let m := (Z.of_nat (length (lA p)) + n)%Z in
  (qz 16 * e * (weight p + qz n + qz (n * Z.of_nat U) + qz (3 * m)) * (1 + qz (m * (K * T))) * qz (K * T) < Q2Qc (1 # 10000000000))%Qc ->
  ~ branch_and_bound_hangs e (mkip p ints) /\
  forall o, run_branch_and_bound e (mkip p ints) o ->
    (exists x, o = Ok (Some x) /\ next_to_best half_eps p ints x) \/
    (o = Ok None /\ ((forall y, feasible (meaning p) y -> ~ integral_point ints y) \/ unbounded (meaning p))).
Proof.
  intros Hr Ho Hn HI Hmn HB HS HL He n m HE. destruct (C84_any_minors_partial e p ints K T U Hr Hn HI Hmn HB HS HL He HE) as (G1 & G2). split; auto. intros o R. destruct (G2 o R) as [(x & -> & _ & X)|X]; eauto.
Qed.
Print Assumptions C84_minors_partial.

(** what exact branch and bound returns is the outcome of a run, for any bound on the errors *)
Theorem C84_exact e depth fuel ints : (0 <= e)%Qc -> forall q r, reachable q -> branch depth fuel ints q = Ok r -> run_branch e ints q (Ok r).
Proof.
  intros He. induction depth as [|depth IH]; intros q r Hr E; [discriminate E|]. cbn [branch] in E. pose proof (reachable_wf q Hr) as H. destruct (solve fuel q) as (q' & s) eqn:Es. destruct s as [s| |]; cbn [bind] in E; try discriminate E.
  assert (Eq : q' = q) by (destruct (C45_unchanged_when_returning_partial fuel q Hr) as (_ & _ & K); specialize (K s); rewrite Es in K; now apply K). subst q'.
  assert (RS : run_solve e q (Ok s)) by (apply (C83_exact_solve e fuel); auto; now rewrite Es). destruct s as [x|]; [|injection E as <-; now apply rb_none].
  unfold evaluate in E. destruct (Nat.eqb_spec (length x) (cols q)) as [L|L]; cbn [bind] in E; try discriminate E. destruct (first_fraction ints 0 x) as [i|] eqn:FF.
  2:{ injection E as <-. apply rb_leaf; auto. unfold within. replace (dot (lc q) x + lz q - (dot (lc q) x + lz q))%Qc with 0%Qc by ring. exact He. }
  assert (SP : splits e ints q x i) by (split; auto). pose proof (first_fraction_spec ints x 0) as FS. rewrite FF in FS. destruct FS as (_ & F2 & _). rewrite Nat.sub_0_r in F2. assert (Hi : i < cols q) by lia.
  destruct (child q i "<=" (floor (nth i x 0%Qc))) as [ql| |] eqn:El; cbn [bind] in E; try discriminate E. destruct (branch depth fuel ints ql) as [rl| |] eqn:Bl; cbn [bind] in E; try discriminate E.
  destruct (child q i ">=" (ceil (nth i x 0%Qc))) as [qh| |] eqn:Eh; cbn [bind] in E; try discriminate E. destruct (branch depth fuel ints qh) as [rh| |] eqn:Bh; cbn [bind] in E; try discriminate E. injection E as <-.
  destruct (child_spec q i "<=" _ ql H Hi (or_introl eq_refl) El) as (Rl & _). destruct (child_spec q i ">=" _ qh H Hi (or_intror eq_refl) Eh) as (Rh & _).
  eapply rb_both; [exact SP|exact El|apply IH; [exact Rl|exact Bl]|exact Eh|apply IH; [exact Rh|exact Bh]].
Qed.
Print Assumptions C84_exact.
Theorem C84_exact_branch_and_bound e depth fuel p ints o : (0 <= e)%Qc -> reachable p -> branch_and_bound depth fuel (mkip p ints) = Ok o -> run_branch_and_bound e (mkip p ints) (Ok o).
Proof.
  intros He Hr E. destruct (relax_spec p Hr) as (q & Eq & R & _). unfold branch_and_bound in E. unfold run_branch_and_bound. cbn [program_of integral_variables] in *. rewrite Eq in *. cbn [bind] in E. destruct (branch depth fuel ints q) as [r| |] eqn:B; cbn [bind] in E; try discriminate E. injection E as <-.
  exists (Ok r). split; [now apply (C84_exact e depth fuel)|]. destruct r as [(x & v)|]; reflexivity.
Qed.
Print Assumptions C84_exact_branch_and_bound.

(** *** non-vacuity: double precision, maximise x1 + x2 with x1 + x2 <= 1, x1 <= x2 and x2 <= x1; the relaxation has
    the fractional optimum (1/2, 1/2) *)
Example C84_example : exists p x, half_program = Ok p /\ reachable p /\ lobj p = "max" /\ nonnegative_variables p /\
  (forall s, In s (inequalities p) -> s = "<=" \/ s = ">=") /\ length (lc p) < length (lA p) /\
  (forall y i, feasible (meaning p) y -> i < length y -> required None i -> (nth i y 0 <= qz (Z.of_nat 1))%Qc) /\ bounded_minors p 1 2 3 1 /\
  (qz 16 * pow2 (-52) * (weight p + qz 2 + qz (2 * Z.of_nat 1) + qz (3 * 5)) * (1 + qz (5 * (2 * 3))) * qz (2 * 3) < Q2Qc (1 # 10000000000))%Qc /\
  run_branch_and_bound (pow2 (-52)) (mkip p None) (Ok (Some x)) /\ map this x = [0; 0]%Q.
Proof.
  destruct C46_minors_example as (p & E & Hr & H1 & H2 & H3 & H4 & H5 & H6 & _). destruct C46_minors_answer as (p' & x & E' & B & X). rewrite E in E'. injection E' as <-. exists p, x. do 8 (split; [assumption|]). split.
  - unfold half_program in E. injection E as <-. vm_compute. reflexivity.
  - split; auto. apply (C84_exact_branch_and_bound _ 3 4096); auto. discriminate.
Qed.
(** the theorem applies to it: every run ends, and the only integral point is (0, 0) *)
Example C84_applied : exists p, half_program = Ok p /\ ~ branch_and_bound_hangs (pow2 (-52)) (mkip p None) /\
  forall o, run_branch_and_bound (pow2 (-52)) (mkip p None) o -> exists x, o = Ok (Some x) /\ close_by half_eps x [0; 0]%Qc.
Proof.
  destruct C84_example as (p & x1 & E & Hr & H1 & H2 & H3 & H4 & H5 & H6 & H7 & _ & _). exists p. split; auto.
  destruct (C84_minors_partial (pow2 (-52)) p None 2 3 1 Hr H1 H2 H3 H4 H5 H6) as (G1 & G2); [lia|discriminate| |].
  { assert (L : length (lc p) = 2 /\ length (lA p) = 3) by (unfold half_program in E; injection E as <-; split; reflexivity). destruct L as (L1 & L2). rewrite L1, L2. exact H7. }
  split; auto. intros o R. assert (M : forall y, feasible (meaning p) y -> integral_point None y -> y = [0; 0]%Qc).
  { intros y (L & HA & HB) HI. unfold half_program in E. injection E as <-. cbn in L. destruct y as [|y1 [|y2 [|]]]; try discriminate L. pose proof (HA 0 ltac:(cbn; lia)) as K1. pose proof (HA 1 ltac:(cbn; lia)) as K2. pose proof (HA 2 ltac:(cbn; lia)) as K3. pose proof (HB 0 ltac:(cbn; lia)) as K4. pose proof (HB 1 ltac:(cbn; lia)) as K5.
    destruct (HI 0 ltac:(cbn; lia) I) as (z1 & Z1). destruct (HI 1 ltac:(cbn; lia) I) as (z2 & Z2). cbn in K1, K2, K3, K4, K5, Z1, Z2. subst y1 y2. change (Q2Qc 1) with 1%Qc in *. change (Q2Qc 0) with 0%Qc in *. change (qz 1) with 1%Qc in *. change (qz 0) with 0%Qc in *. change (qz (-1)) with (- (1))%Qc in *.
    assert (A1 : (qz z1 + qz z2 <= qz 1)%Qc) by (change (qz 1) with 1%Qc; set (a := qz z1) in *; set (b := qz z2) in *; clearbody a b; clear - K1; qclra). assert (A2 : (qz z1 <= qz z2)%Qc) by (set (a := qz z1) in *; set (b := qz z2) in *; clearbody a b; clear - K2; qclra). assert (A3 : (qz z2 <= qz z1)%Qc) by (set (a := qz z1) in *; set (b := qz z2) in *; clearbody a b; clear - K3; qclra).
    rewrite <- qz_add in A1. change 0%Qc with (qz 0) in K4, K5. apply (proj1 (qz_le _ _)) in A1, A2, A3, K4, K5. assert (z1 = 0)%Z by lia. assert (z2 = 0)%Z by lia. subst. reflexivity. }
  destruct (G2 o R) as [(x & -> & x0 & F1 & F2 & F3 & _)|(-> & [K|K])].
  - exists x. split; auto. now rewrite <- (M x0 F1 F2).
  - exfalso. apply (K [0; 0]%Qc).
    + unfold half_program in E. injection E as <-. split; [reflexivity|]. split; intros i Hi; cbn in Hi; destruct i as [|[|[|i]]]; try lia; cbn; discriminate.
    + intros i Hi _. cbn in Hi. destruct i as [|[|i]]; try lia; exists 0%Z; reflexivity.
  - exfalso. unfold half_program in E. injection E as <-. destruct (K (1 + 1)%Qc) as (y & (L & HA & _) & G). cbn in L. destruct y as [|y1 [|y2 [|]]]; try discriminate L. pose proof (HA 0 ltac:(cbn; lia)) as K1. cbn in K1, G. change (Q2Qc 1) with 1%Qc in *. change (Q2Qc 0) with 0%Qc in *. change (qz 1) with 1%Qc in *. clear - K1 G. unfold value in G. cbn in G. qclra.
Qed.
