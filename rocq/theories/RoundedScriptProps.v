(** C85: modelling scripts and rounding errors. *)
From Coq Require Import String List Bool Arith ZArith QArith Qcanon Lia.
From Verif Require Import Py QcTac QSum QInt MatModel DetTheory MatTheory LinearModel LinearSpec LinearInv LinearProofs LinearProps SefProofs DualProofs SmallProofs TwoPhaseProps FormulationModel FormulationSpec FormulationProofs FormulationProps ScriptModel ScriptSpec ScriptProofs ScriptRows ScriptCompile ScriptProps RoundedModel RoundedSpec RoundedProofs RoundedSolveModel RoundedSolveSpec RoundedRunModel RoundedRunSpec RoundedRunProps RoundedScriptModel RoundedScriptSpec RoundedSefProofs RoundedScriptProofs FloatModel DoubleSpec.
Import ListNotations.
Open Scope nat_scope.
Open Scope string_scope.
Open Scope list_scope.

(** * C83 *)
(** the conditions on the program as it is given instead of its standard form *)
Theorem C83_program_partial e K p : reachable p -> 0 < length (lA p) -> independent_equations p -> steady_program e K p ->
  lsef p = true \/ length (lc (fst (to_sef p))) <> 2 * length (lA p) \/
    ((forall i, i < length (lA p) -> nth i (inequalities p) "=" = "<=") /\ (forall i, i < length (lb p) -> (0 <= nth i (lb p) 0)%Qc)) ->
  let m := qz (Z.of_nat (length (lA p))) in
  ~ solve_hangs e p /\ forall o, run_solve e p o ->
    (exists x x0, o = Ok (Some x) /\ optimal (meaning p) x0 /\ close_by (qz 16 * e * (1 + m * qz K) + e)%Qc x x0) \/
    (o = Ok None /\ (infeasible (meaning p) \/ unbounded (meaning p))).
Proof.
  intros Hr Hm HI HS HG. assert (Hrs : reachable (fst (to_sef p))) by now constructor. apply (C83_solve_verdict_partial e K p); auto. apply steady_sef; auto; now apply reachable_wf.
Qed.
Print Assumptions C83_program_partial.

(** * C80 *)
Lemma guess_condition s p : well_written s -> script_program s = Ok p -> standard_columns s <> 2 * length (s_rows s) \/ from_zero s ->
  lsef p = true \/ length (lc (fst (to_sef p))) <> 2 * length (lA p) \/
    ((forall i, i < length (lA p) -> nth i (inequalities p) "=" = "<=") /\ (forall i, i < length (lb p) -> (0 <= nth i (lb p) 0)%Qc)).
Proof.
  intros W E [HG|HG]; destruct (script_data s p W E) as (L1 & L2 & D & _).
  - destruct (lsef p) eqn:Hs; [now left|right; left]. now rewrite (sn_columns s p W E Hs), L1.
  - right. right. assert (Row : forall i, i < length (s_rows s) -> nth i (inequalities p) "=" = "<=" /\ (0 <= nth i (lb p) 0)%Qc).
    { intros i Hi. specialize (D i Hi). pose proof (nth_In (s_rows s) (Num 0%Qc, Eq_, Num 0%Qc) Hi) as K. destruct (nth i (s_rows s) _) as ((l & c) & r). destruct (HG l c r K) as (-> & Nl & Z). destruct D as (t & _ & Db & _ & _ & [(-> & DS)|(_ & _ & DS)]); [|congruence]. split; [exact DS|]. rewrite Db. clear - Z. qclra. }
    split; intros i Hi; apply Row; lia.
Qed.
(** equations that do not follow from each other, and variables with or without signs *)
Theorem C80_complete_partial K fuel s : well_written s -> whole_numbers (numbers s) -> subdeterminants_at_most K (numbers s) -> (0 <= K <= 300)%Z ->
  independent_rows s -> standard_columns s <> 2 * length (s_rows s) \/ from_zero s ->
  2 ^ (2 * variables s + 2 * length (s_rows s)) <= fuel ->
  (exists x, script_solve fuel s = Ok (Some x) /\ written_optimal s x) \/
  (script_solve fuel s = Ok None /\ ((forall x, ~ written_feasible s x) \/ written_unbounded s)).
Proof.
  intros W HW HM HK HI HG Hf. destruct (C80_program s W) as (p & E & Hr & HX & HF & HV). destruct (sn_shape s p W E) as (H & _ & L1 & L2 & Lc & Hm). pose proof (sef_width p H) as Sw.
  destruct (C42_complete_partial p fuel Hr) as [(x & R & O)|(R & U)].
  - lia.
  - now apply (sn_independent s p W E).
  - eexists _, _, K, K. apply whole_moderate; auto; [now apply (sn_whole s p W E)|apply (sn_minors s p W E); auto; lia].
  - apply (pow_mono _ (2 * variables s + 2 * length (s_rows s))); [lia|exact Hf].
  - now apply (guess_condition s p W E).
  - left. exists x. split; [unfold script_solve; rewrite E; cbn [bind]; now rewrite R|now apply (written_optimal_iff s p W E)].
  - right. split; [unfold script_solve; rewrite E; cbn [bind]; now rewrite R|]. destruct U as [U|U]; [left; intros x Hx; apply (U x); now apply HF|right; now apply (written_unbounded_iff s p W E)].
Qed.
Print Assumptions C80_complete_partial.

(** * C85 *)
(** the answer of the exact method is one of those that errors allow *)
Theorem C85_exact e fuel s r : well_written s -> (0 <= e)%Qc -> script_solve fuel s = Ok r -> run_script e s (Ok r).
Proof.
  intros W He. destruct (C80_program s W) as (p & E & Hr & _). unfold script_solve, run_script. rewrite E. cbn [bind]. now apply C83_exact_solve.
Qed.
Print Assumptions C85_exact.
(** errors that are small compared with the numbers of the script: the script ends, and every answer is next to an
    optimal point of the problem as written, or None when there is none *)
Theorem C85_partial e K s : well_written s -> steady_program e K (numbers s) -> independent_rows s ->
  standard_columns s <> 2 * length (s_rows s) \/ from_zero s ->
  let m := qz (Z.of_nat (length (s_rows s))) in
  ~ script_hangs e s /\ (exists o, run_script e s o) /\
  forall o, run_script e s o ->
    (exists x x0, o = Ok (Some x) /\ written_optimal s x0 /\ close_by (qz 16 * e * (1 + m * qz K) + e)%Qc x x0) \/
    (o = Ok None /\ ((forall x, ~ written_feasible s x) \/ written_unbounded s)).
Proof.
  intros W [S1 S2 S3 S4 S5] HI HG m. destruct (C80_program s W) as (p & E & Hr & HX & HF & HV). destruct (sn_shape s p W E) as (H & _ & L1 & L2 & Lc & Hm). destruct (numbers_shape s W) as (N1 & N2 & N3).
  assert (SP : steady_program e K p). { constructor; auto; [now apply (sn_whole s p W E)|apply (sn_minors s p W E); auto; lia|]. rewrite (sn_weight s p W E), L1, <- N1. exact S5. }
  destruct (C83_program_partial e K p Hr ltac:(lia) (sn_independent s p W E HI) SP (guess_condition s p W E HG)) as (G1 & G2). unfold script_hangs, run_script. rewrite E. split; [exact G1|]. split.
  - destruct (C80_complete_partial K _ s W S1 S2 ltac:(lia) HI HG (Nat.le_refl _)) as [(x & R & _)|(R & _)]; apply (C85_exact e _ s _ W S4) in R; unfold run_script in R; rewrite E in R; eauto.
  - intros o R. destruct (G2 o R) as [(x & x0 & -> & O & C)|(-> & U)]; [left|right; split; auto].
    + exists x, x0. split; auto. split; [now apply (written_optimal_iff s p W E)|]. rewrite L1 in C. exact C.
    + destruct U as [U|U]; [left; intros x Hx; apply (U x); now apply HF|right; now apply (written_unbounded_iff s p W E)].
Qed.
Print Assumptions C85_partial.

(** minimise 3 x1 + 2 x2 + x3 subject to x1 + x2 == 4, 2 >= x1 - x3, x1 >= 0, x2 >= 0, with errors of up to 2^-53 *)
Definition balance : script := mkscript false
  (Add (Add (Mul (Num (qz 3)) (Item 1)) (Mul (Num (qz 2)) (Item 2))) (Item 3))
  [(Add (Item 1) (Item 2), Eq_, Num (qz 4)); (Num (qz 2), Ge, Sub (Item 1) (Item 3))] [One 0 Ge; One 1 Ge].
Lemma balance_well : well_written balance.
Proof.
  split; [discriminate|]. split; [|split; [|split]].
  - intros l c r H. cbn in H. repeat destruct H as [H|H]; try contradiction; injection H as <- <- <-; (split; [readable_tac|split; [readable_tac|reflexivity]]).
  - readable_tac.
  - cbn. lia.
  - right. exists [(0, Ge); (1, Ge)]. split; [reflexivity|]. split; [repeat constructor; cbn; intuition discriminate|]. intros k c H. cbn in H. repeat destruct H as [H|H]; try contradiction; injection H as <- <-; (split; [cbn; lia|discriminate]).
Qed.
Lemma balance_steady : steady_program (pow2 (-53)) 4 (numbers balance).
Proof.
  assert (H : wf (numbers balance)). { constructor; cbn; try easy; try (repeat constructor). }
  assert (S : steady (pow2 (-53)) 4 (numbers balance)) by (apply checked_steady; auto; try (vm_compute; reflexivity); [lia|discriminate]).
  destruct S as [S1 S2 S3 S4 _]. constructor; auto. cbv zeta. vm_compute. reflexivity.
Qed.
Example C85_example : well_written balance /\ steady_program (pow2 (-53)) 4 (numbers balance) /\ independent_rows balance /\ standard_columns balance <> 2 * length (s_rows balance) /\
  exists x, script_solve 1024 balance = Ok (Some x) /\ map this x = [0; 4; -2]%Q /\ run_script (pow2 (-53)) balance (Ok (Some x)) /\ written_optimal balance x.
Proof.
  assert (HI : independent_rows balance).
  { intros y L Hy K i Hi. destruct y as [|a [|b [|c y]]]; try discriminate L. assert (B : b = 0%Qc) by (apply (Hy 1); cbn; auto). subst b. destruct i as [|[|i]]; cbn in Hi; try lia; [|reflexivity]. specialize (K 1 ltac:(cbn; lia)). cbn in K |- *. 
    match type of K with (a * ?u + (0 * ?v + 0))%Qc = _ => replace u with 1%Qc in K by (apply Qc_is_canon; reflexivity) end. rewrite <- K. ring. }
  assert (HG : standard_columns balance <> 2 * length (s_rows balance)) by discriminate.
  split; [exact balance_well|]. split; [exact balance_steady|]. split; [exact HI|]. split; [exact HG|].
  assert (G : match script_solve 1024 balance with Ok (Some x) => map this x = [0; 4; -2]%Q | _ => False end) by (vm_compute; reflexivity).
  pose proof balance_steady as [S1 S2 S3 S4 _].
  destruct (C80_complete_partial 4 1024 balance balance_well S1 S2 ltac:(lia) HI (or_introl HG) ltac:(apply Nat.leb_le; vm_compute; reflexivity)) as [(x & R & O)|(R & _)]; rewrite R in G; [|contradiction].
  exists x. split; auto. split; auto. split; auto. apply (C85_exact _ 1024); auto. exact balance_well.
Qed.
