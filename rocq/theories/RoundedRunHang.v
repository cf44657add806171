(** C83: the case that C83_solve_partial leaves out. *)
From Coq Require Import String List Bool Arith ZArith QArith Qcanon Lia Sorted.
From Verif Require Import Py QcTac QSum QInt ComparatorModel ComparatorProofs MatModel DetTheory MatTheory LinearModel LinearSpec LinearProofs SefProofs LinearInv DualProofs BasisProofs BlandProofs SimplexProofs SmallProofs TwoPhaseProofs LinearProps SimplexProps TwoPhaseProps LoopProps RoundedModel RoundedSpec RoundedProofs RoundedExact RoundedProps RoundedSolveModel RoundedSolveSpec RoundedSolveProofs RoundedSolveProps RoundedRunModel RoundedRunSpec RoundedRunProofs RoundedRunTwo RoundedRunProps FloatModel DoubleSpec.
Import ListNotations.
Open Scope nat_scope.
Open Scope string_scope.
Open Scope list_scope.

(** maximise 2 x1 + 3 x2 - 3 x3 + x4: all numbers are small, there is an optimum, and solve may run forever whatever the bound on the errors *)
Theorem C83_hangs_refuted : exists p, round_program = Ok p /\ reachable p /\ steady (pow2 (-70)) 300 (fst (to_sef p)) /\ forall e, (0 <= e)%Qc -> solve_hangs e p.
Proof.
  destruct round_program as [p| |] eqn:E; try discriminate E. exists p. split; auto.
  assert (Hr : reachable p) by (unfold round_program in E; refine (r_new _ _ _ _ _ _ _ _ _ _ E); repeat constructor). split; auto.
  split. { injection E as <-. apply checked_steady; [apply reachable_wf; constructor; exact Hr|vm_compute; reflexivity ..|lia|discriminate|vm_compute; reflexivity]. }
  injection E as <-. intros e He. unfold solve_hangs. cbn [lsef]. set (P := mklp _ _ _ _ _ _ _ _ _) in *.
  assert (Q : Nat.leb (rows (fst (to_sef P))) (cols (fst (to_sef P))) = true /\ lsef (fst (to_sef P)) = true /\
      map Z.of_nat (seq (S (rows (fst (to_sef P)))) (cols (fst (to_sef P)) - rows (fst (to_sef P)))) = [5; 6; 7; 8]%Z /\ is_basis (fst (to_sef P)) [5; 6; 7; 8]%Z = Ok true /\
      after 2 (negate_rows (fst (to_sef P))) [5; 6; 7; 8]%Z = Some [1; 2; 5; 8]%Z /\ after 6 (negate_rows (fst (to_sef P))) [1; 2; 5; 8]%Z = Some [1; 2; 5; 8]%Z) by (vm_compute; repeat split; reflexivity).
  destruct (to_sef P) as [sef rv]. cbn [fst] in *. destruct Q as (-> & Q1 & -> & EB & Q2 & Q3). left. split; [rewrite <- EB; now apply run_basis_exact|]. split; auto. apply run_loops_exact; auto.
  intros fuel. apply (after_diverges _ 2 _ _ fuel Q2). intros _. apply (round_diverges _ 6); auto; lia.
Qed.
Print Assumptions C83_hangs_refuted.
