(** A program and its standard form: whole numbers, subdeterminants and weight. *)
From Coq Require Import String List Bool Arith ZArith QArith Qcanon Lia.
From Verif Require Import Py QcTac QSum QInt MatModel DetTheory MatTheory LinearModel LinearSpec LinearProofs SefProofs LinearInv DualProofs SmallProofs TwoPhaseProps LinearProps IntegerSpec RoundedModel RoundedSpec RoundedProofs RoundedSolveSpec RoundedRunSpec RoundedBranchProofs RoundedBranchMinors RoundedScriptSpec.
Import ListNotations.
Open Scope nat_scope.
Open Scope string_scope.
Open Scope list_scope.

Lemma whole_moderate K p : wf p -> whole_numbers p -> subdeterminants_at_most K p -> (0 <= K <= 300)%Z -> moderate p (repeat 1%Z (length (lA p))) 1 K K.
Proof.
  intros H (W1 & W2 & W3) HS HK. constructor; [constructor| | | |]; rewrite ?product_ones; try lia.
  - apply repeat_length.
  - intros k Hk. apply repeat_spec in Hk. subst k. reflexivity.
  - intros i j Hi Hj. rewrite nth_ones. change (qz 1) with 1%Qc. rewrite Qcmult_1_l. apply ent_int. exact W1.
  - intros i Hi. rewrite nth_ones. change (qz 1) with 1%Qc. rewrite Qcmult_1_l. now apply at_int.
  - intros j Hj. change (qz 1) with 1%Qc. rewrite Qcmult_1_l. now apply at_int.
  - unfold apart. nia.
  - intros s Ls Hs. change (qz 1) with 1%Qc. rewrite Qcmult_1_l. apply HS; auto. intros j Hj. apply Nat.lt_le_incl. auto.
  - intros s Ls Hs. change (qz 1) with 1%Qc. rewrite Qcmult_1_l. now apply HS.
Qed.
Lemma moderate_whole K p : wf p -> moderate p (repeat 1%Z (length (lA p))) 1 K K -> whole_numbers p /\ subdeterminants_at_most K p.
Proof.
  intros H [[S1 S2 S3 S4 S5 S6 S7] S8 S9 S10 S11]. pose proof (wf_b _ H) as Lb. pose proof (wf_A _ H) as SA. unfold rows, cols in Lb, SA. change (qz 1) with 1%Qc in *. split; [split; [|split]|].
  - intros r v Hr Hv. apply In_nth with (d := []) in Hr. destruct Hr as (i & Hi & <-). apply In_nth with (d := 0%Qc) in Hv. destruct Hv as (j & Hj & <-). rewrite (shaped_nth (length (lc p))) in Hj by auto. specialize (S4 i j Hi Hj). rewrite nth_ones in S4. change (qz 1) with 1%Qc in S4. rewrite Qcmult_1_l in S4. exact S4.
  - intros v Hv. apply In_nth with (d := 0%Qc) in Hv. destruct Hv as (i & Hi & <-). rewrite Lb in Hi. specialize (S5 i Hi). rewrite nth_ones in S5. change (qz 1) with 1%Qc in S5. rewrite Qcmult_1_l in S5. exact S5.
  - intros v Hv. apply In_nth with (d := 0%Qc) in Hv. destruct Hv as (j & Hj & <-). specialize (S6 j Hj). rewrite Qcmult_1_l in S6. exact S6.
  - intros s Ls Hs. specialize (S11 s Ls Hs). rewrite product_ones in S11. change (qz 1) with 1%Qc in S11. rewrite Qcmult_1_l in S11. exact S11.
Qed.
Lemma rows_sef p : wf p -> length (lA (fst (to_sef p))) = length (lA p).
Proof. intros H. destruct (lsef p) eqn:Hs; [now rewrite C29_already_sef by auto|]. now destruct (to_sef_parts p H Hs) as (_ & _ & _ & _ & _ & _ & _ & _ & P9 & _). Qed.

Lemma abs_sum_nonneg l : (0 <= abs_sum l)%Qc.
Proof. induction l as [|v l IH]; [discriminate|]. rewrite abs_sum_cons. pose proof (QcTac.qabs_nonneg v) as K. set (a := qabs v) in *. set (b := abs_sum l) in *. clearbody a b. clear - IH K. qclra. Qed.
Lemma abs_sum_expand r : forall k fs, (abs_sum (expand k fs r) <= qz 2 * abs_sum r)%Qc.
Proof.
  induction r as [|v r IH]; intros k fs; [destruct fs; discriminate|]. pose proof (QcTac.qabs_nonneg v) as Kv. pose proof (abs_sum_nonneg r) as Kr. destruct fs as [|f fs]; cbn [expand].
  - pose proof (abs_sum_nonneg (v :: r)) as K. set (a := abs_sum _) in *. clearbody a. clear - K. unfold qz, inject_Z. qclra.
  - rewrite (abs_sum_cons v r). destruct (Nat.eqb f k); rewrite ?abs_sum_cons, ?SimplexProofs.qabs_opp.
    + specialize (IH (S k) fs). set (a := qabs v) in *. set (b := abs_sum r) in *. set (c := abs_sum _) in *. clearbody a b c. clear - IH Kv Kr. unfold qz, inject_Z in *. qclra.
    + specialize (IH (S k) (f :: fs)). set (a := qabs v) in *. set (b := abs_sum r) in *. set (c := abs_sum _) in *. clearbody a b c. clear - IH Kv Kr. unfold qz, inject_Z in *. qclra.
Qed.
Lemma abs_sum_neg_at i r : abs_sum (neg_at i r) = abs_sum r.
Proof. revert i. induction r as [|v r IH]; intros [|i]; try reflexivity; unfold neg_at in *; cbn; rewrite ?SimplexProofs.qabs_opp; auto. now rewrite IH. Qed.
Lemma abs_sum_neg_all l : forall r, abs_sum (fold_left (fun r i => neg_at i r) l r) = abs_sum r.
Proof. induction l as [|i l IH]; intros r; [reflexivity|]. cbn [fold_left]. now rewrite IH, abs_sum_neg_at. Qed.
(** free variables count twice, slack variables add one for each row *)
Lemma sef_weight_any p : wf p -> (weight (fst (to_sef p)) <= qz 2 * weight p + qz (Z.of_nat (length (lA p))))%Qc.
Proof.
  intros H. assert (R0 : (0 <= qz (Z.of_nat (length (lA p))))%Qc) by (change 0%Qc with (qz 0); apply qz_le; lia).
  assert (Z1 : (0 <= abs_sum (concat (lA p)))%Qc) by apply abs_sum_nonneg. assert (Z2 : (0 <= abs_sum (lb p))%Qc) by apply abs_sum_nonneg. assert (Z3 : (0 <= abs_sum (lc p))%Qc) by apply abs_sum_nonneg.
  destruct (lsef p) eqn:Hs. { rewrite C29_already_sef by auto. cbn [fst]. unfold weight. set (a := abs_sum (concat _)) in *. set (b := abs_sum (lb p)) in *. set (c := abs_sum (lc p)) in *. set (d := qz (Z.of_nat _)) in *. clearbody a b c d. clear - R0 Z1 Z2 Z3. unfold qz, inject_Z. qclra. }
  destruct (to_sef_parts p H Hs) as (P1 & _ & _ & _ & _ & _ & _ & _ & P9 & P10 & P11). change (length (lA (fst (to_sef p))) = length (lA p)) in P9. unfold rows in *.
  assert (Cc : (abs_sum (lc (fst (to_sef p))) <= qz 2 * abs_sum (lc p))%Qc).
  { rewrite P10, abs_sum_app, abs_sum_zeros, Qcplus_0_r. eapply Qcle_trans; [apply abs_sum_expand|]. rewrite abs_sum_neg_all. destruct (lobj p =? "min"); [rewrite abs_sum_vopp|]; apply Qcle_refl. }
  unfold weight. rewrite P1. rewrite !abs_sum_rows, P9. rewrite abs_sum_rows in Z1.
  assert (G : (Sum (length (lA p)) (fun i => abs_sum (nth i (lA (fst (to_sef p))) [])) <= Sum (length (lA p)) (fun i => qz 2 * abs_sum (nth i (lA p) []) + 1))%Qc).
  { apply Sum_le. intros i Hi. rewrite P11 by auto. rewrite abs_sum_app.
    match goal with |- (abs_sum ?u + abs_sum (slack_row ?a ?b ?c) <= _)%Qc => pose proof (abs_sum_slack a b c) as K; specialize (K (NoDup_filter _ (seq_NoDup _ _))); set (s := abs_sum (slack_row a b c)) in *; assert (K2 : (abs_sum u <= qz 2 * abs_sum (nth i (lA p) []))%Qc) by (eapply Qcle_trans; [apply abs_sum_expand|]; rewrite abs_sum_neg_all; apply Qcle_refl); set (t := abs_sum u) in * end.
    set (a := abs_sum _) in *. clearbody a s t. clear - K K2. unfold qz, inject_Z in *. qclra. }
  rewrite Sum_add, Sum_const, Qcmult_1_r, Sum_scal in G. set (a := Sum (length (lA p)) (fun i => abs_sum (nth i (lA (fst (to_sef p))) []))) in *. set (b := Sum (length (lA p)) (fun i => abs_sum (nth i (lA p) []))) in *. set (c := qz (Z.of_nat _)) in *. set (d := abs_sum (lb p)) in *. set (f := abs_sum (lc p)) in *. set (g := abs_sum (lc (fst (to_sef p)))) in *.
  clearbody a b c d f g. clear - G R0 Z1 Z2 Z3 Cc. unfold qz, inject_Z in *. qclra.
Qed.
Lemma steady_sef e K p : wf p -> wf (fst (to_sef p)) -> steady_program e K p -> steady e K (fst (to_sef p)).
Proof.
  intros H Hw [S1 S2 S3 S4 S5]. pose proof (whole_moderate K p H S1 S2 ltac:(lia)) as M. apply moderate_sef_same in M; auto. rewrite <- (rows_sef p H) in M. destruct (moderate_whole K _ Hw M) as (M1 & M2). constructor; auto.
  rewrite rows_sef by auto. cbv zeta in *. eapply Qcle_lt_trans; [|exact S5]. pose proof (sef_weight_any p H) as W. set (m := qz (Z.of_nat (length (lA p)))) in *. assert (m0 : (0 <= m)%Qc) by (unfold m; change 0%Qc with (qz 0); apply qz_le; lia). assert (k0 : (0 <= qz K)%Qc) by (change 0%Qc with (qz 0); apply qz_le; lia).
  apply qmul_le_r; auto. apply qmul_le_r; [|assert (0 <= m * qz K)%Qc by (apply qmul_nonneg; auto); set (u := (m * qz K)%Qc) in *; clearbody u; clear - H0; qclra].
  rewrite !(Qcmult_comm (qz 16 * e)). apply qmul_le_r; [|apply qmul_nonneg; auto; discriminate].
  set (w := weight (fst (to_sef p))) in *. set (v := weight p) in *. clearbody w v m. clear - W. unfold qz, inject_Z in *. qclra.
Qed.
