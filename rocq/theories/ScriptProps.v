(** C80: a modelling script from the objective to the answer. *)
From Coq Require Import String List Bool Arith ZArith QArith Qcanon Lia Factorial.
From Verif Require Import Py QcTac QSum QInt MatModel MatTheory LinearModel LinearSpec LinearInv LinearProofs LinearProps SefProofs DualProofs SmallProofs TwoPhaseProps FormulationModel FormulationSpec FormulationProofs FormulationProps ScriptModel ScriptSpec ScriptProofs ScriptRows ScriptCompile.
Import ListNotations.
Open Scope nat_scope.
Open Scope string_scope.
Open Scope list_scope.

(** * C80 *)
(** a well written script gives a program, and it stands for the problem as written *)
Theorem C80_program s : well_written s -> exists p, script_program s = Ok p /\ reachable p /\
  (maximise (meaning p) = true <-> s_max s = true) /\
  (forall x, feasible (meaning p) x <-> written_feasible s x) /\
  (forall x, length x = variables s -> value (meaning p) x = written (s_objective s) x).
Proof.
  intros W. destruct (script_compiles s W) as (h & a & o & cs & f0 & f & f' & p & _ & _ & _ & _ & _ & _ & _ & _ & _ & _ & _ & E). exists p. split; auto.
  destruct (script_meaning s p W E) as (M1 & M2 & M3 & M4 & M5). auto.
Qed.
Print Assumptions C80_program.
Lemma written_optimal_iff s p : well_written s -> script_program s = Ok p -> forall x, optimal (meaning p) x <-> written_optimal s x.
Proof.
  intros W E x. destruct (script_meaning s p W E) as (M1 & M2 & M3 & M4 & M5). unfold optimal, written_optimal. rewrite M4.
  assert (B : maximise (meaning p) = s_max s) by (destruct (maximise (meaning p)), (s_max s); auto; [symmetry; now apply M2|now apply M2]).
  split; intros (H1 & H2); (split; [exact H1|]); intros y Hy.
  - specialize (H2 y (proj2 (M4 y) Hy)). unfold as_good in H2. rewrite B, !M5 in H2 by (apply Hy || apply H1). destruct (s_max s); exact H2.
  - apply M4 in Hy. specialize (H2 y Hy). unfold as_good. rewrite B, !M5 by (apply Hy || apply H1). destruct (s_max s); exact H2.
Qed.
Lemma written_unbounded_iff s p : well_written s -> script_program s = Ok p -> unbounded (meaning p) -> written_unbounded s.
Proof.
  intros W E H v. destruct (script_meaning s p W E) as (M1 & M2 & M3 & M4 & M5). destruct (H v) as (x & H1 & H2). apply M4 in H1. exists x. split; auto.
  assert (B : maximise (meaning p) = s_max s) by (destruct (maximise (meaning p)), (s_max s); auto; [symmetry; now apply M2|now apply M2]).
  unfold as_good in H2. rewrite B, M5 in H2 by apply H1. destruct (s_max s); exact H2.
Qed.
Lemma solve_parts fuel s p r : script_program s = Ok p -> script_solve fuel s = Ok r -> exists p', solve fuel p = (p', Ok r).
Proof. unfold script_solve. intros ->. cbn [bind]. destruct (solve fuel p) as (p' & o). cbn [snd]. intros ->. eauto. Qed.
Lemma small_moderate M s p : well_written s -> script_program s = Ok p -> small_script M s -> moderate_data p.
Proof.
  intros W E H. apply (entries_moderate p M); [apply reachable_wf; now destruct (script_meaning s p W E)|now destruct H|now apply (script_small M s)].
Qed.
(** whole numbers of moderate size: a returned point is an optimal point of the problem as written *)
Theorem C80_solution_partial M fuel s x : well_written s -> small_script M s -> script_solve fuel s = Ok (Some x) -> written_optimal s x.
Proof.
  intros W H E. destruct (C80_program s W) as (p & Ep & Hr & _). destruct (solve_parts fuel s p _ Ep E) as (p' & K).
  apply (written_optimal_iff s p W Ep). apply (C41_optimal_partial fuel p p' x Hr); auto. now apply (small_moderate M s).
Qed.
Print Assumptions C80_solution_partial.
(** any numbers: a returned point satisfies everything that is written up to 10^-10, and no point that
    satisfies everything is better by more than 10^-10 times its size *)
Lemma total_qtot l : total l = qtot l.
Proof. unfold total, Sigma. now rewrite map_id. Qed.
Lemma size_agrees s p x : well_written s -> script_program s = Ok p -> length x = variables s -> magnitude (meaning p) x = written_size s x.
Proof.
  intros W E Hx. destruct (script_data s p W E) as (L1 & L2 & D & C). unfold magnitude, written_size. cbn [meaning rhs coefficients LinearSpec.coefficients]. rewrite !total_qtot. f_equal. rewrite L2.
  set (d := (Num 0%Qc, Eq_, Num 0%Qc) : expr * comparison_ * expr) in *. 
  replace (map (fun lcr => qabs (written (snd lcr) x - written (fst (fst lcr)) x)%Qc) (s_rows s)) with (map (fun i => qabs (written (snd (nth i (s_rows s) d)) x - written (fst (fst (nth i (s_rows s) d))) x)%Qc) (seq 0 (length (s_rows s)))).
  - f_equal. apply map_ext_in. intros i Hi. apply in_seq in Hi. specialize (D i ltac:(lia)). destruct (nth i (s_rows s) d) as ((l & c) & r). destruct D as (t & T & Db & _ & DA & _). cbn [fst snd]. rewrite Db, DA by auto.
    generalize (written l x) (written r x) (intercept l) (intercept r). intros a b u v. destruct T as [-> | ->].
    + f_equal. ring.
    + rewrite <- SimplexProofs.qabs_opp. f_equal. ring.
  - set (n := length (s_rows s)). rewrite <- (map_map (fun i => nth i (s_rows s) d) (fun lcr => qabs (written (snd lcr) x - written (fst (fst lcr)) x)%Qc)). f_equal. unfold n. clear. induction (s_rows s) as [|w l IH]; [reflexivity|]. cbn [length seq map nth]. f_equal. rewrite <- seq_shift, map_map. exact IH.
Qed.
Theorem C80_near fuel s x : well_written s -> script_solve fuel s = Ok (Some x) ->
  written_within (Q2Qc (1 # 10000000000)) s x /\
  forall y, written_feasible s y ->
    if s_max s then (written (s_objective s) y <= written (s_objective s) x + Q2Qc (1 # 10000000000) * written_size s y)%Qc
    else (written (s_objective s) x <= written (s_objective s) y + Q2Qc (1 # 10000000000) * written_size s y)%Qc.
Proof.
  intros W E. destruct (C80_program s W) as (p & Ep & Hr & HM & HF & HV). destruct (solve_parts fuel s p _ Ep E) as (p' & K).
  assert (B : maximise (meaning p) = s_max s) by (destruct (maximise (meaning p)), (s_max s); auto; [symmetry; now apply HM|now apply HM]).
  destruct (C41_near_optimal_partial fuel p p' x Hr K) as ((N1 & N2 & N3) & N4). set (tol := Q2Qc (1 # 10000000000)) in *. clearbody tol.
  destruct (script_meaning s p W Ep) as (_ & _ & Lc & _). change (length (costs (meaning p))) with (length (lc p)) in N1, N3. rewrite Lc in N1, N3. split.
  - split; [exact N1|]. split.
    + intros l c r Hin. destruct (script_data s p W Ep) as (L1 & L2 & D & _). apply In_nth with (d := (Num 0%Qc, Eq_, Num 0%Qc)) in Hin. destruct Hin as (i & Hi & Ei). specialize (D i Hi). rewrite Ei in D. destruct D as (t & _ & Db & _ & DA & DS).
      specialize (N2 i). cbn [meaning rhs relations coefficients LinearSpec.coefficients] in N2. rewrite L2 in N2. specialize (N2 Hi).
      assert (Li : length (inequalities p) = length (lb p)) by (unfold inequalities; now rewrite map_length, seq_length).
      rewrite (nth_map_any relation_of (inequalities p) "=" Equal i) in N2 by (rewrite Li, L2; exact Hi). rewrite DA, Db in N2 by auto. clear - N2 DS. revert N2. generalize (written l x) (written r x) (intercept l) (intercept r). intros a b u v.
      destruct DS as [(-> & ->)|(-> & -> & _)]; destruct c; cbn [symbol mirror relation_of]; cbn; intros K; qclra.
    + intros g Hg. pose proof W as (_ & _ & _ & _ & Fit). pose proof (signs_fit_sign _ _ Fit g Hg) as Hs. destruct g as [k c|c].
      * assert (Hk : k < variables s). { destruct Fit as [(d & _ & Fit)|(kc & Fit & _ & H)]; rewrite Fit in Hg; [destruct Hg as [Hg|[]]; discriminate Hg|]. apply in_map_iff in Hg. destruct Hg as ((j & d) & Ej & Hg). injection Ej as <- <-. now destruct (H j d Hg). }
        specialize (N3 k Hk). rewrite (script_signs s p W Ep k c Hk Hs (or_introl Hg)) in N3. cbn [sign_within]. unfold point. clear - N3 Hs. cbn in Hs. destruct c; [| |congruence]; cbn in *; qclra.
      * intros k Hk. specialize (N3 k Hk). rewrite (script_signs s p W Ep k c Hk Hs (or_intror Hg)) in N3. unfold point. clear - N3 Hs. cbn in Hs. destruct c; [| |congruence]; cbn in *; qclra.
  - intros y Hy. specialize (N4 y (proj2 (HF y) Hy)). rewrite B, !HV in N4 by (auto; apply Hy). rewrite (size_agrees s p y W Ep) in N4 by apply Hy. exact N4.
Qed.
Print Assumptions C80_near.

Lemma filter_all {A} (g : A -> bool) l : (forall y, In y l -> g y = true) -> filter g l = l.
Proof. induction l as [|y l IH]; intros H; cbn; auto. rewrite (H y) by (now left). now rewrite IH by (intros z Hz; apply H; now right). Qed.
Lemma pow_mono a b fuel : a <= b -> 2 ^ b <= fuel -> 2 ^ a <= fuel.
Proof. intros H K. etransitivity; [apply Nat.pow_le_mono_r; [lia|exact H]|exact K]. Qed.
(** inequalities that hold at zero: the answer is an optimal point, or None and then there is no bound *)
Theorem C80_from_zero_partial M fuel s : well_written s -> small_script M s ->
  (forall l c r, In (l, c, r) (s_rows s) -> c = Le /\ numeric l = false /\ (intercept l <= intercept r)%Qc) ->
  2 ^ (2 * variables s + 2 * length (s_rows s)) <= fuel ->
  (exists x, script_solve fuel s = Ok (Some x) /\ written_optimal s x) \/ (script_solve fuel s = Ok None /\ written_unbounded s).
Proof.
  intros W H R Hf. destruct (C80_program s W) as (p & Ep & Hr & _). pose proof (reachable_wf p Hr) as Hw. destruct (script_meaning s p W Ep) as (_ & _ & Lc & _). destruct (script_data s p W Ep) as (L1 & L2 & D & _). pose proof (sef_width p Hw) as Sw.
  assert (Hm : 0 < length (lA p)) by (rewrite L1; destruct W as (W & _); destruct (s_rows s); [congruence|cbn; lia]).
  assert (Row : forall i, i < length (s_rows s) -> nth i (inequalities p) "=" = "<=" /\ (0 <= nth i (lb p) 0)%Qc).
  { intros i Hi. specialize (D i Hi). pose proof (nth_In (s_rows s) (Num 0%Qc, Eq_, Num 0%Qc) Hi) as K. destruct (nth i (s_rows s) _) as ((l & c) & r). destruct (R l c r K) as (-> & Nl & Z). destruct D as (t & _ & Db & _ & _ & [(-> & DS)|(_ & _ & DS)]); [|congruence]. split; [exact DS|]. rewrite Db. qclra. }
  destruct (C42_inequalities_partial p fuel Hr Hm (small_moderate M s p W Ep H)) as [(x & K & O)|(K & U)].
  - apply (pow_mono _ (2 * variables s + 2 * length (s_rows s))); [lia|exact Hf].
  - intros i Hi. apply Row. lia.
  - intros i Hi. apply Row. lia.
  - left. exists x. split; [unfold script_solve; rewrite Ep; cbn [bind]; now rewrite K|now apply (written_optimal_iff s p W Ep)].
  - right. split; [unfold script_solve; rewrite Ep; cbn [bind]; now rewrite K|now apply (written_unbounded_iff s p W Ep)].
Qed.
Print Assumptions C80_from_zero_partial.
(** inequalities only, every variable has a sign, and the number of variables is not the number of rows *)
Theorem C80_inequalities_partial M fuel s : well_written s -> small_script M s ->
  (forall l c r, In (l, c, r) (s_rows s) -> c <> Eq_) ->
  (forall k, k < variables s -> exists c, In (One k c) (s_signs s) \/ In (All c) (s_signs s)) ->
  variables s <> length (s_rows s) ->
  2 ^ (2 * variables s + 2 * length (s_rows s)) <= fuel ->
  (exists x, script_solve fuel s = Ok (Some x) /\ written_optimal s x) \/
  (script_solve fuel s = Ok None /\ ((forall x, ~ written_feasible s x) \/ written_unbounded s)).
Proof.
  intros W H R Sg Ne Hf. destruct (C80_program s W) as (p & Ep & Hr & HM & HF & HV). pose proof (reachable_wf p Hr) as Hw. destruct (script_meaning s p W Ep) as (_ & _ & Lc & _). destruct (script_data s p W Ep) as (L1 & L2 & D & _). pose proof (sef_width p Hw) as Sw.
  assert (Hm : 0 < length (lA p)) by (rewrite L1; destruct W as (W & _); destruct (s_rows s); [congruence|cbn; lia]).
  assert (Row : forall i, i < length (s_rows s) -> nth i (inequalities p) "=" <> "=").
  { intros i Hi. specialize (D i Hi). pose proof (nth_In (s_rows s) (Num 0%Qc, Eq_, Num 0%Qc) Hi) as K. destruct (nth i (s_rows s) _) as ((l & c) & r). specialize (R l c r K). destruct D as (t & _ & _ & _ & _ & [(_ & DS)|(_ & DS & _)]); rewrite DS; destruct c; cbn; congruence || discriminate. }
  assert (Fr : lfree p = []).
  { destruct (lfree p) as [|j fs] eqn:F; auto. exfalso. assert (Hj : In j (lfree p)) by (rewrite F; now left). pose proof (wf_free_lt _ Hw j Hj) as Lj. unfold cols in Lj. rewrite Lc in Lj. destruct (Sg j Lj) as (c & K).
    assert (Hc : c <> Eq_) by (pose proof W as (_ & _ & _ & _ & Fit); destruct K as [K|K]; apply (signs_fit_sign _ _ Fit _ K)).
    pose proof (script_signs s p W Ep j c Lj Hc K) as G. rewrite nth_signs in G by (unfold cols; now rewrite Lc). unfold sgn in G. apply inb_In in Hj. rewrite Hj in G. destruct c; discriminate G. }
  destruct (C42_complete_partial p fuel Hr Hm) as [(x & K & O)|(K & U)].
  - apply no_equations. intros i Hi. apply Row. lia.
  - now apply (small_moderate M s).
  - apply (pow_mono _ (2 * variables s + 2 * length (s_rows s))); [lia|exact Hf].
  - destruct (lsef p) eqn:Hs; [now left|right; left]. pose proof (sef_cols p Hw Hs) as C. rewrite Fr in C. unfold cols, rows in C. cbn [length] in C. rewrite C, Lc.
    assert (Q : length (filter (has (lineq p)) (seq 0 (length (lA p)))) = length (lA p)).
    { rewrite <- (seq_length (length (lA p)) 0) at 2. f_equal. apply filter_all. intros i Hi. apply in_seq in Hi. specialize (Row i ltac:(lia)). unfold inequalities in Row. rewrite LinearProofs.nth_map_seq in Row by lia. unfold has, dmem. destruct (dget Nat.eqb i (lineq p)); auto. }
    rewrite Q, L1. lia.
  - left. exists x. split; [unfold script_solve; rewrite Ep; cbn [bind]; now rewrite K|now apply (written_optimal_iff s p W Ep)].
  - right. split; [unfold script_solve; rewrite Ep; cbn [bind]; now rewrite K|]. destruct U as [U|U]; [left; intros x Hx; apply (U x); now apply HF|right; now apply (written_unbounded_iff s p W Ep)].
Qed.
Print Assumptions C80_inequalities_partial.

(** a variable of the objective beyond those of the rows is refused *)
Theorem C80_objective_refuted s : s_rows s <> [] ->
  (forall l c r, In (l, c, r) (s_rows s) -> readable l /\ readable r /\ numeric l && numeric r = false) ->
  readable (s_objective s) -> variables s < top (s_objective s) -> script_program s = Raise ValueError.
Proof.
  intros W1 W2 W3 W4. destruct (readable_eval _ W3 []) as (h & a & E & [A1 A2 A3 A4 A5 A6 A7] & V). pose proof (A7 rh_nil) as Rh. destruct (build_rows (s_rows s) W2 h Rh) as (h' & cs & Eb & F). pose proof (matches_width _ _ F) as Wd. fold (variables s) in Wd.
  destruct a as [q|k|l|].
  - cbn [vtop] in A6. lia.
  - destruct W3 as (_ & _ & _ & W3). destruct (W3 k). auto.
  - destruct (coefficients_good (get h l)) as (v & Ev & _); [apply reachable_good; auto; cbn in A3; lia|]. pose proof (coefficients_len (get h l) v ltac:(apply reachable_good; auto; cbn in A3; lia) Ev) as Lv. cbn [vtop] in A6.
    unfold script_program, script_formulation. rewrite E. cbn [optimise bind]. rewrite Eb. cbn [snd bind]. rewrite C49_objective_variables_refuted; [reflexivity| | |].
    + intros ->. inversion F as [K|]. now apply W1.
    + intros c Hc. destruct (matches_in _ _ _ F Hc) as (((l0 & d) & r) & _ & (v0 & x & q & t & -> & K & _)). exact K.
    + exists v. cbn [oc]. split; auto. lia.
  - contradiction.
Qed.
Print Assumptions C80_objective_refuted.

Lemma of_this (x : list Qc) (q : list Q) : map this x = q -> x = map Q2Qc q.
Proof. intros <-. rewrite map_map. induction x as [|v x IH]; cbn; [reflexivity|]. rewrite <- IH. f_equal. apply Qc_is_canon. symmetry. apply Qred_correct. Qed.
Ltac readable_tac := unfold readable, pure; repeat split; cbn; try lia; auto; try (intros ? K; discriminate K); tauto.
(** maximise 5 x1 + 4 x2 + 3 x3 + 10 subject to 2 x1 + 3 x2 + x3 <= 5, 4 x1 + x2 <= 11 - 2 x3, x >= 0 *)
Definition mixing : script := mkscript true
  (Add (Add (Add (Mul (Num (qz 5)) (Item 1)) (Mul (Num (qz 4)) (Item 2))) (Mul (Num (qz 3)) (Item 3))) (Num (qz 10)))
  [(Add (Add (Mul (Num (qz 2)) (Item 1)) (Mul (Num (qz 3)) (Item 2))) (Item 3), Le, Num (qz 5));
   (Add (Mul (Num (qz 4)) (Item 1)) (Item 2), Le, Sub (Num (qz 11)) (Mul (Num (qz 2)) (Item 3)))] [All Ge].
Lemma mixing_well : well_written mixing.
Proof.
  split; [discriminate|]. split; [|split; [|split]].
  - intros l c r H. cbn in H. repeat destruct H as [H|H]; try contradiction; injection H as <- <- <-; (split; [readable_tac|split; [readable_tac|reflexivity]]).
  - readable_tac.
  - cbn. lia.
  - left. exists Ge. split; [discriminate|reflexivity].
Qed.
Ltac whole_at z := exists z; split; [apply Qc_is_canon; reflexivity|lia].
Ltac whole_tac := first [whole_at 0%Z|whole_at 1%Z|whole_at 2%Z|whole_at 3%Z|whole_at 4%Z|whole_at 5%Z|whole_at 11%Z].
Lemma mixing_small : small_script 12 mixing.
Proof.
  split; [lia|]. split; [|split].
  - intros l c r H. cbn in H. repeat destruct H as [H|H]; try contradiction; injection H as <- <- <-; (split; [whole_tac|]); intros [|[|[|j]]]; whole_tac.
  - intros [|[|[|j]]]; [exists 5%Z|exists 4%Z|exists 3%Z|exists 0%Z]; apply Qc_is_canon; reflexivity.
  - vm_compute. discriminate.
Qed.
Example C80_example : exists x, script_solve 1024 mixing = Ok (Some x) /\ map this x = [0; 0; 5]%Q /\ written_optimal mixing x /\ written (s_objective mixing) x = qz 25.
Proof.
  assert (G : match script_solve 1024 mixing with Ok (Some x) => map this x = [0; 0; 5]%Q | _ => False end) by (vm_compute; reflexivity).
  destruct (script_solve 1024 mixing) as [[x|]| |] eqn:E; try contradiction. exists x. split; auto. split; auto. split; [now apply (C80_solution_partial 12 1024 mixing x mixing_well mixing_small)|]. apply of_this in G. subst x. apply Qc_is_canon. reflexivity.
Qed.
(** the hypotheses of the theorems about the answer *)
Example C80_hypotheses : well_written mixing /\ small_script 12 mixing /\
  (forall l c r, In (l, c, r) (s_rows mixing) -> c = Le /\ numeric l = false /\ (intercept l <= intercept r)%Qc) /\
  (forall k, k < variables mixing -> exists c, In (One k c) (s_signs mixing) \/ In (All c) (s_signs mixing)) /\
  variables mixing <> length (s_rows mixing) /\ 2 ^ (2 * variables mixing + 2 * length (s_rows mixing)) <= 1024.
Proof.
  split; [apply mixing_well|]. split; [apply mixing_small|]. split; [|split; [|split]].
  - intros l c r H. cbn in H. repeat destruct H as [H|H]; try contradiction; injection H as <- <- <-; (split; [reflexivity|split; [reflexivity|]]); intros K; vm_compute in K; discriminate K.
  - intros k _. exists Ge. right. now left.
  - cbn. discriminate.
  - apply Nat.leb_le. vm_compute. reflexivity.
Qed.
(** a number below a product: maximise x1 subject to 2 (x1 + 3) <= 8, x1 >= 0 gives 5/2, which violates the row *)
Definition scaled : script := mkscript true (Item 1) [(Mul (Num (qz 2)) (Add (Item 1) (Num (qz 3))), Le, Num (qz 8))] [All Ge].
Theorem C80_constant_refuted : (forall l c r, In (l, c, r) (s_rows scaled) -> linear l /\ pure l /\ readable r) /\
  exists x, script_solve 64 scaled = Ok (Some x) /\ ~ written_feasible scaled x /\ exists y, written_optimal scaled y.
Proof.
  split; [intros l c r [H|[]]; injection H as <- <- <-; split; [cbn; repeat split; auto; lia|split; [reflexivity|readable_tac]]|].
  assert (G : match script_solve 64 scaled with Ok (Some x) => map this x = [5 # 2]%Q | _ => False end) by (vm_compute; reflexivity).
  destruct (script_solve 64 scaled) as [[x|]| |] eqn:E; try contradiction. exists x. split; auto. apply of_this in G. subst x. split.
  - intros (_ & K & _). specialize (K _ _ _ (or_introl eq_refl)). cbn in K. apply K. vm_compute. reflexivity.
  - exists [qz 1]. split.
    + split; [reflexivity|]. split.
      * intros l c r [H|[]]. injection H as <- <- <-. intros K. vm_compute in K. discriminate K.
      * intros g [<-|[]] k Hk. assert (k = 0) by (cbn in Hk; lia). subst k. intros K. vm_compute in K. discriminate K.
    + intros y (Ly & K & _). specialize (K _ _ _ (or_introl eq_refl)). destruct y as [|v [|? ?]]; try discriminate Ly. cbn in K |- *. unfold written, point in *. cbn in K |- *. clear - K. unfold qz, inject_Z in *. qclra.
Qed.
Print Assumptions C80_constant_refuted.
(** minimise x1 subject to x1 >= 1: the optimum is 1, and the answer is None *)
Definition least : script := mkscript false (Item 1) [(Item 1, Ge, Num 1%Qc)] [All Ge].
Theorem C80_none_refuted : well_written least /\ small_script 1 least /\ script_solve 64 least = Ok None /\ written_optimal least [1%Qc].
Proof.
  split; [|split; [|split]].
  - split; [discriminate|]. split; [|split; [|split]].
    + intros l c r [H|[]]. injection H as <- <- <-. split; [readable_tac|split; [readable_tac|reflexivity]].
    + readable_tac.
    + cbn. lia.
    + left. exists Ge. split; [discriminate|reflexivity].
  - split; [lia|]. split; [|split].
    + intros l c r [H|[]]. injection H as <- <- <-. split; [exists 1%Z; split; [apply Qc_is_canon; reflexivity|lia]|]. intros [|j]; [exists 1%Z|exists 0%Z]; (split; [apply Qc_is_canon; reflexivity|lia]).
    + intros [|j]; [exists 1%Z|exists 0%Z]; apply Qc_is_canon; reflexivity.
    + vm_compute. discriminate.
  - vm_compute. reflexivity.
  - split.
    + split; [reflexivity|]. split.
      * intros l c r [H|[]]. injection H as <- <- <-. intros K. vm_compute in K. discriminate K.
      * intros g [<-|[]] k Hk. assert (k = 0) by (cbn in Hk; lia). subst k. intros K. vm_compute in K. discriminate K.
    + intros y (Ly & K & _). specialize (K _ _ _ (or_introl eq_refl)). exact K.
Qed.
Print Assumptions C80_none_refuted.
