(** The program of a script and the numbers of the script. *)
From Coq Require Import String List Bool Arith ZArith QArith Qcanon Lia.
From Verif Require Import Py QcTac QSum QInt MatModel DetTheory MatTheory LinearModel LinearSpec LinearInv LinearProofs LinearProps SefProofs DualProofs SmallProofs TwoPhaseProps FormulationModel FormulationSpec FormulationProofs FormulationProps ScriptModel ScriptSpec ScriptProofs ScriptRows ScriptCompile ScriptProps RoundedSpec RoundedProofs RoundedSolveSpec RoundedBranchProofs RoundedBranchMinors RoundedScriptSpec RoundedSefProofs.
Import ListNotations.
Open Scope nat_scope.
Open Scope string_scope.
Open Scope list_scope.

Definition row0 : expr * comparison_ * expr := (Num 0%Qc, Eq_, Num 0%Qc).
(** row by row the program has the numbers of the script, or all of them with the other sign *)
Lemma script_numbers s p : well_written s -> script_program s = Ok p -> exists ts, length ts = length (s_rows s) /\ forall i, i < length (s_rows s) ->
  plus_or_minus (nth i ts 0%Qc) /\ nth i (lb p) 0%Qc = (nth i ts 0 * nth i (lb (numbers s)) 0)%Qc /\ (forall j, j < variables s -> ent (lA p) i j = (nth i ts 0 * ent (lA (numbers s)) i j)%Qc) /\
  (nth i (inequalities p) "=" = "=" <-> equation_row (nth i (s_rows s) row0) = true).
Proof.
  intros W E. destruct (script_data s p W E) as (L1 & L2 & D & _).
  apply (choice_list 0%Qc (fun i t => plus_or_minus t /\ nth i (lb p) 0%Qc = (t * nth i (lb (numbers s)) 0)%Qc /\ (forall j, j < variables s -> ent (lA p) i j = (t * ent (lA (numbers s)) i j)%Qc) /\ (nth i (inequalities p) "=" = "=" <-> equation_row (nth i (s_rows s) row0) = true)) (length (s_rows s))).
  intros i Hi. specialize (D i Hi). fold row0 in D.
  assert (Nb : nth i (lb (numbers s)) 0%Qc = (intercept (snd (nth i (s_rows s) row0)) - intercept (fst (fst (nth i (s_rows s) row0))))%Qc) by (cbn [numbers lb]; now rewrite (nth_map_any _ _ row0) by auto).
  assert (NA : forall j, j < variables s -> ent (lA (numbers s)) i j = (slope (fst (fst (nth i (s_rows s) row0))) j - slope (snd (nth i (s_rows s) row0)) j)%Qc).
  { intros j Hj. cbn [numbers lA]. unfold ent, at_. rewrite (nth_map_any _ _ row0) by auto. rewrite (nth_map_any _ _ 0) by (now rewrite seq_length). now rewrite seq_nth by auto. }
  destruct (nth i (s_rows s) row0) as ((l & c) & r). cbn [fst snd] in *. destruct D as (t & T & Db & DA & _ & DS). exists t. split; auto. split; [now rewrite Db, Nb|]. split; [intros j Hj; unfold ent, at_; rewrite DA; symmetry; f_equal; now apply NA|].
  destruct DS as [(_ & ->)|(_ & -> & _)]; destruct c; cbn; split; intros; auto; discriminate.
Qed.
Lemma numbers_shape s : well_written s -> length (lA (numbers s)) = length (s_rows s) /\ length (lb (numbers s)) = length (s_rows s) /\ length (lc (numbers s)) = variables s.
Proof. intros _. cbn [numbers lA lb lc]. now rewrite !map_length, seq_length. Qed.
Lemma abs_sum_same u v : length u = length v -> (forall i, i < length u -> qabs (nth i u 0%Qc) = qabs (nth i v 0%Qc)) -> abs_sum u = abs_sum v.
Proof.
  revert v. induction u as [|a u IH]; intros [|b v] L H; try discriminate; [reflexivity|]. rewrite !abs_sum_cons. f_equal; [exact (H 0%nat ltac:(cbn; lia))|]. apply IH; [now injection L|]. intros i Hi. apply (H (S i)). cbn. lia.
Qed.
Lemma pm_abs t v : plus_or_minus t -> qabs (t * v)%Qc = qabs v.
Proof. intros [-> | ->]; [now rewrite Qcmult_1_l|]. replace (- (1) * v)%Qc with (- v)%Qc by ring. apply SimplexProofs.qabs_opp. Qed.
Lemma pm_trit t : plus_or_minus t -> trit t.
Proof. intros [-> | ->]; [apply trit_1|apply trit_opp, trit_1]. Qed.
Lemma pm_square t : plus_or_minus t -> (t * t = 1)%Qc.
Proof. intros [-> | ->]; ring. Qed.

Lemma filter_map_comm {A B} (g : A -> B) (f : B -> bool) l : filter f (map g l) = map g (filter (fun x => f (g x)) l).
Proof. induction l as [|x l IH]; [reflexivity|]. cbn [map filter]. rewrite IH. now destruct (f (g x)). Qed.

Section OneScript.
  Variables (s : script) (p : lp).
  Hypotheses (W : well_written s) (E : script_program s = Ok p).

  Lemma sn_shape : wf p /\ reachable p /\ length (lA p) = length (s_rows s) /\ length (lb p) = length (s_rows s) /\ length (lc p) = variables s /\ 0 < length (s_rows s).
  Proof.
    destruct (script_meaning s p W E) as (Hr & _ & Lc & _). destruct (script_data s p W E) as (L1 & L2 & _). split; [now apply reachable_wf|]. split; [exact Hr|]. split; [exact L1|]. split; [exact L2|]. split; [exact Lc|]. destruct W as (W0 & _). destruct (s_rows s); [congruence|cbn; lia].
  Qed.
  Lemma sn_whole : whole_numbers (numbers s) -> whole_numbers p.
  Proof.
    intros (W1 & W2 & W3). destruct sn_shape as (H & _ & L1 & L2 & Lc & _). destruct (numbers_shape s W) as (N1 & N2 & N3). destruct (script_numbers s p W E) as (ts & Lt & D). destruct (script_data s p W E) as (_ & _ & _ & C).
    assert (G : forall t v, plus_or_minus t -> isint v -> isint (t * v)%Qc) by (intros t v T V; apply isint_mul; auto; destruct T as [-> | ->]; [exists 1%Z|exists (-1)%Z]; reflexivity).
    split; [|split].
    - intros r v Hr Hv. apply In_nth with (d := []) in Hr. destruct Hr as (i & Hi & <-). apply In_nth with (d := 0%Qc) in Hv. destruct Hv as (j & Hj & <-). rewrite (shaped_nth (cols p)) in Hj by (auto; apply (wf_A _ H)). unfold cols in Hj. rewrite L1 in Hi. rewrite Lc in Hj. destruct (D i Hi) as (T & _ & DA & _).
      specialize (DA j Hj). unfold ent, at_ in DA. rewrite DA. apply G; auto. apply (ent_int (lA (numbers s))). exact W1.
    - intros v Hv. apply In_nth with (d := 0%Qc) in Hv. destruct Hv as (i & Hi & <-). rewrite L2 in Hi. destruct (D i Hi) as (T & Db & _). rewrite Db. apply G; auto. now apply (at_int (lb (numbers s))).
    - intros v Hv. apply In_nth with (d := 0%Qc) in Hv. destruct Hv as (j & Hj & <-). rewrite C. apply W3. cbn [numbers lc]. apply in_map. apply in_seq. lia.
  Qed.
  Lemma sn_weight : weight p = weight (numbers s).
  Proof.
    destruct sn_shape as (H & _ & L1 & L2 & Lc & _). destruct (numbers_shape s W) as (N1 & N2 & N3). destruct (script_numbers s p W E) as (ts & Lt & D). destruct (script_data s p W E) as (_ & _ & _ & C).
    assert (LN : forall i, i < length (s_rows s) -> length (nth i (lA (numbers s)) []) = variables s) by (intros i Hi; cbn [numbers lA]; rewrite (nth_map_any _ _ row0) by auto; now rewrite map_length, seq_length).
    unfold weight. f_equal; [f_equal; [f_equal|]|].
    - rewrite !abs_sum_rows, L1, N1. apply Sum_ext. intros i Hi. assert (Lp : length (nth i (lA p) []) = variables s) by (rewrite (shaped_nth (cols p)) by (try lia; apply (wf_A _ H)); exact Lc). apply abs_sum_same; [now rewrite Lp, LN|]. intros j Hj. rewrite Lp in Hj. destruct (D i Hi) as (T & _ & DA & _). specialize (DA j Hj). unfold ent, at_ in DA. rewrite DA. now apply pm_abs.
    - apply abs_sum_same; [lia|]. intros i Hi. rewrite L2 in Hi. destruct (D i Hi) as (T & Db & _). rewrite Db. now apply pm_abs.
    - apply abs_sum_same; [lia|]. intros j Hj. rewrite Lc in Hj. rewrite C. cbn [numbers lc]. rewrite (nth_map_any _ _ 0) by (now rewrite seq_length). now rewrite seq_nth by auto.
  Qed.
  Lemma sn_minors K : (0 <= K)%Z -> subdeterminants_at_most K (numbers s) -> subdeterminants_at_most K p.
  Proof.
    intros HK HS. destruct sn_shape as (H & _ & L1 & L2 & Lc & _). destruct (numbers_shape s W) as (N1 & N2 & N3). destruct (script_numbers s p W E) as (ts & Lt & D). intros l Ll Hl. rewrite L1 in *. rewrite Lc in Hl.
    rewrite <- (Qcmult_1_l (qabs _)). apply (bound_signed _ _ _ (fun j => j <= variables s + length (s_rows s)) _ (bordered (numbers s)) (fun i => nth i ts 0%Qc)); auto.
    - intros i Hi. apply pm_trit. now destruct (D i Hi).
    - intros j Hj. set (k := nth j l 0). assert (Hk : k <= variables s + length (s_rows s)) by (apply Hl, nth_In; lia). unfold bordered. rewrite L1, Lc, N1, N3.
      destruct (Nat.ltb_spec k (variables s)) as [K1|K1]; [|destruct (Nat.ltb_spec k (variables s + length (s_rows s))) as [K2|K2]].
      + exists 1%Qc, k. split; [apply trit_1|]. split; auto. intros i Hi. rewrite (proj2 (Nat.ltb_lt _ _)) by auto. destruct (D i Hi) as (_ & _ & DA & _). rewrite DA by auto. ring.
      + set (q := k - variables s) in *. exists (nth q ts 0%Qc), k. split; [apply pm_trit; now destruct (D q ltac:(lia))|]. split; auto. intros i Hi. rewrite (proj2 (Nat.ltb_ge _ _)), (proj2 (Nat.ltb_lt _ _)) by auto. fold q.
        destruct (Nat.eqb_spec i q) as [->|]; [|ring]. rewrite Qcmult_1_r. symmetry. apply pm_square. now destruct (D q Hi).
      + exists 1%Qc, k. split; [apply trit_1|]. split; auto. intros i Hi. rewrite !(proj2 (Nat.ltb_ge _ _)) by auto. destruct (D i Hi) as (_ & Db & _). rewrite Db. ring.
    - intros k Lk Hk. rewrite Qcmult_1_l. rewrite <- N1. apply HS; [lia|]. intros j Hj. rewrite N1, N3. auto.
  Qed.
  Lemma sn_independent : independent_rows s -> independent_equations p.
  Proof.
    intros HI y Ly Hy K i Hi. destruct sn_shape as (H & _ & L1 & L2 & Lc & _). destruct (numbers_shape s W) as (N1 & N2 & N3). destruct (script_numbers s p W E) as (ts & Lt & D). set (m := length (s_rows s)) in *. rewrite L1 in Ly. rewrite L1 in Hy.
    set (z := map (fun i => nth i ts 0 * nth i y 0)%Qc (seq 0 m)). assert (Lz : length z = m) by (unfold z; now rewrite map_length, seq_length).
    assert (Ez : forall i, i < m -> nth i z 0%Qc = (nth i ts 0 * nth i y 0)%Qc) by (intros k Hk; unfold z; rewrite (nth_map_any _ _ 0) by (now rewrite seq_length); now rewrite seq_nth by auto).
    assert (Z : nth i z 0%Qc = 0%Qc).
    { apply HI; try lia.
      - intros k Hk Ek. rewrite Ez by auto. rewrite Hy; [ring|auto|]. intros Q. apply (D k Hk) in Q. rewrite (nth_indep _ row0 (Num 0%Qc, Le, Num 0%Qc)) in Q by auto. congruence.
      - intros j Hj. rewrite <- Lc in Hj. specialize (K j Hj). rewrite (inner_column m) in K by auto. rewrite (inner_Sum m) by (auto; now rewrite map_length). rewrite <- K. apply Sum_ext. intros k Hk. destruct (D k Hk) as (T & _ & DA & _). rewrite Lc in Hj. rewrite DA by auto.
        unfold at_. rewrite Ez by auto. cbn [numbers lA]. unfold ent, at_. rewrite !(nth_map_any _ _ row0) by auto. rewrite (nth_map_any _ _ 0) by (now rewrite seq_length). rewrite seq_nth by auto. cbn [plus]. ring. }
    rewrite Ez in Z by lia. destruct (D i ltac:(lia)) as (T & _). rewrite <- (Qcmult_1_l (nth i y 0%Qc)), <- (pm_square _ T), <- Qcmult_assoc, Z. ring.
  Qed.
  Lemma sn_free k : k < variables s -> (In k (lfree p) <-> has_sign s k = false).
  Proof.
    intros Hk. destruct sn_shape as (H & _ & L1 & L2 & Lc & _). assert (IG : forall g, In g (s_signs s) -> is_sign g) by (destruct W as (_ & _ & _ & _ & Fit); apply (signs_fit_sign _ _ Fit)). split.
    - intros Hin. apply not_true_is_false. intros HS. unfold has_sign in HS. apply existsb_exists in HS. destruct HS as (g & Hg & Eg).
      assert (G : exists c, c <> Eq_ /\ (In (One k c) (s_signs s) \/ In (All c) (s_signs s))). { specialize (IG g Hg). destruct g as [j c|c]; exists c; (split; [exact IG|]); [left|now right]. apply Nat.eqb_eq in Eg. now subst j. }
      destruct G as (c & Hc & K). pose proof (script_signs s p W E k c Hk Hc K) as G. rewrite nth_signs in G by (unfold cols; now rewrite Lc). unfold sgn in G. apply inb_In in Hin. rewrite Hin in G. destruct c; discriminate G.
    - intros HS. destruct (script_compiles s W) as (h & a & o & cs & f0 & f & f' & p' & E1 & E2 & E3 & E4 & E5 & E6 & E7 & E8 & E9 & E10 & E11 & E12). rewrite E in E12. injection E12 as <-.
      destruct (subject_to_spec o cs f0 E8) as (S1 & S2 & S3 & S4 & S5 & S6 & S7 & S8 & S9 & S10 & S11 & S12 & S13).
      destruct (history_spec f0 _ f E9 []) as ([B1 B2 B3 B4 B5 B6] & [T1 T2 T3] & (Q1 & Q2) & _).
      { now apply fresh_tracked. }
      { split; rewrite ?S6, ?S7; [constructor|contradiction]. }
      { intros _ q K. congruence. }
      unfold compile in E11. fold (free_of f) in E11.
      destruct (C28_reads_back (length (fc f)) (fA f) (fb f) (fc f) (Nd (Mat (length (fc f)) (fA f))) (Nd (Vec (fb f))) (Nd (Vec (fc f))) _ _ _ _ _ p eq_refl eq_refl eq_refl E11) as (R1 & R2 & R3 & R4 & R5 & R6 & (_ & R7) & (_ & R8) & _). cbn [opt_list] in R7, R8.
      cbn [app signs_of flat_map] in T1, T2. rewrite app_nil_r in T1, T2. rewrite B3, S2, E7 in T1, T2.
      assert (NG : forall b, ~ given (map sc (s_signs s)) b k).
      { intros b (u & v & Hin & Hn). apply in_map_iff in Hin. destruct Hin as (g & Eg & Hg). specialize (IG g Hg). apply Bool.not_true_iff_false in HS. apply HS. unfold has_sign. apply existsb_exists. exists g. split; auto. destruct g as [j c|c]; auto.
        destruct c; cbn [sc] in Eg; try (now destruct IG); injection Eg as <- <-; destruct b; cbn in Hn; intuition; try discriminate; apply Nat.eqb_eq; lia. }
      assert (F : In (Z.of_nat (S k)) (free_variables p)). { apply R7, free_of_spec. rewrite B3, S2, E7. split; [lia|]. split; intros X; [apply T2 in X|apply T1 in X]; auto; now apply NG in X. }
      unfold free_variables, to_math_indexing in F. apply in_map_iff in F. destruct F as (j & Ej & F). now replace k with j by lia.
  Qed.
  Lemma sn_columns : lsef p = false -> length (lc (fst (to_sef p))) = standard_columns s.
  Proof.
    intros Hs. destruct sn_shape as (H & _ & L1 & L2 & Lc & _). destruct (script_numbers s p W E) as (ts & Lt & D). pose proof (sef_cols p H Hs) as C. unfold cols, rows in C. rewrite C, Lc. unfold standard_columns. f_equal; [f_equal|].
    - assert (N1 : NoDup (lfree p)) by apply strict_NoDup, (wf_free _ H). assert (N2 : NoDup (filter (fun k => negb (has_sign s k)) (seq 0 (variables s)))) by (apply NoDup_filter, seq_NoDup).
      apply Nat.le_antisymm; apply NoDup_incl_length; auto; intros k Hk.
      + assert (Lk : k < variables s) by (apply (wf_free_lt _ H) in Hk; unfold cols in Hk; lia). apply filter_In. split; [apply in_seq; lia|]. apply negb_true_iff. now apply sn_free.
      + apply filter_In in Hk. destruct Hk as (Hk & Ek). apply in_seq in Hk. apply negb_true_iff in Ek. apply sn_free; auto. lia.
    - rewrite L1. set (m := length (s_rows s)) in *. assert (G : forall i, i < m -> has (lineq p) i = negb (equation_row (nth i (s_rows s) row0))).
      { intros i Hi. destruct (D i Hi) as (_ & _ & _ & Q). unfold inequalities in Q. rewrite LinearProofs.nth_map_seq in Q by lia. unfold has, dmem. destruct (dget Nat.eqb i (lineq p)) as [o|] eqn:Eo; destruct (equation_row _) eqn:Er; auto; exfalso.
        - apply (dget_In _ eqb_reflect), (wf_ineq _ H) in Eo. destruct Q as (_ & Q). specialize (Q eq_refl). destruct Eo as (_ & [->| ->]); discriminate Q.
        - destruct Q as (Q & _). specialize (Q eq_refl). discriminate Q. }
      transitivity (length (filter (fun i => negb (equation_row (nth i (s_rows s) row0))) (seq 0 m))).
      + f_equal. apply filter_ext_in. intros i Hi. apply in_seq in Hi. apply G. lia.
      + unfold m. clear. induction (s_rows s) as [|r l IH]; [reflexivity|]. cbn [length seq filter]. rewrite <- seq_shift. rewrite filter_map_comm. cbn [nth]. destruct (negb (equation_row r)); cbn [length]; rewrite map_length; auto.
  Qed.
End OneScript.
