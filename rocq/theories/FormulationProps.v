(** C47-C49: expressions, comparisons, formulations. *)
From Coq Require Import String List Bool Arith ZArith QArith Qcanon Lia.
From Verif Require Import Py QcTac QSum QInt MatModel LinearModel LinearSpec LinearInv LinearProps FormulationModel FormulationSpec FormulationProofs.
Import ListNotations.
Open Scope nat_scope.
Open Scope string_scope.
Open Scope list_scope.

(** * C47 *)
(** Evaluation of a linear expression that uses every stored expression at most once succeeds; the
    coefficients of the result are those of ordinary arithmetic; and the whole value is the one of
    ordinary arithmetic if numbers are added only at the outside.  No other stored expression
    changes.  What is missing for C47: the constant (see [C47_constant] for what it is), and the
    stored expressions that are used, which do change. *)
Theorem C47_arithmetic_partial e h : linear e -> single_use h e -> exists h' v, eval e h = (h', Ok v) /\
  (forall a, (val_value h' v a - val_value h' v zero = value_of h e a - value_of h e zero)%Qc) /\
  (plain h e -> forall a, val_value h' v a = value_of h e a) /\
  (forall l, l < length h -> ~ In l (uses e) -> get h' l = get h l).
Proof.
  intros Hl Hs. destruct (eval_outcome e Hl h Hs) as (h' & v & E & O1 & O2 & O3 & O4 & O5). exists h', v. split; auto.
  assert (Z : forall a, val_value h' v a = (lin h e a + kept h e)%Qc) by (intros a; now rewrite val_parts, O4, O5).
  assert (L0 : lin h e zero = 0%Qc). { pose proof (value_lin h e zero Hl) as V. clear - V. qclra. }
  split; [|split; auto].
  - intros a. rewrite !Z, (value_lin h e a Hl), L0. ring.
  - intros Hp a. rewrite Z, (value_lin h e a Hl), (plain_kept h e Hl Hp). reflexivity.
Qed.
Print Assumptions C47_arithmetic_partial.
Theorem C47_constant e h h' v : linear e -> single_use h e -> eval e h = (h', Ok v) -> val_value h' v zero = kept h e.
Proof.
  intros Hl Hs Hv. destruct (eval_outcome e Hl h Hs) as (h1 & v1 & E & O1 & O2 & O3 & O4 & O5). rewrite E in Hv. injection Hv as <- <-.
  rewrite val_parts, O4, O5. pose proof (value_lin h e zero Hl) as V. clear - V. qclra.
Qed.
Print Assumptions C47_constant.
(** every operation changes at most its operands; Variables are immutable *)
Theorem C47_only_operands_change o h l : l < length h -> ~ In (VEq l) (operands o) -> get (fst (apply o h)) l = get h l.
Proof. apply apply_frame. Qed.
Print Assumptions C47_only_operands_change.
(** an index below 1 is refused *)
Theorem C47_bad_index h i : (i <= 0)%Z -> item h i = (h, Raise ValueError).
Proof. intros H. unfold item. apply Z.leb_le in H. now rewrite H. Qed.
Print Assumptions C47_bad_index.
Definition differs (h : heap) (e : expr) : Prop := linear e /\ single_use h e /\ exists h' v a, eval e h = (h', Ok v) /\ val_value h' v a <> value_of h e a.
Lemma no_uses h e : uses e = [] -> single_use h e.
Proof. intros E. unfold single_use. rewrite E. split; [constructor|contradiction]. Qed.
(** -(x[1] + 3), 2 * (x[1] + 3) and x[1] + (x[2] + 3): the constant is kept, not scaled, or lost *)
Theorem C47_constant_refuted :
  differs [] (Neg (Add (Item 1) (Num (qz 3)))) /\ differs [] (Mul (Num (qz 2)) (Add (Item 1) (Num (qz 3)))) /\ differs [] (Add (Item 1) (Add (Item 2) (Num (qz 3)))).
Proof.
  split; [|split]; (split; [cbn; repeat split; try lia; auto|split; [now apply no_uses|]]); eexists _, _, zero; (split; [reflexivity|]); cbn; intros K; apply (f_equal this) in K; vm_compute in K; discriminate K.
Qed.
Print Assumptions C47_constant_refuted.
(** a = x[1]; b = a + x[2] changes a; a - a is -2a *)
Theorem C47_sharing_refuted : exists h, reachable_heap h /\ length h = 1 /\
  (exists h' v a, eval (Add (Use 0) (Item 2)) h = (h', Ok v) /\ val_value h' (VEq 0) a <> val_value h (VEq 0) a) /\
  (exists h' v a, eval (Sub (Use 0) (Use 0)) h = (h', Ok v) /\ val_value h' v a <> value_of h (Sub (Use 0) (Use 0)) a).
Proof.
  exists [of_variable 0 1%Qc]. split; [apply (rh_op [] (OItem 1) rh_nil); cbn; contradiction|]. split; [reflexivity|]. split; eexists _, _, (fun _ => 1%Qc); (split; [reflexivity|]); intros K; apply (f_equal this) in K; vm_compute in K; discriminate K.
Qed.
Print Assumptions C47_sharing_refuted.
Example C47_example : let e := Sub (Add (Mul (Num (qz 3)) (Item 1)) (Mul (Neg (Item 4)) (Num (qz 2)))) (Num (qz 7)) in
  linear e /\ single_use [] e /\ plain [] e /\ exists h v, eval e [] = (h, Ok v) /\ forall a, val_value h v a = (qz 3 * a 0%nat - qz 2 * a 3%nat - qz 7)%Qc.
Proof.
  intros e. assert (L : linear e) by (cbn; intuition lia). assert (S : single_use [] e) by now apply no_uses.
  assert (P : plain [] e) by (right; right; left; split; [right; left; cbn; tauto|left; reflexivity]).
  split; auto. split; auto. split; auto. destruct (C47_arithmetic_partial e [] L S) as (h & v & E & _ & V & _). exists h, v. split; auto. intros a. rewrite (V P a). cbn [value_of e].
  change (Z.to_nat (1 - 1)) with 0. change (Z.to_nat (4 - 1)) with 3. ring.
Qed.

(** * C48 *)
(** A comparison with an expression or variable on the left and a number or expression on the right,
    or a number on the left, gives a constraint satisfied by exactly the assignments that satisfy the
    comparison.  Missing for C48: a Variable on the right of an expression (refuted below). *)
Theorem C48_equivalent_partial h c a b : reachable_heap h -> valid h a -> valid h b ->
  (is_expression a /\ ((exists q, b = VNum q) \/ (exists l, b = VEq l))) \/ ((exists q, a = VNum q) /\ is_expression b) ->
  exists r, compare h c a b = Ok r /\ forall s, satisfied r s <-> compared c (val_value h a s) (val_value h b s).
Proof. intros H. apply compare_total. now apply reachable_good. Qed.
Print Assumptions C48_equivalent_partial.
(** whatever is returned for two values of which one is symbolic is equivalent to the comparison *)
Theorem C48_sound h c a b r : reachable_heap h -> valid h a -> valid h b -> compare h c a b = Ok r ->
  (exists x, r = Truth x) \/ forall s, satisfied r s <-> compared c (val_value h a s) (val_value h b s).
Proof. intros H. apply compare_spec. now apply reachable_good. Qed.
Print Assumptions C48_sound.
Theorem C48_numbers h c q r : exists x, compare h c (VNum q) (VNum r) = Ok (Truth x) /\ (x = true <-> compared c q r).
Proof.
  eexists. split; [reflexivity|]. destruct c; cbn; try apply Qle_bool_iff. split; [apply Qc_eq_bool_correct|]. intros ->. unfold Qc_eq_bool. destruct (Qc_eq_dec r r); auto.
Qed.
Print Assumptions C48_numbers.
(** [x[1] + ... <= y] and [y1 <= y2] with a Variable on the right raise *)
Theorem C48_variable_right_refuted h c a k : is_expression a -> compare h c a (VVar k) = Raise AttributeError.
Proof. destruct a; cbn; try contradiction; auto. intros _. destruct c; reflexivity. Qed.
Print Assumptions C48_variable_right_refuted.
(** the class [x] itself: all variables *)
Theorem C48_all c q : (q = 0%Qc -> c <> Eq_ -> exists r, compare_all c q = Ok r /\ forall s, satisfied r s <-> forall j, compared c (s j) 0%Qc) /\
  (q <> 0%Qc -> c <> Eq_ -> compare_all c q = Raise ValueError).
Proof.
  assert (E : Qc_eq_bool q 0 = true <-> q = 0%Qc) by (split; [apply Qc_eq_bool_correct|intros ->; reflexivity]). split.
  - intros H Hc. unfold compare_all. apply E in H. rewrite H. cbn [negb]. destruct c; [| |congruence]; (eexists; split; [reflexivity|]); intros s; cbn; split; auto; intros K; [intros j; now apply (proj2 K)|split; [contradiction|auto]|intros j; now apply (proj1 K)|split; [auto|contradiction]].
  - intros H Hc. unfold compare_all. destruct (Qc_eq_bool q 0) eqn:K; [destruct H; now apply E|]. destruct c; auto. congruence.
Qed.
Print Assumptions C48_all.
Example C48_example : exists h a b r, eval (Add (Item 1) (Mul (Num (qz 2)) (Item 3))) [] = (h, Ok a) /\ (exists h2, eval (Add (Item 2) (Num (qz 5))) h = (h2, Ok b) /\ reachable_heap h2 /\ valid h2 a /\ valid h2 b /\
  compare h2 Le a b = Ok r /\ forall s, satisfied r s <-> (s 0%nat + qz 2 * s 2%nat <= s 1%nat + qz 5)%Qc).
Proof.
  set (h1 := [of_variable 0 1%Qc]). set (h2 := h1 ++ [of_variable 2 1%Qc]).
  assert (R1 : reachable_heap h1) by (apply (rh_op [] (OItem 1) rh_nil); cbn; contradiction).
  assert (R2 : reachable_heap h2) by (apply (rh_op h1 (OItem 3) R1); cbn; contradiction).
  assert (R3 : reachable_heap (fst (vmul h2 (VNum (qz 2)) (VEq 1)))) by (apply (rh_op h2 (OMul (VNum (qz 2)) (VEq 1)) R2); cbn; intuition subst; cbn; auto).
  set (h3 := fst (vmul h2 (VNum (qz 2)) (VEq 1))) in *.
  assert (R4 : reachable_heap (fst (vadd_ h3 (VEq 0) (VEq 1)))) by (apply (rh_op h3 (OAdd (VEq 0) (VEq 1)) R3); cbn; intuition subst; cbn; auto).
  set (h4 := fst (vadd_ h3 (VEq 0) (VEq 1))) in *.
  assert (R5 : reachable_heap (fst (item h4 2))) by (apply (rh_op h4 (OItem 2) R4); cbn; contradiction).
  set (h5 := fst (item h4 2)) in *.
  assert (R6 : reachable_heap (fst (vadd_ h5 (VEq 2) (VNum (qz 5))))) by (apply (rh_op h5 (OAdd (VEq 2) (VNum (qz 5))) R5); cbn; intuition subst; cbn; auto).
  set (h6 := fst (vadd_ h5 (VEq 2) (VNum (qz 5)))) in *.
  destruct (C48_equivalent_partial h6 Le (VEq 0) (VEq 2) R6) as (r & E & S); [cbn; auto|cbn; auto|left; split; [exact I|eauto]|].
  exists h4, (VEq 0), (VEq 2), r. split; [reflexivity|]. exists h6. split; [reflexivity|]. split; auto. split; [cbn; auto|]. split; [cbn; auto|]. split; auto. intros s. rewrite S. cbn [compared].
  match goal with |- (?x <= ?y)%Qc <-> _ => assert (X : x = (s 0%nat + qz 2 * s 2%nat)%Qc); [|assert (Y : y = (s 1%nat + qz 5)%Qc)] end.
  - cbn [val_value]. change (get h6 0) with (mkequation [(0, 1%Qc); (2, (0 + 1 * qz 2)%Qc)] 0%Qc). unfold equation_value. unfold Sigma, qtot. cbn [eterms econstant map fold_right fst snd]. ring.
  - cbn [val_value]. change (get h6 2) with (mkequation [(1, 1%Qc)] (0 + qz 5)%Qc). unfold equation_value. unfold Sigma, qtot. cbn [eterms econstant map fold_right fst snd]. ring.
  - rewrite X, Y. reflexivity.
Qed.

(** * C49 *)
(** the program compiled after a history of successful calls *)
Lemma compiled f0 calls f p o cs : subject_to o cs = Ok f0 -> history f0 calls f -> compile f = Ok p ->
  lz p = oz o /\ lobj p = okind o /\ length (lc p) = width cs /\ (forall a, row_value (lc p) a = orow (oc o) a) /\
  forall x, feasible (meaning p) x <-> length x = width cs /\ (forall c, In c cs -> satisfied c (point x)) /\ (forall c, In c (signs_of calls) -> satisfied_below (width cs) c (point x)).
Proof.
  intros Hs Hh Hp. destruct (subject_to_spec o cs f0 Hs) as (S1 & S2 & S3 & S4 & S5 & S6 & S7 & S8 & S9 & S10 & S11 & S12 & S13).
  destruct (history_spec f0 calls f Hh []) as (B & T & (Q1 & Q2) & _).
  { now apply fresh_tracked. }
  { split; rewrite ?S6, ?S7; [constructor|contradiction]. }
  { intros _ q K. congruence. }
  cbn [app] in T. destruct B as [B1 B2 B3 B4 B5 B6], T as [T1 T2 T3]. unfold compile in Hp. fold (free_of f) in Hp.
  destruct (C28_reads_back (length (fc f)) (fA f) (fb f) (fc f) (Nd (Mat (length (fc f)) (fA f))) (Nd (Vec (fb f))) (Nd (Vec (fc f))) _ _ _ _ _ p eq_refl eq_refl eq_refl Hp) as (R1 & R2 & R3 & R4 & R5 & R6 & (_ & R7) & (_ & R8) & _ & _). cbn [opt_list] in R6, R7, R8.
  rewrite B3 in *. rewrite S2 in *. split; [congruence|]. split; [congruence|]. split; [congruence|]. split; [intros a; rewrite R3; apply S5|].
  assert (Sg : forall j, j < width cs -> forall y, signed (sign_of (free_variables p) (negative_variables p) j) y <-> (given (signs_of calls) true j -> 0 <= y)%Qc /\ (given (signs_of calls) false j -> y <= 0)%Qc).
  { intros j Hj y. rewrite <- T1, <- T2 by auto. unfold sign_of.
    destruct (existsb (Z.eqb (Z.of_nat (S j))) (free_variables p)) eqn:E1.
    - apply existsb_Z, R7, free_of_spec in E1. cbn [signed]. tauto.
    - assert (N1 : ~ (~ In (Z.of_nat (S j)) (fneg f) /\ ~ In (Z.of_nat (S j)) (fpos f))).
      { intros K. assert (E : In (Z.of_nat (S j)) (free_variables p)); [|apply existsb_Z in E; congruence]. apply R7, free_of_spec. rewrite B3, S2. split; [lia|exact K]. }
      destruct (existsb (Z.eqb (Z.of_nat (S j))) (negative_variables p)) eqn:E2; cbn [signed].
      + apply existsb_Z, R8 in E2. split; [|tauto]. intros K. split; auto. intros K2. exfalso. exact (Q2 _ K2 E2).
      + assert (N2 : ~ In (Z.of_nat (S j)) (fneg f)). { intros K. apply R8, existsb_Z in K. congruence. }
        destruct (in_dec Z.eq_dec (Z.of_nat (S j)) (fpos f)) as [K|K]; [|tauto]. tauto. }
  intros x. unfold feasible, meaning. cbn [costs rhs relations coefficients LinearSpec.coefficients signs]. rewrite R1, R2, R3, R6, ?B1, ?B2, ?B3, ?B6, ?S10, ?S2.
  assert (Rows : length x = width cs -> ((forall i, i < length cs -> related (nth i (map relation_of (fineq f0)) Equal) (inner (nth i (fA f0) []) x) (nth i (fb f0) 0%Qc)) <-> (forall c, In c cs -> satisfied c (point x)))).
  { intros Lx. assert (Row : forall i, i < length cs -> (related (nth i (map relation_of (fineq f0)) Equal) (inner (nth i (fA f0) []) x) (nth i (fb f0) 0%Qc) <-> satisfied (nth i cs (Truth true)) (point x))).
    { intros i Hi. destruct (S13 i Hi) as (v & Ev & Rv). rewrite Ev. cbn [satisfied]. rewrite <- Rv, inner_row.
      - rewrite (nth_map_any relation_of (fineq f0) "=" Equal i) by lia. reflexivity.
      - rewrite Lx. rewrite Forall_forall in S12. apply S12. apply nth_In. lia. }
    split.
    - intros H c Hc. apply In_nth with (d := Truth true) in Hc. destruct Hc as (i & Hi & <-). apply Row; auto.
    - intros H i Hi. apply Row; auto. apply H. now apply nth_In. }
  split.
  - intros (L & H1 & H2). split; auto. split; [now apply Rows|]. intros c Hc. destruct (T3 c Hc) as (pos & neg & ->). cbn [satisfied_below].
    assert (H3 : forall j, j < width cs -> (given (signs_of calls) true j -> 0 <= nth j x 0)%Qc /\ (given (signs_of calls) false j -> nth j x 0 <= 0)%Qc).
    { intros j Hj. apply Sg; auto. specialize (H2 j Hj). rewrite (nth_map_any _ _ 0 Nonnegative) in H2 by (now rewrite seq_length). rewrite seq_nth in H2 by auto. exact H2. }
    split; intros j Hj Hn; apply (H3 j Hj); exists pos, neg; auto.
  - intros (L & H1 & H2). split; auto. split; [now apply Rows|]. intros j Hj. rewrite (nth_map_any _ _ 0 Nonnegative) by (now rewrite seq_length). rewrite seq_nth by auto. apply Sg; auto.
    split; intros (pos & neg & Hi & Hn); specialize (H2 _ Hi); cbn [satisfied_below] in H2; [now apply (proj1 H2)|now apply (proj2 H2)].
Qed.
(** [minimize(e)] or [maximize(e)] *)
Lemma optimise_spec kind h a o : reachable_heap h -> valid h a -> optimise kind h a = Ok o -> okind o = kind /\ forall s, (orow (oc o) s + oz o = val_value h a s)%Qc.
Proof.
  intros Hh Ha. destruct a as [q|k|l|]; cbn [optimise]; intros E; try discriminate E; injection E as <-; cbn [okind oc oz orow val_value]; split; auto; intros s.
  - ring.
  - destruct (coefficients_good (get h l) (reachable_good h Hh l Ha)) as (v & -> & _ & R). cbn [orow]. rewrite R. reflexivity.
Qed.

(** The program compiled after any history of successful calls stands for the problem the user
    described: the objective, all constraints, all sign constraints (variables that are not mentioned
    are free). *)
Theorem C49_compiles kind h a o cs f0 calls f f' p : reachable_heap h -> valid h a -> optimise kind h a = Ok o ->
  subject_to o cs = Ok f0 -> history f0 calls f -> program f = (f', Ok p) ->
  (maximise (meaning p) = true <-> kind = "max") /\
  (forall x, length x = width cs -> value (meaning p) x = val_value h a (point x)) /\
  (forall x, feasible (meaning p) x <->
     length x = width cs /\ (forall c, In c cs -> satisfied c (point x)) /\ (forall c, In c (signs_of calls) -> satisfied_below (width cs) c (point x))).
Proof.
  intros Hh Ha Ho Hs Hhist Hp. destruct (optimise_spec kind h a o Hh Ha Ho) as (K & V).
  assert (C : compile f = Ok p).
  { destruct (subject_to_spec o cs f0 Hs) as (S1 & S2 & S3 & S4 & S5 & S6 & S7 & S8 & _).
    destruct (history_spec f0 calls f Hhist []) as (_ & _ & _ & Hc).
    { now apply fresh_tracked. }
    { split; rewrite ?S6, ?S7; [constructor|contradiction]. }
    { intros _ q E. congruence. }
    now destruct (program_spec f f' p Hp Hc) as (_ & _ & _ & _ & E). }
  destruct (compiled f0 calls f p o cs Hs Hhist C) as (Z1 & Z2 & Z3 & Z4 & Z5). split; [|split; auto].
  - cbn [maximise meaning]. rewrite Z2, K. apply String.eqb_eq.
  - intros x Hx. unfold value. cbn [costs constant meaning]. rewrite inner_row by congruence. rewrite Z4, Z1. apply V.
Qed.
Print Assumptions C49_compiles.

Definition well_formed (c : constraint) : Prop := exists v s q, c = Linear v s q /\ (s = "=" \/ s = "<=" \/ s = ">=").
(** all constraints that comparisons of expressions give are well formed *)
Theorem C49_comparisons_well_formed h c a b v s q : compare h c a b = Ok (Linear v s q) -> well_formed (Linear v s q).
Proof.
  intros H. exists v, s, q. split; auto. assert (G : forall e d b', generate_with h e (symbol d) b' = Ok (Linear v s q) -> s = symbol d).
  { intros e d b' E. destruct b'; cbn [generate_with] in E; try discriminate E; unfold generate in E; destruct (broadcast_subtract _ _) as [[w|]| |]; cbn [bind] in E; try discriminate E; now injection E. }
  assert (W : forall d, symbol d = "=" \/ symbol d = "<=" \/ symbol d = ">=") by (intros []; auto).
  assert (V : forall d k b', compare_variable h d k b' = Ok (Linear v s q) -> s = symbol d).
  { intros d k b' E. destruct d, b' as [r|j|m|]; cbn [compare_variable symbol] in E |- *; try (exact (G _ Le _ E)); try (exact (G _ Ge _ E)); try (exact (G _ Eq_ _ E)); destruct (Qc_eq_bool r 0); try discriminate E; [exact (G _ Le _ E)|exact (G _ Ge _ E)]. }
  destruct a as [r|k|l|], b as [r'|k'|l'|]; cbn [compare] in H; try discriminate H;
    try (apply G in H; rewrite H; apply W); try (apply V in H; rewrite H; apply W); destruct c; discriminate H.
Qed.
Print Assumptions C49_comparisons_well_formed.
(** [subject_to] accepts one or more linear constraints that mention every variable of the objective *)
Theorem C49_accepts o cs : cs <> [] -> (forall c, In c cs -> well_formed c) -> (forall v, oc o = Some v -> length v <= width cs) -> exists f, subject_to o cs = Ok f.
Proof. intros H1 H2 H3. apply subject_to_total; auto. intros c Hc. destruct (H2 c Hc) as (v & s & q & -> & _). eauto. Qed.
Print Assumptions C49_accepts.
(** and the program can then be read if the variables declared negative exist *)
Theorem C49_program_total o cs f0 calls f : okind o = "min" \/ okind o = "max" -> subject_to o cs = Ok f0 -> (forall c, In c cs -> well_formed c) -> history f0 calls f ->
  (forall i, In i (listed (width cs) false (signs_of calls)) -> (1 <= i <= Z.of_nat (width cs))%Z) -> exists f' p, program f = (f', Ok p).
Proof.
  intros Hk Hs Hw Hh Hn. destruct (subject_to_spec o cs f0 Hs) as (S1 & S2 & S3 & S4 & S5 & S6 & S7 & S8 & S9 & S10 & S11 & S12 & S13).
  destruct (history_spec f0 calls f Hh []) as (B & T & (Q1 & Q2) & Hc).
  { now apply fresh_tracked. }
  { split; rewrite ?S6, ?S7; [constructor|contradiction]. }
  { intros _ q K. congruence. }
  destruct B as [B1 B2 B3 B4 B5 B6].
  assert (C : exists p, compile f = Ok p).
  { unfold compile. fold (free_of f). destruct (C28_accepts_exactly (length (fc f)) (fA f) (fb f) (fc f) (Nd (Mat (length (fc f)) (fA f))) (Nd (Vec (fb f))) (Nd (Vec (fc f))) (fz f) (fkind f) (Some (fineq f)) (Some (free_of f)) (Some (fneg f)) eq_refl eq_refl eq_refl) as (K & _). apply K.
    split; [rewrite B1, B2; lia|]. split; auto. split; [rewrite B5, S4; tauto|]. split; [split; [rewrite B1, B6; lia|]|].
    - intros s Hsn. rewrite B6 in Hsn. apply In_nth with (d := "=") in Hsn. destruct Hsn as (i & Hi & <-). rewrite S11 in Hi. destruct (S13 i Hi) as (v & Ev & _). destruct (Hw (nth i cs (Truth true))) as (v' & s' & q' & E' & K'); [now apply nth_In|]. rewrite Ev in E'. injection E' as _ <- _. exact K'.
    - cbn [opt_list]. split; [|split].
      + split; [unfold free_of; apply NoDup_filter, FinFun.Injective_map_NoDup; [intros u w; lia|apply seq_NoDup]|]. intros i Hi. apply free_of_spec in Hi. tauto.
      + split; auto. intros i Hi. rewrite B3, S2. apply Hn. destruct (history_listed f0 calls f Hh) as (_ & _ & L). rewrite L, S6, S2 in Hi. exact Hi.
      + intros i Hi. apply free_of_spec in Hi. tauto. }
  destruct C as (p & C). unfold program. destruct (fprogram f) as [p'|]; [destruct (frecompile f)|]; rewrite ?C; eauto.
Qed.
Print Assumptions C49_program_total.
(** [where] refuses sign constraints exactly when, together with those given before, they name a
    variable twice with the same sign or with both signs *)
Definition consistent (n : nat) (cs : list constraint) : Prop :=
  NoDup (listed n true cs) /\ NoDup (listed n false cs) /\ forall i, In i (listed n true cs) -> ~ In i (listed n false cs).
Theorem C49_where_refuses o cs f0 calls f vs : subject_to o cs = Ok f0 -> history f0 calls f -> (forall c, In c vs -> exists p n, c = Signs p n) ->
  (consistent (width cs) (signs_of calls ++ vs) -> exists f', where_ f vs = (f', Ok tt)) /\
  (~ consistent (width cs) (signs_of calls ++ vs) -> exists f', where_ f vs = (f', Raise ValueError)).
Proof.
  intros Hs Hh Hv. destruct (subject_to_spec o cs f0 Hs) as (S1 & S2 & S3 & S4 & S5 & S6 & S7 & S8 & _). destruct (history_listed f0 calls f Hh) as (L1 & L2 & L3).
  destruct (add_all_total vs Hv f) as (g & Eg). destruct (add_all_listed vs f g Eg) as (G1 & G2 & G3). rewrite L1, S2 in *. rewrite L2, S7 in G2. rewrite L3, S6 in G3. cbn [app] in G2, G3.
  unfold consistent. rewrite !listed_app, <- G2, <- G3. unfold where_. rewrite Eg. destruct (nodupbz (fpos g)) eqn:N1; cbn [negb orb].
  - destruct (nodupbz (fneg g)) eqn:N2; cbn [negb].
    + destruct (existsb (fun i => existsb (Z.eqb i) (fneg g)) (fpos g)) eqn:X.
      * split; [|eauto]. intros (_ & _ & K). apply existsb_exists in X. destruct X as (i & Hi & X). apply existsb_Z in X. destruct (K i Hi X).
      * split; [eauto|]. intros K. destruct K. split; [now apply nodupbz_NoDup|]. split; [now apply nodupbz_NoDup|]. intros i Hi Hj. assert (existsb (fun i => existsb (Z.eqb i) (fneg g)) (fpos g) = true); [|congruence]. apply existsb_exists. exists i. split; auto. now apply existsb_Z.
    + split; [|eauto]. intros (_ & K & _). apply nodupbz_NoDup in K. congruence.
  - split; [|eauto]. intros (K & _). apply nodupbz_NoDup in K. congruence.
Qed.
Print Assumptions C49_where_refuses.
(** [whereAllPositive], [whereAllNegative]: only when no variable has a sign yet *)
Theorem C49_where_all o cs f0 calls f b : subject_to o cs = Ok f0 -> history f0 calls f ->
  (listed (width cs) true (signs_of calls) = [] /\ listed (width cs) false (signs_of calls) = [] -> exists f', where_all b f = (f', Ok tt)) /\
  (~ (listed (width cs) true (signs_of calls) = [] /\ listed (width cs) false (signs_of calls) = []) -> where_all b f = (f, Raise ValueError)).
Proof.
  intros Hs Hh. destruct (subject_to_spec o cs f0 Hs) as (S1 & S2 & S3 & S4 & S5 & S6 & S7 & S8 & _). destruct (history_listed f0 calls f Hh) as (L1 & L2 & L3).
  rewrite S2, S6, S7 in *. cbn [app] in *. rewrite <- L2, <- L3. unfold where_all. destruct (Nat.ltb_spec 0 (length (fneg f) + length (fpos f))) as [K|K].
  - split; auto. intros (E1 & E2). rewrite E1, E2 in K. cbn in K. lia.
  - split; [eauto|]. intros N. destruct N. destruct (fpos f), (fneg f); cbn in K; try lia. auto.
Qed.
Print Assumptions C49_where_all.

(** What is missing for C49 *)
(** a failing [where] changes the formulation: the same call then keeps failing, and so does every
    later one *)
Theorem C49_failed_where_refuted : exists o cs f0 f1, subject_to o cs = Ok f0 /\ where_ f0 [Signs (Some [1%Z]) (Some [1%Z])] = (f1, Raise ValueError) /\ f1 <> f0 /\
  forall vs, (forall c, In c vs -> exists p n, c = Signs p n) -> exists f2, where_ f1 vs = (f2, Raise ValueError).
Proof.
  exists (mkobjective None 0%Qc "min"), [Linear [1%Qc] "<=" 1%Qc]. eexists _, _. split; [reflexivity|]. split; [reflexivity|]. split; [discriminate|].
  intros vs Hv. unfold where_. match goal with |- context [add_all_signs ?f vs] => destruct (add_all_total vs Hv f) as (g & Eg); destruct (add_all_listed vs f g Eg) as (_ & G2 & G3) end. rewrite Eg. cbn [fpos fneg] in G2, G3.
  destruct (negb (nodupbz (fpos g)) || negb (nodupbz (fneg g))); [eauto|]. rewrite G2, G3. cbn. eauto.
Qed.
Print Assumptions C49_failed_where_refuted.
(** an objective with a variable beyond those of the constraints is refused *)
Theorem C49_objective_variables_refuted o cs : cs <> [] -> (forall c, In c cs -> well_formed c) -> (exists v, oc o = Some v /\ width cs < length v) -> subject_to o cs = Raise ValueError.
Proof.
  intros H1 H2 (v & Ev & Hv). destruct (C49_accepts (mkobjective None 0%Qc "min") cs H1 H2) as (f & Hf); [discriminate|]. unfold subject_to in *. destruct (linear_parts cs) as [l| |] eqn:El; try discriminate Hf. cbn [bind] in *. destruct l as [|t l0] eqn:E; [discriminate|].
  destruct (pad_all _ _) as [A| |]; try discriminate Hf. cbn [bind] in *. rewrite Ev. unfold pad_right. apply linear_parts_spec in El.
  assert (W : list_max (map (fun vsq : list Qc * string * Qc => length (fst (fst vsq))) (t :: l0)) = width cs) by (unfold width; rewrite El, map_map; reflexivity). rewrite W. destruct (Nat.ltb_spec (width cs) (length v)); [reflexivity|lia].
Qed.
Print Assumptions C49_objective_variables_refuted.
(** a single variable is no objective; a sign constraint is no constraint; [x[1] >= 0] is no sign
    constraint *)
Theorem C49_variables_refuted kind h k o cs pos neg : optimise kind h (VVar k) = Raise AttributeError /\ subject_to o (Signs pos neg :: cs) = Raise AttributeError /\
  (forall f v s q, where_ f [Linear v s q] = (f, Raise AttributeError)) /\
  exists h1 v, item [] 1 = (h1, Ok v) /\ exists r, compare h1 Ge v (VNum 0%Qc) = Ok r /\ forall f, where_ f [r] = (f, Raise AttributeError).
Proof.
  split; [reflexivity|]. split; [reflexivity|]. split; [reflexivity|]. eexists _, _. split; [reflexivity|]. eexists. split; reflexivity.
Qed.
Print Assumptions C49_variables_refuted.

(** maximise x[1] + 2 x[2] + 1 subject to x[1] + x[2] <= 4, x[1] - x[2] = 1 where y1 >= 0, y2 <= 0 *)
Example C49_example : let o := mkobjective (Some [1%Qc; qz 2]) 1%Qc "max" in let cs := [Linear [1%Qc; 1%Qc] "<=" (qz 4); Linear [1%Qc; (- (1))%Qc] "=" 1%Qc] in
  let calls := [Where [Signs (Some [1%Z]) None]; Program; Where [Signs None (Some [2%Z])]] in
  exists f0 f f' p, subject_to o cs = Ok f0 /\ history f0 calls f /\ program f = (f', Ok p) /\ consistent (width cs) (signs_of calls) /\
  (forall c, In c cs -> well_formed c) /\ feasible (meaning p) [1%Qc; 0%Qc] /\ ~ feasible (meaning p) [qz 2; 1%Qc].
Proof.
  intros o cs calls. destruct (C49_accepts o cs) as (f0 & Hf); [discriminate| |intros v E; injection E as <-; cbn; lia|].
  { intros c [<-|[<-|[]]]; eexists _, _, _; split; auto. }
  assert (Hw : forall c, In c cs -> well_formed c) by (intros c [<-|[<-|[]]]; eexists _, _, _; split; auto).
  assert (Hc : consistent (width cs) (signs_of calls)) by (split; [|split]; cbn; [repeat constructor; auto|repeat constructor; auto|intros i [<-|[]] [K|[]]; discriminate K]).
  destruct (C49_where_refuses o cs f0 [] f0 [Signs (Some [1%Z]) None] Hf (h_nil _)) as (W1 & _); [intros c [<-|[]]; eauto|].
  destruct W1 as (f1 & W1); [split; [|split]; cbn; [repeat constructor; auto|constructor|auto]|].
  assert (H1 : history f0 [Where [Signs (Some [1%Z]) None]] f1) by (eapply h_step; [exact W1|apply h_nil]).
  destruct (C49_program_total o cs f0 _ f1 (or_intror eq_refl) Hf Hw H1) as (f2 & p & P); [cbn; contradiction|].
  assert (H2 : history f0 [Where [Signs (Some [1%Z]) None]; Program] f2) by (eapply h_step; [exact W1|]; eapply h_step; [cbn [perform]; rewrite P; reflexivity|apply h_nil]).
  destruct (C49_where_refuses o cs f0 _ f2 [Signs None (Some [2%Z])] Hf H2) as (W3 & _); [intros c [<-|[]]; eauto|]. destruct (W3 Hc) as (f3 & W3').
  assert (H3 : history f0 calls f3) by (eapply h_step; [exact W1|]; eapply h_step; [cbn [perform]; rewrite P; reflexivity|]; eapply h_step; [exact W3'|apply h_nil]).
  destruct (C49_program_total o cs f0 _ f3 (or_intror eq_refl) Hf Hw H3) as (f4 & p' & P'); [cbn; intuition lia|].
  exists f0, f3, f4, p'. split; auto. split; auto. split; auto. split; auto. split; auto.
  assert (C : compile f3 = Ok p').
  { destruct (subject_to_spec o cs f0 Hf) as (S1 & S2 & S3 & S4 & S5 & S6 & S7 & S8 & _).
    destruct (history_spec f0 calls f3 H3 []) as (_ & _ & _ & Hcached); [now apply fresh_tracked|split; rewrite ?S6, ?S7; [constructor|contradiction]|intros _ q E; congruence|].
    now destruct (program_spec f3 f4 p' P' Hcached) as (_ & _ & _ & _ & E). }
  destruct (compiled f0 calls f3 p' o cs Hf H3 C) as (_ & _ & _ & _ & F). split.
  - apply F. split; [reflexivity|]. split.
    + intros c [<-|[<-|[]]]; cbn [satisfied]; [vm_compute; discriminate|apply Qc_is_canon; reflexivity].
    + intros c [<-|[<-|[]]]; split; intros [|[|j]] Hj Hn; cbn in Hn; try contradiction; try lia; vm_compute; discriminate.
  - intros K. apply F in K. destruct K as (_ & _ & K). destruct (K (Signs None (Some [2%Z]))) as (_ & K'); [cbn; auto|]. specialize (K' 1 ltac:(cbn; lia) ltac:(cbn; auto)). vm_compute in K'. now apply K'.
Qed.
