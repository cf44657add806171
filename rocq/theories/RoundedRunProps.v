(** Runs of simplex, two_phase_simplex and solve with rounding errors: they end, raise nothing new and agree with the exact methods. *)
From Coq Require Import String List Bool Arith ZArith QArith Qcanon Lia Sorted.
From Verif Require Import Py QcTac QSum QInt ComparatorModel ComparatorProofs MatModel DetTheory MatTheory LinearModel LinearSpec LinearProofs SefProofs LinearInv DualProofs BasisProofs BlandProofs SimplexProofs SmallProofs TwoPhaseProofs LinearProps SimplexProps TwoPhaseProps LoopProps RoundedModel RoundedSpec RoundedProofs RoundedExact RoundedProps RoundedSolveModel RoundedSolveSpec RoundedSolveProofs RoundedSolveProps RoundedRunModel RoundedRunSpec RoundedRunProofs RoundedRunTwo FloatModel DoubleSpec.
Import ListNotations.
Open Scope nat_scope.
Open Scope string_scope.
Open Scope list_scope.

Lemma steady_step e K p : wf p -> steady e K p -> (qz 16 * e * weight p * (1 + qz (Z.of_nat (rows p)) * qz K) * qz K < tol_zero)%Qc.
Proof.
  intros H [_ _ HK He T]. cbv zeta in T. unfold rows. set (m := qz (Z.of_nat (length (lA p)))) in *. set (k := qz K) in *.
  assert (m0 : (0 <= m)%Qc) by (unfold m; change 0%Qc with (qz 0); apply qz_le; lia). assert (k0 : (0 <= k)%Qc) by (unfold k; change 0%Qc with (qz 0); apply qz_le; lia).
  assert (G : (0 <= e * (1 + m * k) * k)%Qc). { apply qmul_nonneg; auto. apply qmul_nonneg; auto. assert (0 <= m * k)%Qc by now apply qmul_nonneg. set (u := (m * k)%Qc) in *. clear - H0. clearbody u. qclra. }
  replace (qz 16 * e * weight p * (1 + m * k) * k)%Qc with (qz 16 * (weight p * (e * (1 + m * k) * k)))%Qc by ring. replace (qz 16 * e * (weight p + qz 2 * m) * (1 + m * k) * k)%Qc with (qz 16 * (weight p * (e * (1 + m * k) * k) + qz 2 * (m * (e * (1 + m * k) * k))))%Qc in T by ring.
  assert (G2 : (0 <= m * (e * (1 + m * k) * k))%Qc) by now apply qmul_nonneg. fold tol_zero in T. set (u := (weight p * (e * (1 + m * k) * k))%Qc) in *. set (v := (m * (e * (1 + m * k) * k))%Qc) in *. clear - T G2. clearbody u v. unfold qz, inject_Z in *. qclra.
Qed.

(** * the simplex method *)
(** from a feasible basis every run ends, within as many iterations as there are sets of columns, with the verdict and the basis of the exact
    method and a point next to its point; no test goes wrong and nothing is raised *)
Theorem C83_simplex e K p Bz fuel : reachable p -> lsef p = true -> steady e K p -> is_basis p Bz = Ok true -> feasible_basis p Bz -> 2 ^ length (lc p) <= fuel ->
  let m := qz (Z.of_nat (length (lA p))) in
  exists r0, snd (simplex fuel p Bz) = Ok r0 /\ ~ simplex_hangs e p Bz /\
    forall n o, run_simplex e p Bz n o -> n <= 2 ^ length (lc p) /\ exists r, o = Ok r /\ same_verdict (qz 8 * e * (1 + m * qz K))%Qc r r0.
Proof.
  intros Hr Hs HS HB HF Hfuel m. pose proof (reachable_wf p Hr) as H. pose proof (steady_step e K p H HS) as HC. destruct HS as [H1 H2 H3 H4 H5].
  replace (qz 8 * e * (1 + m * qz K))%Qc with (qz 8 * (e * (1 + m * qz K)))%Qc by ring. exact (simplex_same e K p H H1 (minors_sub K p H H2) H3 H4 HC Bz fuel Hs HB HF Hfuel).
Qed.
Print Assumptions C83_simplex.
(** a basis that is_basis rejects exactly is rejected with errors, at once *)
Theorem C83_rejected e K p Bz n o : reachable p -> lsef p = true -> steady e K p -> is_basis p Bz = Ok false -> run_simplex e p Bz n o -> n = 1 /\ o = Raise ValueError.
Proof. intros Hr Hs HS EB R. pose proof (reachable_wf p Hr) as H. destruct (Nat.eq_dec (rows p) 0) as [Z|Z].
  - unfold is_basis in EB. rewrite Z in EB. destruct Bz as [|b Bz]; [discriminate EB|]. unfold run_simplex in R. rewrite Hs in R. cbn [negb] in R. destruct R as (oi & R & G).
    assert (Z' : rows (negate_rows p) = 0) by (now rewrite rows_neg). assert (S1 : forall it, run_iteration e (negate_rows p) (b :: Bz) it -> it = Raise ValueError).
    { intros it. unfold run_iteration. change (lsef (negate_rows p)) with (lsef p). rewrite Hs. cbn [negb]. intros (ok & Hok & E). unfold run_is_basis in Hok. rewrite Z' in Hok. cbn [length Nat.eqb negb] in Hok. subst ok. exact E. }
    inversion R as [Bz' oi' R1 R2|Bz' B' q' n' oi' R1 R2]; subst.
    + apply S1 in R1. subst oi. auto.
    + apply S1 in R1. discriminate.
  - apply (reject_same e K p H Hs HS ltac:(lia) _ (Nat.le_refl _) Bz n o EB R).
Qed.
Print Assumptions C83_rejected.

(** * two_phase_simplex *)
Theorem C83_two_phase e K p fuel : reachable p -> lsef p = true -> 0 < length (lA p) -> steady e K p -> 2 ^ (length (lc p) + length (lA p)) <= fuel ->
  let m := qz (Z.of_nat (length (lA p))) in
  ~ two_phase_hangs e p /\
  forall n o, run_two_phase e p n o -> n <= 2 ^ (length (lc p) + length (lA p)) + 2 ^ length (lc p) /\ same_result (qz 8 * e * (1 + m * qz K))%Qc o (snd (two_phase_simplex fuel p)).
Proof.
  intros Hr Hs Hm HS Hfuel m. pose proof (reachable_wf p Hr) as H. replace (qz 8 * e * (1 + m * qz K))%Qc with (qz 8 * (e * (1 + m * qz K)))%Qc by ring. exact (two_same e K p H Hs HS Hm fuel Hfuel).
Qed.
Print Assumptions C83_two_phase.
(** independent rows: every run returns, and the exact method returns *)
Theorem C83_independent e K p : reachable p -> lsef p = true -> 0 < length (lA p) -> full_row_rank p -> steady e K p -> ~ two_phase_hangs e p /\ forall n o, run_two_phase e p n o -> exists r, o = Ok r.
Proof.
  intros Hr Hs Hm HR HS. pose proof (reachable_wf p Hr) as H. destruct (C83_two_phase e K p _ Hr Hs Hm HS (Nat.le_refl _)) as (G1 & G2). split; auto. intros n o R. destruct (G2 n o R) as (_ & S).
  assert (Hap : small_data p) by (apply (small_p K); [apply HS|apply minors_sub; auto; apply HS|apply HS]). assert (Haa : small_data (aux p)).
  { apply (small_p K); [apply whole_aux; auto; apply HS|apply minors_aux; auto; [destruct HS as [_ _ HK _ _]; lia|apply HS]|apply HS]. }
  destruct (decides p (2 ^ (length (lc p) + length (lA p))) H Hs Hm HR Hap Haa (Nat.le_refl _)) as (r0 & E & _). rewrite E in S. cbn [snd] in S. destruct o as [r| |]; try contradiction. eauto.
Qed.
Print Assumptions C83_independent.

(** * the runs are those of C81 and C82: the theorems about what is returned apply *)
Lemma run_basis_shape e p Bz : run_is_basis e p Bz (Ok true) -> r_is_basis p Bz.
Proof.
  unfold run_is_basis. destruct (Nat.eqb_spec (rows p) (length Bz)) as [L|]; cbn [negb]; [|discriminate]. destruct (Nat.eqb_spec (length Bz) 0) as [|L0]; [discriminate|]. destruct (forallb _ Bz) eqn:F; cbn [negb]; [|discriminate]. intros _.
  split; auto. split; [lia|]. intros i Hi. rewrite forallb_forall in F. specialize (F i Hi). apply andb_true_iff in F. rewrite !Z.leb_le in F. exact F.
Qed.
Lemma run_ratio_positive e : forall b a i t o l, run_ratio e i b a t o (Some l) -> o = Some l \/ exists j, l = i + j /\ j < length a /\ is_positive (at_ a j) = true.
Proof.
  induction b as [|v b IH]; intros [|w a] i t o l E; cbn [run_ratio] in E; auto.
  assert (G : forall t o, run_ratio e (S i) b a t o (Some l) -> o = Some l \/ exists j, l = i + j /\ j < length (w :: a) /\ is_positive (at_ (w :: a) j) = true).
  { intros t' o' E'. destruct (IH _ _ _ _ _ E') as [|(j & -> & Hj & K)]; auto. right. exists (S j). split; [lia|]. split; [cbn; lia|exact K]. }
  destruct (is_positive w) eqn:P; [|now apply G in E]. destruct E as (r & _ & E). destruct (match t with None => _ | Some _ => _ end); apply G in E; auto. destruct E as [E|E]; auto. injection E as <-. right. exists 0. split; [lia|]. split; [cbn; lia|exact P].
Qed.
Lemma forallb_column k (A : list (list Qc)) : forallb (fun v => cc_le v 0) (map (fun r => at_ r k) A) = forallb (fun r => cc_le (at_ r k) 0) A.
Proof. induction A as [|r A IH]; [reflexivity|]. cbn [map forallb]. now rewrite IH. Qed.
Lemma run_iteration_ok e p Bz it : run_iteration e p Bz (Ok it) -> r_iteration e p Bz it.
Proof.
  unfold run_iteration. destruct (lsef p) eqn:Es; cbn [negb]; [|discriminate]. intros (ok & Hok & R). destruct ok as [[|]| |]; try discriminate; [|contradiction]. apply run_basis_shape in Hok. cbv zeta in R. destruct R as (q & x & R1 & R2 & R).
  split; auto. split; auto. cbv zeta. exists q, x. split; auto. split; auto. set (B := sort (to_array_indexing Bz)) in *. set (N := filter (fun i => negb (inb i B)) (seq 0 (cols q))) in *.
  destruct (forallb (fun v => cc_le v 0) (take N (lc q))) eqn:Est.
  - destruct (existsb is_negative x) eqn:En; [discriminate|]. injection R as ->. auto.
  - destruct (find (fun i => is_positive (at_ (lc q) i)) N) as [k|] eqn:Ek; [|discriminate]. destruct (forallb (fun v => cc_le v 0) (map (fun r => at_ r k) (lA q))) eqn:Ea.
    + injection R as ->. repeat (split; [reflexivity|]). exists k. split; auto. now rewrite forallb_column in Ea.
    + destruct R as ([l|] & Er & R); [|discriminate]. injection R as ->. split; auto. split; auto. exists k, l. split; auto.
      apply run_ratio_positive in Er. destruct Er as [Er|(j & -> & Hj & Pj)]; [discriminate|]. cbn [Nat.add]. rewrite map_length in Hj. split; auto. split; auto. rewrite SimplexProofs.at_column in Pj. exact Pj.
Qed.
Theorem C83_returned e p Bz n r : run_simplex e p Bz n (Ok r) -> r_simplex e p Bz r.
Proof.
  unfold run_simplex. destruct (lsef p) eqn:Hs; cbn [negb]; [|intros (_ & E); discriminate E]. intros (oi & RL & R). destruct oi as [it| |]; [|discriminate|contradiction]. destruct R as (r' & RR & E). injection E as <-. split; auto. exists it. split; auto.
  remember (Ok it) as oi eqn:Eo. induction RL as [Bz o R1 R2|Bz B' q' n o R1 R2 IH]; subst o.
  - apply r_last; [now apply run_iteration_ok|]. now destruct it.
  - apply (r_step e _ e Bz B' q'); [now apply run_iteration_ok|]. now apply IH.
Qed.
Print Assumptions C83_returned.
Lemma run_complete_chosen e p P Z size : forall queue c, run_complete e p P Z size queue c -> forall B, c = Ok (Some B) ->
  (forall i c, In (i, c) queue -> i < length Z /\ forall v, In v c -> In v Z) ->
  exists c, length c = size /\ (forall v, In v c -> In v Z) /\ B = sort (P ++ c) /\ r_is_basis p (map Z.of_nat B).
Proof.
  intros queue c R. induction R as [|i cur queue L E|i cur queue x L E|i cur queue o L E R IH|i cur queue o L R IH]; intros B EB HQ; try discriminate EB.
  - injection EB as <-. destruct (HQ i cur (or_introl eq_refl)). exists cur. split; auto. split; auto. split; auto. now apply (run_basis_shape e).
  - apply IH; auto. intros; apply HQ; now right.
  - apply IH; auto. destruct (HQ i cur (or_introl eq_refl)) as (Hi & Hc). intros j c' Hj. apply in_app_or in Hj. destruct Hj as [Hj|Hj]; [|apply HQ; now right]. apply in_rev in Hj. apply in_map_iff in Hj. destruct Hj as (j' & Ej & Hj'). injection Ej as -> <-. apply in_seq in Hj'.
    split; [lia|]. intros v Hv. apply in_app_or in Hv. destruct Hv as [Hv|[<-|[]]]; auto. apply nth_In. lia.
Qed.
Theorem C83_returned_two_phase e p n r : run_two_phase e p n (Ok r) -> r_two_phase e p r.
Proof.
  unfold run_two_phase, r_two_phase. destruct (auxiliary p) as [a0| |]; [|intros (_ & E); discriminate E|contradiction]. cbv zeta. set (a := fst (to_sef a0)). intros (n1 & o1 & R1 & R). destruct o1 as [[[[x|] [bz|]] cert]| |]; try (destruct R as (_ & E); discriminate E); [|contradiction].
  destruct (Nat.eqb_spec (length x) (cols a)) as [L|]; [|destruct R as (_ & E); discriminate E]. destruct R as (v & Hv & R). apply C83_returned in R1. exists a0, x, bz, cert, v. split; auto. fold a. split; auto. split; [split; auto|].
  destruct (is_close_to_zero v).
  - destruct R as (st & (ok & Hok & RS) & R). destruct st as [B|y|]; [|destruct R as (_ & E); discriminate E|contradiction]. destruct R as (n2 & R2 & _). exists B. split; [|now apply C83_returned in R2].
    destruct ok as [[|]| |]; try discriminate RS.
    + injection RS as ->. left. split; auto. now apply (run_basis_shape e).
    + right. cbv zeta in RS |- *. set (P := map S (filter (fun i => negb (is_close_to_zero (at_ x i))) (seq 0 (cols p)))) in *. set (Z := map S (filter (fun i => is_close_to_zero (at_ x i)) (seq 0 (cols p)))) in *.
      destruct (Nat.leb_spec (rows p) (length P)) as [|Hlt]; [discriminate RS|]. split; auto. destruct RS as (c & RC & RS). destruct c as [[B2|]| |]; try discriminate RS; injection RS as ->; auto.
      left. destruct (run_complete_chosen e p P Z _ _ _ RC B2 eq_refl) as (c & C1 & C2 & -> & C4); [|exists c; auto].
      intros i c Hi. apply in_rev in Hi. apply in_map_iff in Hi. destruct Hi as (j & Ej & Hj). injection Ej as -> <-. apply in_seq in Hj. split; [lia|]. intros w [<-|[]]. apply nth_In. lia.
    + contradiction.
  - destruct R as (_ & X & y & R1' & R2 & E). injection E as ->. exists X, y. auto.
Qed.
Print Assumptions C83_returned_two_phase.
(** so the verdict of a run is exactly right *)
Theorem C83_verdict e K p n r : reachable p -> accurate e K p -> run_two_phase e p n (Ok r) ->
  match r with (Some _, _, _) => exists x0, optimal (meaning p) x0 | (None, _, CVec _) => infeasible (meaning p) | (None, _, CPair _ _) => unbounded (meaning p) end.
Proof. intros Hr HA R. apply C83_returned_two_phase in R. exact (C82_verdict e K p r Hr HA R). Qed.
Print Assumptions C83_verdict.

(** * solve *)
Lemma steady_accurate e K p : wf p -> steady e K p -> accurate e K p.
Proof.
  intros H [H1 H2 HK He T]. constructor; auto; [lia|]. cbv zeta in *. set (m := qz (Z.of_nat (length (lA p)))) in *. set (k := qz K) in *. assert (k1 : (1 <= k)%Qc) by (unfold k; change 1%Qc with (qz 1); apply qz_le; lia).
  assert (m0 : (0 <= m)%Qc) by (unfold m; change 0%Qc with (qz 0); apply qz_le; lia). pose proof (weight_ge p H) as (w1 & _).
  assert (G : (0 <= e * (weight p + qz 2 * m) * (1 + m * k))%Qc).
  { apply qmul_nonneg; [apply qmul_nonneg; auto|].
    - assert (0 <= qz 2 * m)%Qc by (apply qmul_nonneg; [discriminate|auto]). set (u := (qz 2 * m)%Qc) in *. set (w := weight p) in *. clear - H0 w1. clearbody u w. qclra.
    - assert (0 <= m * k)%Qc by (apply qmul_nonneg; auto; clear - k1; qclra). set (u := (m * k)%Qc) in *. clear - H0. clearbody u. qclra. }
  replace (qz 8 * e * (weight p + qz 2 * m) * (1 + m * k))%Qc with (qz 8 * (e * (weight p + qz 2 * m) * (1 + m * k)))%Qc by ring. replace (qz 16 * e * (weight p + qz 2 * m) * (1 + m * k) * k)%Qc with (qz 16 * (e * (weight p + qz 2 * m) * (1 + m * k) * k))%Qc in T by ring.
  set (u := (e * (weight p + qz 2 * m) * (1 + m * k))%Qc) in *. assert (A : (u * 1 <= u * k)%Qc) by (rewrite !(Qcmult_comm u); apply qmul_le_r; auto). set (v := (u * k)%Qc) in *. clear - T A G. clearbody u v. unfold qz, inject_Z in *. qclra.
Qed.
Lemma back_same e p t x x0 o : reachable p -> lsef p = false -> (0 <= e)%Qc -> (0 <= t)%Qc -> length x = length (lc (fst (to_sef p))) -> close_by t x x0 ->
  (exists x', r_back e (mkrev (length (lineq p)) (cat 0 (lfree p)) (lneg p)) x x' /\ o = Ok (Some x')) -> same_answer (qz 2 * t + e)%Qc o (Ok (Some (down p x0))).
Proof.
  intros Hr Hs He Ht L0 (L & C) (x' & RB & ->). cbn [same_answer]. pose proof (reachable_wf p Hr) as H. apply (r_back_close e p t x x0 x'); auto; [unfold cols; congruence|]. intros j Hj. apply C. rewrite L0. exact Hj.
Qed.
(** every run of solve ends with the answer of the exact method: the program is in standard form, or its standard form does not have exactly twice as many columns as rows,
    or all constraints are "<=" with nonnegative right-hand sides.  In the case left out solve may run forever already without errors (C42_never_ends_refuted). *)
Theorem C83_solve_partial e K p fuel : reachable p -> 0 < length (lA p) -> steady e K (fst (to_sef p)) -> 2 ^ (length (lc (fst (to_sef p))) + length (lA p)) <= fuel ->
  lsef p = true \/ length (lc (fst (to_sef p))) <> 2 * length (lA p) \/
    ((forall i, i < length (lA p) -> nth i (inequalities p) "=" = "<=") /\ (forall i, i < length (lb p) -> (0 <= nth i (lb p) 0)%Qc)) ->
  let m := qz (Z.of_nat (length (lA p))) in
  ~ solve_hangs e p /\ forall o, run_solve e p o -> same_answer (qz 16 * e * (1 + m * qz K) + e)%Qc o (snd (solve fuel p)).
Proof.
  intros Hr Hm HS Hfuel HG m. pose proof (reachable_wf p Hr) as H. assert (Hrs : reachable (fst (to_sef p))) by now constructor. pose proof (reachable_wf _ Hrs) as Hw. pose proof (st_e0 _ _ _ HS) as He.
  assert (T0 : (0 <= qz 8 * e * (1 + m * qz K))%Qc). { apply qmul_nonneg; [apply qmul_nonneg; auto; discriminate|]. assert (0 <= m * qz K)%Qc by (destruct HS as [_ _ HK _ _]; apply qmul_nonneg; unfold m; change 0%Qc with (qz 0); apply qz_le; lia). set (u := (m * qz K)%Qc) in *. clear - H0. clearbody u. qclra. }
  assert (TE : (qz 16 * e * (1 + m * qz K) + e = qz 2 * (qz 8 * e * (1 + m * qz K)) + e)%Qc) by (replace (qz 16) with (qz 2 * qz 8)%Qc by (apply Qc_is_canon; reflexivity); ring). rewrite TE. clear TE. set (t := (qz 8 * e * (1 + m * qz K))%Qc) in *.
  unfold solve_hangs, run_solve, solve. destruct (lsef p) eqn:Hs.
  - rewrite (C29_already_sef p Hs) in *. cbn [fst] in *. destruct (C83_two_phase e K p fuel Hr Hs Hm HS Hfuel) as (G1 & G2). split; auto. intros o (n & r & R & ->). destruct (G2 n r R) as (_ & S). fold m t in S. destruct (two_phase_simplex fuel p) as [p' r0]. cbn [snd] in S |- *.
    destruct r as [[[x B] ce]| |], r0 as [[[x0 B0] ce0]| |]; try contradiction; cbn [rmap fst same_answer]; [|exact S]. destruct x as [x|], x0 as [x0|]; cbn [same_result same_verdict] in S.
    + destruct ce, ce0; try contradiction. destruct S as (_ & L & C). split; auto. intros j Hj. eapply Qcle_trans; [now apply C|]. clear - T0 He. clearbody t. unfold qz, inject_Z. qclra.
    + destruct B, ce; try contradiction; destruct B0; contradiction.
    + destruct B, ce; contradiction.
    + exact I.
  - destruct (to_sef_parts p H Hs) as (_ & _ & _ & _ & P5 & _ & _ & P8 & P9 & _). pose proof (slack_guess p H Hs) as SG. unfold first_guess in SG. pose proof (fun x x0 o => back_same e p t x x0 o Hr Hs He T0) as BS. destruct (to_sef p) as [sef rv] eqn:Et. cbn [fst snd] in *. subst rv. cbv zeta in *.
    set (cand := map Z.of_nat (seq (S (rows sef)) (cols sef - rows sef))) in *. assert (Hms : 0 < length (lA sef)) by (rewrite P9; exact Hm). assert (Em : qz (Z.of_nat (length (lA sef))) = m) by (unfold m; now rewrite P9).
    destruct (C83_two_phase e K sef fuel Hrs P5 Hms HS) as (G1 & G2); [rewrite P9; exact Hfuel|]. cbv zeta in G2. rewrite Em in G2. fold t in G2.
    assert (HB : is_basis sef cand = Ok true -> feasible_basis sef cand).
    { intros EB. destruct HG as [Z|[Z|(Z1 & Z2)]]; [discriminate| |apply SG; auto].
      - exfalso. apply is_basis_true in EB. destruct EB as (LB & _). unfold cand in LB. rewrite map_length, seq_length in LB. unfold rows, cols in *. lia.
      - apply is_basis_true in EB. destruct EB as (LB & _). unfold cand in LB. rewrite map_length, seq_length in LB. unfold rows, cols in *. lia. }
    assert (CK : forall ok, run_is_basis e sef cand ok -> ok = is_basis sef cand).
    { intros ok. apply (check_any e sef cand ok Hw); auto; [apply HS|]. pose proof (steady_step e K sef Hw HS) as SC. apply (Qcle_lt_trans _ (qz 16 * (e * (weight sef * (1 + qz (Z.of_nat (rows sef)) * qz K) * qz K)))%Qc).
      - rewrite !(Qcmult_comm (qz 16)). apply qmul_le_r; [|discriminate]. rewrite (Qcmult_comm e). rewrite <- (Qcmult_1_l e) at 1. apply qmul_le_r; auto. pose proof (weight_ge sef Hw) as (w1 & _). destruct HS as [_ _ HK _ _]. assert (k1 : (1 <= qz K)%Qc) by (change 1%Qc with (qz 1); apply qz_le; lia).
        assert (A : (0 <= qz (Z.of_nat (rows sef)) * qz K)%Qc) by (apply qmul_nonneg; change 0%Qc with (qz 0); apply qz_le; lia). set (u := (qz (Z.of_nat (rows sef)) * qz K)%Qc) in *. clear - A w1 k1. assert (B : (1 <= 1 + u)%Qc) by (clearbody u; qclra). set (u1 := (1 + u)%Qc) in *. set (w := weight sef) in *. set (k := qz K) in *. clearbody u1 w k. clear A u.
        assert (C : (1 * 1 <= w * u1)%Qc). { apply Qcle_trans with (1 * u1)%Qc; [|apply qmul_le_r; auto; clear - B; qclra]. rewrite !Qcmult_1_l. exact B. } rewrite Qcmult_1_l in C. set (z := (w * u1)%Qc) in *. clearbody z. apply Qcle_trans with (1 * k)%Qc; [rewrite Qcmult_1_l; auto|apply qmul_le_r; auto; clear - k1; qclra].
      - replace (qz 16 * (e * (weight sef * (1 + qz (Z.of_nat (rows sef)) * qz K) * qz K)))%Qc with (qz 16 * e * weight sef * (1 + qz (Z.of_nat (rows sef)) * qz K) * qz K)%Qc by ring. exact SC. }
    assert (AC := steady_accurate e K sef Hw HS).
    (* the result of a run and of the exact method, brought back *)
    assert (FB : forall (r r0 : outcome) o, same_verdict t r r0 -> (forall x, fst (fst r) = Some x -> length x = length (lc sef)) ->
      match fst (fst r) with Some x => exists x', r_back e (mkrev (length (lineq p)) (cat 0 (lfree p)) (lneg p)) x x' /\ o = Ok (Some x') | None => o = Ok None end ->
      same_answer (qz 2 * t + e)%Qc o (Ok (match fst (fst r0) with Some x => Some (from_sef (mkrev (length (lineq p)) (cat 0 (lfree p)) (lneg p)) x) | None => fst (fst r0) end))).
    { intros [[x B] ce] [[x0 B0] ce0] o S HL Ro. cbn [fst] in *. destruct x as [x|], x0 as [x0|]; cbn [same_verdict] in S.
      + destruct ce, ce0; try contradiction. destruct S as (_ & C). apply (BS x x0 o); auto.
      + destruct ce; try contradiction; destruct B0; contradiction.
      + destruct B, ce; contradiction.
      + subst o. exact I. }
    assert (LT : forall n r x, run_two_phase e sef n (Ok r) -> fst (fst r) = Some x -> length x = length (lc sef)).
    { intros n [[x' B] ce] x R E. cbn [fst] in E. subst x'. apply C83_returned_two_phase in R. destruct (C82_two_phase e K sef x B ce Hrs AC R) as (x0 & y & y0 & Ho & (L & _) & _). rewrite L. apply Ho. }
    assert (LS : forall n r x, run_simplex e sef cand n (Ok r) -> fst (fst r) = Some x -> length x = length (lc sef)).
    { intros n [[x' B] ce] x R E. cbn [fst] in E. subst x'. apply C83_returned in R. destruct (C82_certificate e K sef cand x B ce Hrs AC R) as (x0 & y & y0 & Ho & (L & _) & _). rewrite L. apply Ho. }
    assert (TW : forall o, (exists n r, run_two_phase e sef n r /\ match r with Ok r => match fst (fst r) with Some x => exists x', r_back e (mkrev (length (lineq p)) (cat 0 (lfree p)) (lneg p)) x x' /\ o = Ok (Some x') | None => o = Ok None end | Raise x => o = Raise x | Diverges => False end) ->
      same_answer (qz 2 * t + e)%Qc o (rmap (fun o => match fst (fst o) with Some x => Some (from_sef (mkrev (length (lineq p)) (cat 0 (lfree p)) (lneg p)) x) | None => fst (fst o) end) (snd (two_phase_simplex fuel sef)))).
    { intros o (n & r & R & Ro). destruct (G2 n r R) as (_ & S). destruct (snd (two_phase_simplex fuel sef)) as [r0| |]; destruct r as [r| |]; try contradiction; cbn [rmap].
      - apply (FB r r0 o S); auto. intros x. now apply (LT n r x).
      - subst o. exact S. }
    destruct (Nat.leb (rows sef) (cols sef)).
    + split.
      * intros [(C1 & C2)|(_ & C2)]; [|now apply G1]. apply CK in C1. destruct (C83_simplex e K sef cand fuel Hrs P5 HS (eq_sym C1) (HB (eq_sym C1))) as (r0 & _ & NH & _); [|now apply NH]. etransitivity; [|exact Hfuel]. apply Nat.pow_le_mono_r; lia.
      * intros o (ok & Hok & R). apply CK in Hok. subst ok. destruct (is_basis sef cand) as [[|]| |] eqn:EB.
        -- destruct R as (n & r & R & Ro). destruct (C83_simplex e K sef cand fuel Hrs P5 HS EB (HB eq_refl)) as (r0 & Er & _ & G). { etransitivity; [|exact Hfuel]. apply Nat.pow_le_mono_r; lia. }
           cbv zeta in G. rewrite Em in G. fold t in G. destruct (G n r R) as (_ & r' & -> & S). rewrite Er. pose proof (FB r' r0 o S (fun x => LS n r' x R)) as F. destruct r0 as [[x0 B0] ce0]. cbn [fst snd] in F |- *. apply F. destruct (fst (fst r')); exact Ro.
        -- apply TW. destruct R as (n & r & R & Ro). exists n, r. split; auto. destruct r as [r| |]; auto. destruct (fst (fst r)); exact Ro.
        -- subst o. reflexivity.
        -- contradiction.
    + split; auto. intros o R. apply TW. destruct R as (n & r & R & Ro). exists n, r. split; auto. destruct r as [r| |]; auto. destruct (fst (fst r)); exact Ro.
Qed.
Print Assumptions C83_solve_partial.
(** independent equations: every run of solve returns, a point next to an optimum or None for an infeasible or unbounded program *)
Lemma steady_moderate e K p : wf p -> steady e K p -> moderate_data p.
Proof.
  intros H [(SA & Sb & Sc) W HK _ _]. pose proof (wf_b _ H) as Lb. unfold rows in Lb.
  exists (repeat 1%Z (length (lA p))), 1%Z, K, K. constructor; [constructor| | | |]; rewrite ?product_ones; try lia.
  - apply repeat_length.
  - intros k Hk. apply repeat_spec in Hk. subst k. reflexivity.
  - intros i j Hi Hj. rewrite nth_ones. change (qz 1) with 1%Qc. rewrite Qcmult_1_l. now apply ent_int.
  - intros i Hi. rewrite nth_ones. change (qz 1) with 1%Qc. rewrite Qcmult_1_l. now apply at_int.
  - intros j Hj. change (qz 1) with 1%Qc. rewrite Qcmult_1_l. now apply at_int.
  - unfold apart. nia.
  - intros s Ls Hs. change (qz 1) with 1%Qc. rewrite Qcmult_1_l. apply W; auto. intros j Hj. apply Nat.lt_le_incl. auto.
  - intros s Ls Hs. change (qz 1) with 1%Qc. rewrite Qcmult_1_l. apply W; auto.
Qed.
Theorem C83_solve_verdict_partial e K p : reachable p -> 0 < length (lA p) -> independent_equations p -> steady e K (fst (to_sef p)) ->
  lsef p = true \/ length (lc (fst (to_sef p))) <> 2 * length (lA p) \/
    ((forall i, i < length (lA p) -> nth i (inequalities p) "=" = "<=") /\ (forall i, i < length (lb p) -> (0 <= nth i (lb p) 0)%Qc)) ->
  let m := qz (Z.of_nat (length (lA p))) in
  ~ solve_hangs e p /\ forall o, run_solve e p o ->
    (exists x x0, o = Ok (Some x) /\ optimal (meaning p) x0 /\ close_by (qz 16 * e * (1 + m * qz K) + e)%Qc x x0) \/
    (o = Ok None /\ (infeasible (meaning p) \/ unbounded (meaning p))).
Proof.
  intros Hr Hm HI HS HG m. pose proof (reachable_wf p Hr) as H. assert (Hrs : reachable (fst (to_sef p))) by now constructor. pose proof (reachable_wf _ Hrs) as Hw. pose proof (steady_moderate e K _ Hw HS) as HES.
  destruct (C83_solve_partial e K p _ Hr Hm HS (Nat.le_refl _) HG) as (G1 & G2). split; auto. intros o R. specialize (G2 o R). fold m in G2.
  assert (HG' : lsef p = true \/ is_basis (fst (to_sef p)) (first_guess p) <> Ok true \/ feasible_basis (fst (to_sef p)) (first_guess p)).
  { destruct (lsef p) eqn:Hs; [auto|]. right. destruct (to_sef_parts p H Hs) as (_ & _ & _ & _ & _ & _ & _ & _ & P9 & _). destruct (Nat.eq_dec (length (lc (fst (to_sef p)))) (2 * length (lA p))) as [E|E].
    - destruct HG as [HG|[HG|(H1 & H2)]]; [discriminate|contradiction|]. right. now apply slack_guess.
    - left. intros EB. apply is_basis_true in EB. destruct EB as (L & _). unfold first_guess in L. rewrite map_length, seq_length in L. unfold rows in L. rewrite P9 in L. unfold rows in L, P9. apply E. unfold cols in L. lia. }
  destruct (solve_decides_sef p _ Hr Hm HI HES (Nat.le_refl _) HG') as [(x0 & E & Ho)|(E & Hv)]; rewrite E in G2; cbn [snd] in G2; destruct o as [[x|]| |]; cbn [same_answer] in G2; try contradiction; [left; eauto|right; auto].
Qed.
Print Assumptions C83_solve_verdict_partial.
Theorem C83_returned_solve e p o : run_solve e p (Ok o) -> r_solve e p o.
Proof.
  unfold run_solve, r_solve. destruct (lsef p).
  - intros (n & r & R & E). destruct r as [r| |]; cbn [rmap] in E; try discriminate. injection E as ->. exists r. split; auto. now apply C83_returned_two_phase in R.
  - destruct (to_sef p) as [sef rev]. cbv zeta. set (cand := map Z.of_nat _).
    assert (BK : forall s, match s with Some x => match rev with Some rv => exists x', r_back e rv x x' /\ Ok o = Ok (Some x') | None => Ok o = Ok s end | None => Ok o = Ok s end ->
      match s with Some x => match rev with Some rv => exists x', r_back e rv x x' /\ o = Some x' | None => o = s end | None => o = s end).
    { intros [x|] G; [|injection G as ->; reflexivity]. destruct rev; [|injection G as ->; reflexivity]. destruct G as (x' & G & E). injection E as ->. eauto. }
    assert (TW : (exists n r, run_two_phase e sef n r /\ match r with Ok r => match fst (fst r) with Some x => match rev with Some rv => exists x', r_back e rv x x' /\ Ok o = Ok (Some x') | None => Ok o = Ok (fst (fst r)) end | None => Ok o = Ok (fst (fst r)) end | Raise x => Ok o = Raise x | Diverges => False end) ->
      exists o', ((rows sef <= cols sef /\ r_is_basis sef cand /\ (o' = None \/ exists r, r_simplex e sef cand r /\ o' = fst (fst r))) \/ (exists r, r_two_phase e sef r /\ o' = fst (fst r))) /\
        match o' with Some x => match rev with Some rv => exists x', r_back e rv x x' /\ o = Some x' | None => o = o' end | None => o = o' end).
    { intros (n & r & R & G). destruct r as [r| |]; [|discriminate|contradiction]. exists (fst (fst r)). split; [|now apply BK]. right. exists r. split; auto. now apply C83_returned_two_phase in R. }
    destruct (Nat.leb_spec (rows sef) (cols sef)) as [HL|HL]; [|exact TW]. intros (ok & Hok & R). destruct ok as [[|]| |]; [|exact (TW R)|discriminate|contradiction]. apply run_basis_shape in Hok. destruct R as (n & r & R & G). destruct r as [r|x|]; [|destruct x; try discriminate|contradiction].
    + exists (fst (fst r)). split; [|now apply BK]. left. split; auto. split; auto. right. exists r. split; auto. now apply C83_returned in R.
    + exists None. split; [|injection G as ->; reflexivity]. left. auto.
Qed.
Print Assumptions C83_returned_solve.

(** * what the exact methods return is the outcome of a run, for any bound on the errors *)
Lemma run_basis_exact e p Bz : (0 <= e)%Qc -> run_is_basis e p Bz (is_basis p Bz).
Proof.
  intros He. unfold run_is_basis, is_basis. destruct (negb _); [reflexivity|]. destruct (Nat.eqb _ 0); [reflexivity|]. destruct (negb _); [reflexivity|]. eexists. split; [now apply within_refl|reflexivity].
Qed.
Lemma run_ratio_exact e : (0 <= e)%Qc -> forall b a i t l, run_ratio e i b a t l (ratio_test i b a t l).
Proof.
  intros He. induction b as [|v b IH]; intros [|w a] i t l; cbn [run_ratio ratio_test]; auto. destruct (is_positive w); auto. exists (v / w)%Qc. split; [now apply within_refl|]. destruct (match t with None => true | Some t => cc_lt (v / w) t end); apply IH.
Qed.
Lemma run_iteration_exact e p Bz it : (0 <= e)%Qc -> simplex_iteration p Bz = Ok it -> run_iteration e p Bz (Ok it).
Proof.
  intros He E. unfold simplex_iteration in E. unfold run_iteration. destruct (lsef p) eqn:Es; [|discriminate]. cbn [negb] in *. exists (is_basis p Bz). split; [now apply run_basis_exact|]. destruct (is_basis p Bz) as [[|]| |]; try discriminate. cbn [bind negb] in E.
  destruct (canonical (negate_rows p) (sort (to_array_indexing Bz))) as [q| |] eqn:Eq; try discriminate. cbn [bind] in E. destruct (basic_solution q (sort (to_array_indexing Bz))) as [x| |] eqn:Ex; try discriminate. cbn [bind] in E.
  cbv zeta in *. exists q, x. split; [now apply canonical_exact|]. split; [now apply basic_exact|]. set (B := sort (to_array_indexing Bz)) in *. set (N := filter (fun i => negb (inb i B)) (seq 0 (cols q))) in *.
  destruct (forallb (fun v => cc_le v 0) (take N (lc q))); [now rewrite E|]. destruct (find (fun i => is_positive (at_ (lc q) i)) N) as [k|]; [|discriminate]. destruct (forallb (fun v => cc_le v 0) (map (fun r => at_ r k) (lA q))); [now rewrite E|].
  exists (ratio_test 0 (lb q) (map (fun r => at_ r k) (lA q)) None None). split; [now apply run_ratio_exact|]. rewrite <- E. destruct (ratio_test _ _ _ _ _); reflexivity.
Qed.
Theorem C83_exact e fuel p Bz r : (0 <= e)%Qc -> snd (simplex fuel p Bz) = Ok r -> exists n, run_simplex e p Bz n (Ok r).
Proof.
  intros He E. apply simplex_inv in E. destruct E as (Hs & it & EL & ER). unfold run_simplex. rewrite Hs. cbn [negb].
  assert (RL : exists n, run_loop e (negate_rows p) Bz n (Ok it)).
  { clear ER. revert Bz EL. induction fuel as [|fuel IH]; intros Bz EL; [discriminate|]. cbn [simplex_loop] in EL. destruct (simplex_iteration (negate_rows p) Bz) as [i| |] eqn:Ei; try discriminate. cbn [bind] in EL. apply (run_iteration_exact e) in Ei; auto. destruct i as [x B q|x B q|B q].
    - injection EL as <-. exists 1. now apply run_last.
    - injection EL as <-. exists 1. now apply run_last.
    - destruct (IH _ EL) as (n & R). exists (S n). now apply (run_step e _ Bz B q). }
  destruct RL as (n & RL). exists n, (Ok it). split; auto. exists r. split; auto. destruct it as [x B q|x B q|B q]; cbn [simplex_result] in ER.
  - unfold bind in ER. destruct (minv (transpose (rows (negate_rows p)) (columns_of B (lA (negate_rows p))))) as [X| |] eqn:EX; try discriminate. injection ER as <-. exists X, (mulmv X (take B (lc (negate_rows p)))). split; [now apply inv_exact|]. split; [now apply mulmv_exact|reflexivity].
  - injection ER as <-. reflexivity.
  - discriminate.
Qed.
Print Assumptions C83_exact.
Lemma run_complete_exact e p P Z size : (0 <= e)%Qc -> forall fuel queue o, complete_basis fuel p P Z size queue = o -> o <> Diverges -> run_complete e p P Z size queue o.
Proof.
  intros He. induction fuel as [|fuel IH]; intros queue o E ND; [now subst o|]. cbn [complete_basis] in E. destruct queue as [|(i & c) queue]; [subst o; constructor|].
  destruct (Nat.eqb_spec (length c) size) as [L|L].
  - cbv zeta in E. pose proof (run_basis_exact e p (map Z.of_nat (sort (P ++ c))) He) as K. destruct (is_basis p (map Z.of_nat (sort (P ++ c)))) as [[|]| |]; cbn [bind] in E.
    + subst o. now constructor.
    + apply run_rejected; auto.
    + subst o. now constructor.
    + now subst o.
  - apply run_longer; auto.
Qed.
Theorem C83_exact_two_phase e fuel p r : reachable p -> (0 <= e)%Qc -> snd (two_phase_simplex fuel p) = Ok r -> exists n, run_two_phase e p n (Ok r).
Proof.
  intros Hr He E. pose proof (reachable_wf p Hr) as H. unfold two_phase_simplex in E. unfold run_two_phase. destruct (auxiliary p) as [a0| |] eqn:Ea; try discriminate. cbv zeta in *. set (a := fst (to_sef a0)) in *.
  assert (Ha : wf a). { assert (Hs : lsef p = true) by (unfold auxiliary in Ea; destruct (lsef p); [reflexivity|discriminate]). destruct (auxiliary_aux p Hs) as (a1 & E1 & EA). rewrite Ea in E1. injection E1 as <-. unfold a. rewrite EA. now apply wf_aux. }
  set (first := map Z.of_nat (seq (S (cols p)) (rows p))) in *. destruct (simplex fuel a first) as [a' [[[s bz] ce]| |]] eqn:E1; try discriminate.
  assert (EA : a' = a). { destruct (simplex_state fuel a first Ha) as [K|(_ & K)]; rewrite E1 in K; cbn [fst snd] in K; auto. exfalso. eapply K; reflexivity. }
  subst a'. destruct s as [x|]; [|discriminate]. destruct bz as [bz|]; [|discriminate]. destruct (evaluate a x) as [v| |] eqn:Ev; try discriminate.
  assert (R1 : exists n, run_simplex e a first n (Ok (Some x, Some bz, ce))) by (apply (C83_exact e fuel); auto; now rewrite E1). destruct R1 as (n1 & R1).
  assert (S2 : forall B, snd (simplex fuel p B) = Ok r -> exists n, run_simplex e p B n (Ok r)) by (intros B EB; now apply (C83_exact e fuel)).
  unfold evaluate in Ev. destruct (Nat.eqb (length x) (cols a)) eqn:L; [|discriminate]. injection Ev as <-.
  assert (G : exists n, if is_close_to_zero (dot (lc a) x + lz a)%Qc
    then exists start, run_start e p x bz start /\ match start with Raise y => n = n1 /\ Ok r = Raise y | Diverges => False | Ok B => exists n2, run_simplex e p B n2 (Ok r) /\ n = n1 + n2 end
    else n = n1 /\ exists X y, r_inv e (transpose (rows p) (columns_of (to_array_indexing bz) (lA a))) X /\ r_mulmv e X (take (to_array_indexing bz) (lc a)) y /\ Ok r = Ok (None, None, CVec (flip_y (lb p) y))).
  { destruct (is_close_to_zero (dot (lc a) x + lz a)%Qc).
    - pose proof (run_basis_exact e p bz He) as KB. destruct (is_basis p bz) as [[|]| |] eqn:EB; try discriminate.
      + destruct (S2 bz E) as (n2 & R2). exists (n1 + n2), (Ok bz). split; [exists (Ok true); auto|]. eauto.
      + set (P := map S (filter (fun i => negb (is_close_to_zero (at_ x i))) (seq 0 (cols p)))) in *. set (Z := map S (filter (fun i => is_close_to_zero (at_ x i)) (seq 0 (cols p)))) in *.
        destruct (Nat.leb (rows p) (length P)) eqn:EL; [discriminate|]. destruct (complete_basis fuel p P Z (rows p - length P) _) as [ob| |] eqn:EC; try discriminate.
        assert (RC := run_complete_exact e p P Z _ He _ _ _ EC ltac:(discriminate)). set (B := match ob with Some B => map Z.of_nat B | None => map Z.of_nat P end).
        destruct (S2 B) as (n2 & R2); [unfold B; destruct ob; exact E|]. exists (n1 + n2), (Ok B). split; [|eauto]. exists (Ok false). split; auto. cbv zeta. fold P Z. rewrite EL. eexists. split; [exact RC|]. unfold B. destruct ob; reflexivity.
    - exists n1. split; auto. destruct (minv (transpose (rows p) (columns_of (to_array_indexing bz) (lA a)))) as [X| |] eqn:EX; try discriminate. injection E as <-. exists X, (mulmv X (take (to_array_indexing bz) (lc a))). split; [now apply inv_exact|]. split; [now apply mulmv_exact|reflexivity]. }
  destruct G as (n & G). exists n, n1, (Ok (Some x, Some bz, ce)). split; auto. rewrite L. eexists. split; [now apply within_refl|]. exact G.
Qed.
Print Assumptions C83_exact_two_phase.
Lemma run_iteration_raises e p Bz : (0 <= e)%Qc -> simplex_iteration p Bz = Raise ArithmeticError -> run_iteration e p Bz (Raise ArithmeticError).
Proof.
  intros He E. unfold simplex_iteration in E. unfold run_iteration. destruct (lsef p) eqn:Es; [|reflexivity]. cbn [negb] in *. exists (is_basis p Bz). split; [now apply run_basis_exact|].
  assert (NB : is_basis p Bz <> Raise ArithmeticError) by (unfold is_basis; destruct (negb _); [discriminate|]; destruct (Nat.eqb _ 0); [discriminate|]; destruct (negb _); discriminate).
  destruct (is_basis p Bz) as [[|]|x|]; try discriminate; [|cbn [bind] in E; congruence]. clear NB. cbn [bind negb] in E.
  assert (NC : canonical (negate_rows p) (sort (to_array_indexing Bz)) <> Raise ArithmeticError) by (unfold canonical, bind, minv; destruct (qeq _ 0); discriminate).
  destruct (canonical (negate_rows p) (sort (to_array_indexing Bz))) as [q| |] eqn:Eq; try discriminate; [|cbn [bind] in E; congruence]. cbn [bind] in E.
  assert (NX : basic_solution q (sort (to_array_indexing Bz)) <> Raise ArithmeticError) by (unfold basic_solution, bind, minv; destruct (qeq _ 0); discriminate).
  destruct (basic_solution q (sort (to_array_indexing Bz))) as [x| |] eqn:Ex; try discriminate; [|cbn [bind] in E; congruence]. cbn [bind] in E.
  cbv zeta in *. exists q, x. split; [now apply canonical_exact|]. split; [now apply basic_exact|]. set (B := sort (to_array_indexing Bz)) in *. set (N := filter (fun i => negb (inb i B)) (seq 0 (cols q))) in *.
  destruct (forallb (fun v => cc_le v 0) (take N (lc q))); [now rewrite E|]. destruct (find (fun i => is_positive (at_ (lc q) i)) N) as [k|]; [|discriminate]. destruct (forallb (fun v => cc_le v 0) (map (fun r => at_ r k) (lA q))); [discriminate|].
  destruct (ratio_test _ _ _ _ _); discriminate.
Qed.
Lemma run_simplex_raises e fuel p Bz : (0 <= e)%Qc -> snd (simplex fuel p Bz) = Raise ArithmeticError -> exists n, run_simplex e p Bz n (Raise ArithmeticError).
Proof.
  intros He E. unfold simplex in E. unfold run_simplex. destruct (lsef p); cbn [negb] in *; [|exists 0; auto]. cbv zeta in E.
  assert (EL : simplex_loop fuel (negate_rows p) Bz = Raise ArithmeticError).
  { destruct (simplex_loop fuel (negate_rows p) Bz) as [it|y|]; cbn [bind snd] in E; [|injection E as ->; reflexivity|discriminate E]. exfalso. destruct it; cbn [simplex_result] in E; [|discriminate ..]. unfold bind, minv in E. destruct (qeq _ 0); discriminate. }
  clear E. assert (RL : exists n, run_loop e (negate_rows p) Bz n (Raise ArithmeticError)).
  { revert Bz EL. induction fuel as [|fuel IH]; intros Bz EL; [discriminate|]. cbn [simplex_loop] in EL. destruct (simplex_iteration (negate_rows p) Bz) as [i| |] eqn:Ei; try discriminate; cbn [bind] in EL.
    - destruct i as [x B q|x B q|B q]; try discriminate. apply (run_iteration_exact e) in Ei; auto. destruct (IH _ EL) as (n & R). exists (S n). now apply (run_step e _ Bz B q).
    - injection EL as ->. exists 1. apply run_last; [now apply run_iteration_raises|exact I]. }
  destruct RL as (n & RL). exists n, (Raise ArithmeticError). auto.
Qed.
Theorem C83_exact_solve e fuel p o : reachable p -> (0 <= e)%Qc -> snd (solve fuel p) = Ok o -> run_solve e p (Ok o).
Proof.
  intros Hr He E. unfold solve, run_solve in *. destruct (lsef p) eqn:Hs.
  - destruct (two_phase_simplex fuel p) as [q r0] eqn:ET; cbn [snd] in E. destruct r0 as [r| |]; cbn [rmap] in E; try discriminate. injection E as <-. destruct (C83_exact_two_phase e fuel p r Hr He) as (n & R); [now rewrite ET|]. exists n, (Ok r). auto.
  - assert (Hrs : reachable (fst (to_sef p))) by now constructor. destruct (to_sef p) as [sef rev]. cbn [fst] in Hrs. cbv zeta in *. set (cand := map Z.of_nat _) in *.
    set (back := fun o : option (list Qc) => match o with Some x => match rev with Some r => Some (from_sef r x) | None => o end | None => o end) in *.
    assert (HB : forall o', match o' with Some x => match rev with Some rv => exists x', r_back e rv x x' /\ Ok (back o') = Ok (Some x') | None => Ok (back o') = Ok o' end | None => Ok (back o') = Ok o' end).
    { intros [x|]; [|reflexivity]. destruct rev as [rv|]; [|reflexivity]. exists (from_sef rv x). split; [|reflexivity]. unfold r_back, from_sef. cbv zeta. eexists. split; [now apply merge_exact|reflexivity]. }
    assert (HT : rmap (fun o : outcome => back (fst (fst o))) (snd (two_phase_simplex fuel sef)) = Ok o -> exists n r, run_two_phase e sef n r /\
      match r with Ok r => match fst (fst r) with Some x => match rev with Some rv => exists x', r_back e rv x x' /\ Ok o = Ok (Some x') | None => Ok o = Ok (fst (fst r)) end | None => Ok o = Ok (fst (fst r)) end | Raise x => Ok o = Raise x | Diverges => False end).
    { intros E'. destruct (snd (two_phase_simplex fuel sef)) as [r| |] eqn:ET; cbn [rmap] in E'; try discriminate. injection E' as <-. destruct (C83_exact_two_phase e fuel sef r Hrs He ET) as (n & R). exists n, (Ok r). split; auto. apply HB. }
    destruct (Nat.leb (rows sef) (cols sef)); [|now apply HT]. exists (is_basis sef cand). split; [now apply run_basis_exact|]. destruct (is_basis sef cand) as [[|]| |]; try discriminate E; [|now apply HT].
    destruct (snd (simplex fuel sef cand)) as [[[o' B] ce]|[]|] eqn:ES; try discriminate E; cbn [snd] in E; injection E as <-.
    + destruct (C83_exact e fuel sef cand _ He ES) as (n & R). exists n, (Ok (o', B, ce)). split; auto. apply HB.
    + destruct (run_simplex_raises e fuel sef cand He ES) as (n & R). exists n, (Raise ArithmeticError). auto.
Qed.
Print Assumptions C83_exact_solve.

(** * the case left out of C83_solve_partial *)
Lemma iteration_ends p Bz : simplex_iteration p Bz <> Diverges.
Proof.
  unfold simplex_iteration. destruct (negb (lsef p)); [discriminate|]. assert (NB : is_basis p Bz <> Diverges) by (unfold is_basis; destruct (negb _); [discriminate|]; destruct (Nat.eqb _ 0); [discriminate|]; destruct (negb _); discriminate).
  destruct (is_basis p Bz) as [[|]|x|]; cbn [bind negb]; try discriminate; [|congruence]. cbv zeta. set (B := sort (to_array_indexing Bz)).
  unfold canonical, minv. destruct (qeq _ 0); cbn [bind]; [discriminate|]. set (q := mklp _ _ _ _ _ _ _ _ _). unfold basic_solution, minv. destruct (qeq _ 0); cbn [bind]; [discriminate|].
  destruct (forallb _ _); [destruct (existsb _ _); discriminate|]. destruct (find _ _); [|discriminate]. destruct (forallb _ _); [discriminate|]. destruct (ratio_test _ _ _ _ _); discriminate.
Qed.
Lemma run_loops_exact e p Bz : (0 <= e)%Qc -> (forall fuel, simplex_loop fuel p Bz = Diverges) -> run_loops e p Bz.
Proof.
  intros He D. set (next := fun B => match simplex_iteration p B with Ok (Next B' _) => to_math_indexing B' | _ => B end). exists (fun i => Nat.iter i next Bz). split; [reflexivity|].
  assert (N : forall B, (forall fuel, simplex_loop fuel p B = Diverges) -> exists C q, simplex_iteration p B = Ok (Next C q) /\ next B = to_math_indexing C /\ forall fuel, simplex_loop fuel p (next B) = Diverges).
  { intros B DB. unfold next. pose proof (DB 1) as K. cbn [simplex_loop] in K. destruct (simplex_iteration p B) as [[x C q|x C q|C q]| |] eqn:EI; cbn [bind] in K; try discriminate K; [|now destruct (iteration_ends p B)].
    exists C, q. split; auto. split; auto. intros fuel. specialize (DB (S fuel)). cbn [simplex_loop] in DB. rewrite EI in DB. exact DB. }
  assert (K : forall i, forall fuel, simplex_loop fuel p (Nat.iter i next Bz) = Diverges) by (induction i as [|i IH]; [exact D|destruct (N _ IH) as (_ & _ & _ & _ & G); exact G]).
  intros i. destruct (N _ (K i)) as (C & q & E1 & E2 & _). exists C, q. split; [now apply run_iteration_exact|exact E2].
Qed.
(** determinants of whole numbers, to check examples *)
Definition zalt (i : nat) (x : Z) : Z := if Nat.even i then x else (- x)%Z.
Fixpoint zdet (n : nat) (f : nat -> nat -> Z) : Z :=
  match n with
  | 0 => 1%Z
  | S n' => fold_right Z.add 0%Z (map (fun j => zalt j (f O j * zdet n' (fun a b => f (S a) (skip j b)))%Z) (seq 0 n))
  end.
Lemma zdet_det n : forall f, det n (fun i j => qz (f i j)) = qz (zdet n f).
Proof.
  induction n as [|n IH]; intros f; [reflexivity|]. cbn [det zdet]. unfold Sum. induction (seq 0 (S n)) as [|j l IHl]; [reflexivity|]. rewrite Sigma_cons. cbn [map fold_right]. rewrite qz_add, <- IHl, (IH (fun a b => f (S a) (skip j b))). f_equal.
  unfold alt, zalt. destruct (Nat.even j); rewrite ?qz_opp, qz_mul; reflexivity.
Qed.
Definition zbordered (p : lp) (i k : nat) : Z := Qnum (bordered p i k).
Lemma zwhole v : whole v = true -> v = qz (Qnum v).
Proof. unfold whole. intros E. apply Pos.eqb_eq in E. apply Qc_is_canon. destruct v as [[n d] C]. cbn in E |- *. subst d. change (n # 1 == Qred (n # 1)). symmetry. apply Qred_correct. Qed.
Lemma abs_qz a : qabs (qz a) = qz (Z.abs a).
Proof. unfold qabs. destruct (qlt_spec (qz a) 0) as [L|L]; change 0%Qc with (qz 0) in L; [apply (proj1 (qz_lt _ _)) in L; rewrite Z.abs_neq by lia; now rewrite qz_opp|]. rewrite Z.abs_eq; auto. destruct (Z.lt_ge_cases a 0) as [C|C]; [|lia]. exfalso. apply L. now apply qz_lt. Qed.
Lemma checked_steady e K p : wf p -> forallb (forallb whole) (lA p) = true -> forallb whole (lb p) = true -> forallb whole (lc p) = true ->
  (let M := map (fun i => map (zbordered p i) (seq 0 (S (length (lc p) + length (lA p))))) (seq 0 (length (lA p))) in
   forallb (fun s => (Z.abs (zdet (length (lA p)) (fun i j => nth (nth j s O) (nth i M []) 0)) <=? K)%Z) (tuples (length (lA p)) (S (length (lc p) + length (lA p))))) = true ->
  (1 <= K <= 300)%Z -> (0 <= e)%Qc -> qlt (qz 16 * e * (weight p + qz 2 * qz (Z.of_nat (length (lA p)))) * (1 + qz (Z.of_nat (length (lA p))) * qz K) * qz K) (Q2Qc (1 # 10000000000)) = true -> steady e K p.
Proof.
  intros H I1 I2 I3 HD HK He HE. rewrite forallb_forall in I1, I2, I3. constructor; auto.
  - split; [|split]; [|intros v Hv; now apply whole_int, I2|intros v Hv; now apply whole_int, I3]. intros r v H1 H2. specialize (I1 r H1). rewrite forallb_forall in I1. now apply whole_int, I1.
  - intros s L Hs. cbv zeta in HD. set (m := length (lA p)) in *. set (w := S (length (lc p) + m)) in *. rewrite forallb_forall in HD. specialize (HD s (tuples_all m w s L ltac:(intros j Hj; specialize (Hs j Hj); unfold w; lia))). apply Z.leb_le in HD.
    set (M := map (fun i => map (zbordered p i) (seq 0 w)) (seq 0 m)) in *.
    assert (E : det m (fun i j => bordered p i (nth j s 0)) = qz (zdet m (fun i j => nth (nth j s 0) (nth i M []) 0%Z))).
    { rewrite <- zdet_det. apply det_ext. intros i j Hi Hj. assert (Hk : nth j s 0 < w) by (unfold w; assert (In (nth j s 0) s) by (apply nth_In; lia); specialize (Hs _ H0); lia). set (k := nth j s 0) in *.
      unfold M. rewrite (nth_map_seq (fun i => map (zbordered p i) (seq 0 w))) by auto. rewrite (nth_map_seq (zbordered p i)) by auto. apply zwhole. unfold bordered.
      destruct (Nat.ltb_spec k (length (lc p))) as [A|A].
      - assert (Hr : In (nth i (lA p) []) (lA p)) by (now apply nth_In). specialize (I1 _ Hr). rewrite forallb_forall in I1. apply I1. apply nth_In. rewrite (shaped_nth (cols p)) by (auto; apply (wf_A _ H)). exact A.
      - destruct (Nat.ltb _ _); [destruct (Nat.eqb _ _); reflexivity|]. apply I2. apply nth_In. rewrite (wf_b _ H). exact Hi. }
    rewrite E. replace (qabs (qz (zdet m (fun i j => nth (nth j s 0) (nth i M []) 0%Z)))) with (qz (Z.abs (zdet m (fun i j => nth (nth j s 0) (nth i M []) 0%Z)))) by (symmetry; apply abs_qz). now apply qz_le.
  - cbv zeta. destruct (qlt_spec (qz 16 * e * (weight p + qz 2 * qz (Z.of_nat (length (lA p)))) * (1 + qz (Z.of_nat (length (lA p))) * qz K) * qz K) (Q2Qc (1 # 10000000000))); auto. discriminate.
Qed.

(** * the hypotheses on the numbers are needed *)
(** a coefficient of 1e-10: the exact determinant is accepted and the optimum is returned, but the computed one may be 1e-10 - 2^-51, and then the basis is refused *)
Definition tiny : Qc := Q2Qc (1 # 10000000000).
Theorem C83_tiny_refuted : exists p x y, linear_program (Nd (Mat 1 [[tiny]])) (Nd (Vec [tiny])) (vec [1]%Z) 0%Qc "max" None None None = Ok p /\ reachable p /\ lsef p = true /\ is_basis p [1]%Z = Ok true /\ feasible_basis p [1]%Z /\
  snd (simplex 2 p [1]%Z) = Ok (Some x, Some [1]%Z, y) /\ run_simplex (pow2 (-50)) p [1]%Z 1 (Raise ValueError).
Proof.
  destruct (linear_program (Nd (Mat 1 [[tiny]])) (Nd (Vec [tiny])) (vec [1]%Z) 0%Qc "max" None None None) as [p| |] eqn:E; try discriminate E.
  assert (Hr : reachable p) by (refine (r_new _ _ _ _ _ _ _ _ _ _ E); repeat constructor). injection E as <-.
  eexists _, [1%Qc], (CVec [(1 / tiny)%Qc]). split; [reflexivity|]. split; [exact Hr|]. split; [reflexivity|]. split; [vm_compute; reflexivity|]. split.
  - exists [1%Qc]. split; [split; [reflexivity|]; split; intros [|i] Hi; try (cbn in Hi; lia); [|vm_compute; discriminate]; change (inner [tiny] [1%Qc] = tiny); apply Qc_is_canon; vm_compute; reflexivity|]. intros [|j] Hj Hn; [|cbn in Hj; lia]. exfalso. apply Hn. now left.
  - split; [vm_compute; reflexivity|]. unfold run_simplex. cbn [lsef negb]. exists (Raise ValueError). split; [|reflexivity]. apply run_last; [|exact I]. unfold run_iteration. cbn [lsef negb negate_rows]. exists (Ok false). split; [|reflexivity].
    unfold run_is_basis. cbn -[mdet within is_close_to_zero]. exists (tiny - pow2 (-51))%Qc. split; [vm_compute; discriminate|vm_compute; reflexivity].
Qed.
Print Assumptions C83_tiny_refuted.

(** * examples *)
(** maximise x1 + x2 + 2 x3 subject to x1 + 2 x2 <= 8, x1 - x2 + x3 = 1, x2 free, x3 <= 0, with errors of 2^-52 *)
Example C83_solve_example : exists p o, two_rows = Ok p /\ reachable p /\ 0 < length (lA p) /\ steady (pow2 (-52)) 16 (fst (to_sef p)) /\ length (lc (fst (to_sef p))) <> 2 * length (lA p) /\ run_solve (pow2 (-52)) p (Ok (Some o)).
Proof.
  destruct two_rows as [p| |] eqn:E; try discriminate E. assert (Hr : reachable p) by (unfold two_rows in E; refine (r_new _ _ _ _ _ _ _ _ _ _ E); repeat constructor).
  destruct (snd (solve 32 p)) as [[x|]| |] eqn:Es; [|injection E as <-; vm_compute in Es; discriminate Es ..].
  exists p, x. split; auto. split; auto. split; [injection E as <-; cbn; lia|]. split; [injection E as <-; apply checked_steady; [apply reachable_wf; constructor; exact Hr|vm_compute; reflexivity ..|lia|discriminate|vm_compute; reflexivity]|].
  split; [injection E as <-; vm_compute; discriminate|]. apply (C83_exact_solve _ 32 p); auto; discriminate.
Qed.
Example C83_infeasible_example : exists p n y, no_point = Ok p /\ reachable p /\ lsef p = true /\ 0 < length (lA p) /\ steady (pow2 (-52)) 16 p /\ run_two_phase (pow2 (-52)) p n (Ok (None, None, CVec y)).
Proof.
  destruct no_point as [p| |] eqn:E; try discriminate E. assert (Hr : reachable p) by (unfold no_point in E; refine (r_new _ _ _ _ _ _ _ _ _ _ E); repeat constructor).
  destruct (snd (two_phase_simplex 32 p)) as [[[[x|] [Bo|]] [y|x' d]]| |] eqn:Es; try (injection E as <-; vm_compute in Es; discriminate Es).
  destruct (C83_exact_two_phase (pow2 (-52)) 32 p _ Hr ltac:(discriminate) Es) as (n & R). exists p, n, y. split; auto. split; auto. split; [injection E as <-; reflexivity|]. split; [injection E as <-; cbn; lia|]. split; auto.
  injection E as <-. apply checked_steady; [apply reachable_wf; exact Hr|vm_compute; reflexivity ..|lia|discriminate|vm_compute; reflexivity].
Qed.
Example C83_unbounded_example : exists p n x d, no_bound = Ok p /\ reachable p /\ lsef p = true /\ 0 < length (lA p) /\ steady (pow2 (-52)) 16 p /\ run_two_phase (pow2 (-52)) p n (Ok (None, None, CPair x d)).
Proof.
  destruct no_bound as [p| |] eqn:E; try discriminate E. assert (Hr : reachable p) by (unfold no_bound in E; refine (r_new _ _ _ _ _ _ _ _ _ _ E); repeat constructor).
  destruct (snd (two_phase_simplex 32 p)) as [[[[x|] [Bo|]] [y|x' d]]| |] eqn:Es; try (injection E as <-; vm_compute in Es; discriminate Es).
  destruct (C83_exact_two_phase (pow2 (-52)) 32 p _ Hr ltac:(discriminate) Es) as (n & R). exists p, n, x', d. split; auto. split; auto. split; [injection E as <-; reflexivity|]. split; [injection E as <-; cbn; lia|]. split; auto.
  injection E as <-. apply checked_steady; [apply reachable_wf; exact Hr|vm_compute; reflexivity ..|lia|discriminate|vm_compute; reflexivity].
Qed.
