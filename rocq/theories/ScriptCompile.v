(** Proofs about scripts: signs and the compiled program. *)
From Coq Require Import String List Bool Arith ZArith QArith Qcanon Lia.
From Verif Require Import Py QcTac QSum QInt MatModel MatTheory LinearModel LinearSpec LinearInv LinearProofs LinearProps SefProofs DualProofs SmallProofs FormulationModel FormulationSpec FormulationProofs FormulationProps ScriptModel ScriptSpec ScriptProofs ScriptRows.
Import ListNotations.
Open Scope nat_scope.
Open Scope string_scope.
Open Scope list_scope.

(** ** sign constraints *)
Definition sc (g : sign_written) : constraint :=
  match g with
  | One k Le => Signs None (Some [Z.of_nat (S k)])
  | One k _ => Signs (Some [Z.of_nat (S k)]) None
  | All Le => Signs None (Some [])
  | All _ => Signs (Some []) None
  end.
Definition is_sign (g : sign_written) : Prop := match g with One _ c | All c => c <> Eq_ end.
Lemma sign_constraint_ok g : is_sign g -> sign_constraint g = Ok (sc g).
Proof. destruct g as [k c|c]; destruct c; cbn; intros H; try congruence; reflexivity. Qed.
Lemma sign_constraints_ok l : (forall g, In g l -> is_sign g) -> sign_constraints l = Ok (map sc l).
Proof.
  induction l as [|g l IH]; intros H; cbn [sign_constraints map]; auto. rewrite sign_constraint_ok by (apply H; now left). cbn [bind]. rewrite IH by (intros g' K; apply H; now right). reflexivity.
Qed.
Lemma signs_fit_sign n l : signs_fit n l -> forall g, In g l -> is_sign g.
Proof.
  intros [(c & H & ->)|(kc & -> & _ & H)] g K.
  - destruct K as [<-|[]]. exact H.
  - apply in_map_iff in K. destruct K as ((k & c) & <- & K). now destruct (H k c K).
Qed.
Definition picks (positive : bool) (c : comparison_) : bool := match c with Le => negb positive | _ => positive end.
Lemma listed_ones n b kc : listed n b (map sc (map (fun p => One (fst p) (snd p)) kc)) = map (fun p => Z.of_nat (S (fst p))) (filter (fun p => picks b (snd p)) kc).
Proof.
  induction kc as [|(k & c) kc IH]; [reflexivity|]. cbn [map listed flat_map fst snd filter]. fold (listed n b (map sc (map (fun p => One (fst p) (snd p)) kc))). rewrite IH. destruct c, b; reflexivity.
Qed.
Lemma nodup_filter_fst (kc : list (nat * comparison_)) g : NoDup (map fst kc) -> NoDup (map (fun p => Z.of_nat (S (fst p))) (filter g kc)).
Proof.
  induction kc as [|(k & c) kc IH]; cbn [map filter fst]; intros H; [constructor|]. inversion H as [|? ? N1 N2]; subst. destruct (g (k, c)); auto. cbn [map fst]. constructor; auto. intros K. apply in_map_iff in K. destruct K as ((k' & c') & K1 & K2). cbn in K1. apply filter_In in K2. destruct K2 as (K2 & _). apply N1. apply in_map_iff. exists (k', c'). split; auto. cbn. lia.
Qed.
Lemma fst_unique (kc : list (nat * comparison_)) k c c' : NoDup (map fst kc) -> In (k, c) kc -> In (k, c') kc -> c = c'.
Proof.
  induction kc as [|(j & d) kc IH]; cbn [map fst]; intros H K K'; [contradiction|]. inversion H as [|? ? N1 N2]; subst. destruct K as [K|K], K' as [K'|K'].
  - congruence.
  - injection K as <- <-. destruct N1. apply in_map_iff. now exists (j, c').
  - injection K' as <- <-. destruct N1. apply in_map_iff. now exists (j, c).
  - auto.
Qed.
Lemma nodup_all n : NoDup (map (fun i => Z.of_nat (S i)) (seq 0 n)).
Proof. apply FinFun.Injective_map_NoDup; [intros x y; lia|apply seq_NoDup]. Qed.
Lemma signs_consistent n l : signs_fit n l -> consistent n (map sc l).
Proof.
  intros [(c & H & ->)|(kc & -> & N & H)]; unfold consistent.
  - destruct c; [| |congruence]; cbn [map sc listed flat_map]; rewrite ?app_nil_r; (split; [try constructor; apply nodup_all|split; [try constructor; apply nodup_all|]]); cbn; auto.
  - rewrite !listed_ones. split; [now apply nodup_filter_fst|]. split; [now apply nodup_filter_fst|]. intros i K K'. apply in_map_iff in K, K'. destruct K as ((k & c) & K1 & K2), K' as ((k' & c') & K1' & K2'). cbn in K1, K1'. apply filter_In in K2, K2'. destruct K2 as (K2 & K3), K2' as (K2' & K3'). assert (k = k') by lia. subst k'. rewrite (fst_unique kc k c c' N K2 K2') in K3. cbn in K3, K3'. destruct c'; discriminate.
Qed.
Lemma signs_range n l i : signs_fit n l -> In i (listed n false (map sc l)) -> (1 <= i <= Z.of_nat n)%Z.
Proof.
  intros [(c & H & ->)|(kc & -> & N & H)].
  - destruct c; [| |congruence]; cbn [map sc listed flat_map]; rewrite ?app_nil_r; [|contradiction]. intros K. apply in_map_iff in K. destruct K as (j & <- & K). apply in_seq in K. lia.
  - rewrite listed_ones. intros K. apply in_map_iff in K. destruct K as ((k & c) & <- & K). apply filter_In in K. destruct K as (K & _). destruct (H k c K). cbn. lia.
Qed.
Lemma sign_meaning n x l : signs_fit n l -> (forall c, In c (map sc l) -> satisfied_below n c (point x)) <-> (forall g, In g l -> sign_holds n x g).
Proof.
  intros H. assert (G : forall g, In g l -> (satisfied_below n (sc g) (point x) <-> sign_holds n x g)).
  { intros g K. pose proof (signs_fit_sign n l H g K) as Hs. destruct g as [k c|c].
    - assert (Hk : k < n). { destruct H as [(d & _ & ->)|(kc & -> & _ & H)]; [destruct K as [K|[]]; discriminate K|]. apply in_map_iff in K. destruct K as ((j & d) & E & K). injection E as <- <-. now destruct (H j d K). }
      cbn in Hs. destruct c; [| |congruence]; cbn [sc satisfied_below named sign_holds compared]; (split; [intros (K1 & K2); first [apply K2; [exact Hk|now left]|apply K1; [exact Hk|now left]]|intros K1; split; intros j Hj; [|]]); try contradiction; intros [E|[]]; assert (j = k) by lia; now subst j.
    - cbn in Hs. destruct c; [| |congruence]; cbn [sc satisfied_below named sign_holds compared]; split; intros K1; try (split; intros j Hj; [|]); try contradiction; auto; intros k Hk; destruct K1 as (K1 & K2); auto. }
  split.
  - intros K g Hg. apply G; auto. apply K. now apply in_map.
  - intros K c Hc. apply in_map_iff in Hc. destruct Hc as (g & <- & Hg). apply G; auto.
Qed.

(** ** the whole script *)
Lemma script_compiles s : well_written s -> exists h a o cs f0 f f' p,
  eval (s_objective s) [] = (h, Ok a) /\ reachable_heap h /\ valid h a /\ (forall st, val_value h a st = value_of [] (s_objective s) st) /\
  optimise (if s_max s then "max" else "min") h a = Ok o /\ Forall2 matches (s_rows s) cs /\ width cs = variables s /\
  subject_to o cs = Ok f0 /\ history f0 [Where (map sc (s_signs s))] f /\ program f = (f', Ok p) /\ compile f = Ok p /\ script_program s = Ok p.
Proof.
  intros (W1 & W2 & W3 & W4 & W5). destruct (readable_eval _ W3 []) as (h & a & E & [A1 A2 A3 A4 A5 A6 A7] & V). pose proof (A7 rh_nil) as Rh.
  assert (Va : valid h a) by (destruct a; cbn; auto; lia). destruct (build_rows (s_rows s) W2 h Rh) as (h' & cs & Eb & F). pose proof (matches_width _ _ F) as Wd. fold (variables s) in Wd.
  assert (O : exists o, optimise (if s_max s then "max" else "min") h a = Ok o /\ okind o = (if s_max s then "max" else "min") /\ forall v, oc o = Some v -> length v <= width cs).
  { rewrite Wd. destruct a as [q|k|l|]; cbn [optimise].
    - eexists. split; [reflexivity|]. split; [reflexivity|]. discriminate.
    - destruct W3 as (_ & _ & _ & W3). destruct (W3 k). auto.
    - eexists. split; [reflexivity|]. split; [reflexivity|]. cbn [oc]. intros v Ev. rewrite (coefficients_len (get h l) v) by (auto; apply reachable_good; auto). cbn [vtop] in A6. rewrite A6. exact W4.
    - contradiction. }
  destruct O as (o & Eo & Ok_ & Lo).
  assert (Nc : cs <> []) by (intros ->; inversion F as [K|]; now apply W1).
  assert (Wf : forall c, In c cs -> well_formed c) by (intros c Hc; destruct (matches_in _ _ _ F Hc) as (((l & d) & r) & _ & (v & x & q & t & -> & K & _)); exact K).
  destruct (C49_accepts o cs Nc Wf Lo) as (f0 & Ef).
  assert (Sg : forall c, In c (map sc (s_signs s)) -> exists p n, c = Signs p n) by (intros c Hc; apply in_map_iff in Hc; destruct Hc as (g & <- & _); destruct g as [k []|[]]; cbn; eauto).
  destruct (C49_where_refuses o cs f0 [] f0 (map sc (s_signs s)) Ef (h_nil f0) Sg) as (Hw & _). destruct Hw as (f & Ew); [cbn [signs_of flat_map app]; rewrite Wd; now apply signs_consistent|].
  assert (Hh : history f0 [Where (map sc (s_signs s))] f) by (econstructor; [exact Ew|constructor]).
  destruct (C49_program_total o cs f0 _ f ltac:(destruct (s_max s); auto) Ef Wf Hh) as (f' & p & Ep).
  { cbn [signs_of flat_map]. rewrite app_nil_r, Wd. intros i. now apply signs_range. }
  exists h, a, o, cs, f0, f, f', p. do 11 (split; [first [assumption | idtac]|]).
  - destruct (subject_to_spec o cs f0 Ef) as (S1 & S2 & S3 & S4 & S5 & S6 & S7 & S8 & _). destruct (history_spec f0 _ f Hh []) as (_ & _ & _ & Hc).
    { now apply fresh_tracked. }
    { split; rewrite ?S6, ?S7; [constructor|contradiction]. }
    { intros _ q K. congruence. }
    now destruct (program_spec f f' p Ep Hc) as (_ & _ & _ & _ & K).
  - unfold script_program, script_formulation. rewrite E, Eo. cbn [bind]. rewrite Eb. cbn [snd bind]. rewrite Ef. cbn [bind]. rewrite (sign_constraints_ok _ (signs_fit_sign _ _ W5)). cbn [bind]. rewrite Ew. cbn [bind]. now rewrite Ep.
Qed.
Lemma script_meaning s p : well_written s -> script_program s = Ok p ->
  reachable p /\ (maximise (meaning p) = true <-> s_max s = true) /\ length (lc p) = variables s /\
  (forall x, feasible (meaning p) x <-> written_feasible s x) /\
  (forall x, length x = variables s -> value (meaning p) x = written (s_objective s) x).
Proof.
  intros W Ep. destruct (script_compiles s W) as (h & a & o & cs & f0 & f & f' & p' & E1 & E2 & E3 & E4 & E5 & E6 & E7 & E8 & E9 & E10 & E11 & E12). rewrite Ep in E12. injection E12 as <-.
  destruct (C49_compiles _ h a o cs f0 _ f f' p E2 E3 E5 E8 E9 E10) as (C1 & C2 & C3). destruct (compiled f0 _ f p o cs E8 E9 E11) as (_ & _ & Lc & _ & _).
  destruct (subject_to_spec o cs f0 E8) as (S1 & S2 & S3 & S4 & S5 & S6 & S7 & S8 & S9 & S10 & S11 & S12 & S13).
  split; [|split; [|split; [|split]]].
  - destruct (history_spec f0 _ f E9 []) as ([B1 B2 B3 B4 B5 B6] & _).
    { now apply fresh_tracked. }
    { split; rewrite ?S6, ?S7; [constructor|contradiction]. }
    { intros _ q K. congruence. }
    unfold compile in E11. refine (r_new _ _ _ _ _ _ _ _ _ _ E11). cbn [source_ok]. now rewrite B1, B3, S2.
  - rewrite C1. destruct (s_max s); split; intros K; congruence || auto; discriminate K.
  - congruence.
  - intros x. rewrite C3, E7. unfold written_feasible. cbn [signs_of flat_map]. rewrite app_nil_r, (sign_meaning (variables s) x (s_signs s)) by (now destruct W as (_ & _ & _ & _ & W)).
    assert (G : (forall c, In c cs -> satisfied c (point x)) <-> (forall l c r, In (l, c, r) (s_rows s) -> compared c (written l x) (written r x))).
    { split.
      - intros K l c r Hr. destruct (matches_out _ _ _ E6 Hr) as (k & Hk & M). destruct M as (v & y & q & t & -> & _ & _ & _ & _ & _ & M & _). apply M. now apply K.
      - intros K k Hk. destruct (matches_in _ _ _ E6 Hk) as (((l & c) & r) & Hr & M). destruct M as (v & y & q & t & -> & _ & _ & _ & _ & _ & M & _). apply M. now apply K. }
    rewrite G. reflexivity.
  - intros x Hx. rewrite C2 by congruence. apply E4.
Qed.
Lemma Sigma_seq n f : Sigma (seq 0 n) f = Sum n f. Proof. reflexivity. Qed.
(** the data of the program *)
Lemma row_unit v j : row_value v (unit_point j) = nth j v 0%Qc.
Proof.
  unfold row_value. destruct (Nat.lt_ge_cases j (length v)) as [Hj|Hj].
  - rewrite Sigma_seq, (Sum_single _ j); auto; unfold unit_point; [rewrite Nat.eqb_refl; ring|]. intros i _ Hi. destruct (Nat.eqb_spec i j); [contradiction|ring].
  - rewrite nth_overflow by auto. apply Sigma_none. intros i Hi. apply in_seq in Hi. unfold unit_point. destruct (Nat.eqb_spec i j); [lia|ring].
Qed.
Lemma script_data s p : well_written s -> script_program s = Ok p ->
  length (lA p) = length (s_rows s) /\ length (lb p) = length (s_rows s) /\
  (forall i, i < length (s_rows s) -> let '(l, c, r) := nth i (s_rows s) (Num 0%Qc, Eq_, Num 0%Qc) in
     exists t, plus_or_minus t /\ (nth i (lb p) 0 = t * (intercept r - intercept l))%Qc /\ (forall j, nth j (nth i (lA p) []) 0 = t * (slope l j - slope r j))%Qc /\
     (forall x, length x = variables s -> inner (nth i (lA p) []) x = t * ((written l x - intercept l) - (written r x - intercept r)))%Qc /\
     ((t = 1%Qc /\ nth i (inequalities p) "=" = symbol c) \/ (t = (- (1))%Qc /\ nth i (inequalities p) "=" = symbol (mirror c) /\ numeric l = true))) /\
  forall j, nth j (lc p) 0%Qc = slope (s_objective s) j.
Proof.
  intros W Ep. destruct (script_compiles s W) as (h & a & o & cs & f0 & f & f' & p' & E1 & E2 & E3 & E4 & E5 & E6 & E7 & E8 & E9 & E10 & E11 & E12). rewrite Ep in E12. injection E12 as <-.
  destruct (subject_to_spec o cs f0 E8) as (S1 & S2 & S3 & S4 & S5 & S6 & S7 & S8 & S9 & S10 & S11 & S12 & S13).
  destruct (history_spec f0 _ f E9 []) as ([B1 B2 B3 B4 B5 B6] & _).
  { now apply fresh_tracked. }
  { split; rewrite ?S6, ?S7; [constructor|contradiction]. }
  { intros _ q K. congruence. }
  unfold compile in E11. fold (free_of f) in E11.
  destruct (C28_reads_back (length (fc f)) (fA f) (fb f) (fc f) (Nd (Mat (length (fc f)) (fA f))) (Nd (Vec (fb f))) (Nd (Vec (fc f))) _ _ _ _ _ p eq_refl eq_refl eq_refl E11) as (R1 & R2 & R3 & R4 & R5 & R6 & _).
  destruct (Forall2_nth _ _ _ (Num 0%Qc, Eq_, Num 0%Qc) (Truth true) E6) as (L0 & M0). assert (L : length (s_rows s) = length cs) by congruence. rewrite R1, R2, R3, R6, B1, B2, B3, B6, L. split; auto. split; auto. split.
  - intros i Hi. pose proof (M0 i ltac:(lia)) as M. destruct (S13 i Hi) as (v & Ev & Rv). destruct (nth i (s_rows s) _) as ((l & c) & r). destruct M as (v' & y & q & t & K & _ & _ & T & R & Q & _ & O). rewrite Ev in K. injection K as <- K1 K2. exists t. split; auto. split; [congruence|]. split.
    + intros j. rewrite <- row_unit, Rv, R. unfold slope. ring.
    + split; [intros x Hx; rewrite inner_row, Rv, R; [reflexivity|]; rewrite Hx, <- E7; rewrite Forall_forall in S12; apply S12, nth_In; lia|]. destruct O as [(O1 & O2)|(O1 & O2 & O3)]; [left|right]; repeat split; congruence.
  - intros j. rewrite <- row_unit, S5. destruct (optimise_spec _ h a o E2 E3 E5) as (_ & V). unfold slope. rewrite <- !E4. rewrite <- !V. assert (Z : orow (oc o) zero = 0%Qc); [|rewrite Z; ring].
    destruct (oc o) as [v|]; [|reflexivity]. cbn [orow]. unfold row_value. apply Sigma_none. intros i _. unfold zero. ring.
Qed.
Lemma script_small M s p : well_written s -> script_program s = Ok p -> small_script M s -> small_entries p M.
Proof.
  intros W Ep (M1 & M2 & M3 & M4). destruct (script_data s p W Ep) as (L1 & L2 & D & C).
  assert (G : forall t v, plus_or_minus t -> whole M v -> exists z, (t * v)%Qc = qz z /\ (Z.abs z <= M)%Z).
  { intros t v [-> | ->] (z & -> & Hz); [exists z|exists (- z)%Z]; (split; [|lia]); [ring|rewrite qz_opp; ring]. }
  constructor.
  - intros r v Hr Hv. apply In_nth with (d := []) in Hr. destruct Hr as (i & Hi & <-). apply In_nth with (d := 0%Qc) in Hv. destruct Hv as (j & Hj & <-). rewrite L1 in Hi. specialize (D i Hi). pose proof (nth_In (s_rows s) (Num 0%Qc, Eq_, Num 0%Qc) Hi) as K. destruct (nth i (s_rows s) _) as ((l & c) & r). destruct D as (t & T & _ & D & _). rewrite D. apply G; auto. now destruct (M2 l c r K).
  - intros v Hv. apply In_nth with (d := 0%Qc) in Hv. destruct Hv as (i & Hi & <-). rewrite L2 in Hi. specialize (D i Hi). pose proof (nth_In (s_rows s) (Num 0%Qc, Eq_, Num 0%Qc) Hi) as K. destruct (nth i (s_rows s) _) as ((l & c) & r). destruct D as (t & T & D & _). rewrite D. apply G; auto. now destruct (M2 l c r K).
  - intros v Hv. apply In_nth with (d := 0%Qc) in Hv. destruct Hv as (i & Hi & <-). rewrite C. apply M3.
  - now rewrite L1.
Qed.
(** the signs of the program *)
Lemma script_signs s p : well_written s -> script_program s = Ok p -> forall k c, k < variables s -> c <> Eq_ -> In (One k c) (s_signs s) \/ In (All c) (s_signs s) ->
  nth k (signs (meaning p)) Nonnegative = match c with Le => Nonpositive | _ => Nonnegative end.
Proof.
  intros W Ep k c Hk Hc Hin. destruct (script_compiles s W) as (h & a & o & cs & f0 & f & f' & p' & E1 & E2 & E3 & E4 & E5 & E6 & E7 & E8 & E9 & E10 & E11 & E12). rewrite Ep in E12. injection E12 as <-.
  destruct (subject_to_spec o cs f0 E8) as (S1 & S2 & S3 & S4 & S5 & S6 & S7 & S8 & S9 & S10 & S11 & S12 & S13).
  destruct (history_spec f0 _ f E9 []) as ([B1 B2 B3 B4 B5 B6] & [T1 T2 T3] & (Q1 & Q2) & _).
  { now apply fresh_tracked. }
  { split; rewrite ?S6, ?S7; [constructor|contradiction]. }
  { intros _ q K. congruence. }
  unfold compile in E11. fold (free_of f) in E11.
  destruct (C28_reads_back (length (fc f)) (fA f) (fb f) (fc f) (Nd (Mat (length (fc f)) (fA f))) (Nd (Vec (fb f))) (Nd (Vec (fc f))) _ _ _ _ _ p eq_refl eq_refl eq_refl E11) as (R1 & R2 & R3 & R4 & R5 & R6 & (_ & R7) & (_ & R8) & _). cbn [opt_list] in R7, R8.
  cbn [meaning signs]. rewrite R3, B3, S2, E7. rewrite (nth_map_any _ _ 0 Nonnegative) by (now rewrite seq_length). rewrite seq_nth by auto. cbn [plus].
  cbn [app signs_of flat_map] in T1, T2. rewrite app_nil_r in T1, T2. rewrite B3, S2, E7 in T1, T2.
  assert (G : given (map sc (s_signs s)) (match c with Le => false | _ => true end) k).
  { destruct Hin as [K|K]; apply (in_map sc) in K; destruct c; try congruence; cbn [sc] in K; eexists _, _; (split; [exact K|]); cbn; auto. }
  assert (F : In (Z.of_nat (S k)) (fneg f) \/ In (Z.of_nat (S k)) (fpos f)) by (destruct c; [left; now apply T2|right; now apply T1|congruence]).
  unfold sign_of. destruct (existsb (Z.eqb (Z.of_nat (S k))) (free_variables p)) eqn:X1; [apply existsb_Z, R7, free_of_spec in X1; tauto|].
  destruct (existsb (Z.eqb (Z.of_nat (S k))) (negative_variables p)) eqn:X2.
  - apply existsb_Z, R8 in X2. destruct c; auto; exfalso; [apply (Q2 (Z.of_nat (S k))); auto; now apply T1|congruence].
  - destruct c; auto. apply T2 in G; auto. apply R8, existsb_Z in G. congruence.
Qed.
(** the size of the program in standard equality form *)
Lemma sef_width p : wf p -> length (lc (fst (to_sef p))) <= 2 * length (lc p) + length (lA p).
Proof.
  intros H. destruct (lsef p) eqn:Hs; [rewrite C29_already_sef by auto; cbn; lia|]. pose proof (sef_cols p H Hs) as C. unfold cols, rows in C.
  assert (K : forall l, length (filter (has (lineq p)) l) <= length l) by (intros l; induction l as [|y l IH]; cbn; [lia|]; destruct (has (lineq p) y); cbn; lia).
  specialize (K (seq 0 (length (lA p)))). rewrite seq_length in K.
  assert (F : length (lfree p) <= length (seq 0 (length (lc p)))). { apply NoDup_incl_length; [apply strict_NoDup, (wf_free _ H)|]. intros i Hi. apply (wf_free_lt _ H) in Hi. unfold cols in Hi. apply in_seq. lia. }
  rewrite seq_length in F. lia.
Qed.
