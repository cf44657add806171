(** C72: formulations and the programs behind them. *)
From Coq Require Import String List Bool Arith ZArith QArith Qcanon Lia.
From Verif Require Import Py QcTac QSum QInt MatModel MatTheory LinearModel LinearSpec LinearInv LinearProofs IntegerModel IntegerSpec ObjectModel ObjectSpec FormulationModel FormulationSpec FormulationProofs FormulationProps LinearHeap LinearHeapSpec LinearHeapProofs LinearHeapValues FormHeapModel FormHeapSpec FormHeapProofs.
Import ListNotations.
Open Scope nat_scope.
Open Scope string_scope.
Open Scope list_scope.

(** ** a new formulation *)
Lemma formulated_sound H0 kind h a cs H g : formulated H0 kind h a cs H g ->
  sound H g /\ gprog g = None /\ exists o f, optimise kind h a = Ok o /\ subject_to o cs = Ok f /\ core (view H g) = core f.
Proof.
  intros (_ & _ & H1 & q & E1 & E2).
  assert (K : exists o, optimise kind h a = Ok o /\ see H1 q = o /\ (forall r, qc q = Some r -> r < length H1 /\ exists v, hget H1 r = Vec v)).
  { unfold h_optimise in E1. destruct (optimise kind h a) as [o| |]; try discriminate E1. exists o. split; auto. destruct o as [[v|] z k]; cbn [FormulationModel.oc FormulationModel.oz okind] in E1; injection E1 as <- <-.
    - assert (G : hget (H0 ++ [Vec v]) (length H0) = Vec v) by (rewrite hget_app2 by lia; now rewrite Nat.sub_diag).
      split; [unfold see; cbn [qc qconst qkind option_map]; now rewrite (vec_of _ _ _ G)|]. intros r [= <-]. rewrite app_length. cbn. split; [lia|eauto].
    - split; [reflexivity|]. intros r. discriminate. }
  destruct K as (o & Eo & Es & Hr). unfold h_subject_to in E2. rewrite Es in E2. destruct (subject_to o cs) as [f| |] eqn:Ef; try discriminate E2.
  destruct (subject_to_spec o cs f Ef) as (S1 & S2 & S3 & S4 & S5 & S6 & S7 & S8 & S9 & S10 & S11 & S12 & _).
  set (n := length (fc f)) in *. set (H2 := H1 ++ [Mat n (fA f); Vec (fb f)]) in *. assert (LH : length H2 = length H1 + 2) by (unfold H2; rewrite app_length; reflexivity).
  assert (GA : hget H2 (length H1) = Mat n (fA f)) by (unfold H2; rewrite hget_app2 by lia; now rewrite Nat.sub_diag).
  assert (Gb : hget H2 (S (length H1)) = Vec (fb f)) by (unfold H2; rewrite hget_app2 by lia; replace (S (length H1) - length H1) with 1 by lia; reflexivity).
  assert (SA : shaped n (fA f)) by (unfold shaped; rewrite S2; exact S12).
  assert (NEW : (H2 ++ [Vec (fc f)], mkhf (length H1) (S (length H1)) (length H2) (fz f) (fkind f) (fineq f) (fneg f) (fpos f) None (frecompile f)) = (H, g) ->
    sound H g /\ gprog g = None /\ exists o f, optimise kind h a = Ok o /\ subject_to o cs = Ok f /\ core (view H g) = core f).
  { intros [= <- <-]. assert (Gc : hget (H2 ++ [Vec (fc f)]) (length H2) = Vec (fc f)) by (rewrite hget_app2 by lia; now rewrite Nat.sub_diag).
    rewrite <- (hget_app H2 [Vec (fc f)]) in GA, Gb by lia. split; [|split; [reflexivity|]].
    - constructor; cbn [gA gb gc gprog]; eauto; try lia; [rewrite app_length; cbn; lia| |discriminate]. unfold read_cols. rewrite GA, (vec_of _ _ _ Gc). reflexivity.
    - exists o, f. split; auto. split; auto. unfold core, view, read_mat. cbn [fA fb fc fz fkind fineq fneg fpos gA gb gc gz gkind gineq gneg gpos]. now rewrite GA, (vec_of _ _ _ Gb), (vec_of _ _ _ Gc). }
  destruct (qc q) as [r|] eqn:Eq; [|apply NEW; injection E2 as E3 E4; rewrite <- E3, <- E4; reflexivity].
  destruct (Nat.eqb_spec (length (read_vec H1 r)) n) as [Lr|Lr]; [|apply NEW; injection E2 as E3 E4; rewrite <- E3, <- E4; reflexivity]. injection E2 as <- <-.
  destruct (Hr r eq_refl) as (Vr & v & Gr). assert (Gr' : hget H2 r = Vec v) by (unfold H2; now rewrite hget_app).
  assert (Ev : fc f = v).
  { unfold see in Es. rewrite Eq in Es. cbn [option_map] in Es. rewrite (vec_of _ _ _ Gr) in *. clear - Es Ef Lr. unfold n in Lr. subst o. unfold subject_to in Ef. destruct (linear_parts cs) as [[|t l]| |]; try discriminate Ef. cbn [bind] in Ef. destruct (pad_all _ _) as [A| |]; try discriminate Ef.
    cbn [bind FormulationModel.oc pad_right] in Ef. destruct (Nat.ltb _ _); try discriminate Ef. cbn [bind] in Ef. injection Ef as <-. cbn [fc] in *. rewrite app_length, repeat_length in Lr.
    match goal with |- v ++ repeat 0%Qc ?k = v => replace k with 0 by lia end. cbn. apply app_nil_r. }
  split; [|split; [reflexivity|]].
  - constructor; cbn [gA gb gc gprog]; eauto; try lia; [|discriminate]. unfold read_cols. rewrite GA, (vec_of _ _ _ Gr'). unfold n. now rewrite Ev.
  - exists o, f. split; auto. split; auto. unfold core, view, read_mat. cbn [fA fb fc fz fkind fineq fneg fpos gA gb gc gz gkind gineq gneg gpos]. now rewrite GA, (vec_of _ _ _ Gb), (vec_of _ _ _ Gr'), Ev.
Qed.
Lemma describes_of kind h a o cs f0 f2 calls p : reachable_heap h -> valid h a -> optimise kind h a = Ok o -> subject_to o cs = Ok f0 ->
  history f0 calls f2 -> fprogram f2 = None -> compile f2 = Ok p -> describes kind h a cs (signs_of calls) p.
Proof.
  intros Rh Va Eo Ef Hh N C. assert (P : exists f3, program f2 = (f3, Ok p)) by (unfold program; rewrite N, C; eauto). destruct P as (f3 & P).
  exact (C49_compiles kind h a o cs f0 calls f2 f3 p Rh Va Eo Ef Hh P).
Qed.

(** ** Theorems *)
(** The program read from a formulation is what the user described, whatever methods that work on
    copies, solvers and tests have been called through the formulation in between. *)
Theorem C72_transparent H0 kind h a cs H g l H1 g1 H2 g2 o : formulated H0 kind h a cs H g -> actions H g l H1 g1 -> (forall u, In (Through u) l -> inspects u = true) ->
  h_program H1 g1 = (H2, g2, Ok o) -> describes kind h a cs (signs_of (own l)) (load H2 o).
Proof.
  intros F A HU P. pose proof F as (Rh & Va & _). destruct (formulated_sound _ _ _ _ _ _ _ F) as (S0 & N & q & f & Eq & Ef & C).
  assert (Nf : fprogram f = None) by (destruct (subject_to_spec q cs f Ef) as (_ & _ & _ & _ & _ & _ & _ & K & _); exact K).
  destruct (run_keeps H g l H1 g1 A) with (f := f) as (S1 & f2 & Hh & C2 & N2); auto; [intros u Hu; now rewrite (HU u Hu)|].
  pose proof (run_up_to_date H g l H1 g1 A HU S0 ltac:(intros _ o' K; congruence)) as U. destruct (program_step H1 g1 H2 g2 o S1 P) as (-> & S2 & C3 & G2 & G3 & U2 & _).
  rewrite <- signs_of_calls. apply (describes_of kind h a q cs f f2); auto. rewrite <- (compile_core _ _ C2), <- (compile_core _ _ C3). now apply U2.
Qed.
Print Assumptions C72_transparent.
(** The answers of the solvers are those for that program. *)
Theorem C72_answers H0 kind h a cs H g l H1 g1 H2 g2 o fuel B : formulated H0 kind h a cs H g -> actions H g l H1 g1 -> (forall u, In (Through u) l -> inspects u = true) ->
  h_program H1 g1 = (H2, g2, Ok o) ->
  snd (h_simplex fuel H2 o B) = snd (simplex fuel (load H2 o) B) /\ snd (h_two_phase fuel H2 o) = snd (two_phase_simplex fuel (load H2 o)) /\ snd (h_solve fuel H2 o) = snd (solve fuel (load H2 o)).
Proof.
  intros F A HU P. destruct (formulated_sound _ _ _ _ _ _ _ F) as (S0 & N & q & f & Eq & Ef & C).
  assert (Nf : fprogram f = None) by (destruct (subject_to_spec q cs f Ef) as (_ & _ & _ & _ & _ & _ & _ & K & _); exact K).
  destruct (run_keeps H g l H1 g1 A) with (f := f) as (S1 & f2 & Hh & C2 & N2); auto; [intros u Hu; now rewrite (HU u Hu)|].
  destruct (program_step H1 g1 H2 g2 o S1 P) as (-> & S2 & _ & G2 & _). destruct (s_prog _ _ S2 o G2) as (T & _).
  split; [apply h_simplex_load; auto|]. split; [apply h_two_phase_load; auto|apply h_solve_load; auto].
Qed.
Print Assumptions C72_answers.

Lemma uses_run us : forall H g H2 g2 o, gprog g = Some o -> grec g = false -> typed H o -> oT o = false -> actions H g (map Through us) H2 g2 ->
  exists o2, gprog g2 = Some o2 /\ grec g2 = false /\ load H2 o2 = fold_left changed us (load H o).
Proof.
  induction us as [|u us IH]; intros H g H2 g2 o G1 G2 T ET A; cbn [map] in A; inversion A; subst; [exists o; auto|].
  match goal with K : act (Through u) H g = _ |- _ => cbn [act] in K; unfold h_through, h_program in K; rewrite G1, G2 in K; destruct (h_use u H o) as ((H3 & o3) & s) eqn:EU; injection K as <- <- -> end.
  destruct (use_load u H o H3 o3 T ET EU) as (L & T' & ET'). cbn [fold_left]. rewrite <- L. match goal with K : actions H3 ?g3 _ _ _ |- _ => exact (IH H3 g3 H2 g2 o3 eq_refl G2 T' ET' K) end.
Qed.
(** Changes made in place through the formulation are seen through it, as long as none of its own
    methods is called. *)
Theorem C72_in_place H0 kind h a cs H g l H1 g1 H2 g2 o us H3 g3 H4 g4 o4 : formulated H0 kind h a cs H g -> actions H g l H1 g1 -> (forall u, In (Through u) l -> inspects u = true) ->
  h_program H1 g1 = (H2, g2, Ok o) -> actions H2 g2 (map Through us) H3 g3 -> h_program H3 g3 = (H4, g4, Ok o4) ->
  load H4 o4 = fold_left changed us (load H2 o).
Proof.
  intros F A HU P A2 P2. destruct (formulated_sound _ _ _ _ _ _ _ F) as (S0 & N & q & f & Eq & Ef & C).
  assert (Nf : fprogram f = None) by (destruct (subject_to_spec q cs f Ef) as (_ & _ & _ & _ & _ & _ & _ & K & _); exact K).
  destruct (run_keeps H g l H1 g1 A) with (f := f) as (S1 & f2 & Hh & C2 & N2); auto; [intros u Hu; now rewrite (HU u Hu)|].
  destruct (program_step H1 g1 H2 g2 o S1 P) as (-> & S2 & _ & G2 & G3 & _). destruct (s_prog _ _ S2 o G2) as (T & ET).
  destruct (uses_run us H1 g2 H3 g3 o G2 G3 T ET A2) as (o2 & K1 & K2 & K3). unfold h_program in P2. rewrite K1, K2 in P2. injection P2 as <- _ <-. exact K3.
Qed.
Print Assumptions C72_in_place.
(** But the next call of one of its own methods undoes them: constraints and variables added in
    place, and canonical forms, are gone, and the program is again the one described. *)
Theorem C72_lost_refuted H0 kind h a cs H g l c H1 g1 H2 g2 o : formulated H0 kind h a cs H g -> actions H g (l ++ [Own c]) H1 g1 -> recompiles c = true ->
  (forall u, In (Through u) l -> inspects u || replaces u = true) ->
  h_program H1 g1 = (H2, g2, Ok o) -> describes kind h a cs (signs_of (own (l ++ [Own c]))) (load H2 o).
Proof.
  intros F A R HU P. pose proof F as (Rh & Va & _). destruct (formulated_sound _ _ _ _ _ _ _ F) as (S0 & N & q & f & Eq & Ef & C).
  assert (Nf : fprogram f = None) by (destruct (subject_to_spec q cs f Ef) as (_ & _ & _ & _ & _ & _ & _ & K & _); exact K).
  assert (HU' : forall u, In (Through u) (l ++ [Own c]) -> inspects u || replaces u = true).
  { intros u Hu. apply in_app_iff in Hu. destruct Hu as [Hu|[Hu|[]]]; [auto|discriminate Hu]. }
  destruct (run_keeps H g _ H1 g1 A HU' S0 f C Nf) as (S1 & f2 & Hh & C2 & N2).
  assert (G1 : grec g1 = true).
  { clear - A R HU S0 C Nf. remember (l ++ [Own c]) as l' eqn:El. revert l El HU f C Nf. induction A as [H g|H g x H1 g1 l' H2 g2 E A IH]; intros l El HU f C Nf; [destruct l; discriminate El|].
    assert (X : (forall u, In (Through u) [x] -> inspects u || replaces u = true) -> sound H1 g1 /\ exists f', core (view H1 g1) = core f' /\ fprogram f' = None).
    { intros K. destruct (run_keeps H g [x] H1 g1 ltac:(econstructor; [exact E|constructor]) K S0 f C Nf) as (K1 & f' & _ & K2 & K3). eauto. }
    destruct l as [|y l]; cbn [app] in El; injection El as -> ->.
    - inversion A; subst. cbn [act] in E. now destruct (own_step H g c _ _ S0 R E f C Nf) as (_ & _ & K & _).
    - destruct X as (S1 & f' & C' & N'); [intros u [->|[]]; apply HU; simpl; auto|]. apply (IH S1 l eq_refl) with (f := f'); auto. intros u Hu. apply HU. simpl. auto. }
  destruct (program_step H1 g1 H2 g2 o S1 P) as (-> & S2 & C3 & G2 & G3 & _ & U2 & _).
  rewrite <- signs_of_calls. apply (describes_of kind h a q cs f f2); auto. rewrite <- (compile_core _ _ C2), <- (compile_core _ _ C3). now apply U2.
Qed.
Print Assumptions C72_lost_refuted.

(** ** damage *)
(** maximise x[1] subject to x[1] <= 5, over the stored expression x[1] *)
Definition one_variable : FormulationModel.heap := [of_variable 0 1%Qc].
Lemma one_variable_reachable : reachable_heap one_variable.
Proof. apply (rh_op [] (OItem 1) rh_nil). cbn. contradiction. Qed.
Definition at_most_five : list constraint := [FormulationModel.Linear [1%Qc] "<=" (qz 5)].
(** x[1] <= 0; to_sef in place negates the column in the formulation's own arrays; after the next own
    call the program is maximise -x[1] subject to -x[1] <= 5, and x[1] = -6 is not feasible any more *)
Theorem C72_sef_refuted : exists kind h a cs H g l H1 g1 H2 g2 o, formulated [] kind h a cs H g /\ actions H g l H1 g1 /\
  l = [Own (Where [Signs None (Some [1%Z])]); Through (USef true); Own Extend] /\ h_program H1 g1 = (H2, g2, Ok o) /\ ~ describes kind h a cs (signs_of (own l)) (load H2 o).
Proof.
  exists "max", one_variable, (VEq 0), at_most_five. do 2 eexists. exists [Own (Where [Signs None (Some [1%Z])]); Through (USef true); Own Extend]. do 5 eexists.
  split. { split; [exact one_variable_reachable|]. split; [cbn; lia|]. do 2 eexists. split; [reflexivity|reflexivity]. }
  split. { do 3 (eapply a_step; [vm_compute; reflexivity|]). apply a_nil. }
  split; [reflexivity|]. split; [vm_compute; reflexivity|]. intros (_ & V & _). specialize (V [1%Qc] eq_refl). vm_compute in V. discriminate V.
Qed.
Print Assumptions C72_sef_refuted.
(** -x[1] <= -2 and x[1] >= 0: to_sef and one iteration in place negate the formulation's right-hand
    side but not its coefficients, so the next own call compiles -x[1] <= 2 *)
Definition at_least_two : list constraint := [FormulationModel.Linear [(- (1))%Qc] "<=" (qz (-2))].
Theorem C72_iteration_refuted : exists kind h a cs H g l H1 g1 H2 g2 o, formulated [] kind h a cs H g /\ actions H g l H1 g1 /\
  l = [Own AllPositive; Through (USef true); Through (UIteration [1%Z] true); Own Extend] /\ h_program H1 g1 = (H2, g2, Ok o) /\ ~ describes kind h a cs (signs_of (own l)) (load H2 o).
Proof.
  exists "max", one_variable, (VEq 0), at_least_two. do 2 eexists. exists [Own AllPositive; Through (USef true); Through (UIteration [1%Z] true); Own Extend]. do 5 eexists.
  split. { split; [exact one_variable_reachable|]. split; [cbn; lia|]. do 2 eexists. split; [reflexivity|reflexivity]. }
  split. { do 4 (eapply a_step; [vm_compute; reflexivity|]). apply a_nil. }
  split; [reflexivity|]. split; [vm_compute; reflexivity|]. intros (_ & _ & V). specialize (V [0%Qc]). destruct V as (V & _). destruct V as (_ & V & _).
  - split; [reflexivity|]. split; intros [|i] Hi; cbn in Hi; try lia; vm_compute; discriminate.
  - specialize (V _ (or_introl eq_refl)). vm_compute in V. now apply V.
Qed.
Print Assumptions C72_iteration_refuted.
(** an array of the objective is the one of every formulation made from it whose constraints need no
    padding: to_sef in place on one changes the objective and the other one *)
Theorem C72_objective_refuted : exists h H0 o H1 g1 H2 g2 H3 g3, reachable_heap h /\ h_optimise [] "max" h (VEq 0) = (H0, Ok o) /\
  h_subject_to H0 o at_most_five = (H1, Ok g1) /\ h_subject_to H1 o at_least_two = (H2, Ok g2) /\
  actions H2 g1 [Own (Where [Signs None (Some [1%Z])]); Through (USef true)] H3 g3 /\
  see H3 o <> see H2 o /\ compile (view H3 g2) <> compile (view H2 g2).
Proof.
  exists one_variable. do 8 eexists. split; [exact one_variable_reachable|]. split; [reflexivity|]. split; [reflexivity|]. split; [reflexivity|].
  split. { do 2 (eapply a_step; [vm_compute; reflexivity|]). apply a_nil. }
  split; vm_compute; discriminate.
Qed.
Print Assumptions C72_objective_refuted.
(** ** integer formulations *)
(** no variable of the program of an integer formulation has to be an integer *)
Theorem C72_integer_refuted o cs f0 calls f p : integer_formulation o cs = Ok f0 -> history f0 calls f -> integer_program_of f = Ok p -> (forall i, ~ must_be_integral p i) /\ forall x, admissible p x <-> feasible (meaning (ObjectModel.base p)) x.
Proof.
  intros _ _ E. unfold integer_program_of in E. destruct (snd (program f)) as [q| |]; try discriminate E. cbn [rmap] in E. injection E as <-. split; [intros i []|].
  intros x. unfold admissible. cbn [ObjectModel.base must_be_integral]. split; [tauto|]. intros K. split; auto. intros i _ [].
Qed.
Print Assumptions C72_integer_refuted.

(** maximise x[1] subject to x[1] <= 5 where x[1] >= 0: solve it, copy it, convert a copy, then add the
    constraint x[1] <= 3 in place *)
Example C72_nontrivial : exists H g H1 g1 H2 g2 o H3 g3 o3, formulated [] "max" one_variable (VEq 0) at_most_five H g /\
  let l := [Own AllPositive; Through (USolve 20); Through UCopy; Through (USef false); Through (UFeasible [qz 4])] in
  actions H g l H1 g1 /\ (forall u, In (Through u) l -> inspects u = true) /\ h_program H1 g1 = (H2, g2, Ok o) /\
  actions H2 g2 (map Through [UConstraint (PyList [INum 1%Qc]) "<=" (qz 3) true]) H3 g3 /\ gprog g3 = Some o3 /\
  feasible (meaning (load H2 o)) [qz 4] /\ ~ feasible (meaning (load H3 o3)) [qz 4].
Proof.
  do 10 eexists. split. { split; [exact one_variable_reachable|]. split; [cbn; lia|]. do 2 eexists. split; [reflexivity|reflexivity]. }
  cbv zeta. split. { do 5 (eapply a_step; [vm_compute; reflexivity|]). apply a_nil. }
  split. { intros u Hu. cbn in Hu. intuition; try discriminate; match goal with K : Through _ = Through _ |- _ => injection K as <-; reflexivity end. }
  split; [vm_compute; reflexivity|]. split. { cbn [map]. eapply a_step; [vm_compute; reflexivity|]. apply a_nil. }
  split; [vm_compute; reflexivity|]. split.
  - split; [reflexivity|]. split; intros [|i] Hi; cbn in Hi; try lia; vm_compute; discriminate.
  - intros (_ & K & _). specialize (K 1 ltac:(cbn; lia)). vm_compute in K. now apply K.
Qed.
