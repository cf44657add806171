(** Proofs about formulations on the heap. *)
From Coq Require Import String List Bool Arith ZArith QArith Qcanon Lia.
From Verif Require Import Py QcTac QSum MatModel MatTheory LinearModel LinearSpec LinearInv LinearProofs IntegerModel FormulationModel FormulationSpec FormulationProofs LinearHeap LinearHeapSpec LinearHeapProofs LinearHeapValues FormHeapModel FormHeapSpec.
Import ListNotations.
Open Scope nat_scope.
Open Scope string_scope.
Open Scope list_scope.

(** ** the methods on a program *)
Lemma frame_apply u H o H' o' r : h_apply u H o = (H', o', r) -> frame H o H' o'.
Proof.
  destruct u; cbn [h_apply].
  - intros [= <- <- _]. apply frame_refl.
  - intros [= E _]. pose proof (frame_sef H o) as F. now rewrite E in F.
  - intros E. pose proof (frame_canonical H o basis) as F. now rewrite E in F.
  - intros E. pose proof (frame_constraint H o coefficients inequality value) as F. now rewrite E in F.
  - intros E. pose proof (frame_variable H o coefficient column free negative) as F. now rewrite E in F.
  - pose proof (frame_iteration H o basis) as F. destruct (h_iteration H o basis) as ((K & p) & s). intros [= <- <- _]. exact F.
  - pose proof (frame_simplex fuel H o basis) as F. destruct (h_simplex fuel H o basis) as (K & s). intros [= <- <- _]. exact F.
  - pose proof (frame_two_phase fuel H o) as F. destruct (h_two_phase fuel H o) as (K & s). intros [= <- <- _]. exact F.
  - pose proof (frame_solve fuel H o) as F. destruct (h_solve fuel H o) as (K & s). intros [= <- <- _]. exact F.
  - intros [= <- <- _]. apply frame_refl.
Qed.
Definition in_place_effect (u : use) (p : lp) : lp :=
  match u with
  | UCopy | UFeasible _ => p
  | USef _ => fst (to_sef p)
  | UCanonical B _ => match to_canonical_form p B with Ok q => q | _ => p end
  | UConstraint a q v _ => fst (add_constraint p a q v)
  | UVariable k col f n _ => fst (add_variable p k col f n)
  | UIteration B _ => iterated p B
  | USimplex fuel B => fst (simplex fuel p B)
  | UTwoPhase fuel => fst (two_phase_simplex fuel p)
  | USolve fuel => fst (solve fuel p)
  end.
Lemma apply_load u H o H' o' : typed H o -> oT o = false -> h_apply u H o = (H', o', Ok tt) -> load H' o' = in_place_effect u (load H o) /\ typed H' o' /\ oT o' = false.
Proof.
  intros T ET. destruct u; cbn [h_apply in_place_effect].
  - intros [= <- <-]. auto.
  - intros [= E]. pose proof (sef_load H o T) as (F1 & F2). rewrite E in F1, F2. cbn [fst snd] in *. split; auto. split; auto.
    unfold h_to_sef in E. destruct (osef o); [congruence|]. destruct (if String.eqb _ _ then _ else _) as (H1 & c1). destruct (split_free _ _ _ _ _) as ((A3 & c3) & cc). destruct (add_slacks _ _ _ _) as (A4 & c4).
    destruct (negb _ || _); injection E as <- <-; cbn; auto.
  - intros E. pose proof (canonical_load H o basis T) as (F1 & F2). rewrite E in F1, F2. cbn [fst snd] in *. split; auto. split; auto.
    unfold h_canonical in E. destruct (to_canonical_form _ _); try discriminate E. injection E as <- <-. reflexivity.
  - intros E. pose proof (constraint_load H o coefficients inequality value T) as (F1 & F2). rewrite E in F1, F2. cbn [fst snd] in *. split; auto. split; auto.
    unfold h_add_constraint in E. destruct (add_constraint _ _ _ _) as (q & [[]| |]); try discriminate E. injection E as <- <-. reflexivity.
  - intros E. assert (OK : snd (add_variable (load H o) coefficient column free negative) = Ok tt).
    { unfold h_add_variable in E. destruct (add_variable _ _ _ _ _) as (q & [[]| |]); try discriminate E. reflexivity. }
    pose proof (variable_load H o coefficient column free negative T OK) as (F1 & F2). rewrite E in F1, F2. cbn [fst snd] in *. split; auto. split; auto.
    unfold h_add_variable in E. destruct (add_variable _ _ _ _ _) as (q & [[]| |]); try discriminate E. injection E as <- <-. reflexivity.
  - pose proof (iteration_load H o basis T) as (F1 & F2). destruct (h_iteration H o basis) as ((K & p) & s) eqn:E. cbn [fst snd] in *. intros [= <- <- ES]. split; auto. split; auto.
    unfold h_iteration in E. destruct (negb (osef o)); [congruence|]. destruct (is_basis _ _) as [[]| |]; try congruence. destruct (canonical _ _); injection E as <- <- <-; auto.
  - pose proof (h_simplex_load fuel H o basis T) as (F1 & _ & F2). destruct (h_simplex fuel H o basis) as (K & s). cbn [fst snd] in *. intros [= <- <- _]. auto.
  - pose proof (h_two_phase_load fuel H o T) as (F1 & _ & F2). destruct (h_two_phase fuel H o) as (K & s). cbn [fst snd] in *. intros [= <- <- _]. auto.
  - pose proof (h_solve_load fuel H o T) as (F1 & _ & F2). destruct (h_solve fuel H o) as (K & s). cbn [fst snd] in *. intros [= <- <- _]. auto.
  - intros [= <- <- _]. auto.
Qed.
(** a solver that returns leaves the program as it was *)
Lemma simplex_ok fuel p B r : wf p -> snd (simplex fuel p B) = Ok r -> fst (simplex fuel p B) = p.
Proof. intros W E. destruct (simplex_state fuel p B W) as [K|(_ & K)]; auto. now destruct (K r). Qed.
Lemma two_phase_ok fuel p r : wf p -> snd (two_phase_simplex fuel p) = Ok r -> fst (two_phase_simplex fuel p) = p.
Proof. intros W E. destruct (two_phase_state fuel p) as [K|(B & K)]; auto. rewrite K in *. now apply (simplex_ok fuel p B r). Qed.
Lemma solve_ok fuel p r : wf p -> snd (solve fuel p) = Ok r -> fst (solve fuel p) = p.
Proof.
  intros W. unfold solve. destruct (lsef p) eqn:ES; cbn [negb].
  - destruct (two_phase_simplex fuel p) as (q & s) eqn:E. pose proof (two_phase_ok fuel p) as K. rewrite E in K. cbn [fst snd] in *. destruct s as [s| |]; cbn; try discriminate. intros _. now apply (K s).
  - intros _. destruct (to_sef p) as (sef & rv). cbv zeta. match goal with |- fst (match ?x with _ => _ end) = _ => destruct x end; [reflexivity|]. reflexivity.
Qed.

(** ** a method called on the program: on a copy, or in place *)
Lemma copy_frame H o H1 o1 H2 o2 : h_copy H o = (H1, o1) -> frame H1 o1 H2 o2 -> length H <= length H2 /\ forall r, r < length H -> hget H2 r = hget H r.
Proof.
  intros E (L & F & _). unfold h_copy, fresh in E. injection E as <- <-. rewrite app_length in L, F. split; [lia|]. intros r Hr. rewrite F; [now apply hget_app|lia|].
  cbn. lia.
Qed.
Lemma copies_on_copy u : on_copy u = copies u.
Proof. destruct u; try destruct in_place; reflexivity. Qed.
Lemma use_copies u H o H' o' r : typed H o -> copies u = true -> h_use u H o = (H', o', r) -> o' = o /\ length H <= length H' /\ (forall r, r < length H -> hget H' r = hget H r) /\ load H' o' = load H o /\ typed H' o'.
Proof.
  intros T C. unfold h_use. rewrite C. destruct (h_copy H o) as (H1 & o1) eqn:E1. destruct (h_apply u H1 o1) as ((H2 & o2) & s) eqn:E2. intros [= <- <- <-].
  destruct (copy_frame H o H1 o1 H2 o2 E1 (frame_apply _ _ _ _ _ _ E2)) as (L & F). split; auto. split; auto. split; auto.
  assert (G : forall r, In r (cells o) -> hget H2 r = hget H r) by (intros r Hr; apply F; now apply (t_valid _ _ T)).
  split; [now apply load_same|]. now apply (typed_same H).
Qed.
Lemma use_load u H o H' o' : typed H o -> oT o = false -> h_use u H o = (H', o', Ok tt) -> load H' o' = changed (load H o) u /\ typed H' o' /\ oT o' = false.
Proof.
  intros T ET E. unfold changed. rewrite copies_on_copy. destruct (copies u) eqn:C.
  - destruct (use_copies u H o H' o' _ T C E) as (-> & _ & _ & K1 & K2). auto.
  - unfold h_use in E. rewrite C in E. exact (apply_load u H o H' o' T ET E).
Qed.

(** ** the formulation *)
Record sound (H : heap) (g : hformulation) : Prop := {
  s_valid : gA g < length H /\ gb g < length H /\ gc g < length H;
  s_sep : gb g <> gc g;
  s_A : exists n M, hget H (gA g) = Mat n M /\ shaped n M;
  s_b : exists v, hget H (gb g) = Vec v;
  s_c : exists v, hget H (gc g) = Vec v;
  s_cols : read_cols H (gA g) false = length (read_vec H (gc g));
  s_prog : forall o, gprog g = Some o -> typed H o /\ oT o = false }.
(** the parts of a formulation that determine what it compiles to *)
Definition core (f : formulation) := (fA f, fb f, fc f, fz f, fkind f, fineq f, fneg f, fpos f).
Lemma core_fields f f' : core f = core f' -> fA f = fA f' /\ fb f = fb f' /\ fc f = fc f' /\ fz f = fz f' /\ fkind f = fkind f' /\ fineq f = fineq f' /\ fneg f = fneg f' /\ fpos f = fpos f'.
Proof. unfold core. intros [=]. repeat split; auto. Qed.
Lemma compile_core f f' : core f = core f' -> compile f = compile f'.
Proof. intros E. apply core_fields in E. destruct E as (E1 & E2 & E3 & E4 & E5 & E6 & E7 & E8). unfold compile. now rewrite E1, E2, E3, E4, E5, E6, E7, E8. Qed.
Definition set_program (g : hformulation) (o : pobj) : hformulation := mkhf (gA g) (gb g) (gc g) (gz g) (gkind g) (gineq g) (gneg g) (gpos g) (Some o) (grec g).
Lemma core_set_program H g o : core (view H (set_program g o)) = core (view H g). Proof. reflexivity. Qed.
(** what is kept is what the formulation compiles to *)
Definition up_to_date (H : heap) (g : hformulation) : Prop := grec g = false -> forall o, gprog g = Some o -> compile (view H g) = Ok (load H o).

Definition free_of (H : heap) (g : hformulation) : list Z :=
  filter (fun i => negb (existsb (Z.eqb i) (gneg g ++ gpos g))) (map (fun i => Z.of_nat (S i)) (seq 0 (length (read_vec H (gc g))))).
Lemma compile_step H g r : sound H g ->
  h_new H (Ref (gA g) false) (Ref (gb g) false) (Ref (gc g) false) (gz g) (gkind g) (Some (gineq g)) (Some (free_of H g)) (Some (gneg g)) = r ->
  match compile (view H g) with
  | Ok p => exists o, r = (H, Ok o) /\ load H o = p /\ typed H o /\ oT o = false
  | Raise e => r = (H, Raise e)
  | Diverges => r = (H, Diverges)
  end.
Proof.
  intros [(V1 & V2 & V3) SD (n & M & EA & SM) (vb & Eb) (vc & Ec) SC SP] <-. unfold h_new. cbn [arg_source]. rewrite EA, Eb, Ec.
  unfold compile, view. cbn [fA fb fc fz fkind fineq fneg fpos]. change (filter _ _) with (free_of H g). rewrite <- SC. unfold read_mat, read_cols. rewrite EA, (vec_of _ _ _ Eb), (vec_of _ _ _ Ec).
  destruct (linear_program (Nd (Mat n M)) (Nd (Vec vb)) (Nd (Vec vc)) (gz g) (gkind g) (Some (gineq g)) (Some (free_of H g)) (Some (gneg g))) as [p| |] eqn:EP; auto.
  assert (W : wf p) by (apply wf_new in EP; auto). cbn [arg_cell].
  pose proof (linear_program_spec _ _ _ _ _ _ _ _ _ EP) as (n' & MA & vb' & vc' & d & K1 & K2 & K3 & K4 & K5 & _ & _ & _ & _ & _ & K).
  cbn [to_ndarray] in K1, K2, K3. injection K1 as <- <-. injection K2 as <-. injection K3 as <-.
  match goal with |- exists o, (_, Ok ?x) = _ /\ _ => exists x end. split; auto. subst p. cbn [lz lobj lineq lsef lfree lneg] in *.
  match goal with |- load H ?x = ?q /\ _ => destruct (typed_intro H x n M vb vc q) as (T1 & T2); auto end.
  cbn. intros r [<-|[<-|[<-|[]]]]; auto.
Qed.
Lemma program_step H g H' g' o : sound H g -> h_program H g = (H', g', Ok o) ->
  H' = H /\ sound H g' /\ core (view H g') = core (view H g) /\ gprog g' = Some o /\ grec g' = false /\ (up_to_date H g -> up_to_date H g') /\ (grec g = true -> up_to_date H g') /\
  (grec g = false -> gprog g <> None -> g' = g) /\ gA g' = gA g /\ gb g' = gb g /\ gc g' = gc g.
Proof.
  intros S0 E. unfold h_program in E. fold (free_of H g) in E.
  assert (C : match h_new H (Ref (gA g) false) (Ref (gb g) false) (Ref (gc g) false) (gz g) (gkind g) (Some (gineq g)) (Some (free_of H g)) (Some (gneg g)) with
    | (H, Ok p) => (H, mkhf (gA g) (gb g) (gc g) (gz g) (gkind g) (gineq g) (gneg g) (gpos g) (Some p) false, Ok p)
    | (H, Raise e) => (H, g, Raise e)
    | (H, Diverges) => (H, g, Diverges)
    end = (H', g', Ok o) ->
    H' = H /\ sound H g' /\ core (view H g') = core (view H g) /\ gprog g' = Some o /\ grec g' = false /\ up_to_date H g' /\ gA g' = gA g /\ gb g' = gb g /\ gc g' = gc g).
  { clear E. intros E. pose proof (compile_step H g _ S0 eq_refl) as C. destruct (compile (view H g)) as [p| |] eqn:CP; [destruct C as (o' & C & L & T & ET)| |]; rewrite C in E; try discriminate E.
    injection E as <- <- <-. split; auto. split; [destruct S0; constructor; auto; cbn [gprog]; intros o [= <-]; auto|]. repeat (split; [reflexivity|]). split; auto.
    intros _ o [= <-]. rewrite L. exact CP. }
  destruct (gprog g) as [q|] eqn:Eq; [destruct (grec g) eqn:Er|].
  - apply C in E. destruct E as (E1 & E2 & E3 & E4 & E5 & E6 & E7 & E8 & E9). repeat (split; auto). discriminate.
  - injection E as <- <- <-. repeat (split; auto). discriminate.
  - apply C in E. destruct E as (E1 & E2 & E3 & E4 & E5 & E6 & E7 & E8 & E9). repeat (split; auto). intros _ K. now destruct K.
Qed.

(** ** methods that leave the formulation's arrays alone *)
Lemma cell_cases H g o : sound H g -> typed H o ->
  (In (gA g) (cells o) -> gA g = oA o) /\ (In (gb g) (cells o) -> gb g = ob o \/ gb g = LinearHeap.oc o) /\ (In (gc g) (cells o) -> gc g = ob o \/ gc g = LinearHeap.oc o).
Proof.
  intros S0 T. destruct (s_A _ _ S0) as (n & M & EA & _), (s_b _ _ S0) as (vb & Eb), (s_c _ _ S0) as (vc & Ec).
  destruct (t_A _ _ T) as (n' & M' & FA & _), (t_b _ _ T) as (wb & Fb), (t_c _ _ T) as (wc & Fc).
  unfold cells. cbn [In]. repeat split; intros [K|[K|[K|[]]]]; auto; exfalso; congruence.
Qed.
Lemma use_keeps u H g o H' o' : sound H g -> gprog g = Some o -> inspects u || replaces u = true -> h_use u H o = (H', o', Ok tt) ->
  sound H' (set_program g o') /\ core (view H' (set_program g o')) = core (view H g) /\ (inspects u = true -> load H' o' = load H o /\ o' = o).
Proof.
  intros S0 Ep HU E. destruct (s_prog _ _ S0 o Ep) as (T & ET). destruct (use_load u H o H' o' T ET E) as (L' & T' & ET').
  assert (K : (forall r, r < length H -> hget H' r = hget H r) -> length H <= length H' -> sound H' (set_program g o') /\ core (view H' (set_program g o')) = core (view H g)).
  { intros K L. destruct S0 as [(V1 & V2 & V3) SD SA Sb Sc SC SP]. split.
    - constructor; cbn [set_program gA gb gc gprog]; rewrite ?K by auto; auto; [lia| |intros o1 [= <-]; auto]. unfold read_cols, read_vec. rewrite !K by auto. exact SC.
    - unfold core, view, set_program, read_mat, read_vec. cbn [fA fb fc fz fkind fineq fneg fpos gA gb gc gz gkind gineq gneg gpos]. now rewrite !K by auto. }
  destruct (copies u) eqn:C.
  { destruct (use_copies u H o H' o' _ T C E) as (-> & U1 & U2 & U3 & U4). destruct (K U2 U1). auto. }
  assert (EXT : forall X, frame H o (H ++ X) o' -> H' = H ++ X -> sound H' (set_program g o') /\ core (view H' (set_program g o')) = core (view H g)).
  { intros X _ ->. apply K; [intros r Hr; now apply hget_app|rewrite app_length; lia]. }
  unfold h_use in E. rewrite C in E.
  destruct (replaces u) eqn:R.
  - assert (NI : inspects u = false) by (destruct u; try discriminate R; unfold inspects; rewrite copies_on_copy, C; reflexivity).
    assert (X : exists X, H' = H ++ X).
    { destruct u; try discriminate R; cbn [h_apply] in E.
      - unfold h_canonical in E. destruct (to_canonical_form _ _); try discriminate E. injection E as <- _. eauto.
      - unfold h_add_constraint in E. destruct (add_constraint _ _ _ _) as (q & [[]| |]); try discriminate E. injection E as <- _. eauto.
      - unfold h_add_variable in E. destruct (add_variable _ _ _ _ _) as (q & [[]| |]); try discriminate E. injection E as <- _. eauto. }
    destruct X as (X & ->). destruct (K (fun r Hr => hget_app H X r Hr)) as (K1 & K2); [rewrite app_length; lia|]. rewrite NI. split; auto. split; auto. discriminate.
  - rewrite orb_false_r in HU. unfold inspects in HU. rewrite copies_on_copy, C in HU. cbn [orb] in HU.
    assert (EO : o' = o /\ load H' o = load H o).
    { pose proof (t_wf _ _ T) as W. destruct u; try discriminate HU; cbn [h_apply] in E; unfold changed in L'; cbn [on_copy] in L'.
      - destruct (h_simplex_load fuel H o basis T) as (_ & F & _). destruct (h_simplex fuel H o basis) as (K0 & s). injection E as <- <- E. split; auto. rewrite L'. destruct s as [s| |]; try discriminate E. now apply (simplex_ok _ _ _ s).
      - destruct (h_two_phase_load fuel H o T) as (_ & F & _). destruct (h_two_phase fuel H o) as (K0 & s). injection E as <- <- E. split; auto. rewrite L'. destruct s as [s| |]; try discriminate E. now apply (two_phase_ok _ _ s).
      - destruct (h_solve_load fuel H o T) as (_ & F & _). destruct (h_solve fuel H o) as (K0 & s). injection E as <- <- E. split; auto. rewrite L'. destruct s as [s| |]; try discriminate E. now apply (solve_ok _ _ s).
      - injection E as <- <- _. auto. }
    destruct EO as (-> & EL). pose proof (frame_apply u H o H' o (Ok tt) E) as (FL & FF & _). destruct (cell_cases H g o S0 T) as (CA & Cb & Cc).
    assert (V := s_valid _ _ S0). destruct V as (V1 & V2 & V3).
    assert (RA : read_mat H' (gA g) false = read_mat H (gA g) false /\ read_cols H' (gA g) false = read_cols H (gA g) false /\ exists n M, hget H' (gA g) = Mat n M /\ shaped n M).
    { destruct (in_dec Nat.eq_dec (gA g) (cells o)) as [I|I].
      - rewrite (CA I). pose proof (f_equal lA EL) as KA. cbn [load lA] in KA. rewrite ET in KA. split; auto. split; [|exact (t_A _ _ T')].
        pose proof (t_cols _ _ T) as C1. pose proof (t_cols _ _ T') as C2. rewrite ET in C1, C2. rewrite C1, C2. now rewrite EL.
      - unfold read_mat, read_cols. rewrite FF by auto. split; auto. split; auto. exact (s_A _ _ S0). }
    assert (RV : forall r, r < length H -> (exists v, hget H r = Vec v) -> (In r (cells o) -> r = ob o \/ r = LinearHeap.oc o) -> read_vec H' r = read_vec H r /\ exists v, hget H' r = Vec v).
    { intros r Vr Er Cr. destruct (in_dec Nat.eq_dec r (cells o)) as [I|I].
      - destruct (Cr I) as [-> | ->]; [split; [exact (f_equal lb EL)|exact (t_b _ _ T')]|split; [exact (f_equal lc EL)|exact (t_c _ _ T')]].
      - unfold read_vec. rewrite FF by auto. auto. }
    destruct (RV (gb g) V2 (s_b _ _ S0) Cb) as (Rb & Eb). destruct (RV (gc g) V3 (s_c _ _ S0) Cc) as (Rc & Ec). destruct RA as (RA & RC & EA).
    split; [constructor; cbn [set_program gA gb gc gprog]; auto; [lia|exact (s_sep _ _ S0)| |intros o1 [= <-]; auto]; rewrite RC, Rc; exact (s_cols _ _ S0)|].
    split; [|auto]. unfold core, view, set_program. cbn [fA fb fc fz fkind fineq fneg fpos gA gb gc gz gkind gineq gneg gpos]. now rewrite RA, Rb, Rc.
Qed.

(** ** the formulation's own calls *)
Lemma add_all_core cs : forall f f', core f = core f' -> core (fst (add_all_signs f cs)) = core (fst (add_all_signs f' cs)) /\ snd (add_all_signs f cs) = snd (add_all_signs f' cs) /\
  fprogram (fst (add_all_signs f' cs)) = fprogram f' /\ frecompile (fst (add_all_signs f' cs)) = frecompile f' /\
  fA (fst (add_all_signs f' cs)) = fA f' /\ fb (fst (add_all_signs f' cs)) = fb f' /\ fc (fst (add_all_signs f' cs)) = fc f' /\ fz (fst (add_all_signs f' cs)) = fz f' /\ fkind (fst (add_all_signs f' cs)) = fkind f' /\ fineq (fst (add_all_signs f' cs)) = fineq f'.
Proof.
  induction cs as [|c cs IH]; intros f f' E; cbn [add_all_signs]; [cbn; auto 12|]. destruct c as [|pos neg|]; cbn [fst snd]; auto 12.
  destruct (IH (set_signs f (add_signs (length (fc f)) pos (fpos f)) (add_signs (length (fc f)) neg (fneg f))) (set_signs f' (add_signs (length (fc f')) pos (fpos f')) (add_signs (length (fc f')) neg (fneg f')))) as (K1 & K2 & K3 & K4 & K5 & K6 & K7 & K8 & K9 & K10).
  { apply core_fields in E. destruct E as (E1 & E2 & E3 & E4 & E5 & E6 & E7 & E8). unfold core, set_signs. cbn. congruence. }
  rewrite K3, K4, K5, K6, K7, K8, K9, K10. auto 12.
Qed.
Lemma perform_core c f f' : recompiles c = true -> core f = core f' -> core (fst (perform c f)) = core (fst (perform c f')) /\ snd (perform c f) = snd (perform c f') /\
  fprogram (fst (perform c f')) = fprogram f' /\ (snd (perform c f') = Ok tt -> frecompile (fst (perform c f')) = true) /\
  fA (fst (perform c f')) = fA f' /\ fb (fst (perform c f')) = fb f' /\ fc (fst (perform c f')) = fc f' /\ fz (fst (perform c f')) = fz f' /\ fkind (fst (perform c f')) = fkind f' /\ fineq (fst (perform c f')) = fineq f'.
Proof.
  intros R E. assert (W : forall b, core (fst (where_all b f)) = core (fst (where_all b f')) /\ snd (where_all b f) = snd (where_all b f') /\
    fprogram (fst (where_all b f')) = fprogram f' /\ (snd (where_all b f') = Ok tt -> frecompile (fst (where_all b f')) = true) /\
    fA (fst (where_all b f')) = fA f' /\ fb (fst (where_all b f')) = fb f' /\ fc (fst (where_all b f')) = fc f' /\ fz (fst (where_all b f')) = fz f' /\ fkind (fst (where_all b f')) = fkind f' /\ fineq (fst (where_all b f')) = fineq f').
  { intros b. pose proof (core_fields _ _ E) as (E1 & E2 & E3 & E4 & E5 & E6 & E7 & E8). unfold where_all. rewrite E7, E8. destruct (Nat.ltb 0 _); cbn [fst snd]; [repeat (split; auto); discriminate|].
    unfold core. destruct b; cbn; repeat (split; auto); congruence. }
  destruct c as [cs| | | |]; try discriminate R; cbn [perform]; auto.
  - unfold where_. destruct (add_all_core cs f f' E) as (K1 & K2 & K3 & K4 & K). destruct (add_all_signs f cs) as (h & r), (add_all_signs f' cs) as (h' & r'). cbn [fst snd] in *. subst r'.
    pose proof (core_fields _ _ K1) as (E1 & E2 & E3 & E4 & E5 & E6 & E7 & E8). destruct r as [[]| |]; cbn [fst snd]; [|repeat (split; [tauto|]); split; [discriminate|tauto]..].
    rewrite E7, E8. destruct (negb _ || _); cbn [fst snd]; [repeat (split; [tauto|]); split; [discriminate|tauto]|]. destruct (existsb _ _); cbn [fst snd]; [repeat (split; [tauto|]); split; [discriminate|tauto]|].
    split; [unfold core in *; cbn in *; congruence|]. split; auto.
  - cbn [extend fst snd set_recompile]. unfold core in *. cbn in *. auto 12.
Qed.
Lemma own_step H g c H' g' : sound H g -> recompiles c = true -> h_call H g c = (H', g', Ok tt) -> forall f, core (view H g) = core f -> fprogram f = None ->
  H' = H /\ sound H g' /\ grec g' = true /\ exists f', perform c f = (f', Ok tt) /\ core (view H g') = core f' /\ fprogram f' = None.
Proof.
  intros S0 R E f EC EP. destruct (perform_core c (view H g) f R EC) as (P1 & P2 & P3 & _). destruct (perform_core c (view H g) (view H g) R eq_refl) as (_ & _ & _ & P4 & Q1 & Q2 & Q3 & Q4 & Q5 & Q6).
  assert (E' : (let '(f, r) := perform c (view H g) in (H, mkhf (gA g) (gb g) (gc g) (gz g) (gkind g) (gineq g) (fneg f) (fpos f) (gprog g) (frecompile f), r)) = (H', g', Ok tt)) by (destruct c; try discriminate R; exact E).
  clear E. destruct (perform c (view H g)) as (f1 & r). cbn [fst snd] in *. injection E' as <- <- ->. destruct (perform c f) as (f2 & r2). cbn [fst snd] in *. subst r2.
  split; auto. split; [destruct S0; constructor; auto|]. split; [auto|]. exists f2. split; auto. split; [|congruence]. rewrite <- P1. unfold core, view in *. cbn [fA fb fc fz fkind fineq fneg fpos gA gb gc gz gkind gineq gneg gpos] in *. congruence.
Qed.

(** ** histories *)
Definition signs_calls (l : list action) : list call := filter recompiles (own l).
Lemma signs_of_calls l : signs_of (signs_calls l) = signs_of (own l).
Proof.
  unfold signs_calls, signs_of. induction (own l) as [|c cs IH]; auto. cbn [filter]. destruct (recompiles c) eqn:R; cbn [flat_map]; rewrite IH; auto. destruct c; try discriminate R. reflexivity.
Qed.
Lemma run_keeps H g l H2 g2 : actions H g l H2 g2 -> (forall u, In (Through u) l -> inspects u || replaces u = true) -> sound H g -> forall f, core (view H g) = core f -> fprogram f = None ->
  sound H2 g2 /\ exists f2, history f (signs_calls l) f2 /\ core (view H2 g2) = core f2 /\ fprogram f2 = None.
Proof.
  induction 1 as [H g|H g a H1 g1 l H2 g2 E A IH]; intros HU S0 f EC EP; [split; auto; exists f; split; [constructor|auto]|].
  assert (HU' : forall u, In (Through u) l -> inspects u || replaces u = true) by (intros u Hu; apply HU; simpl; auto).
  destruct a as [c|u]; cbn [act] in E.
  - destruct (recompiles c) eqn:R.
    + destruct (own_step H g c H1 g1 S0 R E f EC EP) as (-> & S1 & _ & f1 & P1 & C1 & N1). destruct (IH HU' S1 f1 C1 N1) as (S2 & f2 & h2 & C2 & N2). split; auto. exists f2. split; auto.
      unfold signs_calls. cbn [own flat_map app filter]. rewrite R. econstructor; eauto.
    + destruct c; try discriminate R. cbn [h_call] in E. destruct (h_program H g) as ((H1' & g1') & r) eqn:EP'. destruct r as [o| |]; try discriminate E. injection E as <- <-.
      destruct (program_step H g H1' g1' o S0 EP') as (-> & S1 & C1 & _). rewrite <- C1 in EC. exact (IH HU' S1 f EC EP).
  - unfold h_through in E. destruct (h_program H g) as ((H1' & g1') & r) eqn:EP'. destruct r as [o| |]; try discriminate E. destruct (program_step H g H1' g1' o S0 EP') as (-> & S1 & C1 & G1 & _).
    destruct (h_use u H o) as ((H3 & o3) & s) eqn:EU. injection E as <- <- ->. destruct (use_keeps u H g1' o H3 o3 S1 G1 (HU u (or_introl eq_refl)) EU) as (S3 & C3 & _). fold (set_program g1' o3) in *.
    apply (IH HU' S3 f); auto. rewrite C3, C1. exact EC.
Qed.
Lemma run_up_to_date H g l H2 g2 : actions H g l H2 g2 -> (forall u, In (Through u) l -> inspects u = true) -> sound H g -> up_to_date H g -> up_to_date H2 g2.
Proof.
  induction 1 as [H g|H g a H1 g1 l H2 g2 E A IH]; intros HU S0 U; auto.
  assert (HU' : forall u, In (Through u) l -> inspects u = true) by (intros u Hu; apply HU; simpl; auto).
  destruct a as [c|u]; cbn [act] in E.
  - destruct (recompiles c) eqn:R.
    + set (f := mkformulation (fA (view H g)) (fb (view H g)) (fc (view H g)) (fz (view H g)) (fkind (view H g)) (fineq (view H g)) (fneg (view H g)) (fpos (view H g)) None false).
      destruct (own_step H g c H1 g1 S0 R E f eq_refl eq_refl) as (-> & S1 & G1 & _). apply IH; auto. intros K. congruence.
    + destruct c; try discriminate R. cbn [h_call] in E. destruct (h_program H g) as ((H1' & g1') & r) eqn:EP'. destruct r as [o| |]; try discriminate E. injection E as <- <-.
      destruct (program_step H g H1' g1' o S0 EP') as (-> & S1 & C1 & _ & _ & U1 & _). auto.
  - unfold h_through in E. destruct (h_program H g) as ((H1' & g1') & r) eqn:EP'. destruct r as [o| |]; try discriminate E. destruct (program_step H g H1' g1' o S0 EP') as (-> & S1 & C1 & G1 & _ & U1 & _).
    destruct (h_use u H o) as ((H3 & o3) & s) eqn:EU. injection E as <- <- ->. pose proof (HU u (or_introl eq_refl)) as I1. destruct (use_keeps u H g1' o H3 o3 S1 G1) as (S3 & C3 & K); auto; [now rewrite I1|]. fold (set_program g1' o3) in *.
    destruct (K I1) as (K1 & ->). apply IH; auto. intros Gr o4 [= <-]. rewrite (compile_core _ _ C3), K1. now apply U1.
Qed.
