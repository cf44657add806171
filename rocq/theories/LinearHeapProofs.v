From Coq Require Import String List Bool Arith ZArith QArith Qcanon Lia Sorted.
From Verif Require Import Py QcTac QSum ComparatorModel MatModel MatTheory LinearModel LinearSpec LinearProofs LinearInv DualProofs SefProofs IntegerModel LinearHeap LinearHeapSpec.
Import ListNotations.
Open Scope nat_scope.
Open Scope string_scope.
Open Scope list_scope.

(** ** cells *)
Lemma length_hwrite H : forall r a, length (hwrite H r a) = length H.
Proof. induction H as [|x H IH]; intros [|r] a; cbn; auto. Qed.
Lemma hget_hwrite_eq H : forall r a, r < length H -> hget (hwrite H r a) r = a.
Proof. induction H as [|x H IH]; intros [|r] a L; cbn in *; try lia; auto. apply IH. lia. Qed.
Lemma hget_hwrite_ne H : forall r r' a, r' <> r -> hget (hwrite H r a) r' = hget H r'.
Proof. induction H as [|x H IH]; intros [|r] [|r'] a N; cbn; auto; try congruence. apply IH. congruence. Qed.
Lemma hget_app H K r : r < length H -> hget (H ++ K) r = hget H r.
Proof. apply app_nth1. Qed.
Lemma hget_app2 H K r : length H <= r -> hget (H ++ K) r = hget K (r - length H).
Proof. apply app_nth2. Qed.

Definition cells (o : pobj) : list nat := [oA o; ob o; oc o].
(** an operation on an object leaves all other arrays alone, and the object afterwards refers to
    arrays of its own or to new ones *)
Definition frame (H : heap) (o : pobj) (H' : heap) (o' : pobj) : Prop :=
  length H <= length H' /\
  (forall r, r < length H -> ~ In r (cells o) -> hget H' r = hget H r) /\
  (forall r, In r (cells o') -> In r (cells o) \/ length H <= r < length H').
Lemma frame_refl H o : frame H o H o.
Proof. split; [lia|]. split; auto. Qed.
Lemma frame_cells H o o' : cells o' = cells o -> frame H o H o'.
Proof. intros E. split; [lia|]. split; auto. intros r. rewrite E. auto. Qed.
Lemma frame_trans H o H1 o1 H2 o2 : frame H o H1 o1 -> frame H1 o1 H2 o2 -> frame H o H2 o2.
Proof.
  intros (L1 & F1 & C1) (L2 & F2 & C2). split; [lia|]. split.
  - intros r Hr N. rewrite F2; [auto|lia|]. intros K. apply C1 in K as [K|K]; [auto|lia].
  - intros r Hr. apply C2 in Hr as [Hr|Hr]; [|lia]. apply C1 in Hr as [Hr|Hr]; [auto|lia].
Qed.
Lemma frame_write H o r a : In r (cells o) -> frame H o (hwrite H r a) o.
Proof.
  intros Hr. split; [rewrite length_hwrite; lia|]. split; auto. intros r' _ N. apply hget_hwrite_ne. intros ->. auto.
Qed.
Lemma frame_app H o K o' : (forall r, In r (cells o') -> In r (cells o) \/ length H <= r < length (H ++ K)) -> frame H o (H ++ K) o'.
Proof. intros C. split; [rewrite app_length; lia|]. split; auto. intros r Hr _. now apply hget_app. Qed.
Lemma frame_fresh H o p : frame H o (fst (fresh H p)) (snd (fresh H p)).
Proof. apply frame_app. cbn. rewrite app_length. cbn. lia. Qed.
Lemma frame_flip b0 H o : frame H o (h_flip b0 H o) o.
Proof. unfold h_flip. apply (frame_trans _ _ (write_vec H (ob o) (flip_y b0 (read_vec H (ob o)))) o); [apply (frame_write _ _ (ob o)); cbn; auto|]. apply (frame_write _ _ (oA o)). cbn. auto. Qed.
Lemma frame_sef H o : frame H o (fst (h_to_sef H o)) (snd (h_to_sef H o)).
Proof.
  unfold h_to_sef. destruct (osef o); [apply frame_refl|].
  destruct (if String.eqb (oobj o) "min" then (H ++ [Vec (vopp (read_vec H (oc o)))], length H) else (H, oc o)) as [H1 c1] eqn:E1.
  set (o1 := mkobj (oA o) (oT o) (ob o) c1 (oz o) (oobj o) (oineq o) (osef o) (ofree o) (oneg o)).
  assert (F1 : frame H o H1 o1).
  { destruct (String.eqb (oobj o) "min"); injection E1 as <- <-.
    - apply frame_app. cbn. rewrite app_length. cbn. lia.
    - now apply frame_cells. }
  set (H2 := write_mat H1 _ _ _). assert (F2 : frame H o H2 o1) by (eapply frame_trans; [exact F1|]; apply (frame_write _ _ (oA o)); cbn; auto).
  set (H3 := write_vec H2 c1 _). assert (F3 : frame H o H3 o1) by (eapply frame_trans; [exact F2|]; apply (frame_write _ _ c1); cbn; auto).
  clearbody H3. destruct (split_free _ _ _ _ _) as [[A3 c3] cc]. destruct (add_slacks _ _ _ _) as [A4 c4].
  destruct (_ || _); cbn [fst snd]; (eapply frame_trans; [exact F3|]).
  - apply frame_app. cbn. rewrite app_length. cbn. lia.
  - now apply frame_cells.
Qed.
Lemma frame_canonical H o B : let r := fst (h_canonical H o B) in frame H o (fst r) (snd r).
Proof. unfold h_canonical. destruct (to_canonical_form _ _); cbn [fst]; try apply frame_refl. apply frame_fresh. Qed.
Lemma frame_constraint H o a q v : let r := fst (h_add_constraint H o a q v) in frame H o (fst r) (snd r).
Proof.
  unfold h_add_constraint. destruct (add_constraint _ _ _ _) as [p [u|e|]]; cbn [fst snd]; try apply frame_refl.
  apply frame_app. cbn. rewrite app_length. cbn. lia.
Qed.
Lemma frame_variable H o k col f n : let r := fst (h_add_variable H o k col f n) in frame H o (fst r) (snd r).
Proof.
  unfold h_add_variable. destruct (add_variable _ _ _ _ _) as [p [u|e|]]; cbn [fst snd].
  - apply frame_app. cbn. rewrite app_length. cbn. lia.
  - split; [lia|]. split; auto.
  - split; [lia|]. split; auto.
Qed.
Lemma frame_iteration H o B : let r := fst (h_iteration H o B) in frame H o (fst r) (snd r).
Proof.
  unfold h_iteration. destruct (negb (osef o)); [apply frame_refl|]. destruct (is_basis _ _) as [[]| |]; try apply frame_refl.
  destruct (canonical _ _); cbn [fst]; try apply frame_flip. eapply frame_trans; [apply frame_flip|apply frame_fresh].
Qed.
Lemma frame_simplex fuel H o B : frame H o (fst (h_simplex fuel H o B)) o.
Proof.
  unfold h_simplex. destruct (negb (osef o)); [apply frame_refl|]. destruct (bind _ _); cbn [fst]; try apply frame_flip.
  eapply frame_trans; apply frame_flip.
Qed.
Lemma frame_two_phase fuel H o : frame H o (fst (h_two_phase fuel H o)) o.
Proof. unfold h_two_phase. destruct (phase_one _ _) as [[B|r]| |]; try apply frame_refl. apply frame_simplex. Qed.
Lemma frame_solve fuel H o : frame H o (fst (h_solve fuel H o)) o.
Proof.
  unfold h_solve. destruct (osef o); [|apply frame_refl]. pose proof (frame_two_phase fuel H o) as F.
  destruct (h_two_phase fuel H o). exact F.
Qed.

(** ** steps *)
Lemma frame_set H o f a : frame H o (h_set H o f a) o.
Proof.
  unfold h_set, write_vec, write_mat. destruct f, a; try apply frame_refl;
    destruct (_ : bool); try apply frame_refl; apply frame_write; cbn; auto.
Qed.
Lemma nth_set_obj l : forall i k o, nth_error (set_obj l i o) k = if Nat.eqb k i then option_map (fun _ => o) (nth_error l k) else nth_error l k.
Proof.
  induction l as [|x l IH]; intros [|i] [|k] o; cbn; auto. now destruct (Nat.eqb _ _).
Qed.
Lemma length_set_obj l : forall i o, length (set_obj l i o) = length l.
Proof. induction l as [|x l IH]; intros [|i] o; cbn; auto. Qed.

(** [kept]: a set of arrays and a set of programs that nothing else refers to *)
Section Kept.
  Variable cell : nat -> Prop.
  Variable prog : nat -> Prop.
  Record kept (s : state) : Prop := {
    k_cells : forall r, cell r -> r < length (sheap s);
    k_progs : forall k, prog k -> k < length (sobjs s);
    k_valid : forall k o r, nth_error (sobjs s) k = Some o -> In r (cells o) -> r < length (sheap s);
    k_apart : forall k o r, nth_error (sobjs s) k = Some o -> ~ prog k -> In r (cells o) -> ~ cell r }.
  Record same (s s' : state) : Prop := {
    s_cells : forall r, cell r -> hget (sheap s') r = hget (sheap s) r;
    s_progs : forall k, prog k -> nth_error (sobjs s') k = nth_error (sobjs s) k }.
  Definition outside (x : hop) : Prop :=
    (forall i, receiver x = Some i -> ~ prog i) /\ (forall r, In r (arrays x) -> ~ cell r).

  Lemma step_heap s H : kept s -> length (sheap s) <= length H ->
    (forall r, cell r -> hget H r = hget (sheap s) r) -> kept (mkstate H (sobjs s)) /\ same s (mkstate H (sobjs s)).
  Proof.
    intros K L E. split; constructor; cbn; auto.
    - intros r Hr. pose proof (k_cells _ K r Hr). lia.
    - apply (k_progs _ K).
    - intros k o r Hk Hr. pose proof (k_valid _ K k o r Hk Hr). lia.
    - apply (k_apart _ K).
  Qed.
  Lemma step_add s H o' : kept s -> length (sheap s) <= length H -> (forall r, cell r -> hget H r = hget (sheap s) r) ->
    (forall r, In r (cells o') -> r < length H /\ ~ cell r) ->
    kept (mkstate H (sobjs s ++ [o'])) /\ same s (mkstate H (sobjs s ++ [o'])).
  Proof.
    intros K L E C.
    assert (Q : forall k o, nth_error (sobjs s ++ [o']) k = Some o -> nth_error (sobjs s) k = Some o \/ o = o').
    { intros k o Hk. destruct (Nat.lt_ge_cases k (length (sobjs s))) as [Hl|Hl].
      - rewrite nth_error_app1 in Hk by auto. auto.
      - rewrite nth_error_app2 in Hk by auto. destruct (k - length (sobjs s)) as [|j]; [cbn in Hk; right; congruence|destruct j; discriminate]. }
    split; constructor; cbn [sheap sobjs].
    - intros r Hr. pose proof (k_cells _ K r Hr). lia.
    - intros k Hk. pose proof (k_progs _ K k Hk). rewrite app_length. lia.
    - intros k o r Hk Hr. destruct (Q k o Hk) as [Hk'| ->]; [pose proof (k_valid _ K k o r Hk' Hr); lia|apply C; auto].
    - intros k o r Hk Hp Hr. destruct (Q k o Hk) as [Hk'| ->]; [exact (k_apart _ K k o r Hk' Hp Hr)|apply C; auto].
    - auto.
    - intros k Hk. apply nth_error_app1. now apply (k_progs _ K).
  Qed.
  Lemma step_on s i ip f : kept s -> ~ prog i -> (forall H o, frame H o (fst (f H o)) (snd (f H o))) ->
    kept (on s i ip f) /\ same s (on s i ip f).
  Proof.
    intros K Hp F. unfold on. destruct (nth_error (sobjs s) i) as [o|] eqn:Eo; [|split; [auto|constructor; auto]].
    pose proof (k_apart _ K i o) as AP. specialize (AP) with (1 := Eo) (2 := Hp).
    pose proof (fun r => k_valid _ K i o r Eo) as V. destruct ip.
    - specialize (F (sheap s) o). destruct (f (sheap s) o) as [H o']. cbn [fst snd] in F. destruct F as (L & F & C).
      split; constructor; cbn [sheap sobjs].
      + intros r Hr. pose proof (k_cells _ K r Hr). lia.
      + intros k Hk. rewrite length_set_obj. now apply (k_progs _ K).
      + intros k o1 r Hk Hr. rewrite nth_set_obj in Hk. destruct (Nat.eqb_spec k i) as [->|N].
        * rewrite Eo in Hk. cbn in Hk. injection Hk as <-. apply C in Hr as [Hr|Hr]; [apply V in Hr; lia|lia].
        * pose proof (k_valid _ K k o1 r Hk Hr). lia.
      + intros k o1 r Hk Hn Hr Hc. rewrite nth_set_obj in Hk. destruct (Nat.eqb_spec k i) as [->|N].
        * rewrite Eo in Hk. cbn in Hk. injection Hk as <-. apply C in Hr as [Hr|Hr]; [exact (AP r Hr Hc)|]. pose proof (k_cells _ K r Hc). lia.
        * exact (k_apart _ K k o1 r Hk Hn Hr Hc).
      + intros r Hr. apply F; [now apply (k_cells _ K)|]. intros Hi. exact (AP r Hi Hr).
      + intros k Hk. rewrite nth_set_obj. destruct (Nat.eqb_spec k i) as [->|]; [contradiction|auto].
    - destruct (h_copy (sheap s) o) as [H1 o1] eqn:E1. pose proof (frame_fresh (sheap s) o (load (sheap s) o)) as F1.
      unfold h_copy in E1. rewrite E1 in F1. cbn [fst snd] in F1.
      assert (C1 : forall r, In r (cells o1) -> length (sheap s) <= r < length H1).
      { unfold fresh in E1. injection E1 as <- <-. cbn. rewrite app_length. cbn. lia. }
      specialize (F H1 o1). destruct (f H1 o1) as [H o']. cbn [fst snd] in F.
      destruct F1 as (L1 & F1 & _). destruct F as (L & F & C).
      assert (F1' : forall r, r < length (sheap s) -> hget H1 r = hget (sheap s) r) by (unfold fresh in E1; injection E1 as <- <-; intros; now apply hget_app).
      apply step_add; auto; [lia| |].
      + intros r Hr. pose proof (k_cells _ K r Hr). rewrite F; [now apply F1'|lia|]. intros Hi. apply C1 in Hi. lia.
      + intros r Hr. apply C in Hr as [Hr|Hr].
        * apply C1 in Hr. split; [lia|]. intros Hc. pose proof (k_cells _ K r Hc). lia.
        * split; [lia|]. intros Hc. pose proof (k_cells _ K r Hc). lia.
  Qed.
  Lemma arg_cell_frame H a new H' q : (forall r, In r (arg_ref a) -> r < length H /\ ~ cell r) -> (forall r, cell r -> r < length H) ->
    arg_cell H a new = (H', q) -> length H <= length H' /\ (forall r, r < length H -> hget H' r = hget H r) /\ fst q < length H' /\ ~ cell (fst q).
  Proof.
    intros HR HC E. destruct a as [r T|l]; cbn in E; injection E as <- <-; cbn [fst].
    - split; [lia|]. split; auto. apply HR. now left.
    - rewrite app_length. cbn. split; [lia|]. split; [intros; now apply hget_app|]. split; [lia|]. intros K. apply HC in K. lia.
  Qed.
  Lemma step_new s A b c z obj ineq fr ng : kept s -> (forall r, In r (arg_ref A ++ arg_ref b ++ arg_ref c) -> r < length (sheap s) /\ ~ cell r) ->
    let s' := added s (h_new (sheap s) A b c z obj ineq fr ng) in kept s' /\ same s s'.
  Proof.
    intros K HR. cbv zeta. unfold h_new. destruct (linear_program _ _ _ _ _ _ _ _) as [p| |]; cbn [added]; try (apply step_heap; auto).
    destruct (arg_cell (sheap s) A _) as [H1 [rA T]] eqn:E1. destruct (arg_cell H1 b _) as [H2 [rb Tb]] eqn:E2. destruct (arg_cell H2 c _) as [H3 [rc Tc]] eqn:E3.
    pose proof (k_cells _ K) as KC.
    apply arg_cell_frame in E1 as (L1 & G1 & V1 & N1); [|intros; apply HR; apply in_or_app; auto|auto].
    apply arg_cell_frame in E2 as (L2 & G2 & V2 & N2); [|intros r Hr; destruct (HR r) as (Q1 & Q2); [apply in_or_app; right; apply in_or_app; auto|split; [lia|auto]]|intros r Hr; apply KC in Hr; lia].
    apply arg_cell_frame in E3 as (L3 & G3 & V3 & N3); [|intros r Hr; destruct (HR r) as (Q1 & Q2); [apply in_or_app; right; apply in_or_app; auto|split; [lia|auto]]|intros r Hr; apply KC in Hr; lia].
    cbn [fst] in *. apply step_add; auto; [lia| |].
    - intros r Hr. apply KC in Hr. rewrite G3, G2, G1 by lia. reflexivity.
    - cbn. intros r [<-|[<-|[<-|[]]]]; (split; [lia|auto]).
  Qed.
  Theorem step_kept s x : kept s -> outside x -> kept (hstep s x) /\ same s (hstep s x).
  Proof.
    intros K (O1 & O2). assert (Z : kept s /\ same s s) by (split; [auto|constructor; auto]).
    destruct x; cbn [receiver arrays] in *; cbn [hstep].
    - destruct (array_ok a); auto. apply step_heap; auto; [rewrite app_length; lia|]. intros r Hr. apply hget_app. now apply (k_cells _ K).
    - destruct (same_shape _ _); auto. apply step_heap; auto; [rewrite length_hwrite; lia|]. intros r' Hr. apply hget_hwrite_ne. intros ->. apply (O2 r); cbn; auto.
    - destruct (valid_ref (sheap s) A && valid_ref (sheap s) b && valid_ref (sheap s) c) eqn:E; auto.
      apply step_new; auto. intros r Hr. split; auto. rewrite !andb_true_iff in E. destruct E as ((E1 & E2) & E3).
      rewrite !in_app_iff in Hr. destruct Hr as [Hr|[Hr|Hr]]; [destruct A|destruct b|destruct c]; cbn in Hr; try contradiction; destruct Hr as [<-|[]]; now apply Nat.ltb_lt.
    - apply step_on; auto. intros; apply frame_refl.
    - apply step_on; auto. apply frame_sef.
    - apply step_on; auto. intros; apply frame_canonical.
    - apply step_on; auto. intros; apply frame_constraint.
    - apply step_on; auto. intros; apply frame_variable.
    - apply step_on; auto. intros; apply frame_iteration.
    - apply step_on; auto. intros; apply frame_simplex.
    - apply step_on; auto. intros; apply frame_two_phase.
    - apply step_on; auto. intros; apply frame_solve.
    - apply step_on; auto. intros; apply frame_set.
    - destruct (nth_error (sobjs s) i) as [o|] eqn:Eo; auto. apply step_add; auto.
      intros r Hr. assert (Hr' : In r (cells o)) by (cbn in *; tauto). split; [exact (k_valid _ K i o r Eo Hr')|exact (k_apart _ K i o r Eo (O1 i eq_refl) Hr')].
    - destruct (nth_error (sobjs s) i) as [o|] eqn:Eo; auto. unfold h_relax. apply step_new; auto.
      intros r Hr. assert (Hr' : In r (cells o)) by (cbn in *; tauto). split; [exact (k_valid _ K i o r Eo Hr')|exact (k_apart _ K i o r Eo (O1 i eq_refl) Hr')].
  Qed.
  Theorem run_kept l : forall s, kept s -> (forall x, In x l -> outside x) -> kept (hrun s l) /\ same s (hrun s l).
  Proof.
    induction l as [|x l IH]; intros s K O.
    - split; [auto|constructor; auto].
    - cbn [hrun fold_left]. destruct (step_kept s x K (O x (or_introl eq_refl))) as (K1 & S1).
      destruct (IH (hstep s x) K1 (fun y Hy => O y (or_intror Hy))) as (K2 & S2). split; auto. constructor.
      + intros r Hr. rewrite <- (s_cells _ _ S1) by auto. now apply (s_cells _ _ S2).
      + intros k Hk. rewrite <- (s_progs _ _ S1) by auto. now apply (s_progs _ _ S2).
  Qed.
End Kept.

Lemma heap_state_valid s k o r : heap_state s -> nth_error (sobjs s) k = Some o -> In r (cells o) -> r < length (sheap s).
Proof.
  intros (l & ->). refine (k_valid _ _ _ (proj1 (run_kept (fun _ => False) (fun _ => False) l initial _ _)) k o r).
  - constructor; cbn; try tauto. intros k' o' r' H. destruct k'; discriminate.
  - intros x _. split; auto.
Qed.
Lemma load_same H H' o : (forall r, In r (cells o) -> hget H' r = hget H r) -> load H' o = load H o.
Proof. intros E. unfold load, read_mat, read_vec. now rewrite !E by (cbn; auto). Qed.
