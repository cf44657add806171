(** C78: evaluate, is_feasible and the verify_ methods in double precision with overflow, infinities and nan. *)
From Coq Require Import String List Bool Arith ZArith QArith Qcanon Lia Permutation.
From Verif Require Import Py QcTac QSum QInt ComparatorModel MatModel MatTheory LinearModel LinearSpec LinearProofs SefProofs BasisProofs DualProofs LinearProps DoubleSpec DoubleModel DoubleProofs DoubleProps FloatModel FloatSpec FloatProofs FloatLinearModel FloatLinearSpec FloatLinearProofs.
Import ListNotations.
Open Scope nat_scope.
Open Scope string_scope.
Open Scope list_scope.

(** ** moderate numbers *)
(** When the sums are moderate nothing overflows: a result on finite arguments is one of those described
    by C74, so the theorems of C74 apply. *)
Lemma float_at l i : (forall v, In v l -> is_float (Fin v)) -> is_float (Fin (at_ l i)).
Proof. intros H. unfold at_. destruct (nth_in_or_default i l 0%Qc) as [K|E]; [auto|]. rewrite E. apply zero_float. Qed.
Lemma float_abs v : is_float (Fin v) -> (qabs v <= max_double)%Qc. Proof. intros (_ & H). now apply qabs_le. Qed.
Lemma forallb_eq {A} (f g : A -> bool) l : (forall a, In a l -> f a = g a) -> forallb f l = forallb g l.
Proof. induction l as [|a l IH]; intros H; [reflexivity|]. cbn. rewrite H by now left. f_equal. apply IH. intros b Hb. apply H. now right. Qed.
Theorem C78_is_feasible p x r : float_program p -> (forall i, i < length (lA p) -> moderate (combine (nth i (lA p) []) x)) ->
  ff_is_feasible p (fins x) r -> f_is_feasible p x r.
Proof.
  intros (Fb & _) M (L & ax & D & ->). rewrite fins_length in *. split; auto.
  destruct (choices (fun i v => ax i = Fin v /\ f_dot (nth i (lA p) []) x v /\ (qabs v <= max_double)%Qc) 0%Qc (rows p)) as (a & Ha); [intros i Hi; apply (transfer_dot _ _ _ (D i Hi)), M, Hi|].
  exists (fun j => fl_ge (entry (fins x) j) (Fin 0)), a, (if lsef p then fun i => fl_isclose (ax i) (Fin (at_ (lb p) i)) else fun i => fl_math_isclose (ax i) (Fin (at_ (lb p) i))). split; [intros i Hi; now apply Ha|].
  destruct (lsef p).
  - split; [|split; [|reflexivity]].
    + intros j Hj. rewrite entry_fins by lia. apply ge0_transfer.
    + intros i Hi. rewrite (proj1 (Ha i Hi)). apply np_transfer. now apply float_at.
  - split.
    + intros i Hi. destruct (Ha i Hi) as (-> & _ & B). apply math_transfer; auto. apply float_abs. now apply float_at.
    + f_equal; apply forallb_eq; intros i Hi; apply in_seq in Hi; [rewrite entry_fins by lia; reflexivity|]. destruct (Ha i ltac:(lia)) as (-> & _). reflexivity.
Qed.
Print Assumptions C78_is_feasible.
Theorem C78_evaluate p x r : moderate (combine (lc p) x) -> (qabs (lz p) <= pow2 1000)%Qc -> ff_evaluate p (fins x) r -> exists v, r = Fin v /\ f_evaluate p x v.
Proof.
  intros M Z (L & v & D & ->). rewrite fins_length in L. destruct (transfer_dot _ _ _ D M) as (w & -> & W & B). cbn [f_add].
  assert (Bw : (qabs w <= pow2 1000 + pow2 1000 + 1)%Qc).
  { destruct M as (T & N). pose proof (no_overflow_value (combine (lc p) x) w T N W) as Q. exact Q. }
  exists (rnd (w + lz p)). split; [|split; [exact L|]; exists w; split; [exact W|apply rnd_rounds]]. apply to_float_fin. pose proof (qabs_add w (lz p)) as Q. assert (K : (pow2 1000 + pow2 1000 + 1 + pow2 1000 <= max_double)%Qc) by (vm_compute; discriminate). set (P := pow2 1000) in *. clearbody P. set (m := max_double) in *. clearbody m. qclra.
Qed.
Print Assumptions C78_evaluate.
Theorem C78_verify_infeasibility p y r : (forall j, j < length (lc p) -> moderate (combine y (f_column (lA p) j))) -> moderate (combine y (lb p)) ->
  ff_verify_infeasibility p (fins y) r -> f_verify_infeasibility p y r.
Proof.
  intros M Mb (Es & L & ya & yb & D1 & D2 & ->). rewrite fins_length in L. split; auto. split; auto.
  destruct (choices (fun j v => ya j = Fin v /\ f_dot y (f_column (lA p) j) v) 0%Qc (cols p)) as (a & Ha); [intros j Hj; destruct (transfer_dot _ _ _ (D1 j Hj) (M j Hj)) as (v & ? & ? & _); eauto|].
  destruct (transfer_dot _ _ _ D2 Mb) as (b & -> & Hb & _). exists a, b, (fun j => fl_ge (ya j) (Fin 0)), (fl_lt (Fin b) (Fin 0)). split; [intros j Hj; now apply Ha|]. split; auto. split; [|split; [apply lt0_transfer|reflexivity]].
  intros j Hj. rewrite (proj1 (Ha j Hj)). apply ge0_transfer.
Qed.
Print Assumptions C78_verify_infeasibility.
Theorem C78_verify_unboundedness p x d r : float_program p -> (forall i, i < length (lA p) -> moderate (combine (nth i (lA p) []) x) /\ moderate (combine (nth i (lA p) []) d)) ->
  moderate (combine (lc p) d) -> ff_verify_unboundedness p (fins x) (fins d) r -> f_verify_unboundedness p x d r.
Proof.
  intros F M Mc (Es & L & fe & cd & ad & HF & D1 & D2 & ->). rewrite fins_length in L. split; auto. split; auto.
  destruct (transfer_dot _ _ _ D1 Mc) as (c & -> & Hc & _).
  destruct (choices (fun i v => ad i = Fin v /\ f_dot (nth i (lA p) []) d v) 0%Qc (rows p)) as (a & Ha); [intros i Hi; destruct (transfer_dot _ _ _ (D2 i Hi) (proj2 (M i Hi))) as (v & ? & ? & _); eauto|].
  exists fe, c, (fl_le (Fin c) (Fin 0)), a, (fun i => fl_isclose (ad i) (Fin 0)), (fun j => fl_ge (entry (fins d) j) (Fin 0)). split; [apply C78_is_feasible; auto; intros i Hi; now apply M|]. split; auto. split; [apply le0_transfer|]. split; [intros i Hi; now apply Ha|]. split; [|split; [|reflexivity]].
  - intros i Hi. rewrite (proj1 (Ha i Hi)). apply np_transfer, zero_float.
  - intros j Hj. rewrite entry_fins by lia. apply ge0_transfer.
Qed.
Print Assumptions C78_verify_unboundedness.
Theorem C78_verify_optimality p y r : (forall j, j < length (lc p) -> moderate (combine y (f_column (lA p) j)) /\ (qabs (nth j (lc p) 0) <= pow2 1000)%Qc) ->
  ff_verify_optimality p (fins y) r -> f_verify_optimality p y r.
Proof.
  intros M (Es & L & ya & D & ->). rewrite fins_length in L. split; auto. split; auto.
  destruct (choices (fun j v => ya j = Fin v /\ f_dot y (f_column (lA p) j) v) 0%Qc (cols p)) as (a & Ha); [intros j Hj; destruct (transfer_dot _ _ _ (D j Hj) (proj1 (M j Hj))) as (v & ? & ? & _); eauto|].
  assert (T : forall j, j < cols p -> f_sub (Fin (at_ (lc p) j)) (ya j) = Fin (rnd (at_ (lc p) j - a j))).
  { intros j Hj. destruct (Ha j Hj) as (-> & S). destruct (M j Hj) as ((T & N) & C). unfold f_sub. cbn [f_opp f_add]. apply to_float_fin. change (at_ (lc p) j + - a j)%Qc with (at_ (lc p) j - a j)%Qc. pose proof (no_overflow_value _ _ T N S) as Q. pose proof (qabs_add (at_ (lc p) j) (- a j)) as Q2. rewrite qabs_opp in Q2. change (nth j (lc p) 0%Qc) with (at_ (lc p) j) in C.
    change (at_ (lc p) j + - a j)%Qc with (at_ (lc p) j - a j)%Qc in Q2. assert (K : (pow2 1000 + pow2 1000 + 1 + pow2 1000 <= max_double)%Qc) by (vm_compute; discriminate). set (P := pow2 1000) in *. clearbody P. set (m := max_double) in *. clearbody m. qclra. }
  exists a, (fun j => rnd (at_ (lc p) j - a j)), (fun j => fl_le (f_sub (Fin (at_ (lc p) j)) (ya j)) (Fin 0)). split; [intros j Hj; now apply Ha|]. split; [intros j Hj; apply rnd_rounds|]. split; [|reflexivity]. intros j Hj. rewrite T by auto. apply le0_transfer.
Qed.
Print Assumptions C78_verify_optimality.
(** for instance: on integers of moderate size the answer of is_feasible is exact *)
Theorem C78_exact p x r : reachable p -> float_program p -> whole_program p -> whole x -> fits p x -> (Z.of_nat (length (lc p)) <= 2 ^ 52)%Z ->
  ff_is_feasible p (fins x) r -> (r = true <-> feasible (meaning p) x).
Proof.
  intros Hr F W Wx Ft N H. apply (C74_is_feasible p x r Hr W Wx Ft). apply C78_is_feasible; auto. intros i Hi. split.
  - apply (Qcle_trans _ _ _ (ft_sum _ _ Ft i Hi)). rewrite <- pow2_int by lia. apply pow2_le. lia.
  - rewrite combine_length. rewrite (shaped_nth (cols p)) by (auto; apply (wf_A _ (reachable_wf p Hr))). unfold cols. lia.
Qed.
Print Assumptions C78_exact.

(** ** infinities and nan *)
(** A program in SEF with at least one constraint accepts only vectors of finite numbers. *)
Lemma isclose_finite v t : fl_isclose v (Fin t) = true -> f_finite v = true. Proof. destruct v; auto; unfold fl_isclose; cbn [f_finite andb f_eq]; discriminate. Qed.
Lemma is_finite v : f_finite v = true -> finite v. Proof. destruct v; try discriminate. intros _. eexists. reflexivity. Qed.
Lemma in_combine_nth {A B} (u : list A) (v : list B) i da db : i < length u -> i < length v -> In (nth i u da, nth i v db) (combine u v).
Proof. revert v i. induction u as [|a u IH]; intros [|b v] i Hu Hv; cbn in *; try lia. destruct i; [now left|right]. apply IH; lia. Qed.
Lemma row_finite p i x v : reachable p -> i < rows p -> length x = cols p -> ff_dot (fins (nth i (lA p) [])) x v -> f_finite v = true -> forall w, In w x -> finite w.
Proof.
  intros Hr Hi L D F w Hw. destruct (In_nth _ _ NaN Hw) as (j & Hj & <-). apply is_finite. unfold ff_dot in D. apply (summed_finite _ _ D F (nth j (fins (nth i (lA p) [])) NaN)). apply in_combine_nth; auto. rewrite fins_length, (shaped_nth (cols p)) by (auto; apply (wf_A _ (reachable_wf p Hr))). lia.
Qed.
Theorem C78_feasible_finite p x : reachable p -> lsef p = true -> 0 < length (lA p) -> ff_is_feasible p x true -> forall v, In v x -> finite v.
Proof.
  intros Hr Es R (L & ax & D & E). rewrite Es in E. symmetry in E. apply andb_true_iff in E. destruct E as (_ & E). rewrite forallb_forall in E. specialize (E 0 ltac:(apply in_seq; unfold rows; lia)).
  apply (row_finite p 0 x (ax 0) Hr R L (D 0 R)). now apply isclose_finite in E.
Qed.
Print Assumptions C78_feasible_finite.
Theorem C78_unboundedness_finite p x d : reachable p -> 0 < length (lA p) -> ff_verify_unboundedness p x d true -> forall v, In v (x ++ d) -> finite v.
Proof.
  intros Hr R (Es & L & fe & cd & ad & HF & D1 & D2 & E) v Hv. destruct fe; [|discriminate E]. cbn [negb] in E. destruct (fl_le cd (Fin 0)); [discriminate E|]. destruct (forallb (fun i => fl_isclose (ad i) (Fin 0)) (seq 0 (rows p))) eqn:C; [|discriminate E].
  apply in_app_or in Hv. destruct Hv as [Hv|Hv]; [now apply (C78_feasible_finite p x Hr Es R HF)|]. rewrite forallb_forall in C. specialize (C 0 ltac:(apply in_seq; unfold rows; lia)).
  apply (row_finite p 0 d (ad 0) Hr R L (D2 0 R)); auto. now apply isclose_finite in C.
Qed.
Print Assumptions C78_unboundedness_finite.
(** A certificate of infeasibility with infinite or nan entries that is accepted still shows that there
    is no solution. *)
Lemma times_inf v x w : f_finite v = false -> f_infinite w = true -> f_mul v (Fin x) = w -> (0 < x)%Qc /\ v = w \/ (x < 0)%Qc /\ v = f_opp w.
Proof.
  intros F I. destruct v; [discriminate F| | |cbn [f_mul]; intros <-; discriminate I]; cbn [f_mul]; unfold f_times_inf.
  - destruct (qeq_spec x 0) as [->|N]; [intros <-; discriminate I|]. destruct (qlt_spec x 0); cbn [f_opp]; intros <-; [right|left]; split; auto; qclra.
  - destruct (qeq_spec x 0) as [->|N]; [intros <-; discriminate I|]. destruct (qlt_spec x 0); cbn [f_opp]; intros <-; [right|left]; split; auto; qclra.
Qed.
Lemma comparator0_nonfinite v : f_finite v = false -> fl_comparator (Fin 0) v = false.
Proof. intros F. unfold fl_comparator. change (f_eq (Fin 0) (Fin 0)) with true. unfold fl_close_to_zero. rewrite tenth_lit. generalize tenth. intros t. destruct v; cbn [f_finite] in F; congruence || reflexivity. Qed.
Lemma ge_nonfinite v : f_finite v = false -> fl_ge v (Fin 0) = true -> v = PInf.
Proof. intros F. unfold fl_ge. rewrite comparator0_nonfinite by auto. destruct v; cbn [f_finite f_le orb] in *; congruence. Qed.
Lemma lt_nonfinite v : f_finite v = false -> fl_lt v (Fin 0) = true -> v = NInf.
Proof. intros F. unfold fl_lt. rewrite comparator0_nonfinite by auto. destruct v; cbn [f_finite f_lt andb negb] in *; congruence. Qed.
Lemma summed_nonfinite l w a x : ff_summed l w -> In (a, x) l -> f_finite a = false -> f_finite w = false.
Proof. intros H Hin F. destruct (f_finite w) eqn:E; auto. destruct (summed_finite _ _ H E a x Hin) as (K & _). congruence. Qed.
Theorem C78_infinite_certificate p y : reachable p -> ff_verify_infeasibility p y true -> (exists v, In v y /\ ~ finite v) -> infeasible (meaning p).
Proof.
  intros Hr (Es & L & ya & yb & D1 & D2 & E) (v & Hv & Nv). pose proof (reachable_wf p Hr) as H. symmetry in E. apply andb_true_iff in E. destruct E as (E1 & E2). rewrite forallb_forall in E1.
  destruct (In_nth _ _ NaN Hv) as (i & Hi & Ei). assert (Fv : f_finite v = false) by (destruct v; auto; exfalso; apply Nv; eexists; reflexivity). rewrite L in Hi.
  assert (B : (0 < at_ (lb p) i)%Qc /\ v = NInf \/ (at_ (lb p) i < 0)%Qc /\ v = PInf).
  { assert (In (v, Fin (at_ (lb p) i)) (combine y (fins (lb p)))) as Hin. { rewrite <- Ei. rewrite <- entry_fins by (rewrite (wf_b _ H); exact Hi). apply in_combine_nth; [lia|]. rewrite fins_length, (wf_b _ H). exact Hi. }
    pose proof (summed_nonfinite _ _ _ _ D2 Hin Fv) as Fb. pose proof (lt_nonfinite _ Fb E2) as ->. assert (Q : f_mul v (Fin (at_ (lb p) i)) = NInf) by (apply (summed_inf _ _ D2 eq_refl); auto; now rewrite Fv). apply times_inf in Q; auto. }
  assert (A : forall j, j < cols p -> (0 < ent (lA p) i j)%Qc /\ v = PInf \/ (ent (lA p) i j < 0)%Qc /\ v = NInf).
  { intros j Hj. assert (Lc : length (f_column (lA p) j) = rows p) by apply map_length. assert (Ec : at_ (f_column (lA p) j) i = ent (lA p) i j). { unfold f_column, ent. unfold at_ at 1. rewrite (nth_indep _ 0%Qc (at_ [] j)) by (rewrite map_length; exact Hi). exact (map_nth (fun row => at_ row j) (lA p) [] i). }
    assert (In (v, Fin (ent (lA p) i j)) (combine y (fins (f_column (lA p) j)))) as Hin. { rewrite <- Ec, <- Ei. rewrite <- entry_fins by (rewrite Lc; exact Hi). apply in_combine_nth; [lia|]. rewrite fins_length, Lc. exact Hi. }
    pose proof (summed_nonfinite _ _ _ _ (D1 j Hj) Hin Fv) as Fb. assert (G : fl_ge (ya j) (Fin 0) = true) by (apply E1, in_seq; lia). pose proof (ge_nonfinite _ Fb G) as Ep. pose proof (summed_inf _ _ (D1 j Hj)) as S. rewrite Ep in S.
    assert (Q : f_mul v (Fin (ent (lA p) i j)) = PInf) by (apply S; auto; now rewrite Fv). apply times_inf in Q; auto. }
  intros x Hx. apply sfeas_iff in Hx; auto. destruct Hx as (X1 & X2 & X3). specialize (X2 i Hi).
  destruct B as [(B & ->)|(B & ->)].
  - assert (S : (0 <= Sum (cols p) (fun j => - (ent (lA p) i j * at_ x j)))%Qc). { apply Sum_nonneg. intros j Hj. destruct (A j Hj) as [(_ & Q)|(Q & _)]; [discriminate Q|]. pose proof (qmul_nonneg (- ent (lA p) i j) (at_ x j) ltac:(qclra) (X3 j Hj)) as M. replace (- (ent (lA p) i j * at_ x j))%Qc with (- ent (lA p) i j * at_ x j)%Qc by ring. exact M. }
    rewrite Sum_opp, X2 in S. qclra.
  - assert (S : (0 <= Sum (cols p) (fun j => ent (lA p) i j * at_ x j))%Qc). { apply Sum_nonneg. intros j Hj. destruct (A j Hj) as [(Q & _)|(_ & Q)]; [|discriminate Q]. apply qmul_nonneg; [qclra|auto]. }
    rewrite X2 in S. qclra.
Qed.
Print Assumptions C78_infinite_certificate.

(** ** accepted by mistake *)
(** Outside SEF a free variable may be nan: max x1 with x1 <= 1 and x1 free accepts (nan), whatever the
    order of additions. *)
Theorem C78_nan_refuted : exists p, reachable p /\ (exists r, ff_is_feasible p [NaN] r) /\ forall r, ff_is_feasible p [NaN] r -> r = true.
Proof.
  destruct (linear_program (mat 1 [[1]]%Z) (vec [1]%Z) (vec [1]%Z) 0%Qc "max" (Some ["<="]) (Some [1]%Z) None) as [p| |] eqn:E; try discriminate E.
  exists p. split; [refine (r_new _ _ _ _ _ _ _ _ _ _ E); repeat constructor|]. injection E as <-. split.
  - eexists. split; [reflexivity|]. exists (fun _ => NaN). split; [|reflexivity]. intros i Hi. cbn in Hi. replace i with 0 by lia. change NaN with (f_mul (Fin (qz 1)) NaN) at 2. constructor.
  - intros r (_ & ax & D & ->). specialize (D 0 ltac:(cbn; lia)). assert (Ea : ax 0 = NaN).
    { unfold ff_dot in D. cbn [nth fins map combine lA] in D. match type of D with ff_summed [(?a, NaN)] _ => set (a' := a) in D end. destruct (ax 0) eqn:Q; auto; exfalso.
      - destruct (summed_finite _ _ D eq_refl a' NaN ltac:(now left)) as (_ & K). discriminate K.
      - pose proof (summed_inf _ _ D eq_refl a' NaN ltac:(now left) (andb_false_r _)) as K. discriminate K.
      - pose proof (summed_inf _ _ D eq_refl a' NaN ltac:(now left) (andb_false_r _)) as K. discriminate K. }
    cbn -[f_lt]. rewrite Ea. reflexivity.
Qed.
Print Assumptions C78_nan_refuted.
(** x1 - x2 <= -5 with x1, x2 >= 0 accepts (inf, inf), whatever the order of additions. *)
Theorem C78_infinite_refuted : exists p, reachable p /\ (exists r, ff_is_feasible p [PInf; PInf] r) /\ forall r, ff_is_feasible p [PInf; PInf] r -> r = true.
Proof.
  destruct (linear_program (mat 2 [[1; -1]]%Z) (vec [-5]%Z) (vec [1; 1]%Z) 0%Qc "max" (Some ["<="]) None None) as [p| |] eqn:E; try discriminate E.
  exists p. split; [refine (r_new _ _ _ _ _ _ _ _ _ _ E); repeat constructor|]. injection E as <-. split.
  - destruct (summed_some (combine (fins [qz 1; qz (-1)]) [PInf; PInf])) as (w & W). eexists. split; [reflexivity|]. exists (fun _ => w). split; [|reflexivity]. intros i Hi. cbn in Hi. replace i with 0 by lia. exact W.
  - intros r (_ & ax & D & ->). specialize (D 0 ltac:(cbn; lia)). assert (Ea : ax 0 = NaN).
    { change (ff_summed [(Fin (qz 1), PInf); (Fin (qz (-1)), PInf)] (ax 0)) in D. destruct (ax 0) eqn:Q; auto; exfalso.
      - destruct (summed_finite _ _ D eq_refl (Fin (qz 1)) PInf ltac:(now left)) as (_ & K). discriminate K.
      - pose proof (summed_inf _ _ D eq_refl (Fin (qz (-1))) PInf ltac:(right; now left) eq_refl) as K. vm_compute in K. discriminate K.
      - pose proof (summed_inf _ _ D eq_refl (Fin (qz 1)) PInf ltac:(now left) eq_refl) as K. vm_compute in K. discriminate K. }
    cbn -[f_lt]. rewrite Ea. reflexivity.
Qed.
Print Assumptions C78_infinite_refuted.
(** Finite numbers suffice: 10 x1 - 10 x2 <= -5 accepts (2^1023, 2^1023) when the two products are added
    one after the other, although the left side is 0: both products overflow. *)
Definition big : Qc := pow2 1023.
Lemma big_float : is_float (Fin big).
Proof. split; [exists 1%Z, 1023%Z; split; [lia|]; split; [lia|]; unfold big; rewrite qz_1; ring|split; vm_compute; discriminate]. Qed.
Lemma int_float z : (Z.abs z <= 10)%Z -> is_float (Fin (qz z)).
Proof.
  intros Hz. split; [apply double_int; lia|]. assert (Q : (qz 10 <= max_double)%Qc) by (vm_compute; discriminate). assert (Q1 : (qz z <= qz 10)%Qc) by (apply qz_le; lia).
  assert (Q2 : (- qz 10 <= qz z)%Qc) by (rewrite <- qz_opp; apply qz_le; lia). set (m := max_double) in *. clearbody m. set (t := qz 10) in *. clearbody t. split; qclra.
Qed.
Lemma two_terms a x b y w : f_add (f_mul a x) (f_mul b y) = w -> ff_summed [(a, x); (b, y)] w.
Proof. intros <-. apply (ff_parts _ [(a, x)] [(b, y)]); try discriminate; [apply Permutation_refl|constructor|constructor]. Qed.
Lemma one_term a x w : f_mul a x = w -> ff_summed [(a, x)] w.
Proof. intros <-. constructor. Qed.
Lemma big_dot : ff_summed [(Fin (qz 10), Fin big); (Fin (qz (-10)), Fin big)] NaN.
Proof. apply two_terms. vm_compute. reflexivity. Qed.
Theorem C78_overflow_refuted : exists p x, reachable p /\ float_program p /\ (forall v, In v x -> is_float (Fin v)) /\ ff_is_feasible p (fins x) true /\ ~ feasible (meaning p) x.
Proof.
  destruct (linear_program (mat 2 [[10; -10]]%Z) (vec [-5]%Z) (vec [1; 1]%Z) 0%Qc "max" (Some ["<="]) None None) as [p| |] eqn:E; try discriminate E.
  exists p, [big; big]. assert (Hr : reachable p) by (refine (r_new _ _ _ _ _ _ _ _ _ _ E); repeat constructor). split; [exact Hr|]. pose proof (reachable_wf p Hr) as H. clear Hr. injection E as <-.
  split; [|split; [|split]].
  - split; [|split; [|split]]; [intros v [<-|[]]; apply (int_float (-5)%Z); lia|intros v [<-|[<-|[]]]; apply (int_float 1%Z); lia|apply zero_float|intros r v [<-|[]] [<-|[<-|[]]]; [apply (int_float 10%Z)|apply (int_float (-10)%Z)]; lia].
  - intros v [<-|[<-|[]]]; apply big_float.
  - split; [reflexivity|]. exists (fun _ => NaN). split; [|vm_compute; reflexivity]. intros i Hi. cbn in Hi. replace i with 0 by lia. exact big_dot.
  - intros (_ & K & _). specialize (K 0 ltac:(cbn; lia)). vm_compute in K. apply K. reflexivity.
Qed.
Print Assumptions C78_overflow_refuted.
(** In SEF as well: for max 10 x1 - 10 x2 with x1 - x2 = 0, whose value is always 0, verify_unboundedness
    accepts the point (0, 0) with the certificate (2^1023, 2^1023). *)
Theorem C78_unboundedness_refuted : exists p x d, reachable p /\ (forall v, In v (x ++ d) -> is_float (Fin v)) /\
  ff_verify_unboundedness p (fins x) (fins d) true /\ forall x', feasible (meaning p) x' -> value (meaning p) x' = 0%Qc.
Proof.
  destruct (linear_program (mat 2 [[1; -1]]%Z) (vec [0]%Z) (vec [10; -10]%Z) 0%Qc "max" (Some ["="]) None None) as [p| |] eqn:E; try discriminate E.
  exists p, [0%Qc; 0%Qc], [big; big]. assert (Hr : reachable p) by (refine (r_new _ _ _ _ _ _ _ _ _ _ E); repeat constructor). split; [exact Hr|]. pose proof (reachable_wf p Hr) as H. clear Hr. injection E as <-.
  match goal with |- context [ff_verify_unboundedness ?t] => set (p := t) in * end.
  split; [|split].
  - intros v [<-|[<-|[<-|[<-|[]]]]]; first [apply zero_float|apply big_float].
  - split; [reflexivity|]. split; [reflexivity|]. exists true, NaN, (fun _ => f_add (f_mul (Fin (qz 1)) (Fin big)) (f_mul (Fin (qz (-1))) (Fin big))). split; [|split; [exact big_dot|split; [|vm_compute; reflexivity]]].
    + split; [reflexivity|]. exists (fun _ => f_add (f_mul (Fin (qz 1)) (Fin 0)) (f_mul (Fin (qz (-1))) (Fin 0))). split; [|vm_compute; reflexivity]. intros i Hi. cbn in Hi. replace i with 0 by lia. exact (two_terms (Fin (qz 1)) (Fin 0) (Fin (qz (-1))) (Fin 0) _ eq_refl).
    + intros i Hi. cbn in Hi. replace i with 0 by lia. exact (two_terms (Fin (qz 1)) (Fin big) (Fin (qz (-1))) (Fin big) _ eq_refl).
  - intros x' Hx. apply sfeas_iff in Hx; [|exact H|reflexivity]. destruct Hx as (L & R & _). specialize (R 0 ltac:(cbn; lia)). destruct x' as [|a [|b [|]]]; try discriminate L. clear H.
    assert (Ev : (qz 1 * a + qz (-1) * b = 0)%Qc). { change (Sum 2 (fun j => ent [[qz 1; qz (-1)]] 0 j * at_ [a; b] j)%Qc = qz 0) in R. cbn in R. unfold qz, inject_Z in *. qclra. }
    change (value (meaning p) [a; b]) with (qz 10 * a + (qz (-10) * b + 0) + 0)%Qc. unfold qz, inject_Z in *. qclra.
Qed.
Print Assumptions C78_unboundedness_refuted.

(** ** the relations are not empty, and the hypotheses are met *)
Theorem C78_answers p x y d : length x = length (lc p) -> length d = length (lc p) -> length y = length (lA p) ->
  (exists r, ff_evaluate p x r) /\ (exists r, ff_is_feasible p x r) /\
  (lsef p = true -> (exists r, ff_verify_infeasibility p y r) /\ (exists r, ff_verify_unboundedness p x d r) /\ (exists r, ff_verify_optimality p y r)).
Proof.
  intros Lx Ld Ly. assert (S : forall u v, exists w, ff_dot u v w) by (intros u v; apply summed_some).
  assert (G : exists r, ff_is_feasible p x r). { destruct (choices _ NaN (rows p) (fun i _ => S (fins (nth i (lA p) [])) x)) as (ax & D). eexists. split; [exact Lx|]. exists ax. split; [exact D|reflexivity]. }
  split; [|split; [exact G|]].
  - destruct (S (fins (lc p)) x) as (v & D). eexists. split; [exact Lx|]. exists v. split; [exact D|reflexivity].
  - intros Es. destruct (choices _ NaN (cols p) (fun j _ => S y (fins (f_column (lA p) j)))) as (ya & D1). split; [|split].
    + destruct (S y (fins (lb p))) as (yb & D2). eexists. split; auto. split; auto. exists ya, yb. repeat (split; [eassumption|]). reflexivity.
    + destruct G as (fe & F). destruct (S (fins (lc p)) d) as (cd & D2). destruct (choices _ NaN (rows p) (fun i _ => S (fins (nth i (lA p) [])) d)) as (ad & D). eexists. split; auto. split; auto. exists fe, cd, ad. repeat (split; [eassumption|]). reflexivity.
    + eexists. split; auto. split; auto. exists ya. split; [exact D1|reflexivity].
Qed.
Print Assumptions C78_answers.
(** x1 + 2 x2 = 5 at (1, 2), and the certificate (inf) for x1 + x2 = -1 *)
Example C78_example : exists p, reachable p /\ float_program p /\ ff_is_feasible p (fins (pt [1; 2]%Z)) true /\ lsef p = true /\ (forall i, i < length (lA p) -> moderate (combine (nth i (lA p) []) (pt [1; 2]%Z))).
Proof.
  destruct (linear_program (mat 2 [[1; 2]]%Z) (vec [5]%Z) (vec [1; 1]%Z) 0%Qc "max" (Some ["="]) None None) as [p| |] eqn:E; try discriminate E.
  exists p. split; [refine (r_new _ _ _ _ _ _ _ _ _ _ E); repeat constructor|]. injection E as <-.
  split; [|split; [|split; [reflexivity|]]].
  - split; [|split; [|split]]; [intros v [<-|[]]; apply (int_float 5%Z); lia|intros v [<-|[<-|[]]]; apply (int_float 1%Z); lia|apply zero_float|intros r v [<-|[]] [<-|[<-|[]]]; [apply (int_float 1%Z)|apply (int_float 2%Z)]; lia].
  - split; [reflexivity|]. exists (fun _ => f_add (f_mul (Fin (qz 1)) (Fin (qz 1))) (f_mul (Fin (qz 2)) (Fin (qz 2)))). split; [|vm_compute; reflexivity]. intros i Hi. cbn in Hi. replace i with 0 by lia. exact (two_terms (Fin (qz 1)) (Fin (qz 1)) (Fin (qz 2)) (Fin (qz 2)) _ eq_refl).
  - intros i Hi. cbn in Hi. replace i with 0 by lia. split; [vm_compute; discriminate|cbn; lia].
Qed.
Example C78_example_infinite : exists p, reachable p /\ ff_verify_infeasibility p [PInf] true /\ ~ finite PInf.
Proof.
  destruct (linear_program (mat 2 [[1; 1]]%Z) (vec [-1]%Z) (vec [1; 1]%Z) 0%Qc "max" (Some ["="]) None None) as [p| |] eqn:E; try discriminate E.
  exists p. split; [refine (r_new _ _ _ _ _ _ _ _ _ _ E); repeat constructor|]. injection E as <-. split; [|intros (x & K); discriminate K].
  split; [reflexivity|]. split; [reflexivity|]. exists (fun _ => f_mul PInf (Fin (qz 1))), (f_mul PInf (Fin (qz (-1)))). split; [|split; [exact (one_term PInf (Fin (qz (-1))) _ eq_refl)|vm_compute; reflexivity]]. intros j Hj. cbn in Hj. destruct j as [|[|]]; [exact (one_term PInf (Fin (qz 1)) _ eq_refl)|exact (one_term PInf (Fin (qz 1)) _ eq_refl)|lia].
Qed.
