(** Proofs about the tests of linear programs with overflow, infinities and nan. *)
From Coq Require Import String List Bool Arith ZArith QArith Qcanon Lia Permutation.
From Verif Require Import Py QcTac QSum QInt ComparatorModel MatModel MatTheory LinearModel LinearSpec DoubleSpec DoubleModel DoubleProofs FloatModel FloatSpec FloatProofs FloatLinearModel FloatLinearSpec.
Import ListNotations.
Open Scope nat_scope.
Open Scope string_scope.
Open Scope list_scope.

(** ** sums without overflow *)
Lemma growth_inv n : (growth n * (1 - qz (Z.of_nat n) * unit_roundoff) <= 1)%Qc.
Proof.
  induction n as [|n IH]; [change (qz (Z.of_nat 0)) with 0%Qc; replace (growth 0) with 1%Qc by reflexivity; replace (1 * (1 - 0 * unit_roundoff))%Qc with 1%Qc by ring; apply Qcle_refl|].
  rewrite growth_S, Nat2Z.inj_succ, <- Z.add_1_r, qz_add, qz_1. pose proof (growth_ge n) as G. pose proof u_pos as U. set (u := unit_roundoff) in *. set (g := growth n) in *. set (k := qz (Z.of_nat n)) in *. assert (K : (0 <= k)%Qc) by (unfold k; rewrite <- qz_0; apply qz_le; lia). clearbody u g k.
  assert (Q : (0 <= g * ((k + 1) * (u * u)))%Qc) by (apply qmul_nonneg; [qclra|]; apply qmul_nonneg; [qclra|]; apply qmul_nonneg; qclra).
  replace ((1 + u) * g * (1 - (k + 1) * u))%Qc with (g * (1 - k * u) - g * ((k + 1) * (u * u)))%Qc by ring. qclra.
Qed.
Lemma growth_two n : (Z.of_nat n <= 2 ^ 52)%Z -> (growth n <= qz 2)%Qc.
Proof.
  intros H. pose proof (growth_inv n) as I. pose proof (growth_ge n) as G. apply qz_le in H. assert (E : (qz (2 ^ 52) * unit_roundoff = Q2Qc (1 # 2))%Qc) by (apply Qc_is_canon; reflexivity). pose proof (qmul_le_r _ _ unit_roundoff H ltac:(pose proof u_pos; qclra)) as K. rewrite E in K.
  set (w := (qz (Z.of_nat n) * unit_roundoff)%Qc) in *. clearbody w. set (g := growth n) in *. clearbody g. assert (Q : (0 <= g * (Q2Qc (1 # 2) - w))%Qc) by (apply qmul_nonneg; qclra). replace (g * (1 - w))%Qc with (g * (Q2Qc (1 # 2) - w) + g * Q2Qc (1 # 2))%Qc in I by (replace 1%Qc with (Q2Qc (1 # 2) + Q2Qc (1 # 2))%Qc by (apply Qc_is_canon; reflexivity); ring). unfold qz, inject_Z. clear - I Q. qclra.
Qed.
Lemma no_overflow_value l v : (absolute_sum l <= pow2 1000)%Qc -> (Z.of_nat (length l) <= 2 ^ 52)%Z -> summed l v -> (qabs v <= pow2 1000 + pow2 1000 + 1)%Qc.
Proof.
  intros T N H. destruct l as [|ax l].
  - apply summed_nil in H. subst v. rewrite qabs_0. pose proof (pow2_pos 1000). qclra.
  - apply summed_strong in H; [|discriminate]. set (L := ax :: l) in *. clearbody L. pose proof (growth_two _ N) as G. pose proof (strong_grow _ (absolute_sum L) _ G (absolute_nonneg L)) as S. pose proof (exact_absolute L) as X.
    assert (U : ((qz (2 * Z.of_nat (length L)) * qz 2 - 1) * underflow <= 1)%Qc).
    { assert (K : (qz (2 * Z.of_nat (length L)) * qz 2 - 1 <= pow2 54)%Qc). { rewrite pow2_int by lia. rewrite <- qz_mul. pose proof (qz_le (2 * Z.of_nat (length L) * 2) (2 ^ 54)) as (_ & Q). specialize (Q ltac:(lia)). qclra. }
      pose proof (qmul_le_r _ _ underflow K ltac:(pose proof h_pos; qclra)) as Q. assert (Q2 : (pow2 54 * underflow <= 1)%Qc) by (unfold underflow; rewrite <- pow2_add; rewrite <- pow2_0; apply pow2_le; lia). qclra. }
    assert (V : (qabs v <= qabs (v - exact_sum L) + qabs (exact_sum L))%Qc) by (pose proof (qabs_add (v - exact_sum L) (exact_sum L)) as Q; replace (v - exact_sum L + exact_sum L)%Qc with v in Q by ring; exact Q).
    set (A := absolute_sum L) in *. set (c := ((qz (2 * Z.of_nat (length L)) * qz 2 - 1) * underflow)%Qc) in *. clearbody c. set (s := strong_bound (length L) A) in *. clearbody s. set (P := pow2 1000) in *. clearbody P. replace ((qz 2 - 1) * A)%Qc with A in S by (replace (qz 2) with (1 + 1)%Qc by (apply Qc_is_canon; reflexivity); ring). clear - T S X U V H. qclra.
Qed.
Lemma no_overflow l v : moderate l -> summed l v -> (qabs v <= max_double)%Qc.
Proof.
  intros (T & N) H. apply (Qcle_trans _ _ _ (no_overflow_value l v T N H)). vm_compute. discriminate.
Qed.
Definition fp (ax : Qc * Qc) : fnum * fnum := (Fin (fst ax), Fin (snd ax)).
Lemma moderate_app l l1 l2 : Permutation l (l1 ++ l2) -> moderate l -> moderate l1 /\ moderate l2.
Proof.
  intros P (T & N). rewrite (absolute_perm _ _ P), absolute_app in T. rewrite (Permutation_length P), app_length in N. pose proof (absolute_nonneg l1). pose proof (absolute_nonneg l2). split; split; try lia; qclra.
Qed.
Lemma transfer_sum L w : ff_summed L w -> forall l, L = map fp l -> moderate l -> exists v, w = Fin v /\ summed l v.
Proof.
  induction 1 as [|a x|L L1 L2 v1 v2 P N1 N2 H1 IH1 H2 IH2|L a x L1 v P N1 H1 IH1]; intros l E M.
  - destruct l; [|discriminate]. exists 0%Qc. split; [reflexivity|constructor].
  - destruct l as [|(a' & x') [|]]; try discriminate. injection E as -> ->. cbn [f_mul fst snd]. assert (S : summed [(a', x')] (rnd (a' * x'))) by (constructor; apply rnd_rounds). exists (rnd (a' * x')). split; auto.
    pose proof (no_overflow _ _ M S) as B. unfold to_float. apply qabs_le in B. destruct B. destruct (qlt_spec max_double (rnd (a' * x'))); [exfalso; qclra|]. destruct (qlt_spec (rnd (a' * x')) (- max_double)); [exfalso; qclra|]. reflexivity.
  - subst L. apply Permutation_sym, Permutation_map_inv in P. destruct P as (l' & E & P). symmetry in E. apply map_eq_app in E. destruct E as (l1 & l2 & -> & E1 & E2).
    destruct (moderate_app _ _ _ P M) as (M1 & M2). destruct (IH1 l1 (eq_sym E1) M1) as (r1 & -> & S1). destruct (IH2 l2 (eq_sym E2) M2) as (r2 & -> & S2). cbn [f_add].
    assert (S : summed l (rnd (r1 + r2))) by (apply (sum_parts l l1 l2 r1 r2); auto; [intros ->; now subst L1|intros ->; now subst L2|apply rnd_rounds]). exists (rnd (r1 + r2)). split; auto.
    pose proof (no_overflow _ _ M S) as B. unfold to_float. apply qabs_le in B. destruct B. destruct (qlt_spec max_double (rnd (r1 + r2))); [exfalso; qclra|]. destruct (qlt_spec (rnd (r1 + r2)) (- max_double)); [exfalso; qclra|]. reflexivity.
  - subst L. apply Permutation_sym, Permutation_map_inv in P. destruct P as (l' & E & P). destruct l' as [|(a' & x') l1]; [discriminate|]. injection E as -> -> ->.
    destruct (moderate_app _ [(a', x')] l1 P M) as (_ & M1). destruct (IH1 l1 eq_refl M1) as (r1 & -> & S1). cbn [f_fma fst snd].
    assert (S : summed l (rnd (a' * x' + r1))) by (apply (sum_fused l a' x' l1 r1); auto; [intros ->; now apply N1|apply rnd_rounds]). exists (rnd (a' * x' + r1)). split; auto.
    pose proof (no_overflow _ _ M S) as B. unfold to_float. apply qabs_le in B. destruct B. destruct (qlt_spec max_double (rnd (a' * x' + r1))); [exfalso; qclra|]. destruct (qlt_spec (rnd (a' * x' + r1)) (- max_double)); [exfalso; qclra|]. reflexivity.
Qed.
Lemma combine_fins u v : combine (fins u) (fins v) = map fp (combine u v).
Proof. revert v. induction u as [|a u IH]; intros [|x v]; try reflexivity. cbn. now rewrite <- IH. Qed.
Lemma transfer_dot u v w : ff_dot (fins u) (fins v) w -> moderate (combine u v) -> exists r, w = Fin r /\ f_dot u v r /\ (qabs r <= max_double)%Qc.
Proof. intros H M. unfold ff_dot in H. rewrite combine_fins in H. destruct (transfer_sum _ _ H _ eq_refl M) as (r & E & S). exists r. repeat split; auto. now apply (no_overflow _ _ M). Qed.

(** ** the comparisons *)
Lemma ge0_transfer v : f_ge0 v (fl_ge (Fin v) (Fin 0)).
Proof. exists (fl_close_to_zero (Fin v)). split; [|reflexivity]. exists tenth. split; [rewrite <- tenth_rnd; apply rnd_rounds|apply close_fin]. Qed.
Lemma le0_transfer v : f_le0 v (fl_le (Fin v) (Fin 0)).
Proof. exists (fl_close_to_zero (Fin v)). split; [|reflexivity]. exists tenth. split; [rewrite <- tenth_rnd; apply rnd_rounds|apply close_fin]. Qed.
Lemma lt0_transfer v : f_lt0 v (fl_lt (Fin v) (Fin 0)).
Proof. exists (fl_close_to_zero (Fin v)). split; [|reflexivity]. exists tenth. split; [rewrite <- tenth_rnd; apply rnd_rounds|apply close_fin]. Qed.
Lemma np_transfer a b : is_float (Fin b) -> f_np_isclose a b (fl_isclose (Fin a) (Fin b)).
Proof.
  intros H. rewrite isclose_fin by auto. exists (rnd (a - b)), (rnd np_rtol), (rnd np_atol), (rnd (rnd np_rtol * qabs b)), (bound b). repeat split; try apply rnd_rounds.
Qed.
Lemma zero_float : is_float (Fin 0). Proof. split; [apply double_0|]. pose proof max_pos. split; qclra. Qed.
Lemma rel_product b : (qabs b <= max_double)%Qc -> f_mul math_rel (Fin b) = Fin (rnd (rnd (Q2Qc (1 # 1000000000)) * b)).
Proof.
  intros H. unfold math_rel. rewrite small_float by (vm_compute; discriminate). cbn [f_mul]. apply to_float_fin. rewrite qabs_mul. assert (R : (qabs (rnd (Q2Qc (1 # 1000000000))) <= 1)%Qc) by (vm_compute; discriminate). pose proof (qmul_le_r _ _ (qabs b) R (qabs_nonneg b)) as Q. set (z := (qabs (rnd (Q2Qc (1 # 1000000000))) * qabs b)%Qc) in *. clearbody z. rewrite Qcmult_1_l in Q. qclra.
Qed.
Lemma rel_small b : (qabs b <= max_double)%Qc -> (qabs (rnd (rnd (Q2Qc (1 # 1000000000)) * b)) <= max_double)%Qc.
Proof.
  intros H. rewrite <- rnd_abs. apply (rounds_le _ _ _ (rnd_rounds _) double_max). rewrite qabs_mul. assert (R : (qabs (rnd (Q2Qc (1 # 1000000000))) <= 1)%Qc) by (vm_compute; discriminate). pose proof (qmul_le_r _ _ (qabs b) R (qabs_nonneg b)) as Q. set (z := (qabs (rnd (Q2Qc (1 # 1000000000))) * qabs b)%Qc) in *. clearbody z. rewrite Qcmult_1_l in Q. qclra.
Qed.
Lemma math_transfer a b : (qabs a <= max_double)%Qc -> (qabs b <= max_double)%Qc -> f_math_isclose a b (fl_math_isclose (Fin a) (Fin b)).
Proof.
  intros Ha Hb. set (t := rnd (Q2Qc (1 # 1000000000))). exists (rnd (b - a)), t, (rnd (t * b)), (rnd (t * a)). repeat split; try apply rnd_rounds.
  unfold fl_math_isclose. cbn [f_eq f_infinite orb]. rewrite !rel_product by auto. fold t. cbn [f_abs]. unfold f_sub. cbn [f_opp f_add]. change (b + - a)%Qc with (b - a)%Qc. rewrite to_float_abs. pose proof (rel_small a Ha) as Ra. pose proof (rel_small b Hb) as Rb. fold t in Ra, Rb. pose proof max_pos.
  destruct (qeq a b); [reflexivity|]. cbn [orb]. destruct (qlt_spec max_double (qabs (rnd (b - a)))) as [L|L]; cbn [f_le]; [|reflexivity].
  destruct (qle_spec (qabs (rnd (b - a))) (qabs (rnd (t * b)))); [exfalso; qclra|]. destruct (qle_spec (qabs (rnd (b - a))) (qabs (rnd (t * a)))); [exfalso; qclra|]. destruct (qle_spec (qabs (rnd (b - a))) 0); [exfalso; qclra|]. reflexivity.
Qed.
Lemma entry_fins x i : i < length x -> entry (fins x) i = Fin (at_ x i).
Proof. intros H. unfold entry, fins, at_. rewrite (nth_indep _ NaN (Fin 0)) by now rewrite map_length. apply map_nth. Qed.
Lemma fins_length x : length (fins x) = length x. Proof. apply map_length. Qed.

(** ** infinities and nan spread *)
Lemma add_nonfinite a b : f_finite (f_add a b) = true -> f_finite a = true /\ f_finite b = true.
Proof. destruct a, b; cbn; auto. Qed.
Lemma mul_nonfinite a b : f_finite (f_mul a b) = true -> f_finite a = true /\ f_finite b = true.
Proof. destruct a, b; cbn; auto; unfold f_times_inf; try (destruct (qeq x 0); [discriminate|]; destruct (qlt x 0); discriminate); try discriminate. Qed.
Lemma fma_nonfinite a x v : f_finite (f_fma a x v) = true -> f_finite a = true /\ f_finite x = true /\ f_finite v = true.
Proof.
  destruct a, x, v; try (cbn; auto; fail); intros H; try (apply add_nonfinite in H; destruct H as (H & _); apply mul_nonfinite in H; destruct H; discriminate); cbn in H; try discriminate.
Qed.
Lemma summed_finite l w : ff_summed l w -> f_finite w = true -> forall a x, In (a, x) l -> f_finite a = true /\ f_finite x = true.
Proof.
  induction 1 as [|a x|L L1 L2 v1 v2 P N1 N2 H1 IH1 H2 IH2|L a x L1 v P N1 H1 IH1]; intros F a' x' Hin.
  - destruct Hin.
  - destruct Hin as [E|[]]. injection E as <- <-. now apply mul_nonfinite.
  - apply add_nonfinite in F. destruct F as (F1 & F2). apply (Permutation_in _ P) in Hin. apply in_app_or in Hin. destruct Hin as [Hin|Hin]; eauto.
  - apply fma_nonfinite in F. destruct F as (Fa & Fx & Fv). apply (Permutation_in _ P) in Hin. destruct Hin as [E|Hin]; [injection E as <- <-; auto|eauto].
Qed.
(** a sum that is an infinity has no term that is nan or the other infinity *)
Definition inf_compatible (w : fnum) (p : fnum) : Prop := p = w \/ f_finite p = true.
Lemma add_inf a b w : f_infinite w = true -> f_add a b = w -> (a = w \/ f_finite a = true) /\ (b = w \/ f_finite b = true).
Proof. intros I. destruct w; try discriminate I; destruct a, b; cbn; auto; try discriminate. Qed.
Lemma fma_inf a x v w : f_infinite w = true -> f_fma a x v = w -> (f_mul a x = w \/ (f_finite a = true /\ f_finite x = true)) /\ (v = w \/ f_finite v = true).
Proof.
  intros I. destruct a, x, v; cbn [f_fma f_finite]; auto; intros E; try (apply add_inf in E; auto; destruct E as ([E1|E1] & E2); split; auto; exfalso; apply mul_nonfinite in E1; destruct E1; discriminate); subst w; try discriminate; auto.
Qed.
Lemma summed_inf l w : ff_summed l w -> f_infinite w = true -> forall a x, In (a, x) l -> (f_finite a && f_finite x = false) -> f_mul a x = w.
Proof.
  assert (K : forall l v, ff_summed l v -> f_finite v = true -> forall a x, In (a, x) l -> f_finite a && f_finite x = false -> False).
  { intros l0 v H F a x Hin E. destruct (summed_finite _ _ H F a x Hin) as (E1 & E2). rewrite E1, E2 in E. discriminate. }
  induction 1 as [|a x|L L1 L2 v1 v2 P N1 N2 H1 IH1 H2 IH2|L a x L1 v P N1 H1 IH1]; intros I a' x' Hin E.
  - destruct Hin.
  - destruct Hin as [Q|[]]. injection Q as <- <-. reflexivity.
  - destruct (add_inf v1 v2 _ I eq_refl) as (A1 & A2). apply (Permutation_in _ P) in Hin. apply in_app_or in Hin. destruct Hin as [Hin|Hin].
    + destruct A1 as [A|A]; [|exfalso; apply (K L1 v1 H1 A a' x'); auto]. rewrite <- A. rewrite <- A in I. now apply (IH1 I).
    + destruct A2 as [A|A]; [|exfalso; apply (K L2 v2 H2 A a' x'); auto]. rewrite <- A. rewrite <- A in I. now apply (IH2 I).
  - destruct (fma_inf a x v _ I eq_refl) as (A1 & A2). apply (Permutation_in _ P) in Hin. destruct Hin as [Q|Hin].
    + injection Q as <- <-. destruct A1 as [A|(A & B)]; auto. rewrite A, B in E. discriminate.
    + destruct A2 as [A|A]; [|exfalso; apply (K L1 v H1 A a' x'); auto]. rewrite <- A. rewrite <- A in I. now apply (IH1 I).
Qed.
Lemma summed_some l : exists w, ff_summed l w.
Proof.
  induction l as [|(a & x) l (v & H)]; [eexists; constructor|]. destruct l as [|ax l]; [eexists; constructor|]. eexists. apply (ff_fused _ a x (ax :: l) v); [apply Permutation_refl|discriminate|exact H].
Qed.
