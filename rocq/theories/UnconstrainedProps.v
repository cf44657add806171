(** C50-C52, C54: UnconstrainedProgram. *)
From Coq Require Import String List Bool Arith ZArith QArith Qcanon Lia.
From Verif Require Import Py QcTac QSum QInt MatModel MatTheory UnconstrainedModel UnconstrainedSpec UnconstrainedProofs.
Import ListNotations.
Open Scope nat_scope.
Open Scope string_scope.
Open Scope list_scope.

(** ** C50 *)
(** a run on an array: the answer is reached by at most max_iteration steps, each with the first
    sufficient decrease; it stops at max_iteration steps or at a small gradient *)
Theorem C50_steps fuel f df n x alpha c p tolerance max_iteration z r :
  (forall x, length x = n -> length (df x) = n) -> length x = n ->
  steepest_descent fuel (unconstrained_program f "min") AnArray x df alpha c p tolerance max_iteration = (z, Ok r) ->
  exists k, (Z.of_nat k <= Z.max 0 max_iteration)%Z /\ descent f df alpha c p tolerance x k r /\
    (Z.of_nat k = Z.max 0 max_iteration \/ 0 < k /\ norm_at_most (df r) tolerance).
Proof.
  intros Hdf Lx E. unfold steepest_descent in E. pose proof (descend_spec (unconstrained_program f "min") df n fuel alpha c p tolerance Hdf (Z.to_nat max_iteration) x 0 x Lx (d_start _ _ _ _ _ _ _) (or_introl eq_refl)) as K.
  rewrite E in K. destruct K as (m & M1 & M2 & M3 & M4 & ->). cbn in *. exists m. split; [lia|]. split; auto. destruct M4 as [M4|M4]; [left; lia|auto].
Qed.
Print Assumptions C50_steps.
(** the objective never increases, over the run and at each step; it decreases where the gradient is
    not zero *)
Theorem C50_decreases f df alpha c p tolerance x k y : (0 <= c)%Qc -> (0 <= alpha)%Qc -> (0 <= p)%Qc -> descent f df alpha c p tolerance x k y ->
  (f y <= f x)%Qc /\
  (forall y' a, descent f df alpha c p tolerance x (S k) y' -> y' = along y (- a)%Qc (df y) -> armijo f c y (df y) a -> (0 <= a)%Qc -> (f y' <= f y)%Qc /\ ((0 < c)%Qc -> (0 < a)%Qc -> (0 < inner_product (df y) (df y))%Qc -> (f y' < f y)%Qc)).
Proof.
  intros H1 H2 H3 HD. split; [now apply (descent_le f df alpha c p tolerance x k)|]. intros y' a _ -> HA Ha. split; [now apply (armijo_le f c)|].
  intros Hc Ha' Hg. unfold armijo in HA. pose proof (qmul_pos _ _ (qmul_pos _ _ Hc Ha') Hg) as K. clear - HA K. qclra.
Qed.
Print Assumptions C50_decreases.
Corollary C50_result_not_worse fuel f df n x alpha c p tolerance max_iteration z r :
  (forall x, length x = n -> length (df x) = n) -> length x = n -> (0 <= c)%Qc -> (0 <= alpha)%Qc -> (0 <= p)%Qc ->
  steepest_descent fuel (unconstrained_program f "min") AnArray x df alpha c p tolerance max_iteration = (z, Ok r) -> (f r <= f x)%Qc.
Proof. intros Hdf Lx H1 H2 H3 E. destruct (C50_steps _ _ _ _ _ _ _ _ _ _ _ _ Hdf Lx E) as (k & _ & D & _). now apply (descent_le f df alpha c p tolerance x k). Qed.
Print Assumptions C50_result_not_worse.
(** with the exact gradient of f every backtracking loop ends, and no exception is raised *)
Theorem C50_terminates f df n x alpha c p tolerance max_iteration : gradient_of n f df -> length x = n ->
  (c < 1)%Qc -> (0 < alpha)%Qc -> (0 < p)%Qc -> (p < 1)%Qc ->
  exists fuel, forall fuel', fuel <= fuel' -> exists z r, steepest_descent fuel' (unconstrained_program f "min") AnArray x df alpha c p tolerance max_iteration = (z, Ok r).
Proof.
  intros HG Lx Hc Ha Hp Hp1. apply (descend_ends (unconstrained_program f "min") df n); auto; [intros y Ly; apply (HG y Ly)|]. intros y Ly. cbn [target unconstrained_program]. now apply (armijo_exists n).
Qed.
Print Assumptions C50_terminates.
(** a function bounded below whose gradient is Lipschitz: with enough iterations the gradient at the
    answer is within tolerance *)
Theorem C50_converges f df n K L x alpha c p tolerance step max_iteration : smooth n f df K -> length x = n -> (forall y, length y = n -> (L <= f y)%Qc) ->
  (0 < c)%Qc -> (c < 1)%Qc -> (0 < alpha)%Qc -> (0 < p)%Qc -> (p < 1)%Qc -> (0 < tolerance)%Qc -> (0 <= K)%Qc ->
  (0 < step)%Qc -> (step <= alpha)%Qc -> (K * step <= p * (1 - c))%Qc ->
  (1 < max_iteration)%Z -> (f x - L < qz (max_iteration - 1) * (c * step * (tolerance * tolerance)))%Qc ->
  exists fuel, forall fuel', fuel <= fuel' -> exists z r, steepest_descent fuel' (unconstrained_program f "min") AnArray x df alpha c p tolerance max_iteration = (z, Ok r) /\ norm_at_most (df r) tolerance.
Proof.
  intros HK Lx HL Hc Hc1 Ha Hp Hp1 Ht HK0 Hs Hs1 Hs2 HN Hbig. assert (Hdf : forall y, length y = n -> length (df y) = n) by (intros y Ly; apply (HK y Ly)).
  assert (HA : forall y, length y = n -> exists j, armijo (target (unconstrained_program f "min")) c y (df y) (alpha * p ^ j)%Qc).
  { intros y Ly. destruct (small_power alpha p step Ha Hp Hp1 Hs) as (j & Hj). exists j. cbn [target unconstrained_program]. apply (smooth_armijo n f df K); auto; [apply qmul_nonneg; [now apply Qclt_le_weak|apply pow_nonneg; now apply Qclt_le_weak]|].
    assert (T : (K * (alpha * p ^ j) <= K * step)%Qc) by (rewrite !(Qcmult_comm K); apply qmul_le_r; auto; now apply Qclt_le_weak). assert (T2 : (p * (1 - c) <= 1 * (1 - c))%Qc) by (apply qmul_le_r; clear - Hp1 Hc1; qclra). rewrite Qcmult_1_l in T2. clear - T T2 Hs2. qclra. }
  destruct (descend_ends (unconstrained_program f "min") df n alpha c p tolerance Hdf HA (Z.to_nat max_iteration) x Lx) as (fuel & HF). exists fuel. intros fuel' Hf. destruct (HF fuel' Hf) as (z & r & E). exists z, r. split; auto.
  destruct (C50_steps fuel' f df n x alpha c p tolerance max_iteration z r Hdf Lx E) as (k & K1 & K2 & [K3|(_ & K3)]); auto. exfalso.
  destruct (smooth_decrease n f df K alpha c p tolerance step x HK (Qclt_le_weak _ _ Hc) Ha Hp (Qclt_le_weak _ _ Ht) Hs Hs1 Hs2 HK0 Lx k r K2) as (Lr & D). specialize (HL r Lr). replace (Z.of_nat (Nat.pred k)) with (max_iteration - 1)%Z in D by lia.
  set (w := (qz (max_iteration - 1) * (c * step * (tolerance * tolerance)))%Qc) in *. clear - D HL Hbig. qclra.
Qed.
Print Assumptions C50_converges.
(** *** non-vacuity: f(x) = x1^2 + 3 x2^2 *)
Definition bowl (x : list Qc) : Qc := match x with [u; v] => (u * u + qz 3 * (v * v))%Qc | _ => 0%Qc end.
Definition bowl_gradient (x : list Qc) : list Qc := match x with [u; v] => [(qz 2 * u)%Qc; (qz 6 * v)%Qc] | _ => x end.
Lemma qz_nums : qz 2 = (1 + 1)%Qc /\ qz 3 = (1 + 1 + 1)%Qc /\ qz 6 = ((1 + 1) * (1 + 1 + 1))%Qc.
Proof. repeat split; apply Qc_is_canon; reflexivity. Qed.
Lemma square_nonneg (a : Qc) : (0 <= a * a)%Qc.
Proof. pose proof (inner_sq [a]) as H. cbn in H. rewrite Qcplus_0_r in H. exact H. Qed.
Example C50_gradient_example : gradient_of 2 bowl bowl_gradient.
Proof.
  destruct qz_nums as (E2 & E3 & E6). intros x Lx. destruct x as [|u [|v [|]]]; try discriminate Lx. split; [reflexivity|]. intros d Ld e He. destruct d as [|d1 [|d2 [|]]]; try discriminate Ld. cbn [bowl bowl_gradient along inner_product].
  set (s := (d1 * d1 + qz 3 * (d2 * d2))%Qc). assert (S0 : (0 <= s)%Qc) by (unfold s; pose proof (square_nonneg d1); pose proof (square_nonneg d2); pose proof (qmul_nonneg (qz 3) (d2 * d2) ltac:(discriminate) H0) as T; clear - H T; qclra).
  assert (D : (0 < s + 1)%Qc) by (clear - S0; qclra). assert (ND : (s + 1)%Qc <> 0%Qc) by (intros T; rewrite T in D; discriminate D).
  exists (e / (s + 1))%Qc. assert (R : (e / (s + 1) * (s + 1) = e)%Qc) by (field; auto). split.
  { destruct (Qclt_le_dec 0 (e / (s + 1))%Qc) as [T|T]; auto. exfalso. assert (T2 : (e / (s + 1) * (s + 1) <= 0 * (s + 1))%Qc) by (apply qmul_le_r; auto; now apply Qclt_le_weak). rewrite R, Qcmult_0_l in T2. clear - T2 He. qclra. }
  intros a Ha Har. assert (T : (a * (s + 1) < e)%Qc) by (rewrite <- R; now apply Qcmult_lt_compat_r). assert (A2 : (0 <= a * a * s)%Qc) by (apply qmul_nonneg; auto; apply square_nonneg).
  assert (AE : (0 < a * e)%Qc) by now apply qmul_pos. assert (AT : (a * (a * (s + 1)) < a * e)%Qc) by (rewrite !(Qcmult_comm a); apply Qcmult_lt_compat_r; auto; now rewrite Qcmult_comm in T). pose proof (square_nonneg a) as AA.
  assert (EX : ((u + a * d1) * (u + a * d1) + qz 3 * ((v + a * d2) * (v + a * d2)) = u * u + qz 3 * (v * v) + a * (qz 2 * u * d1 + (qz 6 * v * d2 + 0)) + a * a * s)%Qc) by (unfold s; rewrite E2, E3, E6; ring).
  rewrite EX. set (g := (qz 2 * u * d1 + (qz 6 * v * d2 + 0))%Qc). set (F := (u * u + qz 3 * (v * v))%Qc).
  assert (X1 : (a * (g - e) = a * g - a * e)%Qc) by ring. assert (X2 : (a * (g + e) = a * g + a * e)%Qc) by ring. assert (X3 : (a * (a * (s + 1)) = a * a * s + a * a)%Qc) by ring. rewrite X1, X2. rewrite X3 in AT. clear - A2 AE AT AA. split; qclra.
Qed.
Example C50_smooth_example : smooth 2 bowl bowl_gradient (qz 3) /\ (forall y, length y = 2 -> (0 <= bowl y)%Qc).
Proof.
  destruct qz_nums as (E2 & E3 & E6). split.
  - intros x Lx. destruct x as [|u [|v [|]]]; try discriminate Lx. split; [reflexivity|]. intros d Ld. destruct d as [|d1 [|d2 [|]]]; try discriminate Ld. cbn [bowl bowl_gradient along inner_product].
    assert (X : ((u + 1 * d1) * (u + 1 * d1) + qz 3 * ((v + 1 * d2) * (v + 1 * d2)) + (1 + 1) * (d1 * d1) = u * u + qz 3 * (v * v) + (qz 2 * u * d1 + (qz 6 * v * d2 + 0)) + qz 3 * (d1 * d1 + (d2 * d2 + 0)))%Qc) by (rewrite E2, E3, E6; ring).
    pose proof (qmul_nonneg (1 + 1) (d1 * d1) ltac:(discriminate) (square_nonneg d1)) as S. clear - X S. set (A := ((1 + 1) * (d1 * d1))%Qc) in *. set (B := ((u + 1 * d1) * (u + 1 * d1) + qz 3 * ((v + 1 * d2) * (v + 1 * d2)))%Qc) in *. clearbody A B. qclra.
  - intros y Ly. destruct y as [|u [|v [|]]]; try discriminate Ly. cbn [bowl]. pose proof (square_nonneg u). pose proof (qmul_nonneg (qz 3) (v * v) ltac:(discriminate) (square_nonneg v)). clear - H H0. qclra.
Qed.
(** with the default parameters, from (1, 1), two iterations *)
Example C50_run_example : let r := steepest_descent 20 (unconstrained_program bowl "min") AnArray [1%Qc; 1%Qc] bowl_gradient 1%Qc (Q2Qc (7 # 10)) (Q2Qc (1 # 2)) (Q2Qc (1 # 10000)) 2 in
  map this (fst r) = [(49 # 64)%Q; (25 # 64)%Q] /\ snd r = Ok (fst r).
Proof. vm_compute. split; reflexivity. Qed.
(** *** where it fails *)
Definition parabola (x : list Qc) : Qc := match x with [u] => (u * u)%Qc | _ => inner_product x x end.
Definition parabola_gradient (x : list Qc) : list Qc := map (Qcmult (qz 2)) x.
(** c = 1: the loop never ends, however small the step *)
Theorem C50_backtracking_refuted : forall fuel max_iteration, (0 < max_iteration)%Z ->
  snd (steepest_descent fuel (unconstrained_program parabola "min") AnArray [1%Qc] parabola_gradient 1%Qc 1%Qc (Q2Qc (1 # 2)) (Q2Qc (1 # 10000)) max_iteration) = Diverges.
Proof.
  intros fuel N HN. unfold steepest_descent. destruct (Z.to_nat N) as [|n] eqn:E; [lia|]. cbn [descend target unconstrained_program].
  pose proof (backtrack_spec parabola [1%Qc] (parabola_gradient [1%Qc]) 1%Qc (Q2Qc (1 # 2)) eq_refl fuel 1%Qc) as B. destruct (backtrack fuel parabola [1%Qc] _ _ _ _ _) as [a| |]; [|contradiction|reflexivity].
  exfalso. destruct B as (j & _ & -> & HA & _). assert (P : (0 < 1 * Q2Qc (1 # 2) ^ j)%Qc) by (apply qmul_pos; [reflexivity|apply pow_pos; reflexivity]). set (a := (1 * Q2Qc (1 # 2) ^ j)%Qc) in *. clearbody a. destruct qz_nums as (E2 & _). unfold armijo in HA. cbn [parabola parabola_gradient map along inner_product] in HA. rewrite E2 in HA.
  assert (X : ((1 + - a * ((1 + 1) * 1)) * (1 + - a * ((1 + 1) * 1)) = 1 * 1 - 1 * a * ((1 + 1) * 1 * ((1 + 1) * 1) + 0) + (1 + 1) * (1 + 1) * (a * a))%Qc) by ring. rewrite X in HA.
  assert (Y : (0 < (1 + 1) * (1 + 1) * (a * a))%Qc) by (apply qmul_pos; [reflexivity|now apply qmul_pos]). clear - HA Y. set (w := ((1 + 1) * (1 + 1) * (a * a))%Qc) in *. set (t := (1 * a * ((1 + 1) * 1 * ((1 + 1) * 1) + 0))%Qc) in *. clearbody w t. qclra.
Qed.
Print Assumptions C50_backtracking_refuted.
(** a starting point given as a Python list grows: [x += a * d] appends the entries of the step *)
Theorem C50_list_refuted : exists f df x z r, (forall x, length (df x) = length x) /\
  steepest_descent 20 (unconstrained_program f "min") AList x df 1%Qc (Q2Qc (7 # 10)) (Q2Qc (1 # 2)) (Q2Qc (1 # 10000)) 1 = (z, Ok r) /\ length r = 2 /\ length x = 1 /\ (f x < f r)%Qc.
Proof.
  exists parabola, parabola_gradient, [1%Qc]. assert (G : match steepest_descent 20 (unconstrained_program parabola "min") AList [1%Qc] parabola_gradient 1%Qc (Q2Qc (7 # 10)) (Q2Qc (1 # 2)) (Q2Qc (1 # 10000)) 1 with (_, Ok r) => length r = 2 /\ (parabola [1%Qc] < parabola r)%Qc | _ => False end) by (vm_compute; split; reflexivity).
  destruct (steepest_descent 20 _ AList _ _ _ _ _ _ _) as (z & [r| |]); try contradiction. exists z, r. split; [intros; apply map_length|]. destruct G as (G1 & G2). auto.
Qed.
Print Assumptions C50_list_refuted.

(** ** C51 *)
(** a run on an array: at most max_iteration Newton steps; stops at max_iteration steps or at a
    small gradient; the only exception is LinAlgError, at an iterate with singular Hessian *)
Theorem C51_steps f df d2f n x tolerance max_iteration :
  (forall x, length x = n -> length (df x) = n) -> (forall x, length x = n -> square n (d2f x)) -> length x = n ->
  match newton_method (unconstrained_program f "min") AnArray x df d2f tolerance max_iteration with
  | (_, Ok r) => exists k, (Z.of_nat k <= Z.max 0 max_iteration)%Z /\ newton_steps df d2f tolerance x k r /\ (Z.of_nat k = Z.max 0 max_iteration \/ 0 < k /\ norm_at_most (df r) tolerance)
  | (z, Raise e) => e = LinAlgError /\ exists k, (Z.of_nat k < max_iteration)%Z /\ newton_steps df d2f tolerance x k z /\ ~ nonsingular n (d2f z)
  | (_, Diverges) => False
  end.
Proof.
  intros Hdf Hd2 Lx. unfold newton_method. pose proof (newton_spec (unconstrained_program f "min") df d2f n tolerance Hdf Hd2 (Z.to_nat max_iteration) x 0 x Lx (n_start _ _ _ _) (or_introl eq_refl)) as K.
  destruct (newton (Z.to_nat max_iteration) _ AnArray x df d2f tolerance) as (z & [r|e|]); auto.
  - destruct K as (m & M1 & M2 & M3 & M4 & ->). cbn in *. exists m. split; [lia|]. split; auto. destruct M4 as [M4|M4]; [left; lia|auto].
  - destruct K as (K0 & (m & M1 & M2) & M3 & M4). split; auto. exists m. split; [lia|auto].
Qed.
Print Assumptions C51_steps.
(** gradient Q x + b with nonsingular Q: after one step the point is stationary, and it is returned
    whatever the tolerance and the number of iterations *)
Theorem C51_quadratic f Q b n x tolerance max_iteration : nonsingular n Q -> length b = n -> length x = n -> (0 < max_iteration)%Z ->
  let df := fun x => along (apply Q x) 1 b in
  exists r, newton_method (unconstrained_program f "min") AnArray x df (fun _ => Q) tolerance max_iteration = (r, Ok r) /\ length r = n /\ df r = repeat 0%Qc n /\ newton_steps df (fun _ => Q) tolerance x 1 r.
Proof.
  intros NS Lb Lx HN df. pose proof NS as (SQ & _). pose proof SQ as (LQ & SR). assert (LA : forall v, length (apply Q v) = n) by (intros v; unfold apply; now rewrite map_length).
  assert (Hdf : forall y, length y = n -> length (df y) = n) by (intros y Ly; unfold df; rewrite length_along; rewrite LA; auto).
  assert (Z0 : forall u, along u 1 (opposite u) = repeat 0%Qc (length u)) by (induction u as [|a u IH]; [reflexivity|]; cbn [opposite map along length repeat]; f_equal; [ring|exact IH]).
  assert (AC : forall u v w, length u = n -> length v = n -> length w = n -> along (along u 1 v) 1 w = along (along u 1 w) 1 v).
  { clear. intros u. revert n. induction u as [|a u IH]; intros n [|b v] [|c w] L1 L2 L3; subst; try discriminate; [reflexivity|]. cbn [along]. f_equal; [ring|]. apply (IH (length u)); auto; injection L2; injection L3; auto. }
  assert (ST : forall y d, length y = n -> length d = n -> apply Q d = opposite (df y) -> df (along y 1 d) = repeat 0%Qc n).
  { intros y d Ly Ld E. unfold df. rewrite (apply_along Q n) by auto. rewrite E. rewrite AC; auto. fold (df y). rewrite Z0. now rewrite Hdf. unfold opposite. rewrite map_length. apply Hdf; auto. }
  assert (SD : forall y d, length y = n -> length d = n -> df y = repeat 0%Qc n -> apply Q d = opposite (df y) -> along y 1 d = y).
  { intros y d Ly Ld E1 E2. assert (d = repeat 0%Qc n) as ->. { apply (proj2 NS); auto. rewrite E2, E1. unfold opposite. clear. induction n as [|k IH]; [reflexivity|]. cbn [repeat map]. rewrite IH. reflexivity. }
    rewrite <- Ly. clear. induction y as [|a y IH]; [reflexivity|]. cbn [length repeat along]. f_equal; [ring|exact IH]. }
  destruct (lin_solve_ok n Q (vopp (df x)) SQ ltac:(rewrite length_vopp; auto) NS) as (d & E & Ld & Ed). set (r := along x 1 d). assert (Lr : length r = n) by (unfold r; rewrite length_along; congruence). assert (Er : df r = repeat 0%Qc n) by now apply ST.
  exists r. split; [|split; [auto|split; [auto|apply n_step; [apply n_start|auto|congruence|exact Ed]]]].
  unfold newton_method. destruct (Z.to_nat max_iteration) as [|N] eqn:EN; [lia|]. cbn [newton]. rewrite E. cbn [iadd]. rewrite plus_one by congruence. fold r. clear EN. destruct (norm_le (df r) tolerance); [reflexivity|].
  induction N as [|N IH]; [reflexivity|]. cbn [newton]. destruct (lin_solve_ok n Q (vopp (df r)) SQ ltac:(rewrite length_vopp; auto) NS) as (d' & E' & Ld' & Ed'). rewrite E'. cbn [iadd]. rewrite plus_one by congruence. rewrite (SD r d') by auto. destruct (norm_le (df r) tolerance); [reflexivity|exact IH].
Qed.
Print Assumptions C51_quadratic.
(** *** non-vacuity *)
Example C51_quadratic_example : nonsingular 2 [[qz 2; qz 1]; [qz 1; qz 3]] /\
  let df := fun x => along (apply [[qz 2; qz 1]; [qz 1; qz 3]] x) 1 [qz 1; qz (-2)] in
  let r := newton_method (unconstrained_program (fun _ => 0%Qc) "min") AnArray [qz 4; qz 4] df (fun _ => [[qz 2; qz 1]; [qz 1; qz 3]]) (Q2Qc (1 # 10000)) 100000 in map this (fst r) = [-1; 1]%Q.
Proof.
  split; [|vm_compute; reflexivity]. apply nonsingular_det; [split; [reflexivity|intros r [<-|[<-|[]]]; reflexivity]|]. discriminate.
Qed.
Example C51_singular_example : newton_method (unconstrained_program (fun _ => 0%Qc) "min") AnArray [1%Qc] (fun x => x) (fun _ => [[0%Qc]]) 1%Qc 3 = ([1%Qc], Raise LinAlgError).
Proof. reflexivity. Qed.
(** a Python list grows *)
Theorem C51_list_refuted : exists z r, newton_method (unconstrained_program parabola "min") AList [1%Qc] parabola_gradient (fun _ => [[qz 2]]) (Q2Qc (1 # 10000)) 1 = (z, Ok r) /\ map this r = [1; -1]%Q.
Proof. eexists. eexists. split; [vm_compute; reflexivity|reflexivity]. Qed.
Print Assumptions C51_list_refuted.

(** ** C52 *)
(** with objective "max" the very same run is made as with "min", and the final point is negated *)
Theorem C52_negates fuel f df d2f x alpha c p tolerance max_iteration :
  (forall z r, steepest_descent fuel (unconstrained_program f "min") AnArray x df alpha c p tolerance max_iteration = (z, Ok r) ->
     steepest_descent fuel (unconstrained_program f "max") AnArray x df alpha c p tolerance max_iteration = (z, Ok (opposite r))) /\
  (forall z r, newton_method (unconstrained_program f "min") AnArray x df d2f tolerance max_iteration = (z, Ok r) ->
     newton_method (unconstrained_program f "max") AnArray x df d2f tolerance max_iteration = (z, Ok (opposite r))).
Proof.
  split; intros z r; [unfold steepest_descent|unfold newton_method]; revert x; induction (Z.to_nat max_iteration) as [|N IH]; intros x; cbn [descend newton]; unfold answer; cbn [minimize unconstrained_program target String.eqb Ascii.eqb Bool.eqb neg].
  - intros E. injection E as <- <-. reflexivity.
  - destruct (backtrack fuel f x (vopp (df x)) (dot (df x) (vopp (df x))) alpha c p) as [a| |]; try discriminate. destruct (iadd AnArray _ x (scale a (vopp (df x)))) as [x'| |]; try discriminate. destruct (norm_le (df x') tolerance); [intros E; injection E as <- <-; reflexivity|apply IH].
  - intros E. injection E as <- <-. reflexivity.
  - destruct (lin_solve (d2f x) (vopp (df x))) as [d| |]; try discriminate. destruct (iadd AnArray _ x d) as [x'| |]; try discriminate. destruct (norm_le (df x') tolerance); [intros E; injection E as <- <-; reflexivity|apply IH].
Qed.
Print Assumptions C52_negates.
(** f(x) = - (x - 1)^2 has its only maximum, 0, at x = 1 *)
Definition hill (x : list Qc) : Qc := match x with [u] => (- ((u - 1) * (u - 1)))%Qc | _ => 0%Qc end.
Definition hill_gradient (x : list Qc) : list Qc := match x with [u] => [(- (qz 2 * (u - 1)))%Qc] | _ => x end.
(** Newton's method finds it and returns -1, for every starting point *)
Theorem C52_newton_refuted : forall u tolerance max_iteration, (0 < max_iteration)%Z -> exists z,
  newton_method (unconstrained_program hill "max") AnArray [u] hill_gradient (fun _ => [[qz (-2)]]) tolerance max_iteration = (z, Ok [(- (1))%Qc]) /\ (hill [(- (1))%Qc] < hill [1%Qc])%Qc.
Proof.
  intros u tol N HN. assert (NS : nonsingular 1 [[qz (-2)]]) by (apply nonsingular_det; [split; [reflexivity|intros r [<-|[]]; reflexivity]|discriminate]).
  destruct (C51_quadratic hill [[qz (-2)]] [qz 2] 1 [u] tol N NS eq_refl eq_refl HN) as (r & E & Lr & Sr & _). exists r. split; [|reflexivity].
  assert (EX : forall k x, length x = 1 -> newton k (unconstrained_program hill "min") AnArray x hill_gradient (fun _ => [[qz (-2)]]) tol = newton k (unconstrained_program hill "min") AnArray x (fun x => along (apply [[qz (-2)]] x) 1 [qz 2]) (fun _ => [[qz (-2)]]) tol).
  { assert (G : forall x, length x = 1 -> hill_gradient x = along (apply [[qz (-2)]] x) 1 [qz 2]).
    { intros x Lx. destruct x as [|a [|]]; try discriminate Lx. cbn. change (Q2Qc 0) with 0%Qc. change (Q2Qc 1) with 1%Qc. f_equal. assert (A : qz (-2) = (- qz 2)%Qc) by (apply Qc_is_canon; reflexivity). rewrite A. ring. }
    induction k as [|k IH]; intros x Lx; [reflexivity|]. cbn [newton]. rewrite G by auto. destruct (lin_solve_ok 1 [[qz (-2)]] (vopp (along (apply [[qz (-2)]] x) 1 [qz 2])) (proj1 NS) ltac:(destruct x as [|? [|]]; try discriminate Lx; reflexivity) NS) as (d & Ed & Ld & _).
    rewrite Ed. cbn [iadd]. rewrite plus_one by congruence. assert (Lx' : length (along x 1 d) = 1) by (rewrite length_along; congruence). rewrite G by auto. rewrite IH by auto. reflexivity. }
  unfold newton_method in E. rewrite <- EX in E by reflexivity. destruct (C52_negates 0 hill hill_gradient (fun _ => [[qz (-2)]]) [u] 0%Qc 0%Qc 0%Qc tol N) as (_ & K). unfold newton_method in K at 1. rewrite (K r r E). f_equal. f_equal.
  destruct r as [|a [|]]; try discriminate Lr. cbn [apply map inner_product along repeat] in Sr. apply (f_equal (fun l => nth 0 l 0%Qc)) in Sr. cbn [nth] in Sr. cbn [opposite map]. f_equal. change (Q2Qc 0) with 0%Qc in *. change (Q2Qc 1) with 1%Qc in *. destruct qz_nums as (E2 & _). assert (A : qz (-2) = (- qz 2)%Qc) by (apply Qc_is_canon; reflexivity). rewrite A, E2 in Sr. assert (a = 1%Qc); [clear - Sr; qclra|now subst].
Qed.
Print Assumptions C52_newton_refuted.

(** steepest descent walks down the hill from 2, further and further, and returns a negative point *)
Theorem C52_steepest_refuted : forall fuel max_iteration, (0 < max_iteration)%Z -> exists z r,
  steepest_descent fuel (unconstrained_program hill "max") AnArray [qz 2] hill_gradient 1 (Q2Qc (7 # 10)) (Q2Qc (1 # 2)) (Q2Qc (1 # 10000)) max_iteration = (z, Ok r) /\
  z = [(1 + qz 3 ^ Z.to_nat max_iteration)%Qc] /\ r = opposite z /\ (hill r < hill z)%Qc /\ (hill z < hill [qz 2])%Qc.
Proof.
  intros fuel N HN. destruct qz_nums as (E2 & _). assert (E3 : qz 3 = (1 + 1 + 1)%Qc) by (apply Qc_is_canon; reflexivity).
  assert (ST : forall k w, (1 <= w)%Qc -> descend k fuel (unconstrained_program hill "max") AnArray [(1 + w)%Qc] hill_gradient 1 (Q2Qc (7 # 10)) (Q2Qc (1 # 2)) (Q2Qc (1 # 10000)) = ([(1 + qz 3 ^ k * w)%Qc], Ok (opposite [(1 + qz 3 ^ k * w)%Qc]))).
  { induction k as [|k IH]; intros w Hw; [cbn [descend]; change (qz 3 ^ 0)%Qc with 1%Qc; replace (1 * w)%Qc with w by ring; reflexivity|]. cbn [descend target unconstrained_program].
    assert (B : backtrack fuel hill [(1 + w)%Qc] (vopp (hill_gradient [(1 + w)%Qc])) (dot (hill_gradient [(1 + w)%Qc]) (vopp (hill_gradient [(1 + w)%Qc]))) 1 (Q2Qc (7 # 10)) (Q2Qc (1 # 2)) = Ok 1%Qc).
    { destruct (backtrack_ok hill [(1 + w)%Qc] (hill_gradient [(1 + w)%Qc]) (Q2Qc (7 # 10)) (Q2Qc (1 # 2)) fuel 1 0 eq_refl (Nat.le_0_l _)) as (a & Ea).
      { unfold armijo. cbn [hill hill_gradient along inner_product]. rewrite E2. change (1 * Q2Qc (1 # 2) ^ 0)%Qc with (1 * 1)%Qc. set (c := Q2Qc (7 # 10)). assert (Hc : (c <= 1)%Qc) by discriminate. clearbody c.
        assert (Q : (0 <= (1 - c) * (w * w))%Qc) by (apply qmul_nonneg; [clear - Hc; qclra|apply qmul_nonneg; clear - Hw; qclra]). assert (Q2 : (0 <= w * w)%Qc) by (apply qmul_nonneg; clear - Hw; qclra).
        match goal with |- (?A <= ?B)%Qc => assert (X : (B - A = (1 + 1 + 1 + 1) * (w * w) + (1 + 1 + 1 + 1) * ((1 - c) * (w * w)))%Qc) by ring end.
        set (u := (w * w)%Qc) in *. set (v := ((1 - c) * u)%Qc) in *. match type of X with (?B - ?A = _)%Qc => set (bb := B) in *; set (aa := A) in * end. clearbody u v aa bb. clear - Q Q2 X. qclra. }
      pose proof (backtrack_spec hill [(1 + w)%Qc] (hill_gradient [(1 + w)%Qc]) (Q2Qc (7 # 10)) (Q2Qc (1 # 2)) eq_refl fuel 1%Qc) as S. rewrite Ea in S. rewrite Ea. destruct S as ([|j] & _ & -> & _ & S4); [reflexivity|]. exfalso. apply (S4 0); [lia|].
      clear S4. unfold armijo. cbn [hill hill_gradient along inner_product]. rewrite E2. change (1 * Q2Qc (1 # 2) ^ 0)%Qc with (1 * 1)%Qc. set (c := Q2Qc (7 # 10)). assert (Hc : (c <= 1)%Qc) by discriminate. clearbody c.
      assert (Q : (0 <= (1 - c) * (w * w))%Qc) by (apply qmul_nonneg; [clear - Hc; qclra|apply qmul_nonneg; clear - Hw; qclra]). assert (Q2 : (0 <= w * w)%Qc) by (apply qmul_nonneg; clear - Hw; qclra).
      match goal with |- (?A <= ?B)%Qc => assert (X : (B - A = (1 + 1 + 1 + 1) * (w * w) + (1 + 1 + 1 + 1) * ((1 - c) * (w * w)))%Qc) by ring end.
      set (u := (w * w)%Qc) in *. set (v := ((1 - c) * u)%Qc) in *. match type of X with (?B - ?A = _)%Qc => set (bb := B) in *; set (aa := A) in * end. clearbody u v aa bb. clear - Q Q2 X. qclra. }
    rewrite B. cbn [iadd]. rewrite plus_along by reflexivity. assert (EA : along [(1 + w)%Qc] (- (1)) (hill_gradient [(1 + w)%Qc]) = [(1 + qz 3 * w)%Qc]) by (cbn [along hill_gradient]; f_equal; rewrite E2, E3; ring). rewrite EA.
    destruct (norm_le_spec (hill_gradient [(1 + qz 3 * w)%Qc]) (Q2Qc (1 # 10000))) as [(_ & NL)|_].
    - exfalso. cbn [hill_gradient inner_product] in NL. rewrite E2, E3 in NL. set (t := (Q2Qc (1 # 10000) * Q2Qc (1 # 10000))%Qc) in *. assert (Ht : (t <= 1)%Qc) by discriminate. clearbody t.
      match type of NL with (?A <= _)%Qc => assert (X : (A = (1 + 1 + 1 + 1) * ((1 + 1 + 1) * (1 + 1 + 1)) * (w * w))%Qc) by ring; rewrite X in NL end.
      assert (Y : (0 <= (w - 1) * (w + 1))%Qc) by (apply qmul_nonneg; clear - Hw; qclra). assert (Z : ((w - 1) * (w + 1) = w * w - 1)%Qc) by ring. set (u := (w * w)%Qc) in *. clearbody u. set (v := ((w - 1) * (w + 1))%Qc) in *. clearbody v. clear - NL Ht Y Z. qclra.
    - rewrite IH by (rewrite E3; clear - Hw; qclra). rewrite pow_S. assert (EE : (qz 3 ^ k * (qz 3 * w) = qz 3 * qz 3 ^ k * w)%Qc) by ring. now rewrite EE. }
  assert (S2 : qz 2 = (1 + 1)%Qc) by exact E2. rewrite S2. unfold steepest_descent. rewrite (ST _ 1%Qc) by discriminate.
  assert (P : (1 + 1 <= qz 3 ^ Z.to_nat N)%Qc).
  { destruct (Z.to_nat N) as [|k] eqn:E; [lia|]. clear - E3. induction k as [|k IH]; [discriminate|]. rewrite pow_S. set (u := (qz 3 ^ S k)%Qc) in *. clearbody u. rewrite E3. qclra. }
  set (u := (qz 3 ^ Z.to_nat N)%Qc) in *. replace (u * 1)%Qc with u by ring. eexists. eexists. split; [reflexivity|]. split; [reflexivity|]. split; [reflexivity|]. clearbody u. cbn [opposite map hill].
  assert (U : (0 < u * u - 1)%Qc). { assert (K : (0 < (u - 1) * (u + 1))%Qc) by (apply qmul_pos; clear - P; qclra). assert (K2 : ((u - 1) * (u + 1) = u * u - 1)%Qc) by ring. now rewrite K2 in K. }
  assert (A : (- ((- (1 + u) - 1) * (- (1 + u) - 1)) = - (u * u) - (1 + 1 + 1 + 1) * u - (1 + 1 + 1 + 1))%Qc) by ring. assert (B : (- ((1 + u - 1) * (1 + u - 1)) = - (u * u))%Qc) by ring. assert (C : (- ((1 + 1 - 1) * (1 + 1 - 1)) = - (1))%Qc) by ring. rewrite A, B, C. set (v := (u * u)%Qc) in *. clearbody v. clear - P U. split; qclra.
Qed.
Print Assumptions C52_steepest_refuted.
(** with a Python list as starting point, objective "max" always ends in an exception, if it ends *)
Theorem C52_list_refuted fuel f df d2f x alpha c p tolerance max_iteration z r :
  steepest_descent fuel (unconstrained_program f "max") AList x df alpha c p tolerance max_iteration <> (z, Ok r) /\
  newton_method (unconstrained_program f "max") AList x df d2f tolerance max_iteration <> (z, Ok r).
Proof.
  split; [unfold steepest_descent|unfold newton_method]; revert x; induction (Z.to_nat max_iteration) as [|N IH]; intros x; cbn [descend newton]; unfold answer; cbn [minimize unconstrained_program target String.eqb Ascii.eqb Bool.eqb neg iadd]; try discriminate.
  - destruct (backtrack _ _ _ _ _ _ _ _); try discriminate. destruct (norm_le _ _); [discriminate|apply IH].
  - destruct (lin_solve _ _); try discriminate. destruct (norm_le _ _); [discriminate|apply IH].
Qed.
Print Assumptions C52_list_refuted.

(** ** C54 *)
(** after a call with objective "min" that returns, the caller's starting array holds the result
    (the two are one object); with "max" it holds the negated result *)
Theorem C54_start_overwritten_partial fuel f df d2f objective x alpha c p tolerance max_iteration z r :
  steepest_descent fuel (unconstrained_program f objective) AnArray x df alpha c p tolerance max_iteration = (z, Ok r) \/
  newton_method (unconstrained_program f objective) AnArray x df d2f tolerance max_iteration = (z, Ok r) ->
  r = (if String.eqb objective "min" then z else opposite z).
Proof.
  assert (A : forall y, answer (unconstrained_program f objective) AnArray y = Ok (if String.eqb objective "min" then y else opposite y)) by (intros y; unfold answer; cbn [minimize unconstrained_program]; destruct (String.eqb objective "min"); reflexivity).
  intros [E|E]; revert x E; [unfold steepest_descent|unfold newton_method]; induction (Z.to_nat max_iteration) as [|N IH]; intros x; cbn [descend newton]; rewrite ?A.
  - intros E. injection E as <- <-. reflexivity.
  - destruct (backtrack _ _ _ _ _ _ _ _); try discriminate. destruct (iadd _ _ _ _) as [x'| |]; try discriminate. rewrite A. destruct (norm_le _ _); [|apply IH]. intros E. injection E as <- <-. reflexivity.
  - intros E. injection E as <- <-. reflexivity.
  - destruct (lin_solve _ _); try discriminate. destruct (iadd _ _ _ _) as [x'| |]; try discriminate. rewrite A. destruct (norm_le _ _); [|apply IH]. intros E. injection E as <- <-. reflexivity.
Qed.
Print Assumptions C54_start_overwritten_partial.
(** nothing is changed when no iteration is allowed *)
Theorem C54_no_iteration_partial fuel f df d2f objective x alpha c p tolerance max_iteration : (max_iteration <= 0)%Z ->
  fst (steepest_descent fuel (unconstrained_program f objective) AnArray x df alpha c p tolerance max_iteration) = x /\
  fst (newton_method (unconstrained_program f objective) AnArray x df d2f tolerance max_iteration) = x.
Proof. intros H. unfold steepest_descent, newton_method. replace (Z.to_nat max_iteration) with 0 by lia. split; reflexivity. Qed.
Print Assumptions C54_no_iteration_partial.
(** whenever a gradient step or a Newton step moves the point, the caller's array is changed *)
Theorem C54_refuted : forall max_iteration, (0 < max_iteration)%Z -> exists f df d2f x,
  fst (steepest_descent 20 (unconstrained_program f "min") AnArray x df 1 (Q2Qc (7 # 10)) (Q2Qc (1 # 2)) (Q2Qc (1 # 10000)) 1) <> x /\
  fst (newton_method (unconstrained_program f "min") AnArray x df d2f (Q2Qc (1 # 10000)) max_iteration) <> x.
Proof.
  intros N HN. exists parabola, (fun x => along (apply [[qz 2]] x) 1 [0%Qc]), (fun _ => [[qz 2]]), [1%Qc]. split; [vm_compute; discriminate|].
  assert (NS : nonsingular 1 [[qz 2]]) by (apply nonsingular_det; [split; [reflexivity|intros r [<-|[]]; reflexivity]|discriminate]).
  destruct (C51_quadratic parabola [[qz 2]] [0%Qc] 1 [1%Qc] (Q2Qc (1 # 10000)) N NS eq_refl eq_refl HN) as (r & E & _ & Er & _). cbv zeta in E. rewrite E. cbn [fst]. intros ->. discriminate Er.
Qed.
Print Assumptions C54_refuted.
Example C54_example : (exists z r, steepest_descent 20 (unconstrained_program parabola "min") AnArray [1%Qc] parabola_gradient 1 (Q2Qc (7 # 10)) (Q2Qc (1 # 2)) (Q2Qc (1 # 10000)) 3 = (z, Ok r)).
Proof. eexists. eexists. vm_compute. reflexivity. Qed.

(** ** C75: starting points given as arrays of integers *)
Lemma reduced_spec f x g alpha c p : length g = length x -> reduced f x (vopp g) (dot g (vopp g)) alpha c p = false <-> armijo f c x g alpha.
Proof.
  intros L. unfold reduced. pose proof (backtrack_spec f x g c p L 0 alpha) as B. destruct (backtrack 0 f x (vopp g) (dot g (vopp g)) alpha c p) as [a| |].
  - destruct B as (j & J1 & J2 & J3 & _). replace j with 0 in J2 by lia. change (p ^ 0)%Qc with 1%Qc in J2. rewrite Qcmult_1_r in J2. subst a. now split.
  - contradiction.
  - split; [discriminate|]. intros K. exfalso. apply (B 0); [lia|]. change (p ^ 0)%Qc with 1%Qc. now rewrite Qcmult_1_r.
Qed.
Lemma full_backtrack fuel f x g alpha c p : length g = length x -> armijo f c x g alpha -> backtrack fuel f x (vopp g) (dot g (vopp g)) alpha c p = Ok alpha.
Proof.
  intros L HA. pose proof (backtrack_spec f x g c p L fuel alpha) as B. destruct (backtrack fuel f x (vopp g) (dot g (vopp g)) alpha c p) as [a| |].
  - destruct B as ([|j] & J1 & J2 & J3 & J4); [|exfalso; apply (J4 0); [lia|]; change (p ^ 0)%Qc with 1%Qc; now rewrite Qcmult_1_r].
    change (p ^ 0)%Qc with 1%Qc in J2. rewrite Qcmult_1_r in J2. now subst a.
  - contradiction.
  - exfalso. apply (B 0); [lia|]. change (p ^ 0)%Qc with 1%Qc. now rewrite Qcmult_1_r.
Qed.
(** Newton's method never accepts one: the first step raises TypeError (LinAlgError where the Hessian
    is singular) and the array is unchanged *)
Theorem C75_newton_refuted f objective df d2f n x whole tolerance max_iteration :
  (forall y, length y = n -> length (df y) = n) -> (forall y, length y = n -> square n (d2f y)) -> length x = n -> (0 < max_iteration)%Z ->
  newton_method (unconstrained_program f objective) (AnIntArray whole) x df d2f tolerance max_iteration = (x, Raise TypeError) /\ nonsingular n (d2f x) \/
  newton_method (unconstrained_program f objective) (AnIntArray whole) x df d2f tolerance max_iteration = (x, Raise LinAlgError) /\ ~ nonsingular n (d2f x).
Proof.
  intros Hdf Hd2f Lx HN. unfold newton_method. destruct (Z.to_nat max_iteration) as [|N] eqn:EN; [lia|]. cbn [newton].
  destruct (nonsingular_dec n (d2f x) (Hd2f x Lx)) as [NS|NS].
  - left. destruct (lin_solve_ok n (d2f x) (vopp (df x)) (Hd2f x Lx) ltac:(rewrite length_vopp; auto) NS) as (d & -> & _). cbn [iadd]. rewrite andb_false_r. auto.
  - right. rewrite (lin_solve_singular n) by (auto; rewrite length_vopp; auto). auto.
Qed.
Print Assumptions C75_newton_refuted.
Lemma descend_int q df n fuel alpha c p tolerance : (forall x, length x = n -> length (df x) = n) ->
  forall N x k y, length y = n -> full_descent (target q) df alpha c tolerance x k y -> k = 0 \/ ~ norm_at_most (df y) tolerance ->
  match descend N fuel q (AnIntArray true) y df alpha c p tolerance with
  | (z, Ok r) => descend N fuel q AnArray y df alpha c p tolerance = (z, Ok r) /\ length z = n /\ r = (if minimize q then z else vopp z) /\
      exists m, k <= m <= k + N /\ full_descent (target q) df alpha c tolerance x m z /\ (m = k + N \/ (k < m /\ norm_at_most (df z) tolerance))
  | (z, Raise e) => e = TypeError /\ length z = n /\ exists m, k <= m < k + N /\ full_descent (target q) df alpha c tolerance x m z /\ (m = 0 \/ ~ norm_at_most (df z) tolerance) /\ ~ armijo (target q) c z (df z) alpha
  | (z, Diverges) => length z = n /\ forall i, i <= fuel -> ~ armijo (target q) c z (df z) (alpha * p ^ i)%Qc
  end.
Proof.
  intros Hdf. induction N as [|N IH]; intros x k y Ly HD HN; cbn [descend].
  - unfold answer, neg. destruct (minimize q); (split; [reflexivity|]); (split; [auto|]); (split; [reflexivity|]); exists k; (split; [lia|]); (split; [auto|left; lia]).
  - assert (Lg : length (df y) = length y) by (rewrite Hdf; auto). pose proof (backtrack_spec (target q) y (df y) c p Lg fuel alpha) as B.
    pose proof (reduced_spec (target q) y (df y) alpha c p Lg) as RS.
    destruct (reduced (target q) y (vopp (df y)) (dot (df y) (vopp (df y))) alpha c p) eqn:ER.
    + destruct (backtrack fuel (target q) y (vopp (df y)) (dot (df y) (vopp (df y))) alpha c p) as [a| |]; [|contradiction|auto].
      cbn [iadd andb negb]. split; auto. split; auto. exists k. split; [lia|]. split; auto. split; auto. intros K. apply RS in K. discriminate K.
    + pose proof (proj1 RS eq_refl) as HA. rewrite (full_backtrack fuel _ _ _ _ _ _ Lg HA). cbn [iadd andb negb]. rewrite plus_along by auto. set (y' := along y (- alpha)%Qc (df y)) in *.
      assert (Ly' : length y' = n) by (unfold y'; rewrite length_along; auto). assert (HD' : full_descent (target q) df alpha c tolerance x (S k) y') by (apply f_step; auto).
      destruct (norm_le_spec (df y') tolerance) as [T|T].
      * unfold answer, neg. destruct (minimize q); (split; [reflexivity|]); (split; [auto|]); (split; [reflexivity|]); exists (S k); (split; [lia|]); (split; [auto|right; auto]).
      * specialize (IH x (S k) y' Ly' HD' (or_intror T)). destruct (descend N fuel q (AnIntArray true) y' df alpha c p tolerance) as (z & [r| |]); auto.
        -- destruct IH as (I1 & I2 & I3 & m & M1 & M2 & M3). split; auto. split; auto. split; auto. exists m. split; [lia|]. split; auto. destruct M3 as [M3|(M3 & M4)]; [left; lia|right; split; [lia|auto]].
        -- destruct IH as (I1 & I2 & m & M1 & M2). split; auto. split; auto. exists m. split; [lia|auto].
Qed.
(** Steepest descent: an answer is the one for the same array of floats, and then every step had the
    whole length alpha; otherwise TypeError is raised at the first point where alpha has to be
    reduced, and the caller's array is left at this point *)
Theorem C75_descent fuel f objective df n x alpha c p tolerance max_iteration : (forall x, length x = n -> length (df x) = n) -> length x = n ->
  match steepest_descent fuel (unconstrained_program f objective) (AnIntArray true) x df alpha c p tolerance max_iteration with
  | (z, Ok r) => steepest_descent fuel (unconstrained_program f objective) AnArray x df alpha c p tolerance max_iteration = (z, Ok r) /\
      exists m, full_descent f df alpha c tolerance x m z /\ (Z.of_nat m = Z.max 0 max_iteration \/ 0 < m /\ norm_at_most (df z) tolerance)
  | (z, Raise e) => e = TypeError /\ exists m, full_descent f df alpha c tolerance x m z /\ (Z.of_nat m < max_iteration)%Z /\ ~ armijo f c z (df z) alpha
  | (z, Diverges) => forall i, i <= fuel -> ~ armijo f c z (df z) (alpha * p ^ i)%Qc
  end.
Proof.
  intros Hdf Lx. unfold steepest_descent. pose proof (descend_int (unconstrained_program f objective) df n fuel alpha c p tolerance Hdf (Z.to_nat max_iteration) x 0 x Lx (f_start _ _ _ _ _ _) (or_introl eq_refl)) as K.
  cbn [target unconstrained_program] in K.
  destruct (descend (Z.to_nat max_iteration) fuel (unconstrained_program f objective) (AnIntArray true) x df alpha c p tolerance) as (z & [r| |]).
  - destruct K as (K1 & _ & _ & m & M1 & M2 & M3). split; auto. exists m. split; auto. destruct M3 as [M3|M3]; [left; lia|auto].
  - destruct K as (K1 & _ & m & M1 & M2 & _ & M3). split; auto. exists m. split; auto. split; [lia|auto].
  - apply K.
Qed.
Print Assumptions C75_descent.
(** with a float step length, or a gradient with floats, no step is possible *)
Theorem C75_float_step_refuted fuel f objective df n x alpha c p tolerance max_iteration : (forall x, length x = n -> length (df x) = n) -> length x = n ->
  (0 < max_iteration)%Z -> (exists j, j <= fuel /\ armijo f c x (df x) (alpha * p ^ j)%Qc) ->
  steepest_descent fuel (unconstrained_program f objective) (AnIntArray false) x df alpha c p tolerance max_iteration = (x, Raise TypeError).
Proof.
  intros Hdf Lx HN (j & Hj & HA). unfold steepest_descent. destruct (Z.to_nat max_iteration) as [|N] eqn:EN; [lia|]. cbn [descend].
  destruct (backtrack_ok f x (df x) c p fuel alpha j ltac:(rewrite Hdf; auto) Hj HA) as (a & E). cbn [target unconstrained_program]. rewrite E. reflexivity.
Qed.
Print Assumptions C75_float_step_refuted.
(** the property itself fails: x^2 from 1, solved from the float 1.0 and refused from the integer 1 *)
Theorem C75_descent_refuted : exists f df x z r, (forall x : list Qc, length x = 1 -> length (df x) = 1) /\
  steepest_descent 20 (unconstrained_program f "min") AnArray x df 1 (Q2Qc (1 # 2)) (Q2Qc (1 # 2)) (Q2Qc (1 # 10000)) 1 = (z, Ok r) /\ norm_at_most (df r) 0 /\
  steepest_descent 20 (unconstrained_program f "min") (AnIntArray true) x df 1 (Q2Qc (1 # 2)) (Q2Qc (1 # 2)) (Q2Qc (1 # 10000)) 1 = (x, Raise TypeError).
Proof.
  exists parabola, parabola_gradient, [1%Qc]. eexists. eexists. split; [intros; unfold parabola_gradient; rewrite map_length; auto|].
  split; [vm_compute; reflexivity|]. split; [|vm_compute; reflexivity]. vm_compute. split; discriminate.
Qed.
Print Assumptions C75_descent_refuted.
(** non-vacuity: (x - 2)^2 / 2 from 5 has the whole-number gradient x - 2, one full step ends at 2 when c is at most 1/2 *)
Example C75_example : let f := fun x : list Qc => (Q2Qc (1 # 2) * ((nth 0 x 0 - qz 2) * (nth 0 x 0 - qz 2)))%Qc in let df := map (fun v : Qc => v - qz 2)%Qc in
  let r := steepest_descent 20 (unconstrained_program f "min") (AnIntArray true) [qz 5] df 1 (Q2Qc (1 # 2)) (Q2Qc (1 # 2)) (Q2Qc (1 # 10000)) 100 in
  map this (fst r) = [2]%Q /\ exists y, snd r = Ok y.
Proof. split; [vm_compute; reflexivity|]. vm_compute. eexists. reflexivity. Qed.
