(** C81: the simplex method when numpy's results carry rounding errors. *)
From Coq Require Import String List Bool Arith ZArith QArith Qcanon Lia Sorted.
From Verif Require Import Py QcTac QSum QInt ComparatorModel MatModel DetTheory MatTheory LinearModel LinearSpec LinearProofs SefProofs LinearInv DualProofs BasisProofs BlandProofs SimplexProofs SmallProofs LinearProps SimplexProps RoundedModel RoundedSpec RoundedProofs RoundedExact DoubleSpec FloatModel.
Import ListNotations.
Open Scope nat_scope.
Open Scope string_scope.
Open Scope list_scope.

Lemma loop_last e p Bz it : r_loop e p Bz it -> exists Bz', r_iteration e p Bz' it.
Proof. induction 1; eauto. Qed.
Lemma quarter_half m e : 0 < m -> (0 <= e)%Qc -> (qz (Z.of_nat m) * e <= Q2Qc (1 # 4))%Qc -> (e + e < 1)%Qc.
Proof.
  intros Hm He H. assert (K : (1 * e <= qz (Z.of_nat m) * e)%Qc) by (apply qmul_le_r; auto; change 1%Qc with (qz 1); apply qz_le; lia). rewrite Qcmult_1_l in K. set (a := (qz (Z.of_nat m) * e)%Qc) in *. clearbody a. clear - H K He.
  assert (e <= Q2Qc (1 # 4))%Qc by (eapply Qcle_trans; eauto). qclra.
Qed.
Lemma tests e p Bz x B q : wf p -> negate_rows p = p -> (qz (Z.of_nat (rows p)) * e <= Q2Qc (1 # 4))%Qc -> r_iteration e p Bz (Optimal x B q) ->
  lsef p = true /\ B = sort (to_array_indexing Bz) /\ (0 <= e)%Qc /\ (exists W V y, facts e p B q x W V y) /\
  (forall j, j < cols p -> ~ In j B -> (at_ (lc q) j < tol_zero)%Qc) /\ (forall j, j < length x -> (- tol_zero < at_ x j)%Qc).
Proof.
  intros H En Hm (Hs & HB & q' & x' & HC & HX & <- & -> & <- & S1 & S2). rewrite En in HC. set (B := sort (to_array_indexing Bz)) in *.
  assert (He : (0 <= e)%Qc). { destruct HC as (W & y & _ & _ & _ & _ & _ & K & _). now apply within_nonneg in K. }
  assert (L0 : 0 < rows p) by (destruct HB as (<- & L0 & _); exact L0).
  split; auto. split; auto. split; auto. destruct (get_facts e p Bz q x H (quarter_half _ e L0 He Hm) HB HC HX) as (W & V & y & F). fold B in F. split; [eauto|].
  destruct (fa_q _ _ _ _ _ _ _ _ F) as (_ & Lq & _). split.
  - intros j Hj Hn. apply le0_true. apply (proj1 (forallb_take _ _ _) S1). apply filter_In. split; [apply in_seq; unfold cols at 1; lia|]. now apply negb_true_iff, inb_false.
  - intros j Hj. destruct (Qclt_le_dec (- tol_zero) (at_ x j)); auto. exfalso. apply neg_true in q0. assert (T : existsb is_negative x = true) by (apply existsb_exists; exists (at_ x j); split; auto; now apply nth_In). congruence.
Qed.
Lemma rounded_optimal e p Bz x Bo cert : wf p -> (qz (Z.of_nat (rows p)) * e <= Q2Qc (1 # 4))%Qc -> r_simplex e p Bz (Some x, Bo, cert) ->
  lsef p = true /\ (0 <= e)%Qc /\ exists B q W V y, facts e (negate_rows p) B q x W V y /\ Bo = Some (to_math_indexing B) /\
  (forall j, j < cols p -> ~ In j B -> (at_ (lc q) j < tol_zero)%Qc) /\ (forall j, j < length x -> (- tol_zero < at_ x j)%Qc).
Proof.
  intros H Hm (Hs & it & HL & HR). destruct (loop_last _ _ _ _ HL) as (Bz' & HI). destruct it as [x' B q|x' B q|B q]; [|discriminate HR|contradiction].
  destruct HR as (Z & yy & _ & _ & E). injection E as -> -> ->.
  destruct (tests e (negate_rows p) Bz' x' B q (wf_negate p H) (neg_again p H) ltac:(now rewrite rows_neg) HI) as (_ & _ & He & (W & V & y & F) & T1 & T2).
  split; auto. split; auto. exists B, q, W, V, y. auto.
Qed.
(** What the method reports as optimal, whatever happened in the iterations before the last one: if the errors
    of the last one are at most [e], with [rows * e <= 1/4], the equations hold up to
    [4 * weight * e * (1 + |x|)], no entry is below -1e-10, and no feasible point is better by more than
    [(1e-10 + weight * e) * |x'| + 4 * weight * e * (1 + |x|)]. *)
Theorem C81_solution e p Bz x Bo cert : reachable p -> (qz (Z.of_nat (length (lA p))) * e <= Q2Qc (1 # 4))%Qc -> r_simplex e p Bz (Some x, Bo, cert) ->
  satisfies_within (qz 4 * weight p * e * (1 + abs_sum x))%Qc p x /\
  (forall j, j < length x -> (- Q2Qc (1 # 10000000000) < nth j x 0)%Qc) /\
  forall x', feasible (meaning p) x' ->
    (value (meaning p) x' <= value (meaning p) x + (Q2Qc (1 # 10000000000) + weight p * e) * total x' + qz 4 * weight p * e * (1 + abs_sum x))%Qc.
Proof.
  intros Hr Hm R. pose proof (reachable_wf p Hr) as H. destruct (rounded_optimal e p Bz x Bo cert H Hm R) as (Hs & He & B & q & W & V & y & F & _ & T1 & T2).
  pose proof (wf_negate p H) as H'. pose proof (rows_neg p H) as Er. destruct (fa_x _ _ _ _ _ _ _ _ F) as (Lx & _ & _). rewrite cols_neg in Lx.
  assert (Hm' : (qz (Z.of_nat (rows (negate_rows p))) * e <= Q2Qc (1 # 4))%Qc) by (now rewrite Er).
  assert (EX : N1 (cols p) (at_ x) = abs_sum x) by (symmetry; now apply abs_sum_N1).
  assert (E4 : forall w X : Qc, (four * w * e * (X + 1) = qz 4 * w * e * (1 + X))%Qc). { intros. replace (qz 4) with four by (apply Qc_is_canon; reflexivity). ring. }
  split; [|split].
  - split; [exact Lx|]. intros i Hi. rewrite (inner_row (cols p)) by (auto; apply (wf_A _ H)). fold (lhs p i (at_ x)). change (nth i (lb p) 0%Qc) with (at_ (lb p) i).
    pose proof (primal_error e _ B q x W V y H' F He Hm' i ltac:(rewrite Er; exact Hi)) as K. rewrite lhs_neg, lb_neg in K by auto. replace (sg p i * lhs p i (at_ x) - sg p i * at_ (lb p) i)%Qc with (sg p i * (lhs p i (at_ x) - at_ (lb p) i))%Qc in K by ring.
    rewrite qabs_mul, sg_abs, Qcmult_1_l, cols_neg, EX, weight_neg, E4 in K by auto. exact K.
  - exact T2.
  - intros x' Hx'. apply sfeas_iff in Hx'; auto. destruct Hx' as (X1 & X2 & X3). rewrite !value_Sum. fold (obj p (at_ x)) (obj p (at_ x')).
    assert (HS : solves 1 (negate_rows p) (at_ x')) by (apply solves_neg; auto; intros i Hi; specialize (X2 i Hi); unfold lhs; rewrite Qcmult_1_l; exact X2).
    pose proof (near_optimal e _ B q x W V y H' F He Hm' tol_zero (at_ x') (Qclt_le_weak _ _ tol_pos) (fun j Hj Hn => Qclt_le_weak _ _ (T1 j Hj Hn)) HS X3) as K.
    rewrite cols_neg, EX, weight_neg, E4 in K by auto. rewrite total_Sum, X1. change (obj (negate_rows p)) with (obj p) in K. change (Q2Qc (1 # 10000000000)) with tol_zero. rewrite (Qcmult_comm (weight p) e).
    set (a := obj p (at_ x')) in *. set (b := obj p (at_ x)) in *. set (c := ((tol_zero + e * weight p) * Sum (cols p) (at_ x'))%Qc) in *. set (d := (qz 4 * weight p * e * (1 + abs_sum x))%Qc) in *. change (constant (meaning p)) with (lz p) in *. clearbody a b c d. clear - K. qclra.
Qed.
Print Assumptions C81_solution.

(** ** the reported basis *)
Lemma In_to_math j B : In (Z.of_nat (S j)) (to_math_indexing B) <-> In j B.
Proof.
  unfold to_math_indexing. rewrite in_map_iff. split.
  - intros (i & E & Hi). assert (i = j) by lia. now subst.
  - intros Hj. exists j. split; auto.
Qed.
Lemma to_math_sorted B : StronglySorted lt B -> StronglySorted Z.lt (to_math_indexing B).
Proof.
  induction 1 as [|i l Hs IH Hi]; cbn; constructor; auto. apply Forall_forall. intros z Hz. apply in_map_iff in Hz. destruct Hz as (j & <- & Hj). rewrite Forall_forall in Hi. specialize (Hi j Hj). lia.
Qed.
Lemma vanishes_math B x n : length x = n -> (vanishes_off (to_math_indexing B) x <-> forall j, j < n -> ~ In j B -> at_ x j = 0%Qc).
Proof.
  intros L. unfold vanishes_off. rewrite L. split; intros K j Hj Hn; apply K; auto; intros I; apply Hn; now apply In_to_math.
Qed.
(** With errors at most [e] in the last iteration, [rows * e <= 1/4]: the reported basis is a list of as many
    different columns as there are rows, in increasing order; they are linearly independent; the reported point
    vanishes elsewhere; and it is within [4 * e * (1 + |x|)] of the exact basic solution of that basis. *)
Theorem C81_basis e p Bz x Bo cert : reachable p -> (qz (Z.of_nat (length (lA p))) * e <= Q2Qc (1 # 4))%Qc -> r_simplex e p Bz (Some x, Bo, cert) ->
  exists basis, Bo = Some basis /\ length basis = length (lA p) /\ StronglySorted Z.lt basis /\
    (forall i, In i basis -> (1 <= i <= Z.of_nat (length (lc p)))%Z) /\ vanishes_off basis x /\
    exists x0, satisfies p x0 /\ vanishes_off basis x0 /\
      (forall x', satisfies p x' -> vanishes_off basis x' -> x' = x0) /\
      forall j, j < length x -> (qabs (nth j x 0 - nth j x0 0) <= qz 4 * e * (1 + abs_sum x))%Qc.
Proof.
  intros Hr Hm R. pose proof (reachable_wf p Hr) as H. destruct (rounded_optimal e p Bz x Bo cert H Hm R) as (Hs & He & B & q & W & V & y & F & -> & T1 & T2).
  assert (Hm' : (qz (Z.of_nat (rows (negate_rows p))) * e <= Q2Qc (1 # 4))%Qc) by (now rewrite rows_neg).
  pose proof (nonsingular e p B q x W V y F He Hm') as HB. destruct (fa_x _ _ _ _ _ _ _ _ F) as (Lx & X0 & _). destruct (basic_solution_ok _ B (wf_negate p H) HB) as (x0 & _ & L0 & S0).
  pose proof (vertex e p B q x W V y F He Hm' (at_ x0) S0) as VX. apply (proj1 (basis_neg p B H)) in HB. rewrite !cols_neg in *. assert (S0' : bsol p B (at_ x0)) by (destruct S0; split; [now apply (solves_neg 1 p)|auto]). clear S0.
  exists (to_math_indexing B). split; auto. split; [unfold to_math_indexing; rewrite map_length; apply HB|]. split; [apply to_math_sorted, HB|]. split.
  { intros i Hi. unfold to_math_indexing in Hi. apply in_map_iff in Hi. destruct Hi as (j & <- & Hj). apply (bs_lt _ _ HB) in Hj. unfold cols in Hj. lia. }
  split; [now apply (vanishes_math B x (cols p))|]. exists x0. destruct S0' as (S1 & S2). split; [now apply satisfies_solves|]. split; [now apply (vanishes_math B x0 (cols p))|]. split.
  - intros x' Sx Vx. apply satisfies_solves in Sx; auto. destruct Sx as (L' & S'). apply (nth_ext _ _ 0%Qc 0%Qc); [now rewrite L', L0|]. rewrite L'. intros j Hj. destruct (basis_canon p B H HB) as (q0 & _ & C0).
    apply (bsol_unique p B q0 HB C0 (at_ x') (at_ x0)); auto; split; auto. now apply (vanishes_math B x' (cols p)).
  - rewrite Lx. intros j Hj. specialize (VX j Hj). rewrite <- (abs_sum_N1 x (cols p) Lx) in VX. replace (qz 4) with four by (apply Qc_is_canon; reflexivity). replace (four * e * (1 + abs_sum x))%Qc with (four * (e * (abs_sum x + 1)))%Qc by ring. exact VX.
Qed.
Print Assumptions C81_basis.

(** Whole numbers: if no determinant of [rows] columns of [A | b] exceeds [K <= 10^9] and
    [32 * e * K * weight * (1 + rows * K) <= 1], the reported basis is exactly optimal; the reported point is
    within [8 * e * (1 + rows * K)] of the optimal basic solution, and within [1 / (4 K)] of it.  With [K = 1]
    the optimal solution is whole, so rounding the reported point gives it. *)
Theorem C81_whole e p Bz x Bo cert K : reachable p -> whole_numbers p -> minors_at_most K p -> (1 <= K <= 10 ^ 9)%Z ->
  (qz 32 * e * qz K * weight p * (1 + qz (Z.of_nat (length (lA p))) * qz K) <= 1)%Qc -> r_simplex e p Bz (Some x, Bo, cert) ->
  exists x0 basis, optimal (meaning p) x0 /\ Bo = Some basis /\ vanishes_off basis x0 /\
    (forall j, j < length x -> (qabs (nth j x 0 - nth j x0 0) <= qz 8 * e * (1 + qz (Z.of_nat (length (lA p))) * qz K))%Qc /\ (qabs (nth j x 0 - nth j x0 0) * qz K <= Q2Qc (1 # 4))%Qc) /\
    (K = 1%Z -> forall j, j < length x -> isint (nth j x0 0%Qc)).
Proof.
  intros Hr HI HM HK Hs R. pose proof (reachable_wf p Hr) as H.
  assert (He : (0 <= e)%Qc). { destruct R as (_ & it & HL & _). destruct (loop_last _ _ _ _ HL) as (Bz' & _ & _ & q & x' & (W & y & _ & _ & _ & _ & _ & A & _) & _). now apply within_nonneg in A. }
  assert (Hm : (qz (Z.of_nat (length (lA p))) * e <= Q2Qc (1 # 4))%Qc). { rewrite <- (rows_neg p H : rows (negate_rows p) = length (lA p)). apply (quarter_rows e p K H He HK Hs). }
  destruct (rounded_optimal e p Bz x Bo cert H Hm R) as (Hsef & _ & B & q & W & V & y & F & -> & T1 & T2).
  destruct (right_basis e p B q x W V y K H F He HI HM HK Hs T1 T2) as (x0 & L0 & (S1 & S2) & N0 & O & C1 & C2 & C3). rewrite !cols_neg in *. destruct (fa_x _ _ _ _ _ _ _ _ F) as (Lx & _). rewrite cols_neg in Lx.
  apply (proj1 (solves_neg 1 p _ H)) in S1. exists x0, (to_math_indexing B). split; [|split; [reflexivity|split; [now apply (vanishes_math B x0 (cols p))|split]]].
  - split.
    + apply sfeas_iff; auto. split; [exact L0|]. split; [|exact N0]. intros i Hi. specialize (S1 i Hi). rewrite Qcmult_1_l in S1. exact S1.
    + intros y0 Hy0. apply sfeas_iff in Hy0; auto. destruct Hy0 as (Y1 & Y2 & Y3). unfold as_good. rewrite max_sef by auto. rewrite !value_Sum.
      assert (SY : solves 1 (negate_rows p) (at_ y0)) by (apply solves_neg; auto; intros i Hi; specialize (Y2 i Hi); rewrite Qcmult_1_l; exact Y2). specialize (O (at_ y0) SY Y3). unfold obj in O. rewrite cols_neg in O. change (lc (negate_rows p)) with (lc p) in O.
      set (a := Sum _ _) in *. set (b := Sum (cols p) (fun j => at_ (lc p) j * at_ x0 j)%Qc) in *. clear - O. clearbody a b. qclra.
  - rewrite Lx. intros j Hj. split; [exact (C1 j Hj)|exact (C2 j Hj)].
  - rewrite Lx. intros EK j Hj. exact (C3 EK j Hj).
Qed.
Print Assumptions C81_whole.

(** ** unbounded programs *)
Lemma rounded_unbounded e p Bz Bo cert : wf p -> (qz (Z.of_nat (rows p)) * e <= Q2Qc (1 # 4))%Qc -> r_simplex e p Bz (None, Bo, cert) ->
  lsef p = true /\ Bo = None /\ (0 <= e)%Qc /\ exists B q x W V y k, facts e (negate_rows p) B q x W V y /\ k < cols p /\ ~ In k B /\ (tol_zero <= at_ (lc q) k)%Qc /\
  forall i, i < rows p -> (ent (lA q) i k < tol_zero)%Qc.
Proof.
  intros H Hm (Hs & it & HL & HR). destruct (loop_last _ _ _ _ HL) as (Bz' & HI). destruct it as [x' B q|x' B q|B q]; [destruct HR as (? & ? & _ & _ & HR); discriminate HR| |contradiction].
  destruct HI as (_ & HB & q' & x & HC & HX & -> & -> & <- & _ & k & Fk & Ck). rewrite (neg_again p H) in HC. set (B := sort (to_array_indexing Bz')) in *.
  assert (He : (0 <= e)%Qc). { destruct HC as (W & y & _ & _ & _ & _ & _ & K & _). now apply within_nonneg in K. }
  split; auto. split; [cbn in HR; congruence|]. split; auto. assert (L0 : 0 < rows p) by (destruct HB as (E & L0 & _); rewrite rows_neg in E by auto; lia).
  destruct (get_facts e (negate_rows p) Bz' q x (wf_negate p H) (quarter_half _ e L0 He Hm) HB HC HX) as (W & V & y & F). fold B in F. exists B, q, x, W, V, y, k.
  destruct (fa_q _ _ _ _ _ _ _ _ F) as (LA & Lq & _). rewrite cols_neg in Lq. rewrite rows_neg in LA by auto. apply find_some in Fk. destruct Fk as (Ik & Pk). apply filter_In in Ik. destruct Ik as (Ik & Nk). apply in_seq in Ik. unfold cols at 1 in Ik.
  split; auto. split; [lia|]. split; [now apply inb_false, negb_true_iff|]. split; [now apply pos_true|]. intros i Hi. apply le0_true. rewrite forallb_forall in Ck. apply (Ck (nth i (lA q) [])). apply nth_In. lia.
Qed.
(** The answer "unbounded" is right up to rounding: some direction [d] with entries above -1e-10 keeps every
    row up to [2 * weight * e] and increases the objective by at least [1e-10 - weight * e]. *)
Theorem C81_unbounded e p Bz Bo cert : reachable p -> (qz (Z.of_nat (length (lA p))) * e <= Q2Qc (1 # 4))%Qc -> r_simplex e p Bz (None, Bo, cert) ->
  exists d, length d = length (lc p) /\ (exists k, nth k d 0%Qc = 1%Qc) /\ (forall j, j < length d -> (- Q2Qc (1 # 10000000000) < nth j d 0)%Qc) /\
    (forall i, i < length (lA p) -> (qabs (inner (nth i (lA p) []) d) <= qz 2 * weight p * e)%Qc) /\ (Q2Qc (1 # 10000000000) - weight p * e <= inner (lc p) d)%Qc.
Proof.
  intros Hr Hm R. pose proof (reachable_wf p Hr) as H. destruct (rounded_unbounded e p Bz Bo cert H Hm R) as (_ & _ & He & B & q & x & W & V & y & k & F & Hk & Hn & Hc & HA).
  assert (Hm' : (qz (Z.of_nat (rows (negate_rows p))) * e <= Q2Qc (1 # 4))%Qc) by (now rewrite rows_neg).
  exists (mkvec (cols p) (dir (negate_rows p) q B k)). assert (AT : forall l, l < cols p -> at_ (mkvec (cols p) (dir (negate_rows p) q B k)) l = dir (negate_rows p) q B k l) by (intros l Hl; now apply at_mkvec).
  split; [apply length_mkvec|]. split; [exists k; fold (at_ (mkvec (cols p) (dir (negate_rows p) q B k)) k); rewrite AT by auto; apply dir_k|]. rewrite length_mkvec. split; [|split].
  - intros j Hj. fold (at_ (mkvec (cols p) (dir (negate_rows p) q B k)) j). rewrite AT by auto. apply (ray_low e p B q x W V y F He Hm'); auto; rewrite ?cols_neg; auto. rewrite rows_neg by auto. exact HA.
  - intros i Hi. rewrite (inner_row (cols p)) by (auto; apply (wf_A _ H)). pose proof (ray_rows e p B q x W V y H F He Hm' k i ltac:(now rewrite cols_neg) Hn ltac:(now rewrite rows_neg)) as K. rewrite lhs_neg, qabs_mul, sg_abs, Qcmult_1_l, weight_neg in K by auto.
    replace (qz 2) with two by (apply Qc_is_canon; reflexivity). unfold lhs in K. rewrite (Sum_ext _ _ (fun j => ent (lA p) i j * dir (negate_rows p) q B k j)%Qc) by (intros; now rewrite AT). exact K.
  - rewrite (inner_Sum (cols p)) by reflexivity. pose proof (ray_value e p B q x W V y H F He Hm' k ltac:(now rewrite cols_neg) Hn) as K. unfold obj in K. rewrite cols_neg, weight_neg in K by auto. change (lc (negate_rows p)) with (lc p) in K. apply qabs_le in K. destruct K as (K & _).
    rewrite (Sum_ext _ _ (fun j => at_ (lc p) j * dir (negate_rows p) q B k j)%Qc) by (intros; now rewrite AT). change (Q2Qc (1 # 10000000000)) with tol_zero. set (a := Sum _ _) in *. set (b := at_ (lc q) k) in *. set (w := (weight p * e)%Qc) in *. clear - K Hc. clearbody a b w. qclra.
Qed.
Print Assumptions C81_unbounded.
(** Whole numbers, with determinants at most [K] and in addition [weight * e * (1 + rows * K) < 1e-10]: the
    program really is infeasible or unbounded. *)
Theorem C81_unbounded_whole e p Bz Bo cert K : reachable p -> whole_numbers p -> minors_at_most K p -> (1 <= K <= 10 ^ 9)%Z ->
  (qz 32 * e * qz K * weight p * (1 + qz (Z.of_nat (length (lA p))) * qz K) <= 1)%Qc -> (weight p * e * (1 + qz (Z.of_nat (length (lA p))) * qz K) < Q2Qc (1 # 10000000000))%Qc ->
  r_simplex e p Bz (None, Bo, cert) ->
  forall x, feasible (meaning p) x -> unbounded (meaning p).
Proof.
  intros Hr HI HM HK Hs Ht R x' Hx'. pose proof (reachable_wf p Hr) as H.
  assert (He : (0 <= e)%Qc). { destruct R as (_ & it & HL & _). destruct (loop_last _ _ _ _ HL) as (Bz' & _ & _ & q & x & (W & y & _ & _ & _ & _ & _ & A & _) & _). now apply within_nonneg in A. }
  assert (Hm : (qz (Z.of_nat (length (lA p))) * e <= Q2Qc (1 # 4))%Qc). { rewrite <- (rows_neg p H : rows (negate_rows p) = length (lA p)). apply (quarter_rows e p K H He HK Hs). }
  destruct (rounded_unbounded e p Bz Bo cert H Hm R) as (Hsef & _ & _ & B & q & x & W & V & y & k & F & Hk & Hn & Hc & HA).
  destruct (right_ray e p B q x W V y K H F He HI HM HK Hs k) as (d & Ld & Sd & Nd & Od); auto; rewrite ?cols_neg, ?rows_neg by auto; auto.
  { replace (e * (weight p * (1 + qz (Z.of_nat (rows p)) * qz K)))%Qc with (weight p * e * (1 + qz (Z.of_nat (rows p)) * qz K))%Qc by ring. exact Ht. }
  rewrite cols_neg in *. apply (proj1 (solves_neg 0 p _ H)) in Sd. apply (ray_unbounded p x' d); auto.
  - intros i Hi. rewrite (inner_row (cols p)) by (auto; apply (wf_A _ H)). specialize (Sd i Hi). unfold lhs in Sd. rewrite Sd. ring.
  - unfold obj in Od. rewrite cols_neg in Od. change (lc (negate_rows p)) with (lc p) in Od. rewrite (inner_Sum (cols p)) by reflexivity. exact Od.
Qed.
Print Assumptions C81_unbounded_whole.

(** ** the exact results are among the possible ones *)
Lemma within_refl e u : (0 <= e)%Qc -> within e u u.
Proof. intros He. unfold within. replace (u - u)%Qc with 0%Qc by ring. exact He. Qed.
Lemma shaped_rectangular n A : shaped n A -> rectangular n A.
Proof. intros H i Hi. now apply shaped_nth. Qed.
Lemma inv_exact e M X : (0 <= e)%Qc -> minv M = Ok X -> r_inv e M X.
Proof.
  intros He E. assert (D : mdet M <> 0%Qc). { intros D. unfold minv in E. destruct (qeq_spec (mdet M) 0); [discriminate|contradiction]. }
  destruct (minv_ok M (length M) eq_refl D) as (X' & E' & L & S & H1 & H2). rewrite E in E'. injection E' as <-. split; auto. split; [now apply shaped_rectangular|]. intros i j Hi Hj. rewrite H1, H2 by auto. split; now apply within_refl.
Qed.
Lemma mulmv_exact e M v : (0 <= e)%Qc -> r_mulmv e M v (mulmv M v).
Proof.
  intros He. split; [apply map_length|]. intros i Hi. unfold at_, mulmv. rewrite (nth_indep _ _ (dot [] v)) by (now rewrite map_length). rewrite (map_nth (fun r => dot r v)). now apply within_refl.
Qed.
Lemma mulmm_exact n e M N : (0 <= e)%Qc -> r_mulmm n e M N (mulmm n M N).
Proof.
  intros He. split; [apply length_mulmm|]. split; [apply shaped_rectangular, shaped_mulmm|]. intros i j Hi Hj. unfold ent at 1, mulmm. rewrite (nth_indep _ _ (mulvm n [] N)) by (now rewrite map_length).
  rewrite (map_nth (fun r => mulvm n r N)). fold (at_ (mulvm n (nth i M []) N) j). rewrite at_mulvm by auto. now apply within_refl.
Qed.
Lemma costs_exact e c y A : (0 <= e)%Qc -> r_costs e c y A (vsub c (mulvm (length c) y A)).
Proof.
  intros He. split; [unfold vsub; rewrite map_length, combine_length, length_mulvm; lia|]. intros j Hj. rewrite at_vsub by (now rewrite length_mulvm). rewrite at_mulvm by auto. now apply within_refl.
Qed.
Lemma canonical_exact e p B q : (0 <= e)%Qc -> canonical p B = Ok q -> r_canonical e p B q.
Proof.
  intros He E. unfold canonical, bind in E. destruct (minv (columns_of B (lA p))) as [X| |] eqn:EX; try discriminate. injection E as <-. exists X, (mulmv (transpose (rows p) X) (take B (lc p))).
  split; [now apply inv_exact|]. split; [now apply mulmv_exact|]. split; [now apply mulmm_exact|]. split; [now apply mulmv_exact|]. split; [now apply costs_exact|]. split; [now apply within_refl|]. repeat split.
Qed.
Lemma basic_exact e p B x : (0 <= e)%Qc -> basic_solution p B = Ok x -> r_basic_solution e p B x.
Proof.
  intros He E. unfold basic_solution, bind in E. destruct (minv (columns_of B (lA p))) as [X| |] eqn:EX; try discriminate. injection E as <-. exists X, (mulmv X (lb p)). split; [now apply inv_exact|]. split; [now apply mulmv_exact|reflexivity].
Qed.
Lemma ratio_positive : forall b a i t o l, ratio_test i b a t o = Some l -> o = Some l \/ exists j, l = i + j /\ j < length a /\ is_positive (at_ a j) = true.
Proof.
  induction b as [|v b IH]; intros [|w a] i t o l E; cbn [ratio_test] in E; auto.
  assert (G : forall t o, ratio_test (S i) b a t o = Some l -> o = Some l \/ exists j, l = i + j /\ j < length (w :: a) /\ is_positive (at_ (w :: a) j) = true).
  { intros t' o' E'. destruct (IH _ _ _ _ _ E') as [|(j & -> & Hj & K)]; auto. right. exists (S j). split; [lia|]. split; [cbn; lia|exact K]. }
  destruct (is_positive w) eqn:P; [|now apply G in E]. destruct (match t with None => _ | Some _ => _ end); apply G in E; auto. destruct E as [E|E]; auto. injection E as <-. right. exists 0. split; [lia|]. split; [cbn; lia|exact P].
Qed.
Lemma iteration_exact e p Bz it : (0 <= e)%Qc -> simplex_iteration p Bz = Ok it -> r_iteration e p Bz it.
Proof.
  intros He E. unfold simplex_iteration in E. destruct (lsef p) eqn:Es; [|discriminate]. cbn [negb] in E. destruct (is_basis p Bz) as [[|]| |] eqn:EB; try discriminate. cbn [bind negb] in E.
  split; auto. split. { apply is_basis_true in EB. destruct EB as (L & L0 & R & _). split; auto. split; [lia|auto]. }
  destruct (canonical (negate_rows p) (sort (to_array_indexing Bz))) as [q| |] eqn:Eq; try discriminate. cbn [bind] in E. destruct (basic_solution q (sort (to_array_indexing Bz))) as [x| |] eqn:Ex; try discriminate. cbn [bind] in E.
  exists q, x. split; [now apply canonical_exact|]. split; [now apply basic_exact|]. cbv zeta in *. set (B := sort (to_array_indexing Bz)) in *. set (N := filter (fun i => negb (inb i B)) (seq 0 (cols q))) in *.
  destruct (forallb (fun v => cc_le v 0) (take N (lc q))) eqn:Est.
  - destruct (existsb is_negative x) eqn:En; [discriminate|]. injection E as <-. auto.
  - destruct (find (fun i => is_positive (at_ (lc q) i)) N) as [k|] eqn:Ek; [|discriminate]. destruct (forallb (fun v => cc_le v 0) (map (fun r => at_ r k) (lA q))) eqn:Ea.
    + injection E as <-. repeat (split; [reflexivity|]). exists k. split; auto. clear - Ea. induction (lA q) as [|r A IH]; [reflexivity|]. cbn [map forallb] in *. apply andb_true_iff in Ea. destruct Ea as (-> & Ea). now rewrite IH.
    + destruct (ratio_test 0 (lb q) (map (fun r => at_ r k) (lA q)) None None) as [l|] eqn:Er; [|discriminate]. injection E as <-. split; auto. split; auto. exists k, l. split; auto.
      apply ratio_positive in Er. destruct Er as [Er|(j & -> & Hj & Pj)]; [discriminate|]. cbn [Nat.add]. rewrite map_length in Hj. split; auto. split; auto. unfold ent. unfold at_ at 1 in Pj. rewrite (nth_indep _ _ (at_ [] k)) in Pj by (now rewrite map_length). now rewrite (map_nth (fun r => at_ r k)) in Pj.
Qed.
(** whatever the exact method of LinearModel.v returns is a possible result, for any bound on the errors *)
Theorem C81_exact e fuel p Bz r : (0 <= e)%Qc -> snd (simplex fuel p Bz) = Ok r -> r_simplex e p Bz r.
Proof.
  intros He E. apply simplex_inv in E. destruct E as (Hs & it & EL & ER). split; auto. exists it. split.
  - clear ER. revert Bz EL. induction fuel as [|fuel IH]; intros Bz EL; [discriminate|]. cbn [simplex_loop] in EL. destruct (simplex_iteration (negate_rows p) Bz) as [i| |] eqn:Ei; try discriminate. cbn [bind] in EL. apply (iteration_exact e) in Ei; auto. destruct i as [x B q|x B q|B q].
    + injection EL as <-. now apply r_last.
    + injection EL as <-. now apply r_last.
    + apply (r_step e _ e Bz B q); auto.
  - destruct it as [x B q|x B q|B q]; cbn [simplex_result] in ER.
    + unfold bind in ER. destruct (minv (transpose (rows (negate_rows p)) (columns_of B (lA (negate_rows p))))) as [X| |] eqn:EX; try discriminate. injection ER as <-. exists X, (mulmv X (take B (lc (negate_rows p)))). split; [now apply inv_exact|]. split; [now apply mulmv_exact|reflexivity].
    + injection ER as <-. reflexivity.
    + discriminate.
Qed.
Print Assumptions C81_exact.
(** a result that is possible with small errors is possible with larger ones *)
Lemma within_mono e e' u v : (e <= e')%Qc -> within e u v -> within e' u v.
Proof. intros L K. unfold within in *. eapply Qcle_trans; eauto. Qed.
Lemma inv_mono e e' M W : (e <= e')%Qc -> r_inv e M W -> r_inv e' M W.
Proof. intros L (H1 & H2 & H3). split; auto. split; auto. intros i j Hi Hj. destruct (H3 i j Hi Hj). split; eapply within_mono; eauto. Qed.
Lemma mulmv_mono e e' M v r : (e <= e')%Qc -> r_mulmv e M v r -> r_mulmv e' M v r.
Proof. intros L (H1 & H2). split; auto. intros i Hi. eapply within_mono; eauto. Qed.
Lemma iteration_mono e e' p Bz it : (e <= e')%Qc -> r_iteration e p Bz it -> r_iteration e' p Bz it.
Proof.
  intros L (Hs & HB & q & x & (W & y & C1 & C2 & C3 & C4 & C5 & C6 & C7) & (V & cs & X1 & X2 & X3) & K). split; auto. split; auto. exists q, x. split; [|split; auto].
  - exists W, y. split; [eapply inv_mono; eauto|]. split; [eapply mulmv_mono; eauto|]. split; [destruct C3 as (A1 & A2 & A3); split; auto; split; auto; intros; eapply within_mono; eauto|]. split; [eapply mulmv_mono; eauto|].
    split; [destruct C5 as (A1 & A2); split; auto; intros; eapply within_mono; eauto|]. split; auto. eapply within_mono; eauto.
  - exists V, cs. split; [eapply inv_mono; eauto|]. split; auto. eapply mulmv_mono; eauto.
Qed.
Theorem C81_larger_errors e e' p Bz r : (e <= e')%Qc -> r_simplex e p Bz r -> r_simplex e' p Bz r.
Proof.
  intros L (Hs & it & HL & HR). split; auto. exists it. split.
  - clear HR. induction HL; [apply r_last; auto; eapply iteration_mono; eauto|]. apply (r_step e' (negate_rows p) e'0 basis B q); auto.
  - destruct it; auto. destruct HR as (X & y & H1 & H2 & H3). exists X, y. split; [eapply inv_mono; eauto|]. split; auto. eapply mulmv_mono; eauto.
Qed.
Print Assumptions C81_larger_errors.

(** ** failures, and cases that meet the hypotheses *)
Ltac close := unfold within; vm_compute; discriminate.
(** maximise x1 subject to 49 x1 - 49 x2 = 49 *)
Definition forty_nine : res lp := linear_program (mat 2 [[49; -49]]%Z) (vec [49]%Z) (vec [1; 0]%Z) 0%Qc "max" None None None.
Lemma forty_nine_reachable p : forty_nine = Ok p -> reachable p.
Proof. intros E. unfold forty_nine in E. refine (r_new _ _ _ _ _ _ _ _ _ _ E). repeat constructor. Qed.
Lemma forty_nine_small p : forty_nine = Ok p -> whole_numbers p /\ minors_at_most 49 p.
Proof.
  intros E. injection E as <-. split.
  - split; [|split].
    + intros r v [<-|[]] [<-|[<-|[]]]; eexists; reflexivity.
    + intros v [<-|[]]; eexists; reflexivity.
    + intros v [<-|[<-|[]]]; eexists; reflexivity.
  - intros [|j [|? ?]] L Hj; try discriminate L. specialize (Hj j (or_introl eq_refl)). cbn in Hj. destruct j as [|[|[|j]]]; [vm_compute; discriminate ..|lia].
Qed.
(** The certificate may be wrong however small the errors are: the direction is computed from the first
    positive number among all reduced costs, and the reduced cost of a basic column, which is 0, may come out
    positive.  In double arithmetic, where 1/49 * 49 is 1 - 2^-53, it does: the exact method reports the
    direction (1, 1), doubles give (1, 0), which violates the row by 49. *)
Theorem C81_direction_refuted : exists p, forty_nine = Ok p /\ reachable p /\ snd (simplex 9 p [1]%Z) = Ok (None, None, CPair [1; 0]%Qc [1; 1]%Qc) /\
  let w := rnd (1 / qz 49) in let a := rnd (w * qz 49) in let v := rnd (1 / a) in
  let q := mklp [[a; rnd (w * - qz 49)]] [a] [rnd (1 - rnd (w * qz 49)); rnd (0 - rnd (w * - qz 49))]%Qc (rnd (a + 0)) "max" [] true [] [] in
  r_iteration (pow2 (-50)) p [1]%Z (Unbounded [rnd (v * a); 0]%Qc [0] q) /\
  r_simplex (pow2 (-50)) p [1]%Z (None, None, CPair [1; 0]%Qc [1; 0]%Qc) /\
  inner (nth 0 (lA p) []) [1; 0]%Qc = qz 49 /\ verify_unboundedness p [1; 0]%Qc [1; 0]%Qc = Ok false.
Proof.
  destruct forty_nine as [p| |] eqn:E; try discriminate E. exists p. split; auto. split; [now apply forty_nine_reachable|]. injection E as <-.
  split. { assert (T : match snd (simplex 9 (mklp [[qz 49; qz (-49)]] [qz 49] [qz 1; qz 0] 0 "max" [] true [] []) [1]%Z) with Ok (None, None, CPair x d) => map this x = [1; 0]%Q /\ map this d = [1; 1]%Q | _ => False end) by (vm_compute; split; reflexivity).
    match type of T with match ?t with _ => _ end => change (t = Ok (None, None, CPair [1; 0]%Qc [1; 1]%Qc)); destruct t as [[[o b] c]| |]; try contradiction end. destruct o; try contradiction. destruct b; try contradiction. destruct c as [|x d]; try contradiction. destruct T as (T1 & T2). apply of_this in T1. apply of_this in T2. subst. repeat f_equal; apply Qc_is_canon; reflexivity. }
  cbv zeta. set (w := rnd (1 / qz 49)). set (a := rnd (w * qz 49)). set (v := rnd (1 / a)). set (q := mklp [[a; _]] _ _ _ _ _ _ _ _).
  assert (I : r_iteration (pow2 (-50)) (mklp [[qz 49; qz (-49)]] [qz 49] [qz 1; qz 0] 0 "max" [] true [] []) [1]%Z (Unbounded [rnd (v * a); 0]%Qc [0] q)).
  { split; [reflexivity|]. split. { split; [reflexivity|]. split; [cbn; lia|]. intros i [<-|[]]. cbn. lia. }
    exists q, [rnd (v * a); 0]%Qc. split; [|split].
    - exists [[w]], [w]. split. { split; [reflexivity|]. split; [intros [|i] Hi; [reflexivity|cbn in Hi; lia]|]. intros [|i] [|j] Hi Hj; try (cbn in Hi, Hj; lia). split; close. }
      split. { split; [reflexivity|]. intros [|i] Hi; [close|cbn in Hi; lia]. }
      split. { split; [reflexivity|]. split; [intros [|i] Hi; [reflexivity|cbn in Hi; lia]|]. intros [|i] [|[|j]] Hi Hj; try (unfold cols in Hj; cbn in Hi, Hj; lia); close. }
      split. { split; [reflexivity|]. intros [|i] Hi; [close|cbn in Hi; lia]. }
      split. { split; [reflexivity|]. intros [|[|j]] Hj; [close|close|cbn in Hj; lia]. }
      split; [close|]. repeat split.
    - exists [[v]], [rnd (v * a)%Qc]. split. { split; [reflexivity|]. split; [intros [|i] Hi; [reflexivity|cbn in Hi; lia]|]. intros [|i] [|j] Hi Hj; try (cbn in Hi, Hj; lia). split; close. }
      split; [|reflexivity]. split; [reflexivity|]. intros [|i] Hi; [close|cbn in Hi; lia].
    - cbv zeta. split; [reflexivity|]. split; [reflexivity|]. split; [reflexivity|]. split; [vm_compute; reflexivity|]. exists 1. split; vm_compute; reflexivity. }
  split; [exact I|]. split; [|split; [apply Qc_is_canon; reflexivity|vm_compute; reflexivity]].
  split; [reflexivity|]. exists (Unbounded [rnd (v * a); 0]%Qc [0] q). split; [apply r_last; [|exact Logic.I]|].
  - exact I.
  - unfold r_result. repeat f_equal; apply Qc_is_canon; vm_compute; reflexivity.
Qed.
Print Assumptions C81_direction_refuted.
(** ... although the verdict is right: the theorems apply to this run *)
Example C81_unbounded_example : exists p, forty_nine = Ok p /\ reachable p /\ whole_numbers p /\ minors_at_most 49 p /\
  (qz 32 * pow2 (-50) * qz 49 * weight p * (1 + qz (Z.of_nat (length (lA p))) * qz 49) <= 1)%Qc /\
  (weight p * pow2 (-50) * (1 + qz (Z.of_nat (length (lA p))) * qz 49) < Q2Qc (1 # 10000000000))%Qc /\
  r_simplex (pow2 (-50)) p [1]%Z (None, None, CPair [1; 0]%Qc [1; 0]%Qc) /\ feasible (meaning p) [1; 0]%Qc /\ unbounded (meaning p).
Proof.
  destruct C81_direction_refuted as (p & E & Hr & _ & _ & R & _). exists p. split; auto. split; auto. destruct (forty_nine_small p E) as (HI & HM). split; auto. split; auto.
  assert (H1 : (qz 32 * pow2 (-50) * qz 49 * weight p * (1 + qz (Z.of_nat (length (lA p))) * qz 49) <= 1)%Qc) by (injection E as <-; vm_compute; discriminate).
  assert (H2 : (weight p * pow2 (-50) * (1 + qz (Z.of_nat (length (lA p))) * qz 49) < Q2Qc (1 # 10000000000))%Qc) by (injection E as <-; vm_compute; reflexivity).
  split; auto. split; auto. split; auto. assert (F : feasible (meaning p) [1; 0]%Qc).
  { apply sfeas_iff; [now apply reachable_wf|injection E as <-; reflexivity|]. injection E as <-. split; [reflexivity|]. split; [intros [|i] Hi; [apply Qc_is_canon; reflexivity|cbn in Hi; lia]|]. intros [|[|j]] Hj; [discriminate|discriminate|unfold cols in Hj; cbn in Hj; lia]. }
  split; auto. refine (C81_unbounded_whole (pow2 (-50)) p _ _ _ 49 Hr HI HM _ H1 H2 R _ F). lia.
Qed.
(** maximise x1 subject to 49 x1 + 49 x2 = 49, in double arithmetic *)
Definition forty_nine' : res lp := linear_program (mat 2 [[49; 49]]%Z) (vec [49]%Z) (vec [1; 0]%Z) 0%Qc "max" None None None.
Example C81_example : exists p, forty_nine' = Ok p /\ reachable p /\ whole_numbers p /\ minors_at_most 49 p /\
  (qz (Z.of_nat (length (lA p))) * pow2 (-50) <= Q2Qc (1 # 4))%Qc /\
  (qz 32 * pow2 (-50) * qz 49 * weight p * (1 + qz (Z.of_nat (length (lA p))) * qz 49) <= 1)%Qc /\
  let w := rnd (1 / qz 49) in let a := rnd (w * qz 49) in let v := rnd (1 / a) in
  a <> 1%Qc /\ r_simplex (pow2 (-50)) p [1]%Z (Some [rnd (v * a); 0]%Qc, Some [1]%Z, CVec [w]).
Proof.
  destruct forty_nine' as [p| |] eqn:E; try discriminate E. exists p. split; auto. split; [unfold forty_nine' in E; refine (r_new _ _ _ _ _ _ _ _ _ _ E); repeat constructor|]. injection E as <-.
  split. { split; [|split]; [intros r v [<-|[]] [<-|[<-|[]]]; eexists; reflexivity|intros v [<-|[]]; eexists; reflexivity|intros v [<-|[<-|[]]]; eexists; reflexivity]. }
  split. { intros [|j [|? ?]] L Hj; try discriminate L. specialize (Hj j (or_introl eq_refl)). cbn in Hj. destruct j as [|[|[|j]]]; [vm_compute; discriminate ..|lia]. }
  split; [vm_compute; discriminate|]. split; [vm_compute; discriminate|]. cbv zeta. split; [vm_compute; discriminate|].
  set (w := rnd (1 / qz 49)). set (a := rnd (w * qz 49)). set (v := rnd (1 / a)). set (q := mklp [[a; a]] [a] [rnd (1 - a); rnd (0 - a)]%Qc a "max" [] true [] []).
  split; [reflexivity|]. exists (Optimal [rnd (v * a); 0]%Qc [0] q). split.
  - apply r_last; [|exact Logic.I]. split; [reflexivity|]. split. { split; [reflexivity|]. split; [cbn; lia|]. intros i [<-|[]]. cbn. lia. }
    exists q, [rnd (v * a); 0]%Qc. split; [|split].
    + exists [[w]], [w]. split. { split; [reflexivity|]. split; [intros [|i] Hi; [reflexivity|cbn in Hi; lia]|]. intros [|i] [|j] Hi Hj; try (cbn in Hi, Hj; lia). split; close. }
      split. { split; [reflexivity|]. intros [|i] Hi; [close|cbn in Hi; lia]. }
      split. { split; [reflexivity|]. split; [intros [|i] Hi; [reflexivity|cbn in Hi; lia]|]. intros [|i] [|[|j]] Hi Hj; try (unfold cols in Hj; cbn in Hi, Hj; lia); close. }
      split. { split; [reflexivity|]. intros [|i] Hi; [close|cbn in Hi; lia]. }
      split. { split; [reflexivity|]. intros [|[|j]] Hj; [close|close|cbn in Hj; lia]. }
      split; [close|]. repeat split.
    + exists [[v]], [rnd (v * a)%Qc]. split. { split; [reflexivity|]. split; [intros [|i] Hi; [reflexivity|cbn in Hi; lia]|]. intros [|i] [|j] Hi Hj; try (cbn in Hi, Hj; lia). split; close. }
      split; [|reflexivity]. split; [reflexivity|]. intros [|i] Hi; [close|cbn in Hi; lia].
    + cbv zeta. split; [reflexivity|]. split; [reflexivity|]. split; [reflexivity|]. split; vm_compute; reflexivity.
  - exists [[w]], [w]. split. { split; [reflexivity|]. split; [intros [|i] Hi; [reflexivity|cbn in Hi; lia]|]. intros [|i] [|j] Hi Hj; try (cbn in Hi, Hj; lia). split; close. }
    split; [|reflexivity]. split; [reflexivity|]. intros [|i] Hi; [close|cbn in Hi; lia].
Qed.
(** ... and to the exact run of [small_program] *)
Example C81_exact_example : exists p r, small_program = Ok p /\ reachable p /\ snd (simplex 16 p [3; 4]%Z) = Ok r /\ r_simplex (pow2 (-50)) p [3; 4]%Z r.
Proof.
  destruct small_program as [p| |] eqn:E; try discriminate E. pose proof (small_program_reachable p E) as Hr. destruct (snd (simplex 16 p [3; 4]%Z)) as [r| |] eqn:Er; [|injection E as <-; vm_compute in Er; discriminate Er ..].
  exists p, r. split; auto. split; auto. split; auto. apply (C81_exact _ 16); auto. vm_compute. discriminate.
Qed.
