(** Proofs about branch and bound with rounding errors. *)
From Coq Require Import String List Bool Arith ZArith QArith Qcanon Qround Lia Sorted.
From Verif Require Import Py QcTac QSum QInt ComparatorModel ComparatorSpec ComparatorProofs MatModel DetTheory DetExpand MatTheory LinearModel LinearSpec LinearProofs LinearInv DualProofs SefProofs BasisProofs SimplexProofs SmallProofs TwoPhaseProofs LinearProps SimplexProps TwoPhaseProps MinorProofs IntegerModel IntegerSpec IntegerProofs IntegerSmall RoundedModel RoundedSpec RoundedProofs RoundedSolveModel RoundedSolveSpec RoundedRunModel RoundedRunSpec RoundedRunProps RoundedBranchModel RoundedBranchSpec.
Import ListNotations.
Open Scope nat_scope.
Open Scope string_scope.
Open Scope list_scope.

(** ** numbers next to a small fraction *)
Lemma fraction_gap v z : small_fraction v -> ~ isint v -> (Q2Qc (1 # 10000) <= qabs (v - qz z))%Qc.
Proof.
  intros (D & ID & D0 & DB & IV) NI. destruct (Qclt_le_dec (qabs (v - qz z)) (Q2Qc (1 # 10000))) as [C|C]; auto. exfalso.
  assert (E : isint (D * (v - qz z))%Qc). { replace (D * (v - qz z))%Qc with (D * v - D * qz z)%Qc by ring. apply isint_sub; auto. apply isint_mul; auto. now exists z. }
  assert (N : (D * (v - qz z) <> 0)%Qc). { intros K. apply Qcmult_integral in K. destruct K as [K|K]; auto. apply NI. exists z. replace v with (v - qz z + qz z)%Qc by ring. rewrite K. apply Qcplus_0_l. }
  assert (A : (qabs (D * (v - qz z)) < 1)%Qc).
  { rewrite qabs_mul. apply Qcle_lt_trans with (qz 10000 * qabs (v - qz z))%Qc; [apply qmul_le_r; auto; apply QcTac.qabs_nonneg|]. set (a := qabs (v - qz z)) in *. clear - C. clearbody a. unfold qz, inject_Z. qclra. }
  set (w := (D * (v - qz z))%Qc) in *. destruct (int_nonzero w E N) as [K|K]; unfold qabs in A; destruct (qlt_spec w 0) as [W|W]; clear - K A W; qclra.
Qed.
Definition half_tol : Qc := Q2Qc (1 # 20000000000).
Lemma near_cases v v0 : small_fraction v0 -> (qabs (v - v0) <= half_tol)%Qc ->
  (isint v0 /\ near_integer v) \/ (~ near_integer v0 /\ ~ near_integer v /\ floor v = floor v0 /\ ceil v = ceil v0).
Proof.
  intros HS HC. apply SmallProofs.qabs_le in HC. destruct HC as (C1 & C2). unfold half_tol in *.
  assert (G : isint v0 \/ ~ isint v0). { destruct (Qc_eq_dec v0 (qz (floor v0))) as [E|E]; [left; now exists (floor v0)|right]. intros (z & ->). apply E. f_equal. unfold floor. change (qz z) with (Q2Qc (inject_Z z)). rewrite this_Q2Qc. symmetry. apply Qfloor_Z. }
  destruct G as [G|G].
  - left. split; auto. destruct G as (z & ->). exists z. change (Q2Qc (inject_Z z)) with (qz z). set (a := qz z) in *. clear - C1 C2. clearbody a. unfold strictly_within, eps10. split; qclra.
  - right. pose proof (fun z => fraction_gap v0 z HS G) as GP.
    assert (N0 : ~ near_integer v0). { intros K. apply G. now apply small_fraction_near. }
    split; auto.
    assert (GP' : forall z, (v0 <= qz z - Q2Qc (1 # 10000) \/ qz z + Q2Qc (1 # 10000) <= v0)%Qc).
    { intros z. specialize (GP z). set (a := qz z) in *. clearbody a. clear - GP. unfold qabs in GP. destruct (qlt_spec (v0 - a) 0); [left|right]; qclra. }
    assert (FL : forall w z, (qz z <= w)%Qc -> (w < qz (z + 1))%Qc -> floor w = z).
    { intros w z W1 W2. pose proof (floor_int w z W1) as L1. pose proof (floor_le w) as L2. assert (L3 : (qz (floor w) < qz (z + 1))%Qc) by (eapply Qcle_lt_trans; eauto). apply (proj1 (qz_lt _ _)) in L3. lia. }
    assert (CL : forall w z, (w <= qz z)%Qc -> (qz (z - 1) < w)%Qc -> ceil w = z).
    { intros w z W1 W2. pose proof (ceil_int w z W1) as L1. pose proof (ceil_ge w) as L2. assert (L3 : (qz (z - 1) < qz (ceil w))%Qc) by (eapply Qclt_le_trans; eauto). apply (proj1 (qz_lt _ _)) in L3. lia. }
    split; [|split].
    + intros (z & K1 & K2). change (Q2Qc (inject_Z z)) with (qz z) in *. specialize (GP' z). set (a := qz z) in *. clearbody a. clear - C1 C2 K1 K2 GP'. unfold eps10 in *. destruct GP' as [D|D]; qclra.
    + apply FL.
      * pose proof (floor_le v0) as L. destruct (GP' (floor v0)) as [D|D]; set (a := qz (floor v0)) in *; clearbody a; clear - C1 C2 L D; qclra.
      * assert (L : (v0 < qz (floor v0 + 1))%Qc). { destruct (Qclt_le_dec v0 (qz (floor v0 + 1))) as [L|L]; auto. apply floor_int in L. lia. }
        destruct (GP' (floor v0 + 1)%Z) as [D|D]; set (a := qz (floor v0 + 1)) in *; clearbody a; clear - C1 C2 L D; qclra.
    + apply CL.
      * pose proof (ceil_ge v0) as L. destruct (GP' (ceil v0)) as [D|D]; set (a := qz (ceil v0)) in *; clearbody a; clear - C1 C2 L D; qclra.
      * assert (L : (qz (ceil v0 - 1) < v0)%Qc). { destruct (Qclt_le_dec (qz (ceil v0 - 1)) v0) as [L|L]; auto. apply ceil_int in L. lia. }
        destruct (GP' (ceil v0 - 1)%Z) as [D|D]; set (a := qz (ceil v0 - 1)) in *; clearbody a; clear - C1 C2 L D; qclra.
Qed.

(** ** one relaxation *)
(** a vector with a common denominator of at most 10000 *)
Definition small_vector (x : list Qc) : Prop := exists D, isint D /\ D <> 0%Qc /\ (qabs D <= qz 10000)%Qc /\ forall j, isint (D * nth j x 0)%Qc.
Lemma vector_fraction x j : small_vector x -> small_fraction (nth j x 0%Qc).
Proof. intros (D & D1 & D2 & D3 & D4). exists D. auto. Qed.
Lemma simplex_vector fuel p Bz x Bo cert : wf p -> small_data p -> snd (simplex fuel p Bz) = Ok (Some x, Bo, cert) -> length x = cols p /\ small_vector x.
Proof.
  intros H HS E. destruct (exact_facts fuel p Bz x Bo cert H HS E) as (Hs & B & q & y & -> & -> & HI & HBm & Lx & HX & _). split; auto.
  pose proof (wf_negate p H) as Hn. pose proof HS as (d & e & K0 & L0 & HF). pose proof (fractions_neg p d e K0 L0 H HF) as HSn. destruct HI as [HB Eq HC]. assert (HX' : bsol (negate_rows p) B (at_ x)) by (split; [apply solves_neg; auto; apply HX|apply HX]).
  pose proof (minor_nonzero _ _ Hn HB) as D0. set (np := negate_rows p) in *. pose proof (product_pos d (sf_pos _ _ _ HSn)) as HP.
  assert (P0 : qz (product d) <> 0%Qc). { intros K. change 0%Qc with (qz 0) in K. apply qz_inj in K. lia. }
  assert (BLe : forall i, In i B -> i <= cols np). { intros i Hi. apply (bs_lt _ _ HB) in Hi. lia. } pose proof (bs_len _ _ HB) as LB.
  assert (ID : isint (scaled_minor np d B)) by (apply (minor_int np d e); auto; apply HSn). assert (DN : scaled_minor np d B <> 0%Qc) by (unfold scaled_minor; intros K; apply Qcmult_integral in K; tauto).
  assert (AE : forall X, (qz (product d) * qabs (minor np B) <= X)%Qc -> (qabs (scaled_minor np d B) <= X)%Qc).
  { intros X K. unfold scaled_minor. rewrite qabs_mul. replace (qabs (qz (product d))) with (qz (product d)); [exact K|].
    unfold qabs. destruct (qlt_spec (qz (product d)) 0) as [K'|]; [|reflexivity]. exfalso. assert (Pp : (0 < qz (product d))%Qc) by (change 0%Qc with (qz 0); now apply qz_lt). clear - K' Pp. qclra. }
  exists (scaled_minor np d B). split; [exact ID|]. split; [exact DN|]. split.
  - pose proof (AE _ (sf_minor _ _ _ _ _ HSn B LB (bs_lt _ _ HB))) as BK. pose proof (AE _ (sf_minor_b _ _ _ _ _ HSn B LB BLe)) as BL.
    assert (D1 : (1 <= qabs (scaled_minor np d B))%Qc) by (destruct (int_nonzero _ ID DN) as [K|K]; unfold qabs; destruct (qlt_spec (scaled_minor np d B) 0); qclra).
    assert (K1 : (1 <= K0)%Z) by (apply qz_le; change (qz 1) with 1%Qc; clear - D1 BK; qclra). assert (L1 : (1 <= L0)%Z) by (apply qz_le; change (qz 1) with 1%Qc; clear - D1 BL; qclra).
    destruct (sf_apart _ _ _ _ _ HSn) as (_ & _ & AP). assert (K2 : (K0 <= 10000)%Z) by (change (10 ^ 8)%Z with 100000000%Z in AP; nia). apply qz_le in K2. clear - BK K2. qclra.
  - intros j. destruct (Nat.lt_ge_cases j (cols p)) as [Hj|Hj]; [|rewrite nth_overflow by lia; rewrite Qcmult_0_r; apply isint_0]. change (nth j x 0%Qc) with (at_ x j). destruct (in_dec Nat.eq_dec j B) as [HIn|HIn].
    + apply (In_bk np) in HIn; auto. destruct HIn as (k & Hk & <-). rewrite (bsol_at _ _ _ HB HC _ HX' k Hk). rewrite (canonical_b _ _ _ Hn HB Eq k Hk).
      replace (scaled_minor np d B * (minor np (with_column B k (cols np)) / minor np B))%Qc with (scaled_minor np d (with_column B k (cols np))) by (unfold scaled_minor; field; auto).
      apply (minor_int np d e); auto; [apply HSn|now rewrite length_with_column|]. intros i Hi. unfold with_column in Hi. apply in_map_iff in Hi. destruct Hi as (l & <- & Hl). apply in_seq in Hl.
      destruct (Nat.eqb l k); auto. apply BLe. apply nth_In. lia.
    + destruct HX as (_ & HX). rewrite HX by auto. rewrite Qcmult_0_r. apply isint_0.
Qed.
Lemma solve_vector fuel p p' x : reachable p -> nonnegative_variables p -> moderate_data (fst (to_sef p)) -> solve fuel p = (p', Ok (Some x)) -> small_vector x.
Proof.
  intros Hr (F & N) HE E. pose proof (reachable_wf p Hr) as H. assert (Hrs : reachable (fst (to_sef p))) by now constructor. apply solve_some in E; auto. destruct E as (Bz & xs & Bo & cert & E & ->).
  destruct (simplex_vector fuel _ Bz xs Bo cert (reachable_wf _ Hrs)) as (Lx & K); auto; [apply moderate_small; auto; now apply reachable_wf|].
  assert (F' : lfree p = []) by (unfold free_variables, to_math_indexing in F; destruct (lfree p); [auto|discriminate F]).
  assert (N' : lneg p = []) by (unfold negative_variables, to_math_indexing in N; destruct (lneg p); [auto|discriminate N]).
  unfold down_if. destruct (lsef p) eqn:Hs; [exact K|].
  destruct (split_point p H Hs xs Lx) as (x1 & x2 & -> & L1 & L2). rewrite (down_split p H) by auto. rewrite F', N'. replace (collapse 0 [] x1) with x1 by (destruct x1; reflexivity). cbn [fold_left].
  destruct K as (D & D1 & D2 & D3 & D4). exists D. split; auto. split; auto. split; auto. intros j. destruct (Nat.lt_ge_cases j (length x1)) as [Hj|Hj]; [|rewrite nth_overflow by lia; rewrite Qcmult_0_r; apply isint_0]. specialize (D4 j). now rewrite app_nth1 in D4 by lia.
Qed.
(** the costs of the standard form *)
Lemma sef_costs p : wf p -> nonnegative_variables p -> exists n c, lc (fst (to_sef p)) = c ++ repeat 0%Qc n /\ (c = lc p \/ c = vopp (lc p)).
Proof.
  intros H (F & N). destruct (lsef p) eqn:Hs; [exists 0, (lc p); rewrite C29_already_sef by auto; cbn [fst repeat]; now rewrite app_nil_r; auto|].
  assert (F' : lfree p = []) by (unfold free_variables, to_math_indexing in F; destruct (lfree p); [auto|discriminate F]).
  assert (N' : lneg p = []) by (unfold negative_variables, to_math_indexing in N; destruct (lneg p); [auto|discriminate N]).
  destruct (to_sef_parts p H Hs) as (_ & _ & _ & _ & _ & _ & _ & _ & _ & P & _). rewrite F', N' in P. cbn [fold_left] in P. rewrite P. eexists. eexists. split; [reflexivity|].
  destruct (String.eqb (lobj p) "min"); [right|left]; [destruct (vopp (lc p))|destruct (lc p)]; reflexivity.
Qed.
Lemma abs_sum_vopp c : abs_sum (vopp c) = abs_sum c.
Proof. induction c as [|a c IH]; [reflexivity|]. change (qabs (- a) + abs_sum (vopp c) = qabs a + abs_sum c)%Qc. rewrite IH. f_equal. unfold qabs. destruct (qlt_spec (- a) 0) as [K|K], (qlt_spec a 0) as [L|L]; qclra. Qed.
Lemma costs_weight p : wf p -> nonnegative_variables p -> (abs_sum (lc p) <= weight (fst (to_sef p)))%Qc.
Proof.
  intros H Hn. destruct (sef_costs p H Hn) as (n & c' & E & Ec). assert (A : abs_sum c' = abs_sum (lc p)) by (destruct Ec as [-> | ->]; [reflexivity|apply abs_sum_vopp]). unfold weight. rewrite E, abs_sum_app, A. pose proof (abs_sum_nonneg (repeat 0%Qc n)). pose proof (abs_sum_nonneg (concat (lA (fst (to_sef p))))). pose proof (abs_sum_nonneg (lb (fst (to_sef p)))).
  set (a := abs_sum (repeat 0%Qc n)) in *. set (b := abs_sum (concat (lA (fst (to_sef p))))) in *. set (c := abs_sum (lb (fst (to_sef p)))) in *. set (d := abs_sum (lc p)) in *. clearbody a b c d. clear - H0 H1 H2. qclra.
Qed.
Lemma inner_close t c x y : length x = length y -> length x = length c -> (forall j, j < length x -> (qabs (nth j x 0 - nth j y 0) <= t)%Qc) -> (0 <= t)%Qc -> (qabs (inner c x - inner c y) <= t * abs_sum c)%Qc.
Proof.
  intros L1 L2 C Ht. rewrite !(inner_Sum (length c)) by auto. rewrite (abs_sum_N1 c (length c)) by auto.
  replace (Sum (length c) (fun i => at_ c i * at_ x i) - Sum (length c) (fun i => at_ c i * at_ y i))%Qc with (Sum (length c) (fun i => at_ c i * (at_ x i - at_ y i)))%Qc.
  - apply (Sum_err_r (length c) (fun i => at_ x i - at_ y i)%Qc); auto. intros i Hi. apply C. lia.
  - rewrite <- Sum_sub. apply Sum_ext. intros i Hi. ring.
Qed.
Definition two_tol : Qc := Q2Qc (1 # 5000000000).
Lemma error_sizes e K w m c : (0 <= e)%Qc -> (1 <= K)%Qc -> (1 <= m)%Qc -> (1 <= w)%Qc -> (0 <= c)%Qc -> (c <= w)%Qc -> (qz 16 * e * (w + qz 2 * m) * (1 + m * K) * K < Q2Qc (1 # 10000000000))%Qc ->
  (qz 16 * e * (1 + m * K) + e <= half_tol)%Qc /\ (e + (qz 16 * e * (1 + m * K) + e) * c <= two_tol)%Qc.
Proof.
  intros He HK Hm Hw Hc Hcw T. assert (M : (1 <= m * K)%Qc). { apply Qcle_trans with (1 * K)%Qc; [now rewrite Qcmult_1_l|]. apply qmul_le_r; auto. clear - HK. qclra. }
  set (g := (e * (1 + m * K))%Qc). assert (G1 : (e + e <= g)%Qc). { unfold g. replace (e + e)%Qc with ((1 + 1) * e)%Qc by ring. rewrite (Qcmult_comm e). apply qmul_le_r; auto. set (a := (m * K)%Qc) in *. clearbody a. clear - M. qclra. }
  assert (G0 : (0 <= g)%Qc) by (clear - G1 He; qclra).
  assert (G2 : (qz 16 * (g * (w + qz 2 * m)) < Q2Qc (1 # 10000000000))%Qc).
  { apply Qcle_lt_trans with (2 := T). replace (qz 16 * e * (w + qz 2 * m) * (1 + m * K) * K)%Qc with (K * (qz 16 * (g * (w + qz 2 * m))))%Qc by (unfold g; ring). rewrite <- (Qcmult_1_l (qz 16 * (g * (w + qz 2 * m)))) at 1. apply qmul_le_r; auto.
    apply qmul_nonneg; [discriminate|]. apply qmul_nonneg; auto. clear - Hw Hm. unfold qz, inject_Z. qclra. }
  assert (G3 : (g * qz 3 <= g * (w + qz 2 * m))%Qc). { rewrite !(Qcmult_comm g). apply qmul_le_r; auto. clear - Hw Hm. unfold qz, inject_Z. qclra. }
  assert (G4 : (g * c <= g * (w + qz 2 * m))%Qc). { rewrite !(Qcmult_comm g). apply qmul_le_r; auto. clear - Hw Hm Hcw. unfold qz, inject_Z. qclra. }
  assert (G5 : (e * c + e * c <= g * c)%Qc). { replace (e * c + e * c)%Qc with ((e + e) * c)%Qc by ring. apply qmul_le_r; auto. }
  replace (qz 16 * e * (1 + m * K))%Qc with (qz 16 * g)%Qc by (unfold g; ring).
  set (h := (g * (w + qz 2 * m))%Qc) in *. clearbody h. unfold half_tol, two_tol, qz, inject_Z in *. split.
  - clear - G2 G3 G1 He. qclra.
  - replace (e + (Q2Qc (16 # 1) * g + e) * c)%Qc with (e + Q2Qc (16 # 1) * (g * c) + e * c)%Qc by ring. set (u := (g * c)%Qc) in *. set (v := (e * c)%Qc) in *. clearbody u v. clear - G2 G3 G4 G5 G1 He. qclra.
Qed.
Lemma relaxation_run e q : reachable q -> nonnegative_variables q -> solvable_with e q ->
  ~ solve_hangs e q /\ forall o, run_solve e q o ->
    (exists x x0, o = Ok (Some x) /\ optimal (meaning q) x0 /\ length x = cols q /\ close_by half_tol x x0 /\ small_vector x0 /\
       forall v, within e v (dot (lc q) x + lz q)%Qc -> (qabs (v - value (meaning q) x0) <= two_tol)%Qc) \/
    (o = Ok None /\ (infeasible (meaning q) \/ unbounded (meaning q))).
Proof.
  intros Hr Hn (K & Hm & HI & HS & HG). pose proof (reachable_wf q Hr) as H. assert (Hrs : reachable (fst (to_sef q))) by now constructor. pose proof (reachable_wf _ Hrs) as Hw. pose proof (steady_moderate e K _ Hw HS) as HES.
  destruct (C83_solve_partial e K q _ Hr Hm HS (Nat.le_refl _) HG) as (G1 & G2). split; auto. intros o R. specialize (G2 o R). cbv zeta in G2.
  assert (HG' : lsef q = true \/ is_basis (fst (to_sef q)) (first_guess q) <> Ok true \/ feasible_basis (fst (to_sef q)) (first_guess q)).
  { destruct (lsef q) eqn:Hs; [auto|]. right. destruct (to_sef_parts q H Hs) as (_ & _ & _ & _ & _ & _ & _ & _ & P9 & _). destruct (Nat.eq_dec (length (lc (fst (to_sef q)))) (2 * length (lA q))) as [E|E].
    - destruct HG as [HG|[HG|(H1 & H2)]]; [discriminate|contradiction|]. right. now apply slack_guess.
    - left. intros EB. apply is_basis_true in EB. destruct EB as (L & _). unfold first_guess in L. rewrite map_length, seq_length in L. unfold rows in L. rewrite P9 in L. unfold rows in L, P9. apply E. unfold cols in L. lia. }
  assert (EL : length (lA (fst (to_sef q))) = length (lA q)). { destruct (lsef q) eqn:Hs; [now rewrite C29_already_sef by auto|]. now destruct (to_sef_parts q H Hs) as (_ & _ & _ & _ & _ & _ & _ & _ & P & _). }
  destruct (solve_decides_sef q _ Hr Hm HI HES (Nat.le_refl _) HG') as [(x0 & E & HO)|(E & Hv)]; rewrite E in G2; cbn [snd] in G2; destruct o as [[x|]| |]; cbn [same_answer] in G2; try contradiction; [left|right; auto].
  exists x, x0. pose proof (solve_vector _ q q x0 Hr Hn HES E) as SF. assert (L0 : length x0 = cols q) by apply HO. pose proof G2 as (L & C). assert (Lx : length x = cols q) by lia.
  pose proof HS as [_ _ HK He T]. cbv zeta in T. rewrite EL in T. pose proof (weight_ge _ Hw) as (W1 & _). pose proof (costs_weight q H Hn) as WC.
  assert (M1 : (1 <= qz (Z.of_nat (length (lA q))))%Qc) by (change 1%Qc with (qz 1); apply qz_le; lia). assert (K1 : (1 <= qz K)%Qc) by (change 1%Qc with (qz 1); apply qz_le; lia).
  set (m := qz (Z.of_nat (length (lA q)))) in *. destruct (error_sizes e (qz K) (weight (fst (to_sef q))) m (abs_sum (lc q)) He K1 M1 W1 (abs_sum_nonneg _) WC T) as (S1 & S2).
  set (t := (qz 16 * e * (1 + m * qz K) + e)%Qc) in *. split; auto. split; auto. split; auto. split; [|split; [exact SF|]].
  - split; auto. intros j Hj. eapply Qcle_trans; [now apply C|exact S1].
  - intros v Hv. assert (T0 : (0 <= t)%Qc). { unfold cols in L0. destruct (Nat.eq_dec (length x) 0) as [Z|Z].
      - unfold t. assert (P : (0 <= e * (m * qz K))%Qc) by (apply qmul_nonneg; auto; apply qmul_nonneg; [clear - M1|clear - K1]; qclra). replace (qz 16 * e * (1 + m * qz K) + e)%Qc with (qz 16 * (e + e * (m * qz K)) + e)%Qc by ring. set (a := (e * (m * qz K))%Qc) in *. clearbody a. unfold qz, inject_Z. clear - P He. qclra.
      - eapply Qcle_trans; [apply (QcTac.qabs_nonneg (nth 0 x 0 - nth 0 x0 0)%Qc)|]. apply C. lia. }
    assert (IC : (qabs (inner (lc q) x - inner (lc q) x0) <= t * abs_sum (lc q))%Qc) by (apply inner_close; auto).
    unfold within in Hv. unfold value. cbn [meaning costs constant]. rewrite <- inner_dot in Hv. apply SmallProofs.qabs_le in Hv, IC. apply SmallProofs.qabs_le.
    set (a := inner (lc q) x) in *. set (b := inner (lc q) x0) in *. set (u := (t * abs_sum (lc q))%Qc) in *. destruct Hv as (V1 & V2), IC as (I1 & I2). clearbody a b u. clear - V1 V2 I1 I2 S2. split; qclra.
Qed.

(** ** the first fractional number *)
Lemma first_fraction_close ints x x0 : length x = length x0 -> (forall j, j < length x -> (qabs (nth j x 0 - nth j x0 0) <= half_tol)%Qc) -> small_vector x0 ->
  match first_fraction ints 0 x with
  | Some i => i < length x /\ required ints i /\ ~ near_integer (nth i x0 0%Qc) /\ floor (nth i x 0%Qc) = floor (nth i x0 0%Qc) /\ ceil (nth i x 0%Qc) = ceil (nth i x0 0%Qc)
  | None => integral_point ints x0
  end.
Proof.
  intros L C S. pose proof (first_fraction_spec ints x 0) as FF. destruct (first_fraction ints 0 x) as [i|].
  - destruct FF as (_ & F2 & F3 & F4). rewrite Nat.sub_0_r in *. split; auto. split; auto. destruct (near_cases _ _ (vector_fraction x0 i S) (C i F2)) as [(_ & K)|(K1 & _ & K2 & K3)]; [contradiction|auto].
  - intros i Hi Hq. destruct (near_cases (nth i x 0%Qc) (nth i x0 0%Qc)) as [(K & _)|(_ & K & _)]; [now apply vector_fraction|apply C; lia|exact K|]. destruct K. apply FF; auto. lia.
Qed.
Lemma relaxation_trans ints p q r : relaxation ints p q -> relaxation ints q r -> relaxation ints p r.
Proof. intros H1 H2. induction H2; [auto|eapply rx_lower; eauto|eapply rx_higher; eauto]. Qed.

(** ** what a run returns *)
Definition run_right (ints : option (list Z)) (q : lp) (o : res (option (list Qc * Qc))) : Prop :=
  match o with
  | Ok (Some (x, v)) => exists x0, feasible (meaning q) x0 /\ integral_point ints x0 /\ close_by half_tol x x0 /\ (qabs (v - value (meaning q) x0) <= two_tol)%Qc /\ small_vector x0 /\
      (lobj q = "max" -> forall y, feasible (meaning q) y -> integral_point ints y -> exists w, small_vector w /\ (value (meaning q) y <= value (meaning q) w)%Qc /\ (value (meaning q) w <= v + two_tol)%Qc)
  | Ok None => (forall y, feasible (meaning q) y -> ~ integral_point ints y) \/ unbounded (meaning q)
  | _ => False
  end.
(** a split: the two branches cover the integral points, and neither is unbounded *)
Lemma split_facts e ints q x i : reachable q -> nonnegative_variables q -> solvable_with e q -> splits e ints q x i ->
  exists x0, optimal (meaning q) x0 /\ i < cols q /\ i < length x0 /\ required ints i /\ ~ near_integer (nth i x0 0%Qc) /\ floor (nth i x 0%Qc) = floor (nth i x0 0%Qc) /\ ceil (nth i x 0%Qc) = ceil (nth i x0 0%Qc).
Proof.
  intros Hr Hn HS (R & Lx & FF). destruct (relaxation_run e q Hr Hn HS) as (_ & G). destruct (G _ R) as [(x1 & x0 & E & O & _ & (L & C) & S & _)|(E & _)]; [|discriminate E]. injection E as <-.
  pose proof (first_fraction_close ints x x0 L C) as K. rewrite FF in K. destruct (K S) as (K1 & K2 & K3 & K4 & K5). exists x0. split; auto. split; [lia|]. split; [lia|]. auto.
Qed.
Lemma run_branch_right e ints : forall q o, run_branch e ints q o -> reachable q -> nonnegative_variables q ->
  (forall q', relaxation ints q q' -> solvable_with e q') -> run_right ints q o.
Proof.
  intros q o R. induction R as [q y R|q R|q x R L|q x v R L V FF|q x i y R E|q x i ql y R El Rl IHl|q x i ql rl y R El Rl IHl Eh|q x i ql rl qh y R El Rl IHl Eh Rh IHh|q x i ql rl qh rh R El Rl IHl Eh Rh IHh];
    intros Hr Hn HV; pose proof (reachable_wf q Hr) as H; pose proof (HV q (rx_root _ _)) as HQ; destruct (relaxation_run e q Hr Hn HQ) as (_ & G).
  - destruct (G _ R) as [(x1 & x0 & E & _)|(E & _)]; discriminate E.
  - destruct (G _ R) as [(x1 & x0 & E & _)|(_ & [K|K])]; [discriminate E|left; intros y Hy; destruct (K y Hy)|right; exact K].
  - destruct (G _ R) as [(x1 & x0 & E & _ & L' & _)|(E & _)]; [|discriminate E]. injection E as <-. contradiction.
  - destruct (G _ R) as [(x1 & x0 & E & O & _ & (Lc & C) & S & VV)|(E & _)]; [|discriminate E]. injection E as <-. cbn [run_right]. exists x0. pose proof (first_fraction_close ints x x0 Lc C) as K. rewrite FF in K. specialize (K S). specialize (VV v V).
    destruct O as (Fx & Ox). split; auto. split; auto. split; [split; auto|]. split; auto. split; auto. intros Ho y Hy _. specialize (Ox y Hy). unfold as_good in Ox. cbn [maximise meaning] in Ox. rewrite Ho in Ox. exists x0. split; auto. split; [exact Ox|]. apply SmallProofs.qabs_le in VV.
    set (a := value (meaning q) x0) in *. destruct VV as (V1 & V2). clearbody a. clear - V1 V2. qclra.
  - destruct (split_facts e ints q x i Hr Hn HQ R) as (x0 & _ & Hi & _). destruct (child_total q i "<=" (floor (nth i x 0%Qc)) H Hi (or_introl eq_refl)) as (ql & El). congruence.
  - destruct (split_facts e ints q x i Hr Hn HQ R) as (x0 & O & Hi & Hi0 & Q & F & F1 & F2). destruct (child_spec q i "<=" _ ql H Hi (or_introl eq_refl) El) as (Rr & _ & _ & _ & _ & _ & _ & L3 & _ & Nl & _).
    assert (IH : run_right ints ql (Raise y)); [|exact IH]. apply IHl; auto. intros q' Hq'. apply HV. refine (relaxation_trans _ _ _ _ _ Hq'). eapply rx_lower; [apply rx_root|exact O|exact Hi0|exact Q|exact F|now rewrite <- F1].
  - destruct (split_facts e ints q x i Hr Hn HQ R) as (x0 & _ & Hi & _). destruct (child_total q i ">=" (ceil (nth i x 0%Qc)) H Hi (or_intror eq_refl)) as (qh & Eh'). congruence.
  - destruct (split_facts e ints q x i Hr Hn HQ R) as (x0 & O & Hi & Hi0 & Q & F & F1 & F2). destruct (child_spec q i ">=" _ qh H Hi (or_intror eq_refl) Eh) as (Rr & _ & _ & _ & _ & _ & _ & L3 & _ & Nl & _).
    assert (IH : run_right ints qh (Raise y)); [|exact IH]. apply IHh; auto. intros q' Hq'. apply HV. refine (relaxation_trans _ _ _ _ _ Hq'). eapply rx_higher; [apply rx_root|exact O|exact Hi0|exact Q|exact F|now rewrite <- F2].
  - destruct (split_facts e ints q x i Hr Hn HQ R) as (x0 & (Fx & Ox) & Hi & Hi0 & F3 & F4 & F1 & F2).
    destruct (child_spec q i "<=" _ ql H Hi (or_introl eq_refl) El) as (Rrl & Cl & _ & _ & _ & L1 & L2 & L3 & _ & Nl & Fl).
    destruct (child_spec q i ">=" _ qh H Hi (or_intror eq_refl) Eh) as (Rrh & Ch & _ & _ & _ & H1 & H2 & H3 & _ & Nh & Fh).
    assert (Vl : relaxation ints q ql) by (eapply rx_lower; [apply rx_root|split; [exact Fx|exact Ox]|exact Hi0|exact F3|exact F4|now rewrite <- F1]).
    assert (Vh : relaxation ints q qh) by (eapply rx_higher; [apply rx_root|split; [exact Fx|exact Ox]|exact Hi0|exact F3|exact F4|now rewrite <- F2]).
    assert (Il : run_right ints ql (Ok rl)) by (apply IHl; auto; intros q' Hq'; apply HV; exact (relaxation_trans _ _ _ _ Vl Hq')).
    assert (Ih : run_right ints qh (Ok rh)) by (apply IHh; auto; intros q' Hq'; apply HV; exact (relaxation_trans _ _ _ _ Vh Hq')).
    assert (Gl : forall y, value (meaning ql) y = value (meaning q) y) by (intros y; unfold value; cbn [meaning costs constant]; now rewrite L1, L2).
    assert (Gh : forall y, value (meaning qh) y = value (meaning q) y) by (intros y; unfold value; cbn [meaning costs constant]; now rewrite H1, H2).
    assert (Sl : forall y, feasible (meaning ql) y -> feasible (meaning q) y) by (intros y Hy; apply Fl in Hy; apply nonneg_feasible; tauto).
    assert (Sh : forall y, feasible (meaning qh) y -> feasible (meaning q) y) by (intros y Hy; apply Fh in Hy; apply nonneg_feasible; tauto).
    assert (Sp : forall y, feasible (meaning q) y -> integral_point ints y -> feasible (meaning ql) y \/ feasible (meaning qh) y).
    { intros y Hy HI. apply nonneg_feasible in Hy; auto. destruct Hy as (Y1 & Y2 & Y3). destruct (HI i ltac:(lia) F3) as (k & Ek). destruct (split_int (nth i x0 0%Qc) k) as [K|K].
      - intros K. apply F4. now apply isint_near.
      - left. apply Fl. split; auto. split; auto. split; auto. cbn. rewrite Ek, F1. exact K.
      - right. apply Fh. split; auto. split; auto. split; auto. cbn. rewrite Ek, F2. exact K. }
    assert (Bd : forall qc, (forall y, feasible (meaning qc) y -> feasible (meaning q) y) -> (forall y, value (meaning qc) y = value (meaning q) y) -> lobj qc = lobj q -> ~ unbounded (meaning qc)).
    { intros qc S Gv O U. destruct (U (if String.eqb (lobj q) "max" then value (meaning q) x0 + 1 else value (meaning q) x0 - 1)%Qc) as (y & Fy & Gy). unfold as_good in Gy. cbn [maximise meaning] in Gy. rewrite O, Gv in Gy. specialize (Ox y (S y Fy)). unfold as_good in Ox. cbn [maximise meaning] in Ox.
      set (a := value (meaning q) x0) in *. set (b := value (meaning q) y) in *. clearbody a b. clear - Gy Ox. destruct (String.eqb (lobj q) "max"); qclra. }
    assert (Nl' : rl = None -> forall y, feasible (meaning ql) y -> ~ integral_point ints y) by (intros ->; destruct Il as [K|K]; auto; destruct (Bd ql Sl Gl L3 K)).
    assert (Nh' : rh = None -> forall y, feasible (meaning qh) y -> ~ integral_point ints y) by (intros ->; destruct Ih as [K|K]; auto; destruct (Bd qh Sh Gh H3 K)).
    set (good := fun (x : list Qc) v => exists x0, feasible (meaning q) x0 /\ integral_point ints x0 /\ close_by half_tol x x0 /\ (qabs (v - value (meaning q) x0) <= two_tol)%Qc /\ small_vector x0).
    set (beaten := fun v y => exists w, small_vector w /\ (value (meaning q) y <= value (meaning q) w)%Qc /\ (value (meaning q) w <= v + two_tol)%Qc).
    assert (Ul : forall xl vl, rl = Some (xl, vl) -> good xl vl /\ (lobj q = "max" -> forall y, feasible (meaning ql) y -> integral_point ints y -> beaten vl y)).
    { intros xl vl ->. destruct Il as (w & I1 & I2 & I3 & I4 & I6 & I5). split; [exists w; split; auto; split; auto; split; auto; split; auto; now rewrite <- Gl|]. intros Ho y Y1 Y2. destruct (I5 ltac:(congruence) y Y1 Y2) as (w' & J1 & J2 & J3). exists w'. rewrite <- !Gl. auto. }
    assert (Uh : forall xl vl, rh = Some (xl, vl) -> good xl vl /\ (lobj q = "max" -> forall y, feasible (meaning qh) y -> integral_point ints y -> beaten vl y)).
    { intros xl vl ->. destruct Ih as (w & I1 & I2 & I3 & I4 & I6 & I5). split; [exists w; split; auto; split; auto; split; auto; split; auto; now rewrite <- Gh|]. intros Ho y Y1 Y2. destruct (I5 ltac:(congruence) y Y1 Y2) as (w' & J1 & J2 & J3). exists w'. rewrite <- !Gh. auto. }
    assert (Fin : forall x v, good x v -> (lobj q = "max" -> forall y, feasible (meaning q) y -> integral_point ints y -> beaten v y) -> run_right ints q (Ok (Some (x, v)))).
    { intros x' v' (w & W1 & W2 & W3 & W4 & W6) W5. exists w. auto 8. }
    assert (Mono : forall v v' y, beaten v y -> (v <= v')%Qc -> beaten v' y).
    { intros v v' y (w & W1 & W2 & W3) L. exists w. split; auto. split; auto. clear - W3 L. qclra. }
    clear Il Ih IHl IHh. unfold better. destruct rl as [(xl & vl)|], rh as [(xh & vh)|]; cbn [snd].
    + destruct (Ul xl vl eq_refl) as (Ua & Ub). destruct (Uh xh vh eq_refl) as (W1 & W4). assert (GG : run_right ints q (Ok (if qlt vl vh then Some (xh, vh) else Some (xl, vl)))).
      { destruct (qlt_spec vl vh) as [K|K]; apply Fin; auto; intros Ho y Y1 Y2; destruct (Sp y Y1 Y2) as [S|S]; auto.
        * apply (Mono vl); auto. now apply Qclt_le_weak.
        * apply (Mono vh); auto. now apply Qcnot_lt_le. }
      destruct (String.eqb (lobj q) "max"); exact GG.
    + destruct (Ul xl vl eq_refl) as (Ua & Ub). apply Fin; auto. intros Ho y Y1 Y2. destruct (Sp y Y1 Y2) as [S|S]; auto. destruct (Nh' eq_refl y S Y2).
    + destruct (Uh xh vh eq_refl) as (Ua & Ub). apply Fin; auto. intros Ho y Y1 Y2. destruct (Sp y Y1 Y2) as [S|S]; auto. destruct (Nl' eq_refl y S Y2).
    + left. intros y Y1 Y2. destruct (Sp y Y1 Y2) as [S|S]; [destruct (Nl' eq_refl y S Y2)|destruct (Nh' eq_refl y S Y2)].
Qed.
(** ** runs end *)
Lemma branch_ends e ints : forall n q lo hi, reachable q -> nonnegative_variables q -> boxed ints q lo hi -> width (cols q) lo hi < n ->
  (forall q', relaxation ints q q' -> solvable_with e q') -> ~ branch_hangs e ints q.
Proof.
  induction n as [|n IH]; intros q lo hi Hr Hn HB Hw HV BH; [lia|]. pose proof (reachable_wf q Hr) as H. pose proof (HV q (rx_root _ _)) as HQ. inversion BH as [q' K|q' x i l R El K|q' x i l r h R El Rl Eh K]; subst q'.
  - destruct (relaxation_run e q Hr Hn HQ) as (G & _). contradiction.
  - destruct (split_facts e ints q x i Hr Hn HQ R) as (x0 & O & Hi & Hi0 & Q & F & F1 & F2). destruct (child_spec q i "<=" _ l H Hi (or_introl eq_refl) El) as (Rr & C & _ & _ & _ & _ & _ & L3 & _ & Nl & _).
    pose proof O as (Fx & _). destruct (branch_box ints q i x0 lo hi Hr Hn Fx Hi Q F HB) as (D & _). rewrite F1 in El. destruct (D l El) as (D1 & D2). refine (IH l _ _ Rr Nl D1 _ _ K); [rewrite C; lia|]. intros q' Hq'. apply HV. refine (relaxation_trans _ _ _ _ _ Hq'). eapply rx_lower; [apply rx_root|exact O|exact Hi0|exact Q|exact F|exact El].
  - destruct (split_facts e ints q x i Hr Hn HQ R) as (x0 & O & Hi & Hi0 & Q & F & F1 & F2). destruct (child_spec q i ">=" _ h H Hi (or_intror eq_refl) Eh) as (Rr & C & _ & _ & _ & _ & _ & L3 & _ & Nl & _).
    pose proof O as (Fx & _). destruct (branch_box ints q i x0 lo hi Hr Hn Fx Hi Q F HB) as (_ & D). rewrite F2 in Eh. destruct (D h Eh) as (D1 & D2). refine (IH h _ _ Rr Nl D1 _ _ K); [rewrite C; lia|]. intros q' Hq'. apply HV. refine (relaxation_trans _ _ _ _ _ Hq'). eapply rx_higher; [apply rx_root|exact O|exact Hi0|exact Q|exact F|exact Eh].
Qed.
