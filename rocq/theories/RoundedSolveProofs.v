(** two_phase_simplex and solve with rounding errors: proofs. *)
From Coq Require Import String List Bool Arith ZArith QArith Qcanon Lia Sorted.
From Verif Require Import Py QcTac QSum QInt ComparatorModel MatModel DetTheory MatTheory LinearModel LinearSpec LinearProofs SefProofs LinearInv DualProofs BasisProofs BlandProofs SimplexProofs SmallProofs LinearProps SimplexProps TwoPhaseProofs TwoPhaseProps RoundedModel RoundedSpec RoundedProofs RoundedExact RoundedProps RoundedSolveModel RoundedSolveSpec.
Import ListNotations.
Open Scope nat_scope.
Open Scope string_scope.
Open Scope list_scope.

(** ** the certificate *)
Lemma dual_close m e (M G X : nat -> nat -> Qc) (y y0 c : nat -> Qc) k t : (0 <= e)%Qc -> (0 <= t)%Qc ->
  (forall l j, l < m -> j < m -> within e (Sum m (fun i => M i l * X i j)%Qc) (delta l j)) ->
  (forall i, i < m -> within e (y i) (Sum m (fun j => X i j * c j)%Qc)) ->
  (forall l, l < m -> Sum m (fun i => y0 i * M i l)%Qc = c l) ->
  (forall i j, i < m -> j < m -> Sum m (fun l => M i l * G l j)%Qc = delta i j) ->
  (forall l j, l < m -> j < m -> (qabs (G l j) <= k)%Qc) ->
  (forall l, l < m -> (e * (N1 m c + N1 m (fun i => M i l)) <= t)%Qc) ->
  forall j, j < m -> (qabs (y j - y0 j) <= qz (Z.of_nat m) * k * t)%Qc.
Proof.
  intros He Ht HX Hy H0 HG HK Hb j Hj.
  set (d l := Sum m (fun i => (y i - y0 i) * M i l)%Qc).
  assert (E : (y j - y0 j = Sum m (fun l => d l * G l j))%Qc).
  { rewrite <- (Sum_delta_r m j (fun i => y i - y0 i)%Qc) by auto.
    rewrite (Sum_ext m (fun l => d l * G l j)%Qc (fun l => Sum m (fun i => (y i - y0 i) * M i l * G l j))%Qc) by (intros l Hl; unfold d; now rewrite Sum_scalr).
    rewrite Sum_swap. apply Sum_ext. intros i Hi. rewrite (Sum_ext m _ (fun l => (y i - y0 i) * (M i l * G l j))%Qc) by (intros; ring). rewrite Sum_scal, HG by auto. reflexivity. }
  assert (Dl : forall l, l < m -> (qabs (d l) <= t)%Qc).
  { intros l Hl. eapply Qcle_trans; [|apply (Hb l Hl)].
    assert (F : d l = (Sum m (fun r => (Sum m (fun i => M i l * X i r) - delta l r) * c r) + Sum m (fun i => M i l * (y i - Sum m (fun r => X i r * c r))))%Qc).
    { unfold d. rewrite (Sum_ext m (fun i => (y i - y0 i) * M i l)%Qc (fun i => y i * M i l - y0 i * M i l)%Qc) by (intros; ring). rewrite Sum_sub, H0 by auto.
      rewrite (Sum_ext m (fun r => (Sum m (fun i => M i l * X i r) - delta l r) * c r)%Qc (fun r => Sum m (fun i => M i l * X i r * c r) - delta l r * c r)%Qc) by (intros; rewrite Sum_scalr; ring).
      rewrite Sum_sub, Sum_delta_l by auto. rewrite Sum_swap.
      rewrite (Sum_ext m (fun i => M i l * (y i - Sum m (fun r => X i r * c r)))%Qc (fun i => y i * M i l - Sum m (fun r => M i l * X i r * c r))%Qc); [rewrite Sum_sub; ring|].
      intros i Hi. rewrite (Sum_ext m (fun r => M i l * X i r * c r)%Qc (fun r => M i l * (X i r * c r))%Qc) by (intros; ring). rewrite Sum_scal. ring. }
    rewrite F, Qcmult_plus_distr_r. apply abs_le_add.
    - apply Sum_err; auto. intros r Hr. now apply HX.
    - apply (Sum_err_r m (fun i => y i - Sum m (fun r => X i r * c r))%Qc (fun i => M i l)); auto. }
  rewrite E. eapply Qcle_trans; [apply (Sum_err m d (fun l => G l j) t Ht Dl)|].
  replace (qz (Z.of_nat m) * k * t)%Qc with ((qz (Z.of_nat m) * k) * t)%Qc by ring. rewrite Qcmult_comm. apply qmul_le_r; auto. apply N1_le. intros l Hl. now apply HK.
Qed.

(** ** the auxiliary program *)
Lemma whole_aux p : wf p -> whole_numbers p -> whole_numbers (aux p).
Proof.
  intros H (I1 & I2 & I3). pose proof (wf_aux p H) as Ha. assert (HR : rows (aux p) = rows p) by now apply rows_aux. pose proof (cols_aux p) as HC.
  assert (S : forall i, isint (sg p i)) by (intros i; unfold sg; destruct (qlt _ _); [exists (-1)%Z|exists 1%Z]; apply Qc_is_canon; reflexivity).
  split; [|split].
  - intros r v Hr Hv. apply (In_nth _ _ []) in Hr. destruct Hr as (i & Hi & <-). change (length (lA (aux p))) with (rows (aux p)) in Hi. rewrite HR in Hi.
    apply (In_nth _ _ 0%Qc) in Hv. destruct Hv as (j & Hj & <-). assert (Lr : length (nth i (lA (aux p)) []) = cols (aux p)) by (apply (shaped_nth (cols (aux p))); [apply (wf_A _ Ha)|fold (rows (aux p)); lia]). rewrite Lr, HC in Hj.
    change (isint (ent (lA (aux p)) i j)). destruct (Nat.lt_ge_cases j (cols p)) as [L|L].
    + rewrite ent_aux1, ent_neg by auto. apply isint_mul; auto. now apply ent_int.
    + replace j with (cols p + (j - cols p)) by lia. rewrite ent_aux2 by (auto; lia). unfold delta. destruct (Nat.eqb _ _); [exists 1%Z|exists 0%Z]; reflexivity.
  - intros v Hv. rewrite lb_aux in Hv. apply (In_nth _ _ 0%Qc) in Hv. destruct Hv as (i & Hi & <-). fold (at_ (lb (negate_rows p)) i). rewrite lb_neg. apply isint_mul; auto. now apply at_int.
  - intros v Hv. apply (In_nth _ _ 0%Qc) in Hv. destruct Hv as (j & Hj & <-). fold (cols (aux p)) in Hj. rewrite HC in Hj. fold (at_ (lc (aux p)) j). destruct (Nat.lt_ge_cases j (cols p)) as [L|L].
    + rewrite lc_aux1 by auto. exists 0%Z. reflexivity.
    + replace j with (cols p + (j - cols p)) by lia. rewrite lc_aux2 by (auto; lia). exists (-1)%Z. apply Qc_is_canon; reflexivity.
Qed.
Lemma minors_aux K p : wf p -> (0 <= K)%Z -> subdeterminants_at_most K p -> minors_at_most K (aux p).
Proof.
  intros H HK HS s Ls Hs. pose proof (wf_aux p H) as Ha. pose proof (rows_aux p H) as HR. pose proof (cols_aux p) as HC. unfold rows, cols in HR, HC.
  pose proof (wf_b _ Ha) as Lb. pose proof (wf_A _ Ha) as SA. unfold rows, cols in Lb, SA. unfold mdet. rewrite length_columns, length_append_column, HR by auto. rewrite HR in Ls. rewrite HC in Hs.
  rewrite <- (Qcmult_1_l (qabs _)). apply (bound_signed _ _ _ (fun j => j <= length (lc p) + length (lA p)) _ (wide p) (sg p)); [auto|intros; apply trit_sg| |intros l Ll Hl; rewrite Qcmult_1_l; apply (HS l Ll Hl)].
  intros j Hj. assert (K0 : nth j s 0 <= length (lc p) + length (lA p)) by (apply Hs, nth_In; lia). set (k := nth j s 0) in *.
  assert (EC : forall i, i < length (lA p) -> ent (columns_of s (append_column (lA (aux p)) (lb (aux p)))) i j = ent (append_column (lA (aux p)) (lb (aux p))) i k).
  { intros i Hi. apply ent_columns; [rewrite length_append_column; auto; lia|lia]. }
  unfold wide. destruct (Nat.ltb_spec k (length (lc p))) as [K1|K1]; [|destruct (Nat.ltb_spec k (length (lc p) + length (lA p))) as [K2|K2]].
  + exists 1%Qc, k. split; [apply trit_1|]. split; auto. intros i Hi. rewrite EC, (ent_append _ (length (lc (aux p)))), ent_aux1, ent_neg by (auto; lia).
    rewrite (proj2 (Nat.ltb_lt _ _)) by auto. ring.
  + exists (sg p (k - length (lc p))), k. split; [apply trit_sg|]. split; auto. intros i Hi. rewrite EC, (ent_append _ (length (lc (aux p)))) by (auto; lia).
    replace k with (cols p + (k - length (lc p))) at 1 by (unfold cols; lia). rewrite ent_aux2 by (auto; unfold rows; lia).
    rewrite (proj2 (Nat.ltb_ge _ _)), (proj2 (Nat.ltb_lt _ _)) by auto. unfold delta. destruct (Nat.eqb_spec i (k - length (lc p))) as [->|]; [|change (Q2Qc 0) with 0%Qc; ring].
    rewrite Qcmult_1_r. symmetry. apply sg_sq.
  + exists 1%Qc, k. split; [apply trit_1|]. split; auto. intros i Hi. replace k with (length (lc (aux p))) in EC by lia. rewrite EC, (ent_append_last _ (length (lc (aux p)))) by (auto; lia).
    rewrite (proj2 (Nat.ltb_ge _ _)), (proj2 (Nat.ltb_ge _ _)) by auto. rewrite lb_aux, lb_neg. ring.
Qed.
Lemma minors_sub K p : wf p -> subdeterminants_at_most K p -> minors_at_most K p.
Proof.
  intros H HS s Ls Hs. pose proof (wf_b _ H) as Lb. pose proof (wf_A _ H) as SA. unfold rows, cols in Lb, SA. unfold mdet. rewrite length_columns, length_append_column by auto.
  set (t := map (fun j => if Nat.ltb j (length (lc p)) then j else length (lc p) + length (lA p)) s).
  match goal with |- (qabs ?d <= _)%Qc => replace d with (det (length (lA p)) (fun i j => bordered p i (nth j t 0))) end.
  - apply HS; [unfold t; now rewrite map_length|]. intros j Hj. unfold t in Hj. apply in_map_iff in Hj. destruct Hj as (k & <- & Hk). destruct (Nat.ltb_spec k (length (lc p))); lia.
  - apply det_ext. intros i j Hi Hj. symmetry. rewrite ent_columns by (rewrite ?length_append_column; auto; lia). assert (K0 : nth j s 0 <= length (lc p)) by (apply Hs, nth_In; lia).
    assert (ET : nth j t 0 = if Nat.ltb (nth j s 0) (length (lc p)) then nth j s 0 else length (lc p) + length (lA p)).
    { unfold t. rewrite (nth_indep _ 0 ((fun j => if Nat.ltb j (length (lc p)) then j else length (lc p) + length (lA p)) 0)) by (rewrite map_length; lia). now rewrite (map_nth (fun j => if Nat.ltb j (length (lc p)) then j else length (lc p) + length (lA p))). }
    rewrite ET. unfold bordered. destruct (Nat.ltb_spec (nth j s 0) (length (lc p))) as [L|L].
    + rewrite (proj2 (Nat.ltb_lt _ _)) by auto. apply (ent_append _ (length (lc p))); auto; lia.
    + replace (nth j s 0) with (length (lc p)) by lia. rewrite !(proj2 (Nat.ltb_ge _ _)) by lia. apply (ent_append_last _ (length (lc p))); auto; lia.
Qed.
Lemma N1_ones m (f : nat -> Qc) : (forall i, i < m -> qabs (f i) = 1%Qc) -> N1 m f = qz (Z.of_nat m).
Proof. intros E. unfold N1. rewrite (Sum_ext m _ (fun _ => 1%Qc)) by auto. rewrite Sum_const. ring. Qed.
Lemma N1_app n m f : N1 (n + m) f = (N1 n f + N1 m (fun i => f (n + i)%nat))%Qc.
Proof. unfold N1. apply Sum_app. Qed.
Lemma N1_sign m (s f : nat -> Qc) : (forall i, i < m -> qabs (s i) = 1%Qc) -> N1 m (fun i => s i * f i)%Qc = N1 m f.
Proof. intros E. unfold N1. apply Sum_ext. intros i Hi. rewrite qabs_mul, E by auto. ring. Qed.
Lemma weight_aux p : wf p -> (weight (aux p) <= weight p + qz 2 * qz (Z.of_nat (length (lA p))))%Qc.
Proof.
  intros H. pose proof (wf_aux p H) as Ha. rewrite (weight_parts _ Ha), (weight_parts _ H). rewrite (rows_aux p H), cols_aux. set (n := cols p). set (m := rows p).
  rewrite (Sum_ext m (fun i => N1 (n + m) (ent (lA (aux p)) i)) (fun i => N1 n (ent (lA p) i) + 1)%Qc).
  2:{ intros i Hi. rewrite N1_app. f_equal.
      - rewrite (N1_ext n _ (fun j => sg p i * ent (lA p) i j)%Qc) by (intros j Hj; rewrite ent_aux1, ent_neg; auto). unfold N1. apply Sum_ext. intros j Hj. rewrite qabs_mul, sg_abs. ring.
      - rewrite (N1_ext m _ (fun k => delta i k)) by (intros j Hj; now rewrite ent_aux2). now apply N1_delta. }
  rewrite Sum_add, Sum_const. rewrite (N1_ext m (at_ (lb (aux p))) (fun i => sg p i * at_ (lb p) i)%Qc) by (intros i Hi; rewrite lb_aux; apply lb_neg). rewrite N1_sign by (intros; apply sg_abs).
  rewrite (N1_app n m (at_ (lc (aux p)))). rewrite (N1_ones m (fun i => at_ (lc (aux p)) (n + i))) by (intros i Hi; unfold n; rewrite lc_aux2 by auto; reflexivity).
  replace (N1 n (at_ (lc (aux p)))) with 0%Qc. 2:{ unfold N1. rewrite Sum_none; [reflexivity|]. intros j Hj. rewrite lc_aux1 by auto. reflexivity. }
  pose proof (N1_nonneg n (at_ (lc p))) as N. change (length (lA p)) with m. set (a := Sum m _) in *. set (b := N1 m (at_ (lb p))) in *. set (c := N1 n (at_ (lc p))) in *. set (k := qz (Z.of_nat m)) in *. clear - N. clearbody a b c k. unfold qz, inject_Z. qclra.
Qed.

(** ** the constants *)
Lemma pos_mul a b : (0 <= a -> 0 <= b -> 0 <= a * b)%Qc. Proof. apply qmul_nonneg. Qed.
Lemma accurate_consts e K p : wf p -> (0 <= e)%Qc -> accurate e K p ->
  let m := qz (Z.of_nat (rows p)) in
  (qz 32 * e * qz K * weight p * (1 + m * qz K) <= 1)%Qc /\ (qz 32 * e * qz K * weight (aux p) * (1 + m * qz K) <= 1)%Qc /\
  (weight p * e * (1 + m * qz K) < tol_zero)%Qc /\ (e + m * (qz 8 * e * (1 + m * qz K)) < tol_zero)%Qc.
Proof.
  intros H He [_ _ HK HE] m. cbv zeta in HE. change (length (lA p)) with (rows p) in HE. fold m in HE. set (k := qz K) in *. pose proof (weight_aux p H) as WA. change (length (lA p)) with (rows p) in WA. fold m in WA.
  assert (k1 : (1 <= k)%Qc) by (unfold k; change 1%Qc with (qz 1); apply qz_le; lia). assert (k9 : (k <= qz (10 ^ 9))%Qc) by (unfold k; apply qz_le; lia).
  assert (m0 : (0 <= m)%Qc) by (unfold m; change 0%Qc with (qz 0); apply qz_le; lia). assert (w1 : (1 <= weight p)%Qc) by apply (weight_ge p H).
  assert (mk : (0 <= m * k)%Qc) by (apply pos_mul; auto; eapply Qcle_trans; [|exact k1]; discriminate).
  set (T := (1 + m * k)%Qc) in *. assert (T1 : (1 <= T)%Qc) by (unfold T; clear - mk; set (a := (m * k)%Qc) in *; clearbody a; qclra).
  set (W := (weight p + qz 2 * m)%Qc) in *. change (Q2Qc (1 # 10000000000)) with tol_zero in HE.
  assert (T0 : (0 <= T)%Qc) by (eapply Qcle_trans; [|exact T1]; discriminate). assert (eT : (0 <= e * T)%Qc) by now apply pos_mul.
  assert (k0 : (0 <= k)%Qc) by (eapply Qcle_trans; [|exact k1]; discriminate).
  assert (W32 : forall w, (w <= W)%Qc -> (qz 32 * e * k * w * T <= 1)%Qc).
  { intros w Hw. assert (L1 : (w * (e * T) <= W * (e * T))%Qc) by (apply qmul_le_r; auto). assert (L2 : (qz 8 * (W * (e * T)) < tol_zero)%Qc) by (replace (qz 8 * (W * (e * T)))%Qc with (qz 8 * e * W * T)%Qc by ring; exact HE).
    assert (L3 : (qz 8 * (w * (e * T)) <= tol_zero)%Qc). { set (a := (w * (e * T))%Qc) in *. set (b := (W * (e * T))%Qc) in *. clear - L1 L2. clearbody a b. unfold qz, inject_Z in *. qclra. }
    assert (L4 : ((qz 8 * (w * (e * T))) * k <= tol_zero * k)%Qc) by (apply qmul_le_r; auto). assert (L5 : (k * tol_zero <= qz (10 ^ 9) * tol_zero)%Qc) by (apply qmul_le_r; auto; discriminate).
    replace (qz 32 * e * k * w * T)%Qc with (qz 4 * ((qz 8 * (w * (e * T))) * k))%Qc by (replace (qz 32) with (qz 4 * qz 8)%Qc by (apply Qc_is_canon; reflexivity); ring).
    rewrite (Qcmult_comm tol_zero) in L4. set (a := ((qz 8 * (w * (e * T))) * k)%Qc) in *. set (b := (k * tol_zero)%Qc) in *. assert (L6 : (qz (10 ^ 9) * tol_zero = Q2Qc (1 # 10))%Qc) by (apply Qc_is_canon; reflexivity). rewrite L6 in L5. clear - L4 L5. clearbody a b. unfold qz, inject_Z in *. qclra. }
  assert (wW : (weight p <= W)%Qc) by (unfold W; set (a := weight p) in *; clear - m0; clearbody a m; unfold qz, inject_Z; qclra).
  split; [now apply W32|]. split; [now apply W32|].
  assert (L1 : (weight p * (e * T) <= W * (e * T))%Qc) by (apply qmul_le_r; auto). assert (L0 : (0 <= weight p * (e * T))%Qc) by (apply pos_mul; auto; eapply Qcle_trans; [|exact w1]; discriminate).
  replace (qz 8 * e * W * T)%Qc with (qz 8 * (W * (e * T)))%Qc in HE by ring. split.
  - replace (weight p * e * T)%Qc with (weight p * (e * T))%Qc by ring. set (a := (weight p * (e * T))%Qc) in *. set (b := (W * (e * T))%Qc) in *. clear - L1 HE L0. clearbody a b. unfold qz, inject_Z in *. qclra.
  - assert (L2 : (1 * e <= T * e)%Qc) by now apply qmul_le_r. assert (L3 : (1 * (e * T) <= weight p * (e * T))%Qc) by (apply qmul_le_r; auto).
    replace (m * (qz 8 * e * T))%Qc with (qz 8 * (m * (e * T)))%Qc by ring. assert (LW : (W * (e * T) = weight p * (e * T) + qz 2 * (m * (e * T)))%Qc) by (unfold W; ring). rewrite LW in HE. assert (L4 : (0 <= m * (e * T))%Qc) by now apply pos_mul.
    rewrite (Qcmult_comm T), !Qcmult_1_l in *. set (a := (weight p * (e * T))%Qc) in *. set (b := (m * (e * T))%Qc) in *. set (c := (e * T)%Qc) in *. clear - HE L2 L3 L4 He. clearbody a b c. unfold qz, inject_Z in *. qclra.
Qed.

(** ** the inverse of a basis *)
Lemma at_int_minors p s : wf p -> whole_numbers p -> length s = rows p -> (forall j, In j s -> j <= cols p) -> isint (minor p s).
Proof.
  intros H (I1 & I2 & I3) L Hs. assert (D : multipliers p (repeat 1%Z (rows p)) 1).
  { constructor; rewrite ?product_ones; try lia; try apply repeat_length.
    - intros z Hz. apply repeat_spec in Hz. subst z. reflexivity.
    - intros i j Hi Hj. rewrite nth_ones. change (qz 1) with 1%Qc. rewrite Qcmult_1_l. now apply ent_int.
    - intros i Hi. rewrite nth_ones. change (qz 1) with 1%Qc. rewrite Qcmult_1_l. now apply at_int.
    - intros j Hj. change (qz 1) with 1%Qc. rewrite Qcmult_1_l. now apply at_int. }
  pose proof (minor_int p _ 1 s H D L Hs) as R. unfold scaled_minor in R. rewrite product_ones in R. change (qz 1) with 1%Qc in R. now rewrite Qcmult_1_l in R.
Qed.
Lemma inverse_bound p B K : wf p -> whole_numbers p -> (0 <= K)%Z -> subdeterminants_at_most K p -> basis (aux p) B -> exists G : nat -> nat -> Qc,
  (forall i j, i < rows p -> j < rows p -> Sum (rows p) (fun l => ent (lA (aux p)) i (bk B l) * G l j)%Qc = delta i j) /\
  (forall i j, i < rows p -> j < rows p -> Sum (rows p) (fun l => G i l * ent (lA (aux p)) l (bk B j))%Qc = delta i j) /\
  (forall l j, l < rows p -> j < rows p -> (qabs (G l j) <= qz K)%Qc).
Proof.
  intros H HI HK HS HB. pose proof (wf_aux p H) as Ha. pose proof (rows_aux p H) as HR. pose proof (cols_aux p) as HC. set (a := aux p) in *.
  destruct (minv_ok (columns_of B (lA a)) (rows a)) as (X & EX & LX & SX & X1 & X2); [apply length_columns|apply HB|]. rewrite HR in *.
  assert (EM : forall i l, i < rows p -> l < rows p -> ent (columns_of B (lA a)) i l = ent (lA a) i (bk B l)).
  { intros i l Hi Hl. unfold bk. apply ent_columns; [fold (rows a); lia|]. rewrite (bs_len _ _ HB). lia. }
  exists (ent X). split; [|split].
  - intros i j Hi Hj. rewrite <- X2 by auto. apply Sum_ext. intros l Hl. now rewrite EM.
  - intros i j Hi Hj. rewrite <- X1 by auto. apply Sum_ext. intros l Hl. now rewrite EM.
  - intros l j Hl Hj. destruct (basis_canon a B Ha HB) as (q & Eq & _).
    assert (E : ent (lA q) l (cols p + j) = ent X l j).
    { pose proof Eq as Eq'. unfold canonical, bind in Eq'. rewrite EX in Eq'. injection Eq' as <-. cbn [lA]. rewrite (ent_mulmm _ (rows p)) by (auto; fold (rows a); lia).
      rewrite (Sum_ext _ _ (fun k => ent X l k * delta k j)%Qc) by (intros k Hk; f_equal; unfold a; apply (ent_aux2 p H k j Hk Hj)). now apply Sum_delta_r. }
    rewrite <- E, (canonical_ent a B q Ha HB Eq l (cols p + j)) by lia.
    assert (C1 : length (with_column B l (cols p + j)) = rows a) by (rewrite length_with_column; apply HB).
    assert (C2 : forall i, In i (with_column B l (cols p + j)) -> i <= cols a).
    { intros i Hi. unfold with_column in Hi. apply in_map_iff in Hi. destruct Hi as (n & <- & Hn). apply in_seq in Hn. destruct (Nat.eqb n l); [lia|]. apply Nat.lt_le_incl, (bs_lt _ _ HB), nth_In. lia. }
    assert (M1 : (qabs (minor a (with_column B l (cols p + j))) <= qz K)%Qc) by (apply (minors_aux K p H HK HS); [exact C1|exact C2]).
    assert (M2 : isint (minor a B)) by (apply at_int_minors; auto; [now apply whole_aux|apply HB|intros i Hi; apply Nat.lt_le_incl, (bs_lt _ _ HB), Hi]).
    pose proof (minor_nonzero a B Ha HB) as D0. apply int_nonzero in M2; auto. set (D := minor a B) in *. set (N := minor a (with_column B l (cols p + j))) in *.
    assert (A1 : (1 <= qabs D)%Qc) by (clearbody D; clear - M2; unfold qabs; destruct (qlt_spec D 0); destruct M2; qclra).
    assert (EN : N = (N / D * D)%Qc) by (field; exact D0). rewrite EN, qabs_mul in M1.
    eapply Qcle_trans; [|exact M1]. rewrite <- (Qcmult_1_r (qabs (N / D))) at 1. rewrite !(Qcmult_comm (qabs (N / D))). apply qmul_le_r; auto. apply QcTac.qabs_nonneg.
Qed.

(** ** the first phase *)
Lemma simplex_nonneg e p Bz r : r_simplex e p Bz r -> (0 <= e)%Qc.
Proof. intros (_ & it & HL & _). destruct (loop_last _ _ _ _ HL) as (Bz' & _ & _ & q & x' & (W & y & _ & _ & _ & _ & _ & A & _) & _). now apply within_nonneg in A. Qed.
(** what is known about a basis reported for a program with whole numbers *)
Lemma whole_basis e p Bz x Bo cert K : wf p -> whole_numbers p -> minors_at_most K p -> (1 <= K <= 10 ^ 9)%Z ->
  (qz 32 * e * qz K * weight p * (1 + qz (Z.of_nat (rows p)) * qz K) <= 1)%Qc -> r_simplex e p Bz (Some x, Bo, cert) ->
  exists B x0 q0, Bo = Some (to_math_indexing B) /\ basis (negate_rows p) B /\ length x = cols p /\ length x0 = cols p /\ bsol (negate_rows p) B (at_ x0) /\
    (forall j, j < cols p -> (0 <= at_ x0 j)%Qc) /\ (forall j, j < cols p -> (0 < at_ x0 j -> 1 <= at_ x0 j * qz K)%Qc) /\
    canon (negate_rows p) B q0 /\ (forall j, j < cols p -> (at_ (lc q0) j <= 0)%Qc) /\
    (forall j, j < cols p -> (qabs (at_ x j - at_ x0 j) <= qz 8 * e * (1 + qz (Z.of_nat (rows p)) * qz K))%Qc) /\
    exists X y, r_inv e (transpose (rows p) (columns_of B (lA (negate_rows p)))) X /\ r_mulmv e X (take B (lc p)) y /\ cert = CVec (flip_y (lb p) y).
Proof.
  intros H HI HM HK Hs R. pose proof (simplex_nonneg _ _ _ _ R) as He.
  assert (Hm : (qz (Z.of_nat (rows p)) * e <= Q2Qc (1 # 4))%Qc). { rewrite <- (rows_neg p H). apply (quarter_rows e p K H He HK Hs). }
  pose proof R as (Hsef & it & HL & HR). destruct (loop_last _ _ _ _ HL) as (Bz' & HI'). destruct it as [x' B q|x' B q|B q]; [|discriminate HR|contradiction].
  destruct HR as (X & y & RI & RM & E). injection E as -> -> ->. rewrite rows_neg in RI by auto.
  destruct (tests e (negate_rows p) Bz' x' B q (wf_negate p H) (neg_again p H) ltac:(now rewrite rows_neg) HI') as (_ & _ & _ & (W & V & yy & F) & T1 & T2). rewrite cols_neg in T1.
  pose proof (nonsingular e p B q x' W V yy F He (quarter_rows e p K H He HK Hs)) as HB.
  destruct (right_basis e p B q x' W V yy K H F He HI HM HK Hs T1 T2) as (x0 & L0 & S0 & N0 & _ & C1 & _ & _). destruct (basis_canon _ B (wf_negate p H) HB) as (q0 & E0 & C0).
  destruct (fa_x _ _ _ _ _ _ _ _ F) as (Lx & _). rewrite !cols_neg in *. exists B, x0, q0. split; auto. split; auto. split; auto. split; auto. split; auto. split; auto. split; [|split; auto; split; [|split; [exact C1|exists X, y; auto]]].
  - intros j Hj Hp. destruct (in_dec Nat.eq_dec j B) as [I|I]; [|rewrite (proj2 S0 j) in Hp by (rewrite ?cols_neg; auto); discriminate Hp]. destruct (In_bk _ B j HB I) as (l & Hl & <-).
    assert (EQ : at_ x0 (bk B l) = (minor (negate_rows p) (with_column B l (cols (negate_rows p))) / minor (negate_rows p) B)%Qc) by exact (f_at e p B q x' W V yy K H F He HK Hs q0 E0 C0 (at_ x0) S0 l Hl).
    rewrite EQ in *.
    destruct (column_ok e p B q x' W V yy K H F He HK Hs l (cols (negate_rows p)) (Nat.le_refl _)) as (D1 & D2).
    apply (quotient_ge (qz K) _ _); auto.
    + exact (mint p H HI _ D1 D2).
    + exact (D_nonzero e p B q x' W V yy K H F He HK Hs).
    + apply (mle p K H HM); [apply HB|exact (B_le e p B q x' W V yy K H F He HK Hs)].
  - intros j Hj. apply (costs_nonpos e p B q x' W V yy K H F He HI HM HK Hs T1 q0 E0 C0). now rewrite cols_neg.
Qed.
Lemma dual_vector e P B k (G : nat -> nat -> Qc) X y : wf P -> basis P B -> (0 <= e)%Qc -> (0 <= k)%Qc ->
  (forall i j, i < rows P -> j < rows P -> Sum (rows P) (fun l => ent (lA P) i (bk B l) * G l j)%Qc = delta i j) ->
  (forall i j, i < rows P -> j < rows P -> Sum (rows P) (fun l => G i l * ent (lA P) l (bk B j))%Qc = delta i j) ->
  (forall l j, l < rows P -> j < rows P -> (qabs (G l j) <= k)%Qc) ->
  r_inv e (transpose (rows P) (columns_of B (lA P))) X -> r_mulmv e X (take B (lc P)) y ->
  length y = rows P /\ exists y0, length y0 = rows P /\ (forall l, l < rows P -> Sum (rows P) (fun i => at_ y0 i * ent (lA P) i (bk B l))%Qc = at_ (lc P) (bk B l)) /\
    forall i, i < rows P -> (qabs (at_ y i - at_ y0 i) <= qz (Z.of_nat (rows P)) * k * (weight P * e))%Qc.
Proof.
  intros H HB He Hk G1 G2 G3 (LX & SX & RX) (LY & RY). set (m := rows P) in *. rewrite length_transpose in LX, SX, RX. rewrite LX in LY, RY. split; auto.
  set (c l := at_ (lc P) (bk B l)). exists (mkvec m (fun i => Sum m (fun l => c l * G l i)%Qc)).
  assert (A0 : forall i, i < m -> at_ (mkvec m (fun i => Sum m (fun l => c l * G l i)%Qc)) i = Sum m (fun l => c l * G l i)%Qc) by (intros; now apply at_mkvec).
  assert (Y0 : forall l, l < m -> Sum m (fun i => at_ (mkvec m (fun i => Sum m (fun l => c l * G l i)%Qc)) i * ent (lA P) i (bk B l))%Qc = c l).
  { intros l Hl. rewrite (Sum_ext m _ (fun i => Sum m (fun r => c r * G r i * ent (lA P) i (bk B l)))%Qc) by (intros i Hi; rewrite A0 by auto; now rewrite Sum_scalr). rewrite Sum_swap.
    rewrite (Sum_ext m _ (fun r => c r * delta r l)%Qc); [now apply Sum_delta_r|]. intros r Hr. rewrite <- G2 by auto. rewrite <- Sum_scal. apply Sum_ext. intros; ring. }
  split; [apply length_mkvec|]. split; auto.
  destruct (weight_ge P H) as (W1 & _ & _ & W4).
  apply (dual_close m e (fun i l => ent (lA P) i (bk B l)) G (ent X) (at_ y) _ c k (weight P * e)); auto.
  - apply pos_mul; auto. eapply Qcle_trans; [|exact W1]. discriminate.
  - intros l j Hl Hj. destruct (RX l j Hl Hj) as (_ & R2). rewrite (Sum_ext m _ (fun i => ent (transpose m (columns_of B (lA P))) l i * ent X i j)%Qc); [exact R2|]. intros i Hi. f_equal. rewrite ent_transpose by (auto; now rewrite length_columns). symmetry.
    apply ent_columns; [exact Hi|]. rewrite (bs_len _ _ HB). exact Hl.
  - intros i Hi. specialize (RY i Hi). rewrite (dot_Sum m) in RY by (now rewrite SX by (rewrite LX; auto)). rewrite (Sum_ext m _ (fun j => at_ (nth i X []) j * at_ (take B (lc P)) j)%Qc); [exact RY|]. intros j Hj. fold (ent X i j). f_equal.
    unfold c, bk. symmetry. apply at_take. rewrite (bs_len _ _ HB). exact Hj.
  - intros l Hl. rewrite (Qcmult_comm e). apply qmul_le_r; auto. specialize (W4 (bk B l) (bk_lt P B l HB Hl)).
    assert (PB : (N1 m c <= N1 (cols P) (at_ (lc P)))%Qc).
    { unfold N1, m. rewrite <- (bs_len _ _ HB). apply (Sum_part B (cols P) (fun j => qabs (at_ (lc P) j))); [now apply (bs_NoDup P)|apply HB|intros; apply QcTac.qabs_nonneg]. }
    fold m in W4. set (u := N1 m (fun i => ent (lA P) i (bk B l))) in *. set (v := N1 (cols P) (at_ (lc P))) in *. set (v0 := N1 m c) in *. set (w := weight P) in *. clear - W4 PB. clearbody u v v0 w. qclra.
Qed.

(** ** the second phase *)
Lemma sgn_cases p i : sg p i = 1%Qc \/ sg p i = (- (1))%Qc.
Proof. unfold sg. destruct (qlt _ _); auto. Qed.
Lemma at_flip p y i : length (lb p) = length y -> at_ (flip_y (lb p) y) i = (sg p i * at_ y i)%Qc.
Proof. intros L. rewrite at_flip_y by auto. unfold sg. destruct (qlt (at_ (lb p) i) 0); ring. Qed.
Lemma flip_close p t y y0 : length y = length (lb p) -> length y0 = length (lb p) -> (forall i, i < length y -> (qabs (at_ y i - at_ y0 i) <= t)%Qc) -> close_by t (flip_y (lb p) y) (flip_y (lb p) y0).
Proof.
  intros L L0 K. split; [rewrite !length_flip_y by auto; congruence|]. rewrite length_flip_y by auto. intros i Hi. fold (at_ (flip_y (lb p) y) i) (at_ (flip_y (lb p) y0) i). rewrite !at_flip by auto.
  replace (sg p i * at_ y i - sg p i * at_ y0 i)%Qc with (sg p i * (at_ y i - at_ y0 i))%Qc by ring. rewrite qabs_mul, sg_abs, Qcmult_1_l. auto.
Qed.
Lemma inner_flip p y0 (f g : nat -> Qc) v : wf p -> length y0 = rows p -> length v = rows p -> (forall i, i < rows p -> at_ v i = g i) -> (forall i, i < rows p -> f i = (sg p i * g i)%Qc) ->
  inner (flip_y (lb p) y0) v = Sum (rows p) (fun i => at_ y0 i * f i)%Qc.
Proof.
  intros H L Lv Hv Hf. assert (Lb : length (lb p) = length y0) by (rewrite (wf_b _ H), L; reflexivity). rewrite (inner_Sum (rows p)) by (rewrite length_flip_y by auto; auto).
  apply Sum_ext. intros i Hi. rewrite at_flip, Hv, Hf by auto. ring.
Qed.
Lemma at_col (A : list (list Qc)) j i : i < length A -> at_ (map (fun r => nth j r 0%Qc) A) i = ent A i j.
Proof. intros Hi. unfold at_, ent. rewrite (nth_indep _ _ ((fun r => nth j r 0%Qc) [])) by (now rewrite map_length). now rewrite (map_nth (fun r => nth j r 0%Qc)). Qed.
Lemma two_phase_optimal e K p Bz x Bo cert : wf p -> accurate e K p -> r_simplex e p Bz (Some x, Bo, cert) ->
  exists x0 y y0, optimal (meaning p) x0 /\ close_by (qz 8 * e * (1 + qz (Z.of_nat (rows p)) * qz K))%Qc x x0 /\ cert = CVec y /\ proves_optimal p x0 y0 /\ close_by (qz (Z.of_nat (rows p)) * qz K * (weight p * e))%Qc y y0.
Proof.
  intros H HA R. pose proof (simplex_nonneg _ _ _ _ R) as He. destruct (accurate_consts e K p H He HA) as (C1 & _ & _ & _). destruct HA as [HI HM HK _]. assert (Hs : lsef p = true) by apply R.
  destruct (whole_basis e p Bz x Bo cert K H HI (minors_sub K p H HM) HK C1 R) as (B & x0 & q0 & _ & HB & Lx & L0 & S0 & N0 & _ & C0 & CN & CX & X & y & RI & RM & ->).
  pose proof (wf_negate p H) as HP. pose proof (rows_neg p H) as ER. assert (HBn : forall j, In j B -> j < cols p) by (intros j Hj; apply (bs_lt _ _ HB) in Hj; now rewrite cols_neg in Hj).
  assert (HBa : basis (aux p) B) by (apply basis_aux; auto; now apply (proj1 (basis_neg p B H))).
  destruct (inverse_bound p B K H HI ltac:(lia) HM HBa) as (G & G1 & G2 & G3).
  assert (EM : forall i l, i < rows p -> l < rows p -> ent (lA (aux p)) i (bk B l) = ent (lA (negate_rows p)) i (bk B l)).
  { intros i l Hi Hl. apply ent_aux1; auto. apply HBn, (bk_In (aux p)); auto. now rewrite rows_aux. }
  destruct (dual_vector e (negate_rows p) B (qz K) G X y HP HB He) as (Ly & y0 & Ly0 & D1 & D2); rewrite ?ER; auto.
  { change 0%Qc with (qz 0). apply qz_le. lia. }
  { intros i j Hi Hj. rewrite <- G1 by auto. apply Sum_ext. intros l Hl. now rewrite EM. }
  { intros i j Hi Hj. rewrite <- G2 by auto. apply Sum_ext. intros l Hl. now rewrite EM. }
  rewrite ER in *. rewrite weight_neg in D2 by auto. pose proof (wf_b _ H) as Lb.
  destruct (cn_dual _ _ _ C0 (at_ y0)) as (D3 & D4); [rewrite ER; exact D1|]. rewrite ER, cols_neg in *.
  exists x0, (flip_y (lb p) y), (flip_y (lb p) y0). split; [|split; [|split; [reflexivity|split]]].
  - split.
    + apply sfeas_iff; auto. split; auto. split; auto. intros i Hi. destruct S0 as (S0 & _). apply (proj1 (solves_neg 1 p _ H)) in S0. specialize (S0 i Hi). rewrite Qcmult_1_l in S0. exact S0.
    + intros z Hz. apply sfeas_iff in Hz; auto. destruct Hz as (Z1 & Z2 & Z3). unfold as_good. rewrite max_sef by auto. rewrite !value_Sum.
      assert (SZ : solves 1 (negate_rows p) (at_ z)) by (apply solves_neg; auto; intros i Hi; specialize (Z2 i Hi); rewrite Qcmult_1_l; exact Z2).
      pose proof (cn_obj _ _ _ C0 1%Qc _ SZ) as O. pose proof (obj_bsol _ B q0 HB C0 (at_ x0) S0) as O2.
      assert (Z : (obj q0 (at_ z) <= 0)%Qc). { unfold obj. rewrite <- (Sum_zero (cols q0)). apply Sum_le. rewrite (cn_cols _ _ _ C0), cols_neg. intros j Hj. rewrite <- (Qcmult_0_l (at_ z j)). apply qmul_le_r; auto. }
      rewrite !Qcmult_1_l in O. change (obj (negate_rows p)) with (obj p) in *. fold (obj p (at_ z)) (obj p (at_ x0)). set (a := obj p (at_ z)) in *. set (b := obj p (at_ x0)) in *. set (c := obj q0 (at_ z)) in *. change (lz (negate_rows p)) with (lz p) in *. change (constant (meaning p)) with (lz p). set (d := lz p) in *. set (f := lz q0) in *. clear - O O2 Z. clearbody a b c d f. qclra.
  - split; [congruence|]. rewrite Lx. exact CX.
  - split; [rewrite length_flip_y by congruence; exact Ly0|]. split.
    + intros j Hj. rewrite (inner_flip p y0 (fun i => ent (lA (negate_rows p)) i j) (fun i => ent (lA p) i j)); auto; [|apply map_length|intros i Hi; now apply at_col|intros i Hi; now apply ent_neg].
      specialize (D3 j Hj). specialize (CN j Hj). change (at_ (lc (negate_rows p)) j) with (nth j (lc p) 0%Qc) in D3. rewrite D3 in CN. set (a := nth j (lc p) 0%Qc) in *. set (s := Sum _ _) in *. clear - CN. clearbody a s. qclra.
    + rewrite (inner_flip p y0 (fun i => at_ (lb (negate_rows p)) i) (at_ (lb p))); auto; [|intros i Hi; apply lb_neg].
      pose proof (obj_bsol _ B q0 HB C0 (at_ x0) S0) as O2. rewrite D4 in O2. rewrite (inner_Sum (cols p)) by reflexivity. change (obj (negate_rows p) (at_ x0)) with (Sum (cols p) (fun j => at_ (lc p) j * at_ x0 j)%Qc) in O2.
      set (a := Sum (rows p) _) in *. set (b := Sum (cols p) _) in *. clear - O2. clearbody a b. qclra.
  - apply flip_close; try congruence. rewrite Ly. exact D2.
Qed.
Lemma two_phase_cases e K p r : wf p -> lsef p = true -> accurate e K p -> r_two_phase e p r ->
  ((exists x, feasible (meaning p) x) /\ exists Bz, r_simplex e p Bz r) \/
  (exists y y0, r = (None, None, CVec y) /\ proves_infeasible p y0 /\ close_by (qz (Z.of_nat (rows p)) * qz K * ((weight p + qz 2 * qz (Z.of_nat (rows p))) * e))%Qc y y0).
Proof.
  intros H Hs HA (a0 & x & Bo & cert & v & Ea & R1 & (Lx' & Rv) & R2). destruct (auxiliary_aux p Hs) as (a1 & Ea1 & EA). rewrite Ea in Ea1. injection Ea1 as <-. cbv zeta in *. rewrite EA in *. clear Ea EA a0.
  pose proof (simplex_nonneg _ _ _ _ R1) as He. destruct (accurate_consts e K p H He HA) as (_ & C2 & _ & C4). destruct HA as [HI HM HK HE]. set (a := aux p) in *.
  pose proof (wf_aux p H) as Ha. pose proof (rows_aux p H) as HR. pose proof (cols_aux p) as HC. fold a in Ha, HR, HC. pose proof (neg_aux p H) as EN. fold a in EN.
  assert (C2' : (qz 32 * e * qz K * weight a * (1 + qz (Z.of_nat (rows a)) * qz K) <= 1)%Qc) by (rewrite HR; exact C2).
  destruct (whole_basis e a _ x (Some Bo) cert K Ha (whole_aux p H HI) (minors_aux K p H ltac:(lia) HM) HK C2' R1) as (B & x0 & q0 & EB & HB & Lx & L0 & S0 & N0 & NP & C0 & CN & CX & _). rewrite EN, HR, HC in *. injection EB as ->.
  set (n := cols p) in *. set (m := rows p) in *. set (T := (qz 8 * e * (1 + qz (Z.of_nat m) * qz K))%Qc) in *.
  assert (T0 : (0 <= T)%Qc). { unfold T. apply pos_mul; [apply pos_mul; auto; discriminate|]. assert (0 <= qz (Z.of_nat m) * qz K)%Qc by (apply pos_mul; change 0%Qc with (qz 0); apply qz_le; lia). set (u := (qz (Z.of_nat m) * qz K)%Qc) in *. clear - H0. clearbody u. qclra. }
  set (s := Sum m (fun i => at_ x (n + i)%nat)). set (s0 := Sum m (fun i => at_ x0 (n + i)%nat)).
  assert (Ev : (dot (lc a) x + lz a = - s)%Qc). { rewrite (dot_Sum (cols a)) by reflexivity. fold (obj a (at_ x)). unfold a, s. rewrite obj_aux by auto. change (lz (aux p)) with 0%Qc. fold n m. ring. }
  assert (Eo : (obj a (at_ x0) = - s0)%Qc) by (unfold a, s0; now rewrite obj_aux by auto). rewrite Ev in Rv.
  assert (Es : (qabs (s - s0) <= qz (Z.of_nat m) * T)%Qc).
  { unfold s, s0. rewrite <- Sum_sub. eapply Qcle_trans; [apply abs_Sum|]. apply (N1_le m (fun i => at_ x (n + i)%nat - at_ x0 (n + i)%nat)%Qc T). intros i Hi. apply CX. lia. }
  assert (Pos : (0 <= s0)%Qc) by (apply Sum_nonneg; intros i Hi; apply N0; lia).
  assert (Gap : s0 = 0%Qc \/ (1 <= s0 * qz K)%Qc).
  { destruct (Qc_eq_dec s0 0) as [|Hn]; auto. right. destruct (existsb (fun i => qlt 0 (at_ x0 (n + i))) (seq 0 m)) eqn:EX.
    - apply existsb_exists in EX. destruct EX as (i & Hi & EX). apply in_seq in Hi. destruct (qlt_spec 0 (at_ x0 (n + i))) as [P|]; [|discriminate EX]. specialize (NP (n + i) ltac:(lia) P). eapply Qcle_trans; [exact NP|]. apply qmul_le_r; [|change 0%Qc with (qz 0); apply qz_le; lia].
      apply (Sum_pick m (fun i => at_ x0 (n + i)%nat) i); [intros j Hj; apply N0; lia|lia].
    - exfalso. apply Hn. unfold s0. apply Sum_none. intros i Hi. apply Qcle_antisym; [|apply N0; lia]. apply Qcnot_lt_le. intros P. assert (F : existsb (fun i => qlt 0 (at_ x0 (n + i))) (seq 0 m) = true); [|congruence]. apply existsb_exists. exists i. split; [apply in_seq; lia|]. now destruct (qlt_spec 0 (at_ x0 (n + i))). }
  destruct (is_close_to_zero v) eqn:Ec.
  - left. destruct R2 as (Bz & _ & R2). split; [|eauto]. apply close0_true in Ec. destruct Ec as (E1 & E2).
    assert (Z : s0 = 0%Qc).
    { destruct Gap as [|Gap]; auto. exfalso. assert (K9 : (qz K <= qz (10 ^ 9))%Qc) by (apply qz_le; lia). assert (Q : (s0 * qz K <= s0 * qz (10 ^ 9))%Qc) by (rewrite !(Qcmult_comm s0); now apply qmul_le_r).
      unfold within in Rv. apply qabs_le in Rv. apply qabs_le in Es. destruct Rv as (V1 & V2). destruct Es as (W1 & W2). set (u := (qz (Z.of_nat m) * T)%Qc) in *. assert (Q2 : (1 <= s0 * qz (10 ^ 9))%Qc) by (eapply Qcle_trans; eauto). clear - E1 V1 V2 W1 W2 C4 Q2 He Pos. clearbody u s s0. unfold tol_zero in *. unfold qz, inject_Z in Q2. cbn in Q2. qclra. }
    assert (HZ : forall i, i < m -> at_ x0 (n + i) = 0%Qc).
    { intros i Hi. apply Qcle_antisym; [|apply N0; lia]. rewrite <- Z. apply (Sum_pick m (fun i => at_ x0 (n + i)%nat) i); auto. intros j Hj; apply N0; lia. }
    assert (SX : solves 1 p (at_ x0)) by (apply (drop_artificial p H x0); auto; apply S0).
    set (x1 := firstn n x0). assert (Lx1 : length x1 = n) by (unfold x1; rewrite firstn_length; lia).
    assert (A0 : forall j, j < n -> at_ x1 j = at_ x0 j). { intros j Hj. unfold x1. rewrite <- (firstn_skipn n x0) at 2. rewrite at_app1; auto. rewrite firstn_length. lia. }
    exists x1. apply sfeas_iff; auto. split; auto. split; [|intros j Hj; rewrite A0 by auto; apply N0; fold n in Hj; lia]. intros i Hi. specialize (SX i Hi). unfold lhs in SX. rewrite Qcmult_1_l in SX. rewrite <- SX. apply Sum_ext. intros j Hj. now rewrite A0.
  - right. destruct R2 as (X & y & RI & RM & ->). rewrite array_math in RI, RM.
    destruct (inverse_bound p B K H HI ltac:(lia) HM HB) as (G & G1 & G2 & G3). fold a m in G1, G2, G3.
    destruct (dual_vector e a B (qz K) G X y Ha HB He) as (Ly & y0 & Ly0 & D1 & D2); rewrite ?HR; auto.
    { change 0%Qc with (qz 0). apply qz_le. lia. }
    rewrite HR in *. pose proof (wf_b _ H) as Lb. fold m in Lb.
    destruct (cn_dual _ _ _ C0 (at_ y0)) as (D3 & D4); [rewrite HR; exact D1|]. rewrite HR, HC in *.
    exists (flip_y (lb p) y), (flip_y (lb p) y0). split; [reflexivity|]. split.
    + split; [rewrite length_flip_y by congruence; exact Ly0|]. split.
      * intros j Hj. rewrite (inner_flip p y0 (fun i => ent (lA a) i j) (fun i => ent (lA p) i j)); auto; [|apply map_length|intros i Hi; now apply at_col|intros i Hi; unfold a; rewrite ent_aux1 by auto; now apply ent_neg].
        specialize (D3 j ltac:(fold n in Hj; unfold n, cols; lia)). specialize (CN j ltac:(unfold n, cols; lia)). unfold a at 1 in D3. rewrite lc_aux1 in D3 by auto. fold a in D3. fold m. rewrite D3 in CN. set (w := Sum m (fun i : nat => at_ y0 i * ent (lA a) i j)%Qc) in *. clear - CN. clearbody w. qclra.
      * rewrite (inner_flip p y0 (fun i => at_ (lb a) i) (at_ (lb p))); auto; [|intros i Hi; unfold a; rewrite lb_aux; apply lb_neg].
        pose proof (obj_bsol _ B q0 HB C0 (at_ x0) S0) as O2. rewrite D4, Eo in O2. fold m. set (w := Sum m (fun i : nat => at_ y0 i * at_ (lb a) i)%Qc) in *.
        assert (NZ : s0 <> 0%Qc).
        { intros Z. rewrite <- not_true_iff_false in Ec. apply Ec. apply close0_true. rewrite Z in Es. unfold within in Rv. apply qabs_le in Rv. apply qabs_le in Es. destruct Rv as (V1 & V2). destruct Es as (W1 & W2). set (u := (qz (Z.of_nat m) * T)%Qc) in *. clear - V1 V2 W1 W2 C4. clearbody u s. split; qclra. }
        assert (P0 : (0 < s0)%Qc) by (destruct (Qclt_le_dec 0 s0); auto; exfalso; apply NZ; now apply Qcle_antisym).
        set (z := lz a) in *. clear - O2 P0. clearbody w s0 z. qclra.
    + apply flip_close; [rewrite Ly; auto|rewrite Ly0; auto|]. rewrite Ly. intros i Hi. eapply Qcle_trans; [apply (D2 i Hi)|].
      rewrite !(Qcmult_comm (qz (Z.of_nat m) * qz K)). apply qmul_le_r; [|apply pos_mul; change 0%Qc with (qz 0); apply qz_le; lia]. apply qmul_le_r; auto. apply (weight_aux p H).
Qed.

(** ** the way back *)
Lemma r_merge_collapse e n : (0 <= e)%Qc -> forall suf pre i k fs r, length suf = n + length fs -> length pre = k -> from k n fs ->
  r_merge e i (cat i fs) (pre ++ suf) r -> exists suf', r = pre ++ suf' /\ length suf' = n /\ forall j, j < n -> (qabs (at_ suf' j - at_ (collapse k fs suf) j) <= e)%Qc.
Proof.
  intros He. assert (Z : forall u, (qabs (u - u) <= e)%Qc) by (intros u; now apply within_refl).
  induction n as [|n IH]; intros suf pre i k fs r HL Hp HF R.
  - destruct fs as [|f fs]; [|apply from_nonempty in HF; lia]. cbn in R. subst r. exists suf. split; auto. split; [simpl in HL; lia|]. intros; lia.
  - destruct fs as [|f fs]. { cbn in R. subst r. exists suf. split; auto. split; [simpl in HL; lia|]. intros. rewrite collapse_nil. apply Z. }
    destruct suf as [|a suf]; [simpl in HL; lia|]. cbn [collapse]. destruct (Nat.eqb_spec f k) as [->|Hne].
    + destruct suf as [|b suf]; [simpl in HL; lia|]. cbn [cat r_merge] in R. replace (k + i - i) with k in R by lia. destruct R as (v & Hv & R).
      rewrite !at_app2 in Hv by lia. replace (k - length pre) with 0 in Hv by lia. replace (S k - length pre) with 1 in Hv by lia. change (at_ (a :: b :: suf) 0) with a in Hv. change (at_ (a :: b :: suf) 1) with b in Hv.
      assert (E : delete_at (S k) (set_at (pre ++ a :: b :: suf) k v) = (pre ++ [v]) ++ suf).
      { assert (F : set_at (pre ++ a :: b :: suf) k v = pre ++ v :: b :: suf). { rewrite <- Hp. clear. induction pre as [|y pre IH]; simpl; auto. now rewrite IH. }
        rewrite F. unfold delete_at. rewrite firstn_app, skipn_app. rewrite firstn_all2, skipn_all2 by lia. replace (S k - length pre) with 1 by lia. replace (S (S k) - length pre) with 2 by lia. reflexivity. }
      rewrite E in R. destruct (IH suf (pre ++ [v]) (S i) (S k) fs r) as (suf' & -> & L & P); auto.
      * simpl in HL. lia.
      * rewrite app_length. simpl. lia.
      * apply (from_tail k (S n) k fs HF eq_refl).
      * exists (v :: suf'). split; [now rewrite <- app_assoc|]. split; [simpl; lia|]. intros [|j] Hj; [exact Hv|]. apply (P j). lia.
    + replace (pre ++ a :: suf) with ((pre ++ [a]) ++ suf) in R by now rewrite <- app_assoc.
      destruct (IH suf (pre ++ [a]) i (S k) (f :: fs) r) as (suf' & -> & L & P); auto.
      * rewrite app_length. simpl. lia.
      * apply (from_skip k (S n) f fs HF Hne).
      * exists (a :: suf'). split; [now rewrite <- app_assoc|]. split; [simpl; lia|]. intros [|j] Hj; [apply Z|]. apply (P j). lia.
Qed.
Lemma r_back_close e p t x x0 r : wf p -> lsef p = false -> (0 <= e)%Qc -> (0 <= t)%Qc -> length x = cols (fst (to_sef p)) -> length x0 = cols (fst (to_sef p)) ->
  (forall j, j < cols (fst (to_sef p)) -> (qabs (at_ x j - at_ x0 j) <= t)%Qc) ->
  r_back e (mkrev (length (lineq p)) (cat 0 (lfree p)) (lneg p)) x r -> close_by (qz 2 * t + e)%Qc r (down p x0).
Proof.
  intros H Hs He Ht Lx L0 HX (x2 & R & ->). cbn [r_drop r_concat r_negative] in *. cbv zeta in R.
  destruct (split_point p H Hs x Lx) as (x1 & x3 & -> & L1 & L3).
  assert (E : (if Nat.ltb 0 (length (lineq p)) then firstn (length (x1 ++ x3) - length (lineq p)) (x1 ++ x3) else x1 ++ x3) = x1).
  { rewrite <- (ks_length p H). destruct (Nat.ltb_spec 0 (length (filter (has (lineq p)) (seq 0 (rows p))))).
    - rewrite app_length. replace (length x1 + length x3 - length (filter (has (lineq p)) (seq 0 (rows p)))) with (length x1) by lia.
      rewrite firstn_app, Nat.sub_diag, firstn_all. simpl. apply app_nil_r.
    - destruct x3; [apply app_nil_r|simpl in L3; lia]. }
  rewrite E in R. destruct (r_merge_collapse e (cols p) He x1 [] 0 0 (lfree p) x2) as (x2' & E2 & L2 & P); auto; [apply (free_from p H)|]. cbn [app] in E2. subst x2'.
  assert (LD : length (down p x0) = cols p). { destruct (split_point p H Hs x0 L0) as (z1 & z3 & -> & Z1 & Z3). rewrite (down_split p H) by auto. rewrite length_neg_all. apply length_collapse; auto. apply (free_from p H). }
  split; [rewrite length_neg_all; congruence|]. rewrite length_neg_all, L2. intros j Hj.
  assert (S1 : (qabs (at_ (fold_left (fun x i => neg_at i x) (lneg p) x2) j - at_ (down p (x1 ++ x3)) j) <= e)%Qc).
  { rewrite (down_split p H) by auto. rewrite !at_neg_all by apply (neg_nodup p H). specialize (P j Hj). destruct (inb j (lneg p)); auto. replace (- at_ x2 j - - at_ (collapse 0 (lfree p) x1) j)%Qc with (- (at_ x2 j - at_ (collapse 0 (lfree p) x1) j))%Qc by ring. now rewrite qabs_opp. }
  assert (HB : below (lfree p) j <= length (lfree p)). { unfold below. clear. induction (lfree p) as [|f l IH]; simpl; [lia|]. destruct (Nat.ltb f j); simpl; lia. }
  pose proof (sef_cols p H Hs) as HC.
  assert (S2 : (qabs (at_ (down p (x1 ++ x3)) j - at_ (down p x0) j) <= qz 2 * t)%Qc).
  { rewrite !(down_at p H Hs) by auto. cbv zeta. assert (A1 : (qabs (at_ (x1 ++ x3) (j + below (lfree p) j) - at_ x0 (j + below (lfree p) j)) <= t)%Qc) by (apply HX; lia). destruct (inb j (lfree p)) eqn:EF.
    - assert (HB' : below (lfree p) j < length (lfree p)).
      { apply inb_In in EF. clear - EF. unfold below. induction (lfree p) as [|f l IH]; simpl in *; [contradiction|].
        assert (length (filter (fun f => Nat.ltb f j) l) <= length l) by (clear; induction l as [|g l IH]; simpl; [lia|]; destruct (Nat.ltb g j); simpl; lia).
        destruct EF as [->|E]; [rewrite Nat.ltb_irrefl; lia|]. specialize (IH E). destruct (Nat.ltb f j); simpl; lia. }
      assert (A2 : (qabs (at_ (x1 ++ x3) (S (j + below (lfree p) j)) - at_ x0 (S (j + below (lfree p) j))) <= t)%Qc) by (apply HX; lia).
      apply qabs_le in A1. apply qabs_le in A2. apply qabs_le. revert A1 A2. generalize (at_ (x1 ++ x3) (j + below (lfree p) j)) (at_ (x1 ++ x3) (S (j + below (lfree p) j))) (at_ x0 (j + below (lfree p) j)) (at_ x0 (S (j + below (lfree p) j))). clear. intros a b c d (A & B) (C & D). unfold qz, inject_Z. split; qclra.
    - apply qabs_le in A1. apply qabs_le. revert A1. generalize (at_ (x1 ++ x3) (j + below (lfree p) j)) (at_ x0 (j + below (lfree p) j)). clear - Ht. intros a c (A & B). unfold qz, inject_Z. destruct (inb j (lneg p)); split; qclra. }
  apply qabs_le in S1. apply qabs_le in S2. change (nth j ?l 0%Qc) with (at_ l j). apply qabs_le. revert S1 S2. generalize (at_ (fold_left (fun x i => neg_at i x) (lneg p) x2) j) (at_ (down p (x1 ++ x3)) j) (at_ (down p x0) j). clear. intros a b c (A & B) (C & D). unfold qz, inject_Z in *. split; qclra.
Qed.
Lemma two_phase_nonneg e p r : r_two_phase e p r -> (0 <= e)%Qc.
Proof. intros (a0 & x & Bo & cert & v & _ & R & _). exact (simplex_nonneg _ _ _ _ R). Qed.
