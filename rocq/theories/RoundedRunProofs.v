(** The simplex method with rounding errors takes the steps of the exact one. *)
From Coq Require Import String List Bool Arith ZArith QArith Qcanon Lia Sorted.
From Verif Require Import Py QcTac QSum QInt ComparatorModel ComparatorProofs MatModel DetTheory MatTheory LinearModel LinearSpec LinearProofs SefProofs LinearInv DualProofs BasisProofs BlandProofs SimplexProofs SmallProofs TwoPhaseProofs LinearProps SimplexProps RoundedModel RoundedSpec RoundedProofs RoundedExact RoundedProps RoundedSolveModel RoundedSolveSpec RoundedSolveProofs RoundedRunModel RoundedRunSpec.
Import ListNotations.
Open Scope nat_scope.
Open Scope string_scope.
Open Scope list_scope.

(** * Numbers *)
Definition del : Qc := Q2Qc (4 # 1000000000).
(** the quotients of the exact ratio test *)
Definition fraction (r : Qc) : Prop := exists P Q, isint P /\ isint Q /\ (0 <= P /\ P <= qz 300 /\ 1 <= Q /\ Q <= qz 300)%Qc /\ r = (P / Q)%Qc.
Definition near (r r0 : Qc) : Prop := (qabs (r - r0) <= del)%Qc /\ (r0 = 0%Qc -> (qabs r < tol_zero)%Qc).
Lemma pos_nz (q : Qc) : (1 <= q)%Qc -> q <> 0%Qc. Proof. intros H E. rewrite E in H. apply H. reflexivity. Qed.
Lemma frac_nonneg r : fraction r -> (0 <= r)%Qc.
Proof.
  intros (P & Q & _ & _ & (H1 & _ & H3 & _) & ->). unfold Qcdiv. apply qmul_nonneg; auto. apply Qcnot_lt_le. intros K.
  assert (E : (/ Q * Q = 1)%Qc) by (field; now apply pos_nz). assert (0 < - / Q * Q)%Qc by (apply qmul_pos; qclra). replace (- / Q * Q)%Qc with (- (/ Q * Q))%Qc in H by ring. rewrite E in H. discriminate H.
Qed.
Lemma frac_pos r : fraction r -> (0 < r)%Qc -> (Q2Qc (1 # 300) <= r)%Qc.
Proof.
  intros (P & Q & IP & _ & (H1 & _ & H3 & H4) & ->) L. pose proof (pos_nz Q H3) as NQ. assert (E : (P / Q * Q)%Qc = P) by (field; auto). set (r := (P / Q)%Qc) in *. clearbody r.
  assert (0 < P)%Qc by (rewrite <- E; apply qmul_pos; auto; qclra). apply isint_pos in H; auto. assert (r * Q <= r * qz 300)%Qc by (rewrite !(Qcmult_comm r); apply qmul_le_r; auto; qclra). rewrite E in H0. unfold qz, inject_Z in *. qclra.
Qed.
Lemma frac_gap r t : fraction r -> fraction t -> (r < t)%Qc -> (Q2Qc (1 # 10000000) + np_atol + np_rtol * t < t - r)%Qc.
Proof.
  intros (P & Q & IP & IQ & (P1 & P2 & Q1 & Q2) & ->) (P' & Q' & IP' & IQ' & (P1' & P2' & Q1' & Q2') & ->) L.
  pose proof (pos_nz Q Q1) as NQ. pose proof (pos_nz Q' Q1') as NQ'. assert (Q0 : (0 < Q)%Qc) by qclra. assert (Q0' : (0 < Q')%Qc) by qclra.
  pose proof (qdiv_lt _ _ _ _ Q0 Q0' L) as X. assert (G : (1 <= P' * Q - P * Q')%Qc). { apply isint_pos; [|qclra]. apply isint_sub; now apply isint_mul. }
  assert (E : (P / Q * Q)%Qc = P) by (field; auto). assert (E' : (P' / Q' * Q')%Qc = P') by (field; auto). set (r := (P / Q)%Qc) in *. set (t := (P' / Q')%Qc) in *. clearbody r t. clear L X.
  apply Qcnot_le_lt. intros C. assert (W : ((t - r) * (Q * Q') <= (Q2Qc (1 # 10000000) + np_atol + np_rtol * t) * (Q * Q'))%Qc). { apply qmul_le_r; auto. apply qmul_nonneg; qclra. }
  replace ((t - r) * (Q * Q'))%Qc with (P' * Q - P * Q')%Qc in W by (rewrite <- E, <- E'; ring). replace ((Q2Qc (1 # 10000000) + np_atol + np_rtol * t) * (Q * Q'))%Qc with ((Q2Qc (1 # 10000000) + np_atol) * (Q * Q') + np_rtol * (P' * Q))%Qc in W by (rewrite <- E'; ring).
  assert (B1 : (Q * Q' <= qz 90000)%Qc). { eapply Qcle_trans; [apply qmul_le_r; [exact Q2|qclra]|]. replace (qz 90000) with (qz 300 * qz 300)%Qc by (apply Qc_is_canon; reflexivity). rewrite !(Qcmult_comm (qz 300)). apply qmul_le_r; auto. discriminate. }
  assert (B2 : (P' * Q <= qz 90000)%Qc). { eapply Qcle_trans; [apply qmul_le_r; [exact P2'|qclra]|]. replace (qz 90000) with (qz 300 * qz 300)%Qc by (apply Qc_is_canon; reflexivity). rewrite !(Qcmult_comm (qz 300)). apply qmul_le_r; auto. discriminate. }
  set (u := (Q * Q')%Qc) in *. set (v := (P' * Q)%Qc) in *. clearbody u v. set (z := (P * Q')%Qc) in *. clearbody z. unfold np_atol, np_rtol, qz, inject_Z in *. clear - W B1 B2 G. qclra.
Qed.
Lemma compare_same r r0 t t0 : fraction r0 -> fraction t0 -> near r r0 -> near t t0 -> cc_lt r t = cc_lt r0 t0.
Proof.
  intros F1 F2 (N1 & Z1) (N2 & Z2). pose proof (frac_nonneg _ F1) as P1. pose proof (frac_nonneg _ F2) as P2. apply qabs_le in N1. apply qabs_le in N2. unfold del in *.
  destruct (Q_dec (this r0) (this t0)) as [[L|L]|L].
  - change (r0 < t0)%Qc in L. pose proof (frac_gap _ _ F1 F2 L) as G. assert (PT : (0 < t0)%Qc) by (clear - P1 L; qclra). pose proof (frac_pos _ F2 PT) as M.
    assert (R : cc_lt r0 t0 = true).
    { unfold cc_lt, comparator. destruct (qeq_spec t0 0) as [E|_]; [exfalso; rewrite E in PT; discriminate PT|]. unfold np_isclose. destruct (qle_spec (qabs (r0 - t0)) (np_atol + np_rtol * qabs t0)) as [C|_]; cbn [negb andb].
      - exfalso. apply qabs_le in C. destruct C as (C & _). assert (A : qabs t0 = t0) by (unfold qabs; destruct (qlt_spec t0 0); auto; exfalso; qclra). rewrite A in C. unfold np_atol, np_rtol in *. clear - C G. qclra.
      - destruct (qlt_spec r0 t0); auto. }
    rewrite R. unfold cc_lt, comparator. destruct (qeq_spec t 0) as [E|_]; [exfalso; rewrite E in N2; clear - N2 M; destruct N2; qclra|]. unfold np_isclose. destruct (qle_spec (qabs (r - t)) (np_atol + np_rtol * qabs t)) as [C|_]; cbn [negb andb].
    + exfalso. apply qabs_le in C. destruct C as (C & _). assert (A : qabs t = t) by (unfold qabs; destruct (qlt_spec t 0); auto; exfalso; clear - q N2 M; destruct N2; qclra). rewrite A in C. unfold np_atol, np_rtol in *. clear - C G N1 N2. destruct N1, N2. qclra.
    + destruct (qlt_spec r t) as [|C]; auto. exfalso. unfold np_atol, np_rtol in *. clear - C G N1 N2 PT. destruct N1, N2. qclra.
  - change (t0 < r0)%Qc in L. pose proof (frac_gap _ _ F2 F1 L) as G. unfold np_atol, np_rtol in G. unfold cc_lt. destruct (qlt_spec r t) as [C|_]; [exfalso; clear - C G N1 N2 P1; destruct N1, N2; qclra|]. destruct (qlt_spec r0 t0) as [C|_]; [exfalso; clear - C L; qclra|]. now rewrite !andb_false_r.
  - assert (E : r0 = t0) by now apply Qc_is_canon. subst t0. clear L. unfold cc_lt at 2. destruct (qlt_spec r0 r0) as [C|_]; [exfalso; clear - C; qclra|]. rewrite andb_false_r.
    unfold cc_lt. apply andb_false_iff. left. apply negb_false_iff. unfold comparator. destruct (qeq_spec t 0) as [E|_].
    + assert (r0 = 0%Qc). { destruct (Qclt_le_dec 0 r0) as [C|C]; [|apply Qcle_antisym; auto]. exfalso. pose proof (frac_pos _ F1 C). rewrite E in N2. clear - H N2. destruct N2; qclra. }
      specialize (Z1 H). unfold is_close_to_zero. destruct (qlt_spec (qabs r) tol_zero); auto.
    + unfold np_isclose. match goal with |- qle ?a ?b = true => destruct (qle_spec a b) as [|C]; auto end. exfalso. assert (A : (qabs (r - t) <= np_atol)%Qc) by (apply qabs_le; unfold np_atol; clear - N1 N2; destruct N1, N2; split; qclra).
      assert (A2 : (0 <= np_rtol * qabs t)%Qc) by (apply qmul_nonneg; [discriminate|apply QcTac.qabs_nonneg]). set (v := qabs (r - t)) in *. set (w := (np_rtol * qabs t)%Qc) in *. clear - A A2 C. clearbody v w. qclra.
Qed.
Lemma ratio_error h k e a a0 b b0 r : (0 <= e)%Qc -> (e <= h)%Qc -> (1 <= k)%Qc -> (qz 16 * (h * k) < tol_zero)%Qc -> (1 <= a0 * k)%Qc -> (qabs (a - a0) <= h)%Qc -> (qabs (b - b0) <= h)%Qc ->
  (0 <= b0 / a0 /\ b0 / a0 <= qz 300)%Qc -> within e r (b / a) -> near r (b0 / a0).
Proof.
  intros He Hh K1 HT HA EA EB (R0 & R1) Hr. assert (K0 : (0 <= k)%Qc) by (clear - K1; qclra). assert (h0 : (0 <= h)%Qc) by (clear - He Hh; qclra). assert (hk : (0 <= h * k)%Qc) by now apply qmul_nonneg.
  assert (h1 : (h <= h * k)%Qc). { rewrite <- (Qcmult_1_l h) at 1. rewrite (Qcmult_comm h k). now apply qmul_le_r. }
  assert (NA0 : a0 <> 0%Qc). { intros E. rewrite E, Qcmult_0_l in HA. apply HA. reflexivity. }
  apply qabs_le in EA. apply qabs_le in EB. assert (S1 : (Q2Qc (1 # 2) <= a * k)%Qc).
  { assert ((a0 - h) * k <= a * k)%Qc by (apply qmul_le_r; auto; clear - EA; destruct EA; qclra). replace ((a0 - h) * k)%Qc with (a0 * k - h * k)%Qc in H by ring. set (u := (h * k)%Qc) in *. set (v := (a0 * k)%Qc) in *. set (w := (a * k)%Qc) in *. clear - H HT HA. clearbody u v w. unfold qz, inject_Z, tol_zero in *. qclra. }
  assert (NA : a <> 0%Qc). { intros E. rewrite E, Qcmult_0_l in S1. apply S1. reflexivity. }
  assert (E0 : (b0 / a0 * a0)%Qc = b0) by (field; auto). set (r0 := (b0 / a0)%Qc) in *. assert (E1 : (b / a * a)%Qc = b) by (field; auto). set (u := (b / a)%Qc) in *. clearbody r0 u.
  assert (X : (qabs ((u - r0) * (a * k)) <= (1 + r0) * (h * k))%Qc).
  { replace ((u - r0) * (a * k))%Qc with ((u * a - r0 * a) * k)%Qc by ring. rewrite E1. replace (b - r0 * a)%Qc with ((b - b0) + r0 * (a0 - a))%Qc by (rewrite <- E0; ring). rewrite qabs_mul. assert (AK : qabs k = k) by (unfold qabs; destruct (qlt_spec k 0); auto; exfalso; clear - q K0; qclra). rewrite AK.
    replace ((1 + r0) * (h * k))%Qc with ((h + r0 * h) * k)%Qc by ring. apply qmul_le_r; auto. apply abs_le_add; [now apply qabs_le|]. rewrite qabs_mul. assert (AR : qabs r0 = r0) by (unfold qabs; destruct (qlt_spec r0 0); auto; exfalso; clear - q R0; qclra). rewrite AR. rewrite !(Qcmult_comm r0). apply qmul_le_r; auto. apply qabs_le. clear - EA. destruct EA. split; qclra. }
  assert (Y : (qabs (u - r0) * Q2Qc (1 # 2) <= (1 + r0) * (h * k))%Qc).
  { eapply Qcle_trans; [|exact X]. rewrite qabs_mul. rewrite !(Qcmult_comm (qabs (u - r0))). apply qmul_le_r; [|apply QcTac.qabs_nonneg]. unfold qabs. destruct (qlt_spec (a * k) 0) as [C|C]; auto. exfalso. set (w := (a * k)%Qc) in *. clear - C S1. clearbody w. qclra. }
  unfold within in Hr. apply qabs_le in Hr. split.
  - assert (Z : ((1 + r0) * (h * k) <= qz 301 * (h * k))%Qc). { apply qmul_le_r; auto. unfold qz, inject_Z in *. clear - R1. qclra. }
    assert (V : (qabs (u - r0) <= Q2Qc (38 # 10000000000))%Qc). { set (w := (h * k)%Qc) in *. set (z := ((1 + r0) * w)%Qc) in *. set (g := qabs (u - r0)) in *. clear - Y Z HT. clearbody w z g. unfold qz, inject_Z, tol_zero in *. qclra. }
    apply qabs_le in V. apply qabs_le. unfold del. set (w := (h * k)%Qc) in *. clear - V Hr Hh h1 HT. clearbody w. destruct V, Hr. unfold qz, inject_Z, tol_zero in *. split; qclra.
  - intros Z. rewrite Z in Y. replace (u - 0)%Qc with u in Y by ring. replace ((1 + 0) * (h * k))%Qc with (h * k)%Qc in Y by ring. set (w := (h * k)%Qc) in *. assert (V : (qabs u <= Q2Qc (1 # 80000000000))%Qc). { set (g := qabs u) in *. clear - Y HT. clearbody g w. unfold qz, inject_Z, tol_zero in *. qclra. }
    apply qabs_le in V. unfold qabs. destruct (qlt_spec r 0); clear - V Hr Hh h1 HT; clearbody w; destruct V, Hr; unfold qz, inject_Z, tol_zero in *; qclra.
Qed.

(** the ratio test on slightly wrong numbers *)
Lemma run_ratio_same e b : forall a b0 a0 i t t0 leave o, length a = length b -> length b0 = length b -> length a0 = length b ->
  (forall i, i < length b -> is_positive (at_ a i) = is_positive (at_ a0 i)) ->
  (forall i, i < length b -> is_positive (at_ a0 i) = true -> fraction (at_ b0 i / at_ a0 i)%Qc /\ forall r, within e r (at_ b i / at_ a i)%Qc -> near r (at_ b0 i / at_ a0 i)%Qc) ->
  match t, t0 with None, None => True | Some t, Some t0 => fraction t0 /\ near t t0 | _, _ => False end ->
  run_ratio e i b a t leave o -> o = ratio_test i b0 a0 t0 leave.
Proof.
  induction b as [|u b IH]; intros [|v a] [|u0 b0] [|v0 a0] i t t0 leave o; cbn [length]; intros L1 L2 L3 HP HR HT; try discriminate; cbn [run_ratio ratio_test]; auto.
  pose proof (HP 0 ltac:(lia)) as P0. pose proof (HR 0 ltac:(lia)) as R0. unfold at_ in P0, R0. cbn [nth] in P0, R0. rewrite P0.
  assert (HP' : forall i, i < length b -> is_positive (at_ a i) = is_positive (at_ a0 i)) by (intros j Hj; apply (HP (S j)); lia).
  assert (HR' : forall i, i < length b -> is_positive (at_ a0 i) = true -> fraction (at_ b0 i / at_ a0 i)%Qc /\ forall r, within e r (at_ b i / at_ a i)%Qc -> near r (at_ b0 i / at_ a0 i)%Qc) by (intros j Hj; apply (HR (S j)); lia).
  destruct (is_positive v0) eqn:EV.
  - destruct (R0 eq_refl) as (F & N). intros (r & Hr & G). specialize (N r Hr).
    assert (C : match t with None => true | Some t => cc_lt r t end = match t0 with None => true | Some t1 => cc_lt (u0 / v0)%Qc t1 end).
    { destruct t as [t|], t0 as [t0|]; try contradiction; auto. destruct HT as (F0 & N0). now apply compare_same. }
    rewrite C in G. destruct (match t0 with None => true | Some t1 => cc_lt (u0 / v0)%Qc t1 end).
    + apply (IH a b0 a0 (S i) (Some r) (Some (u0 / v0)%Qc) (Some i) o); auto.
    + apply (IH a b0 a0 (S i) t t0 leave o); auto.
  - apply IH; auto.
Qed.
(** the same step; points differ by at most [t] *)
Definition same_iter (t : Qc) (it it0 : iter) : Prop :=
  match it, it0 with
  | Optimal x B _, Optimal x0 B0 _ | Unbounded x B _, Unbounded x0 B0 _ => B = B0 /\ close_by t x x0
  | Next B _, Next B0 _ => B = B0
  | _, _ => False
  end.
Lemma find_ext {A} (f g : A -> bool) l : (forall a, In a l -> f a = g a) -> find f l = find g l.
Proof. induction l as [|a l IH]; intros H; [reflexivity|]. cbn [find]. rewrite (H a) by now left. rewrite IH; auto. intros; apply H; now right. Qed.
Lemma forallb_take_ext f (l : list nat) u v : (forall j, In j l -> f (at_ u j) = f (at_ v j)) -> forallb f (take l u) = forallb f (take l v).
Proof. induction l as [|a l IH]; intros H; [reflexivity|]. cbn. rewrite (H a) by now left. f_equal. apply IH. intros; apply H; now right. Qed.
Lemma forallb_at_ext f u v : length u = length v -> (forall j, j < length u -> f (at_ u j) = f (at_ v j)) -> forallb f u = forallb f v.
Proof.
  revert v. induction u as [|a u IH]; intros [|b v]; cbn [length]; intros L H; try discriminate; auto. cbn [forallb]. pose proof (H 0 ltac:(lia)) as H0. unfold at_ in H0. cbn [nth] in H0. rewrite H0. f_equal. apply IH; [lia|]. intros j Hj. apply (H (S j)). lia.
Qed.
Lemma le_positive v : cc_le v 0 = negb (is_positive v). Proof. apply cc_le_gt. Qed.
(** a feasible basis is followed by a feasible basis *)
Lemma next_keeps P Bz B' q1 : wf P -> lsef P = true -> negate_rows P = P -> separated P -> is_basis P Bz = Ok true -> fbasis P (sort (to_array_indexing Bz)) ->
  simplex_iteration P Bz = Ok (Next B' q1) -> is_basis P (to_math_indexing B') = Ok true /\ fbasis P (sort (to_array_indexing (to_math_indexing B'))).
Proof.
  intros H Hs Hn HS HBz HF E. set (B := sort (to_array_indexing Bz)) in *. destruct (iteration_cases P Bz H Hs HBz) as (q & HI & HR). fold B in HI, HR. rewrite Hn in HI, HR.
  pose proof (fbasis_b P B q HI HF) as Hb. destruct HR as [(it & Eit & HR)|[(Eit & _)|(Eit & _)]]; rewrite E in Eit; try discriminate. injection Eit as <-.
  assert (q1 = q) by apply HR. subst q1. assert (HSB : separated_at P B q) by (apply HS; apply HI). destruct (next_step P B q B' H HI HSB Hb HR) as (k & l & St).
  destruct HF as (f & Hf & Hfp). destruct (step_sol P B B' q k l f H St Hf Hfp) as (HB' & g & Hg & Hgp & _).
  assert (EB' : sort (to_array_indexing (to_math_indexing B')) = B') by (rewrite array_math; apply sort_id, HB'). rewrite EB'. split; [|exists g; auto].
  apply basis_is_basis; auto. { apply is_basis_true in HBz. lia. } destruct (basis_canon P B' H HB') as (q' & Eq' & _). apply (sp_det P B' q'). now apply HS.
Qed.

(** * One iteration *)
Section Step.
  Variables (e : Qc) (K : Z) (p : lp).
  Hypothesis Hp : wf p.
  Hypothesis HI : whole_numbers p.
  Hypothesis HM : minors_at_most K p.
  Hypothesis HK : (1 <= K <= 300)%Z.
  Hypothesis He : (0 <= e)%Qc.
  Let m := qz (Z.of_nat (rows p)).
  Let k := qz K.
  Hypothesis Hc : (qz 16 * e * weight p * (1 + m * k) * k < tol_zero)%Qc.
  Let P := negate_rows p.
  Let HP : wf P := wf_negate p Hp.
  Let h := (e * (1 + m * k))%Qc.
  Let k1 : (1 <= k)%Qc. Proof. unfold k. change 1%Qc with (qz 1). apply qz_le. lia. Qed.
  Let k3 : (k <= qz 300)%Qc. Proof. unfold k. apply qz_le. lia. Qed.
  Let w1 : (1 <= weight p)%Qc. Proof. apply (weight_ge p Hp). Qed.
  Let m0 : (0 <= m)%Qc. Proof. unfold m. change 0%Qc with (qz 0). apply qz_le. lia. Qed.
  Let k0 : (0 <= k)%Qc. Proof. eapply Qcle_trans; [|exact k1]. discriminate. Qed.
  Let w0 : (0 <= weight p)%Qc. Proof. eapply Qcle_trans; [|exact w1]. discriminate. Qed.
  Let mk1 : (1 <= 1 + m * k)%Qc.
  Proof. assert (0 <= m * k)%Qc by (apply qmul_nonneg; [exact m0|exact k0]). set (a := (m * k)%Qc) in *. clear - H. clearbody a. qclra. Qed.
  Let h0 : (0 <= h)%Qc. Proof. unfold h. apply qmul_nonneg; auto. eapply Qcle_trans; [|exact mk1]. discriminate. Qed.
  Let eh : (e <= h)%Qc. Proof. unfold h. rewrite (Qcmult_comm e). rewrite <- (Qcmult_1_l e) at 1. now apply qmul_le_r. Qed.
  Let whk : (qz 16 * (weight p * h * k) < tol_zero)%Qc.
  Proof. replace (qz 16 * (weight p * h * k))%Qc with (qz 16 * e * weight p * (1 + m * k) * k)%Qc by (unfold h; ring). exact Hc. Qed.
  Let wh : (0 <= weight p * h)%Qc. Proof. apply qmul_nonneg; auto. Qed.
  Let hk_le : (h * k <= weight p * h * k)%Qc.
  Proof. apply qmul_le_r; auto. now apply one_le_mul. Qed.
  Lemma hk16 : (qz 16 * (h * k) < tol_zero)%Qc.
  Proof. pose proof hk_le as A. pose proof whk as B. set (u := (h * k)%Qc) in *. set (v := (weight p * h * k)%Qc) in *. clear - A B. clearbody u v. unfold qz, inject_Z in *. qclra. Qed.
  Lemma wh16 : (qz 16 * (weight p * h) < tol_zero)%Qc.
  Proof. assert (A : (weight p * h <= weight p * h * k)%Qc) by (rewrite (Qcmult_comm _ k); now apply one_le_mul). pose proof whk as B. set (u := (weight p * h)%Qc) in *. set (v := (u * k)%Qc) in *. clear - A B. clearbody u v. unfold qz, inject_Z in *. qclra. Qed.
  Lemma h16 : (qz 16 * h < tol_zero)%Qc.
  Proof. assert (A : (h <= h * k)%Qc) by (rewrite (Qcmult_comm _ k); now apply one_le_mul). pose proof hk16 as B. set (v := (h * k)%Qc) in *. clear - A B. clearbody v h. unfold qz, inject_Z in *. qclra. Qed.
  Lemma whole32 : (qz 32 * e * qz K * weight p * (1 + qz (Z.of_nat (rows p)) * qz K) <= 1)%Qc.
  Proof.
    fold m k. pose proof whk as B. replace (qz 32 * e * k * weight p * (1 + m * k))%Qc with (qz 32 * (weight p * h * k))%Qc by (unfold h; ring). set (v := (weight p * h * k)%Qc) in *. clear - B. clearbody v. unfold qz, inject_Z, tol_zero in *. qclra.
  Qed.
  Let HK9 : (1 <= K <= 10 ^ 9)%Z. Proof. lia. Qed.
  Lemma small_p : small_data p.
  Proof.
    apply integers_data. destruct HI as (I1 & I2 & I3). constructor; auto. intros s Ls Hs. eapply Qcle_trans; [now apply HM|exact k3].
  Qed.
  Lemma sep_P : separated P. Proof. apply sep_of_small; auto. exact small_p. Qed.
  (** the test of the determinant *)
  Lemma check_same Bz ok : run_is_basis e P Bz ok -> ok = is_basis P Bz.
  Proof.
    unfold run_is_basis, is_basis. destruct (negb (Nat.eqb (rows P) (length Bz))) eqn:E1; auto. destruct (Nat.eqb (length Bz) 0) eqn:E2; auto. destruct (negb (forallb _ Bz)) eqn:E3; auto. intros (d & Hd & ->). f_equal. f_equal.
    apply negb_false_iff, Nat.eqb_eq in E1. apply negb_false_iff in E3. rewrite forallb_forall in E3.
    set (B := sort (to_array_indexing Bz)) in *. assert (LB : length B = rows P) by (unfold B; rewrite length_sort; unfold to_array_indexing; now rewrite map_length).
    assert (RB : forall j, In j B -> j < cols P). { intros j Hj. unfold B in Hj. apply (proj1 (In_sort _ _)) in Hj. unfold to_array_indexing in Hj. apply in_map_iff in Hj. destruct Hj as (z & <- & Hz). specialize (E3 z Hz). apply andb_true_iff in E3. rewrite !Z.leb_le in E3. lia. }
    assert (ED : mdet (columns_of B (lA P)) = minor P B).
    { unfold mdet. rewrite length_columns. symmetry. apply minor_ext; auto. intros i j Hi Hj. rewrite (append_A P HP) by (auto; apply RB, nth_In; rewrite LB; exact Hj). rewrite ent_columns; auto. now rewrite LB. }
    assert (IM : isint (minor P B)) by (apply (mint p Hp HI); auto; intros j Hj; apply Nat.lt_le_incl, RB; exact Hj). rewrite ED in *. clear ED. set (D := minor P B) in *. clearbody D. unfold within in Hd. apply qabs_le in Hd.
    pose proof h16 as T. pose proof eh as EH. unfold is_close_to_zero. destruct (qeq_spec D 0) as [->|N].
    - assert (A : (qabs d < tol_zero)%Qc). { unfold qabs. destruct (qlt_spec d 0); clear - Hd T EH h0; clearbody h; destruct Hd; unfold qz, inject_Z in *; qclra. }
      destruct (qlt_spec (qabs d) tol_zero); [|contradiction]. reflexivity.
    - apply int_nonzero in IM; auto. assert (A : (tol_zero <= qabs d)%Qc /\ (tol_zero <= qabs D)%Qc).
      { unfold qabs. clear - IM T EH Hd h0. clearbody h. destruct Hd. unfold qz, inject_Z, tol_zero in *. split; [destruct (qlt_spec d 0)|destruct (qlt_spec D 0)]; destruct IM; qclra. }
      destruct (qlt_spec (qabs d) tol_zero) as [C|_]; [exfalso; clear - C A; destruct A; qclra|]. destruct (qlt_spec (qabs D) tol_zero) as [C|_]; auto. exfalso. clear - C A. destruct A. qclra.
  Qed.
  Section Facts.
    Variables (B : list nat) (q : lp) (x : list Qc) (W V : nat -> nat -> Qc) (y : nat -> Qc) (q0 : lp).
    Hypothesis HF : facts e P B q x W V y.
    Hypothesis HB : basis P B.
    Hypothesis E0 : canonical P B = Ok q0.
    Hypothesis C0 : canon P B q0.
    Let qr := quarter_rows e p K Hp He HK9 whole32.
    Let D := minor P B.
    Let DN : D <> 0%Qc. Proof. apply minor_nonzero; auto. Qed.
    Let Bl : forall j, In j B -> j <= cols P. Proof. intros j Hj. apply Nat.lt_le_incl, (bs_lt _ _ HB), Hj. Qed.
    Let cok i j : j <= cols P -> length (with_column B i j) = rows P /\ forall l, In l (with_column B i j) -> l <= cols P.
    Proof. apply (column_ok e p B q x W V y K Hp HF He HK9 whole32). Qed.
    Let qab i j : j <= cols P -> (qabs (minor P (with_column B i j) / D) <= k)%Qc.
    Proof. apply (quotient_abs e p B q x W V y K Hp HF He HI HM HK9 whole32). Qed.
    Lemma n1_col j : j < cols P -> (1 + N1 (rows P) (fun l => ent (lA q0) l j) <= 1 + m * k)%Qc.
    Proof.
      intros Hj. assert (A : (N1 (rows P) (fun l => ent (lA q0) l j) <= m * k)%Qc).
      { replace m with (qz (Z.of_nat (rows P))) by (unfold m, P; now rewrite rows_neg). apply N1_le. intros l Hl. rewrite (canonical_ent P B q0 HP HB E0 l j Hl Hj). apply qab. lia. }
      set (n1 := N1 _ _) in *. set (b := (m * k)%Qc) in *. clear - A. clearbody n1 b. qclra.
    Qed.
    Lemma n1_rhs : (1 + N1 (rows P) (at_ (lb q0)) <= 1 + m * k)%Qc.
    Proof.
      assert (A : (N1 (rows P) (at_ (lb q0)) <= m * k)%Qc).
      { replace m with (qz (Z.of_nat (rows P))) by (unfold m, P; now rewrite rows_neg). apply N1_le. intros l Hl. rewrite (canonical_b P B q0 HP HB E0 l Hl). apply qab. lia. }
      set (n1 := N1 _ _) in *. set (b := (m * k)%Qc) in *. clear - A. clearbody n1 b. qclra.
    Qed.
    Lemma ent_close i j : i < rows P -> j < cols P -> ~ In j B -> (qabs (ent (lA q) i j - ent (lA q0) i j) <= h)%Qc.
    Proof.
      intros Hi Hj Hn. eapply Qcle_trans; [apply (entries_error e p B q x W V y HF He qr q0 i j C0 Hi Hj Hn)|]. unfold h. rewrite !(Qcmult_comm e). apply qmul_le_r; auto. now apply n1_col.
    Qed.
    Lemma cost_close j : j < cols P -> ~ In j B -> (qabs (at_ (lc q) j - at_ (lc q0) j) <= weight p * h)%Qc.
    Proof.
      intros Hj Hn. eapply Qcle_trans; [apply (costs_error e p B q x W V y Hp HF He qr q0 j C0 Hj Hn)|]. fold P. assert (WE : weight P = weight p) by (now apply weight_neg). rewrite WE.
      unfold h. replace (weight p * (e * (1 + m * k)))%Qc with ((1 + m * k) * (e * weight p))%Qc by ring. match goal with |- (e * (weight p * ?a) <= _)%Qc => replace (e * (weight p * a))%Qc with (a * (e * weight p))%Qc by ring end. apply qmul_le_r; [now apply n1_col|now apply qmul_nonneg].
    Qed.
    Lemma rhs_close i : i < rows P -> (qabs (at_ (lb q) i - at_ (lb q0) i) <= h)%Qc.
    Proof.
      intros Hi. pose proof (bsol_scatter P B q0 HB C0) as SB. set (f := at_ (scatter (cols P) B (lb q0))) in *.
      assert (EA : forall i, i < rows P -> at_ (lb P) i = Sum (rows P) (fun l => ent (lA P) i (bk B l) * at_ (lb q0) l)%Qc).
      { clear i Hi. intros i Hi. pose proof (proj1 SB i Hi) as S1. unfold lhs in S1. rewrite (Sum_nth B) in S1; [|apply (bs_NoDup P B HB)|apply HB|intros j Hj Hn; rewrite (proj2 SB j Hj Hn); ring].
        rewrite (bs_len _ _ HB) in S1. rewrite Qcmult_1_l in S1. rewrite <- S1. apply Sum_ext. intros l Hl. fold (bk B l). now rewrite (bsol_at P B q0 HB C0 f SB l Hl). }
      assert (E : (Sum (rows P) (fun r => W i r * at_ (lb P) r) - at_ (lb q0) i = Sum (rows P) (fun l => (Sum (rows P) (fun r => W i r * ent (lA P) r (bk B l)) - delta i l) * at_ (lb q0) l))%Qc).
      { rewrite (Sum_ext _ (fun r => W i r * at_ (lb P) r)%Qc (fun r => Sum (rows P) (fun l => W i r * ent (lA P) r (bk B l) * at_ (lb q0) l))%Qc) by (intros r Hr; rewrite EA by auto; rewrite <- Sum_scal; apply Sum_ext; intros; ring). rewrite Sum_swap.
        rewrite (Sum_ext _ (fun l => (Sum (rows P) (fun r => W i r * ent (lA P) r (bk B l)) - delta i l) * at_ (lb q0) l)%Qc (fun l => Sum (rows P) (fun r => W i r * ent (lA P) r (bk B l) * at_ (lb q0) l) - delta i l * at_ (lb q0) l)%Qc) by (intros; rewrite Sum_scalr; ring). rewrite Sum_sub, Sum_delta_l by auto. reflexivity. }
      eapply Qcle_trans; [|unfold h; rewrite (Qcmult_comm e); apply qmul_le_r; [exact n1_rhs|exact He]]. rewrite (Qcmult_comm _ e).
      replace (at_ (lb q) i - at_ (lb q0) i)%Qc with ((at_ (lb q) i - Sum (rows P) (fun r => W i r * at_ (lb P) r)) + (Sum (rows P) (fun r => W i r * at_ (lb P) r) - at_ (lb q0) i))%Qc by ring. rewrite E.
      replace (e * (1 + N1 (rows P) (at_ (lb q0))))%Qc with (e + e * N1 (rows P) (at_ (lb q0)))%Qc by ring. apply abs_le_add; [now apply (fa_b _ _ _ _ _ _ _ _ HF)|]. apply Sum_err; auto. intros l Hl. now apply (fa_W1 _ _ _ _ _ _ _ _ HF).
    Qed.
    Let Dle : (qabs D <= k)%Qc. Proof. apply (mle p K Hp HM); auto. apply HB. Qed.
    Lemma ent_quot i j : i < rows P -> j < cols P -> (0 < ent (lA q0) i j -> 1 <= ent (lA q0) i j * k)%Qc.
    Proof.
      intros Hi Hj. rewrite (canonical_ent P B q0 HP HB E0 i j Hi Hj). fold D. destruct (cok i j (Nat.lt_le_incl _ _ Hj)). apply quotient_ge; auto. now apply (mint p Hp HI).
    Qed.
    Lemma cost_quot j : j < cols P -> (0 < at_ (lc q0) j -> 1 <= at_ (lc q0) j * k)%Qc.
    Proof.
      intros Hj. assert (Q : exists N, isint N /\ at_ (lc q0) j = (N / D)%Qc).
      { exists (at_ (lc P) j * D - Sum (rows P) (fun l => at_ (lc P) (bk B l) * minor P (with_column B l j)))%Qc. destruct HI as (_ & _ & I3). assert (Ic : forall j, isint (at_ (lc P) j)) by (intros; now apply at_int). split.
        - apply isint_sub; [apply isint_mul; auto; apply (mint p Hp HI); [apply HB|exact Bl]|]. apply Sum_int. intros l Hl. apply isint_mul; auto. destruct (cok l j (Nat.lt_le_incl _ _ Hj)). now apply (mint p Hp HI).
        - rewrite (cn_red _ _ _ C0 j Hj). rewrite (Sum_ext _ (fun l => at_ (lc P) (bk B l) * ent (lA q0) l j)%Qc (fun l => at_ (lc P) (bk B l) * minor P (with_column B l j) * / D)%Qc).
          + rewrite Sum_scalr. field. exact DN.
          + intros l Hl. rewrite (canonical_ent P B q0 HP HB E0 l j Hl Hj). fold D. unfold Qcdiv. ring. }
      destruct Q as (N & IN & ->). apply quotient_ge; auto.
    Qed.
    (** a number that is nonpositive or at least 1/K is judged positive as before when it is slightly wrong *)
    Lemma sign_same v v0 t : (0 <= t)%Qc -> (qz 16 * t < tol_zero)%Qc -> (qabs (v - v0) <= t)%Qc -> (0 < v0 -> 1 <= v0 * k)%Qc -> is_positive v = is_positive v0.
    Proof.
      intros T0 T1 Hv Hq. apply qabs_le in Hv. destruct (Qclt_le_dec 0 v0) as [L|L].
      - specialize (Hq L). assert (A : (v0 * k <= v0 * qz 300)%Qc) by (rewrite !(Qcmult_comm v0); apply qmul_le_r; [exact k3|now apply Qclt_le_weak]). assert (A2 : (Q2Qc (1 # 300) <= v0)%Qc). { set (u := (v0 * k)%Qc) in *. clear - A Hq. clearbody u. unfold qz, inject_Z in *. qclra. }
        assert (X : is_positive v = true) by (apply pos_true; clear - A2 T1 Hv; destruct Hv; unfold qz, inject_Z, tol_zero in *; qclra). assert (Y : is_positive v0 = true) by (apply pos_true; clear - A2; unfold tol_zero; qclra). congruence.
      - assert (X : is_positive v = false). { destruct (is_positive v) eqn:E; auto. apply pos_true in E. exfalso. clear - E L T1 Hv T0. destruct Hv. unfold qz, inject_Z in *. qclra. }
        assert (Y : is_positive v0 = false). { destruct (is_positive v0) eqn:E; auto. apply pos_true in E. pose proof tol_pos. exfalso. clear - E L H. qclra. } congruence.
    Qed.
    Lemma ent_same i j : i < rows P -> j < cols P -> ~ In j B -> is_positive (ent (lA q) i j) = is_positive (ent (lA q0) i j).
    Proof. intros Hi Hj Hn. apply (sign_same _ _ h h0 h16); [now apply ent_close|now apply ent_quot]. Qed.
    Lemma cost_same j : j < cols P -> ~ In j B -> is_positive (at_ (lc q) j) = is_positive (at_ (lc q0) j).
    Proof. intros Hj Hn. apply (sign_same _ _ (weight p * h)%Qc wh wh16); [now apply cost_close|now apply cost_quot]. Qed.
    (** the quotients *)
    Hypothesis Hb : forall i, i < rows P -> (0 <= at_ (lb q0) i)%Qc.
    Lemma ratio_frac i j : i < rows P -> j < cols P -> is_positive (ent (lA q0) i j) = true -> fraction (at_ (lb q0) i / ent (lA q0) i j)%Qc.
    Proof.
      intros Hi Hj Hpos. apply pos_true in Hpos. pose proof tol_pos as T. assert (A0 : (0 < ent (lA q0) i j)%Qc) by (clear - Hpos T; qclra). specialize (Hb i Hi).
      pose proof (canonical_ent P B q0 HP HB E0 i j Hi Hj) as EA. pose proof (canonical_b P B q0 HP HB E0 i Hi) as EB. fold D in EA, EB. set (a := ent (lA q0) i j) in *. set (b := at_ (lb q0) i) in *.
      destruct (cok i j (Nat.lt_le_incl _ _ Hj)) as (L1 & L2). destruct (cok i (cols P) (Nat.le_refl _)) as (L3 & L4). pose proof (mint p Hp HI _ L1 L2) as I1. pose proof (mint p Hp HI _ L3 L4) as I2. pose proof (mle p K Hp HM _ L1 L2) as M1. pose proof (mle p K Hp HM _ L3 L4) as M2.
      fold P in I1, I2, M1, M2. set (x1 := minor P (with_column B i j)) in *. set (x2 := minor P (with_column B i (cols P))) in *. fold k in M1, M2. apply qabs_le in M1. apply qabs_le in M2. pose proof k3 as KK. pose proof DN as dn. fold D. clearbody x1 x2 D. clear L1 L2 L3 L4.
      assert (X1 : x1 = (a * D)%Qc) by (rewrite EA; field; exact dn). assert (X2 : x2 = (b * D)%Qc) by (rewrite EB; field; exact dn). assert (NA : a <> 0%Qc) by (intros Z; rewrite Z in A0; discriminate A0).
      destruct (Q_dec (this D) 0) as [[L|L]|L].
      - assert (L2 : (D < 0)%Qc) by exact L. clear L. rename L2 into L. exists (- x2)%Qc, (- x1)%Qc. assert (Y2 : (0 <= - x2)%Qc) by (rewrite X2; replace (- (b * D))%Qc with (b * - D)%Qc by ring; apply qmul_nonneg; auto; clear - L; qclra). assert (Y1 : (0 < - x1)%Qc) by (rewrite X1; replace (- (a * D))%Qc with (a * - D)%Qc by ring; apply qmul_pos; auto; clear - L; qclra).
        split; [now apply isint_opp|]. split; [now apply isint_opp|]. split; [split; [auto|split; [clear - M2 KK; destruct M2; qclra|split; [apply isint_pos; [now apply isint_opp|auto]|clear - M1 KK; destruct M1; qclra]]]|]. rewrite X1, X2. field. split; auto. rewrite <- X1. intros Z. rewrite Z in Y1. discriminate Y1.
      - assert (L2 : (0 < D)%Qc) by exact L. clear L. rename L2 into L. exists x2, x1. assert (Y2 : (0 <= x2)%Qc) by (rewrite X2; apply qmul_nonneg; auto; clear - L; qclra). assert (Y1 : (0 < x1)%Qc) by (rewrite X1; apply qmul_pos; auto).
        split; auto. split; auto. split; [split; [auto|split; [clear - M2 KK; destruct M2; qclra|split; [apply isint_pos; auto|clear - M1 KK; destruct M1; qclra]]]|]. rewrite X1, X2. field. split; auto.
      - exfalso. apply dn. now apply Qc_is_canon.
    Qed.
    Lemma ratio_near i j r : i < rows P -> j < cols P -> ~ In j B -> is_positive (ent (lA q0) i j) = true -> within e r (at_ (lb q) i / ent (lA q) i j)%Qc -> near r (at_ (lb q0) i / ent (lA q0) i j)%Qc.
    Proof.
      intros Hi Hj Hn Hpos Hr. pose proof (ratio_frac i j Hi Hj Hpos) as F. apply pos_true in Hpos. pose proof tol_pos as T. assert (A0 : (0 < ent (lA q0) i j)%Qc) by (clear - Hpos T; qclra).
      apply (ratio_error h k e (ent (lA q) i j) (ent (lA q0) i j) (at_ (lb q) i) (at_ (lb q0) i) r He eh k1 hk16 (ent_quot i j Hi Hj A0) (ent_close i j Hi Hj Hn) (rhs_close i Hi)); auto.
      split; [now apply frac_nonneg|]. destruct F as (x2 & x1 & I2 & I1 & (F1 & F2 & F3 & F4) & ->). pose proof (pos_nz _ F3) as N. assert (E : (x2 / x1 * x1)%Qc = x2) by (field; auto). set (r' := (x2 / x1)%Qc) in *. clearbody r'. apply Qcnot_lt_le. intros C.
      assert (r' * 1 <= r' * x1)%Qc by (rewrite !(Qcmult_comm r'); apply qmul_le_r; auto; clear - C; unfold qz, inject_Z in *; qclra). rewrite E in H. rewrite Qcmult_1_r in H. clear - H C F2. qclra.
    Qed.
  End Facts.
  Let Hn : negate_rows P = P := neg_again p Hp.
  Lemma e2 : (e + e < 1)%Qc.
  Proof. pose proof h16 as A. pose proof eh as B. clear - A B. clearbody h. unfold qz, inject_Z, tol_zero in *. qclra. Qed.
  Lemma is_basis_r Bz : is_basis P Bz = Ok true -> r_is_basis P Bz.
  Proof. intros E. apply is_basis_true in E. destruct E as (L & L0 & R & _). split; auto. split; [lia|]. intros i Hi. specialize (R i Hi). lia. Qed.
  Lemma step_same Bz o : lsef P = true -> is_basis P Bz = Ok true -> fbasis P (sort (to_array_indexing Bz)) -> run_iteration e P Bz o ->
    exists it it0, o = Ok it /\ simplex_iteration P Bz = Ok it0 /\ same_iter (qz 8 * h)%Qc it it0.
  Proof.
    intros Hs HBz Hfb. unfold run_iteration. rewrite Hs. cbn [negb]. intros (ok & Hok & R). apply check_same in Hok. rewrite Hok, HBz in R. cbv zeta in R.
    set (B := sort (to_array_indexing Bz)) in *. destruct R as (q & x & RC & RX & R). rewrite Hn in RC.
    destruct (get_facts e P Bz q x HP e2 (is_basis_r Bz HBz) RC RX) as (W & V & y & HF). fold B in HF.
    pose proof (is_basis_basis P Bz HBz) as HB. fold B in HB. destruct (basis_canon P B HP HB) as (q0 & E0 & C0).
    assert (Hb : forall i, i < rows P -> (0 <= at_ (lb q0) i)%Qc) by (apply (fbasis_b P B q0); auto; now constructor).
    unfold simplex_iteration. rewrite Hs, HBz, Hn. cbn [negb bind]. fold B. rewrite E0. cbn [bind]. destruct (canon_again P B q0 HB C0) as (x0 & Ex & Ex2). rewrite Ex. cbn [bind].
    destruct (fa_q _ _ _ _ _ _ _ _ HF) as (LA & LC & SA). pose proof (cn_rows _ _ _ C0) as LA0. pose proof (cn_cols _ _ _ C0) as LC0.
    assert (Lb : length (lb q) = rows P). { destruct RC as (W' & y' & (LW & _) & _ & _ & (Lr & _) & _). rewrite Lr, LW. apply length_columns. }
    assert (Lb0 : length (lb q0) = rows P) by now apply (length_lb P B).
    assert (EC : cols q = cols q0) by (unfold cols in *; congruence). rewrite EC in R.
    pose proof (bsol_scatter P B q0 HB C0) as SB. rewrite <- Ex2 in SB.
    assert (Lx : length x = cols P) by apply (fa_x _ _ _ _ _ _ _ _ HF). assert (Lx0 : length x0 = cols P) by (rewrite Ex2; apply length_scatter).
    assert (CX : close_by (qz 8 * h)%Qc x x0).
    { split; [congruence|]. intros j Hj. rewrite Lx in Hj. pose proof (close e p B q x W V y K Hp HF He HI HM HK9 whole32 q0 E0 C0 (at_ x0) SB j Hj) as C. unfold h. rewrite Qcmult_assoc. exact C. }
    set (N := filter (fun i => negb (inb i B)) (seq 0 (cols q0))) in *.
    assert (HN : forall j, In j N -> j < cols P /\ ~ In j B). { intros j. unfold N. rewrite filter_In, in_seq, negb_true_iff, inb_false, LC0. intros (? & ?). split; auto; lia. }
    rewrite (forallb_take_ext (fun v => cc_le v 0) N (lc q) (lc q0)) in R by (intros j Hj; destruct (HN j Hj); rewrite !le_positive; f_equal; eapply cost_same; eauto).
    rewrite (find_ext (fun i => is_positive (at_ (lc q) i)) (fun i => is_positive (at_ (lc q0) i))) in R by (intros j Hj; destruct (HN j Hj); eapply cost_same; eauto).
    destruct (forallb (fun v => cc_le v 0) (take N (lc q0))) eqn:Fs.
    - assert (X0 : forall j, j < cols P -> (0 <= at_ x0 j)%Qc).
      { intros j Hj. destruct (in_dec Nat.eq_dec j B) as [I|I]; [|rewrite (proj2 SB j Hj I); apply Qcle_refl]. destruct (In_bk P B j HB I) as (i & Hi & <-). rewrite (bsol_at P B q0 HB C0 _ SB i Hi). auto. }
      assert (N1 : existsb is_negative x = false).
      { destruct (existsb is_negative x) eqn:En; auto. exfalso. apply existsb_exists in En. destruct En as (v & Hv & Hneg). apply neg_true in Hneg. apply (In_nth _ _ 0%Qc) in Hv. destruct Hv as (j & Hj & <-). destruct CX as (_ & CX). specialize (CX j Hj). rewrite Lx in Hj. specialize (X0 j Hj). apply qabs_le in CX. unfold at_ in *. pose proof h16 as T. set (u := nth j x 0%Qc) in *. set (u0 := nth j x0 0%Qc) in *. clear - CX X0 Hneg T h0. clearbody u u0 h. destruct CX. unfold qz, inject_Z in *. qclra. }
      assert (N2 : existsb is_negative x0 = false).
      { destruct (existsb is_negative x0) eqn:En; auto. exfalso. apply existsb_exists in En. destruct En as (v & Hv & Hneg). apply neg_true in Hneg. apply (In_nth _ _ 0%Qc) in Hv. destruct Hv as (j & Hj & <-). rewrite Lx0 in Hj. specialize (X0 j Hj). unfold at_ in X0. pose proof tol_pos as T. set (u0 := nth j x0 0%Qc) in *. clear - X0 Hneg T. clearbody u0. qclra. }
      rewrite N1 in R. rewrite N2. exists (Optimal x B q), (Optimal x0 B q0). split; auto. split; auto. split; auto.
    - destruct (find (fun i => is_positive (at_ (lc q0) i)) N) as [c|] eqn:Fk.
      2:{ exfalso. rewrite (proj2 (forallb_take (fun v => cc_le v 0) N (lc q0))) in Fs; [discriminate|]. intros j Hj. pose proof (find_none _ _ Fk j Hj) as Z. cbn beta in Z. now rewrite le_positive, Z. }
      apply find_some in Fk. destruct Fk as (Hc' & _). destruct (HN c Hc') as (Hc1 & Hc2).
      set (Ak := map (fun r => at_ r c) (lA q)) in *. set (Ak0 := map (fun r => at_ r c) (lA q0)) in *.
      assert (L1 : length Ak = rows P) by (unfold Ak; now rewrite map_length). assert (L2 : length Ak0 = rows P) by (unfold Ak0; rewrite map_length; exact LA0).
      assert (AS : forall i, i < rows P -> is_positive (at_ Ak i) = is_positive (at_ Ak0 i)) by (intros i Hi; unfold Ak, Ak0; rewrite !SimplexProofs.at_column; eapply ent_same; eauto).
      rewrite (forallb_at_ext (fun v => cc_le v 0) Ak Ak0) in R by (try congruence; intros i Hi; rewrite !le_positive; f_equal; apply AS; congruence).
      destruct (forallb (fun v => cc_le v 0) Ak0) eqn:FA.
      + exists (Unbounded x B q), (Unbounded x0 B q0). split; auto. split; auto. split; auto.
      + destruct R as (leave & RR & ->). assert (EL : leave = ratio_test 0 (lb q0) Ak0 None None).
        { refine (run_ratio_same e (lb q) Ak (lb q0) Ak0 0 None None None leave _ _ _ _ _ I RR); try congruence; [intros i Hi; apply AS; congruence|]. rewrite Lb. intros i Hi. unfold Ak, Ak0. rewrite !SimplexProofs.at_column. intros Hpos. split.
          - eapply ratio_frac; eauto.
          - intros r Hr. eapply ratio_near; eauto. }
        rewrite <- EL. destruct leave as [leave|].
        * eexists. eexists. split; [reflexivity|]. split; [reflexivity|]. reflexivity.
        * exfalso. assert (G : exists i, i < length Ak0 /\ is_positive (at_ Ak0 i) = true).
          { clear - FA. induction Ak0 as [|v l IH]; [discriminate|]. cbn [forallb] in FA. rewrite le_positive in FA. destruct (is_positive v) eqn:E; [exists 0; split; [simpl; lia|exact E]|]. cbn [negb andb] in FA. destruct (IH FA) as (i & Hi & HH). exists (S i). split; [simpl; lia|exact HH]. }
          destruct G as (i & Hi & Gp). symmetry in EL. pose proof (ratio_test_none _ _ _ EL i ltac:(lia) Hi) as Z. apply pos_true in Gp. clear - Gp Z. qclra.
  Qed.
  Lemma close_t : (0 <= qz 8 * h)%Qc. Proof. apply qmul_nonneg; [discriminate|exact h0]. Qed.
  (** the whole loop *)
  Lemma loop_same : lsef P = true -> forall fuel Bz it0, is_basis P Bz = Ok true -> fbasis P (sort (to_array_indexing Bz)) -> simplex_loop fuel P Bz = Ok it0 ->
    (forall n o, run_loop e P Bz n o -> n <= fuel /\ exists it, o = Ok it /\ same_iter (qz 8 * h)%Qc it it0) /\ ~ run_loops e P Bz.
  Proof.
    intros Hs. induction fuel as [|fuel IH]; intros Bz it0 HBz HF E; [discriminate|]. cbn [simplex_loop] in E. split.
    - intros n o R. destruct R as [Bz o R1 R2|Bz B' q' n o R1 R2].
      + destruct (step_same Bz o Hs HBz HF R1) as (it & it1 & -> & E1 & SI). rewrite E1 in E. cbn [bind] in E. split; [lia|]. exists it. split; auto. destruct it; try contradiction; destruct it1; try contradiction; injection E as <-; exact SI.
      + destruct (step_same Bz _ Hs HBz HF R1) as (it & it1 & E' & E1 & SI). injection E' as <-. destruct it1 as [| |B1 q1]; try contradiction. cbn [same_iter] in SI. subst B1. rewrite E1 in E. cbn [bind] in E.
        destruct (next_keeps P Bz B' q1 HP Hs Hn sep_P HBz HF E1) as (K1 & K2). destruct (proj1 (IH _ it0 K1 K2 E) n o R2) as (L & G). split; [lia|exact G].
    - intros (s & S0 & S1). destruct (S1 0) as (B' & q' & R1 & R2). rewrite S0 in R1. destruct (step_same Bz _ Hs HBz HF R1) as (it & it1 & E' & E1 & SI). injection E' as <-. destruct it1 as [| |B1 q1]; try contradiction. cbn [same_iter] in SI. subst B1. rewrite E1 in E. cbn [bind] in E.
      destruct (next_keeps P Bz B' q1 HP Hs Hn sep_P HBz HF E1) as (K1 & K2). apply (proj2 (IH _ it0 K1 K2 E)). exists (fun i => s (S i)). split; auto.
  Qed.
  Lemma simplex_same Bz fuel : lsef p = true -> is_basis p Bz = Ok true -> feasible_basis p Bz -> 2 ^ cols p <= fuel ->
    exists r0, snd (simplex fuel p Bz) = Ok r0 /\ ~ simplex_hangs e p Bz /\ forall n o, run_simplex e p Bz n o -> n <= 2 ^ cols p /\ exists r, o = Ok r /\ same_verdict (qz 8 * h)%Qc r r0.
  Proof.
    intros Hs HBz HF Hfuel. assert (HsP : lsef P = true) by exact Hs. assert (HBP : is_basis P Bz = Ok true) by (unfold P; now rewrite is_basis_neg). assert (HFP : fbasis P (sort (to_array_indexing Bz))) by (unfold P; apply fbasis_neg; auto; apply feasible_fbasis; auto).
    destruct (simplex_terminates p Bz fuel Hp Hs small_p HBz HF Hfuel) as (r0 & E & _). exists r0. rewrite E. split; auto.
    destruct (loop_terminates P HP HsP Hn sep_P (2 ^ cols p) Bz HBP HFP (Nat.le_refl _)) as (it1 & _ & _ & EL1 & _). destruct (loop_same HsP _ Bz it1 HBP HFP EL1) as (L1 & L2). split; [intros (_ & Z); now apply L2|].
    intros n o R. unfold run_simplex in R. rewrite Hs in R. cbn [negb] in R. destruct R as (oi & RL & R). split; [now apply (L1 n oi)|].
    unfold simplex in E. rewrite Hs in E. cbn [negb] in E. fold P in E. destruct (simplex_loop fuel P Bz) as [it0| |] eqn:EL; try discriminate. cbn [bind] in E. destruct (proj2 (proj1 (loop_same HsP fuel Bz it0 HBP HFP EL) n oi RL)) as (it & -> & SI). destruct R as (r & RR & ->). exists r. split; auto.
    destruct it as [x B q|x B q|B q]; cbn [same_iter r_result] in SI, RR; destruct it0 as [x0 B0 q0|x0 B0 q0|B0 q0]; try contradiction.
    - destruct SI as (-> & CX). destruct RR as (X & y & _ & _ & ->). cbn [simplex_result] in E. destruct (minv _) as [X0| |]; try discriminate. cbn [bind] in E. injection E as _ <-. split; auto.
    - destruct SI as (-> & CX). subst r. cbn [simplex_result] in E. injection E as _ <-. exact CX.
  Qed.
End Step.
