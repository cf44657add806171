(** Programs with small integer data: the tolerances of the comparisons make no difference. *)
From Coq Require Import String List Bool Arith ZArith QArith Qcanon Lia Sorted Factorial.
From Verif Require Import Py QcTac QSum QInt ComparatorModel MatModel DetTheory MatTheory LinearModel LinearSpec LinearProofs SefProofs LinearInv BasisProofs BlandProofs SimplexProofs.
Import ListNotations.
Open Scope nat_scope.
Open Scope string_scope.
Open Scope list_scope.

(** integer data, and no minor of [A | b] with as many rows as [A] exceeds 300 in absolute value *)
Record small_integers (p : lp) : Prop := mksmall {
  si_A : forall r v, In r (lA p) -> In v r -> isint v;
  si_b : forall v, In v (lb p) -> isint v;
  si_c : forall v, In v (lc p) -> isint v;
  si_minor : forall s, length s = length (lA p) -> (forall j, In j s -> j <= length (lc p)) ->
    (qabs (mdet (columns_of s (append_column (lA p) (lb p)))) <= qz 300)%Qc }.

(** [s] is a product of positive multipliers *)
Definition product (d : list Z) : Z := fold_right Z.mul 1%Z d.
(** fractional data: the rows of [A | b] are integers after multiplication by the positive numbers [d],
    the costs after multiplication by [e], and the product of the multipliers is moderate *)
Record multipliers (p : lp) (d : list Z) (e : Z) : Prop := mkmultipliers {
  sf_len : length d = length (lA p);
  sf_pos : forall k, In k d -> (0 < k)%Z;
  sf_e : (0 < e)%Z;
  sf_A : forall i j, i < length (lA p) -> j < length (lc p) -> isint (qz (nth i d 1%Z) * ent (lA p) i j)%Qc;
  sf_b : forall i, i < length (lA p) -> isint (qz (nth i d 1%Z) * at_ (lb p) i)%Qc;
  sf_c : forall j, j < length (lc p) -> isint (qz e * at_ (lc p) j)%Qc;
  sf_d : (product d <= 10 ^ 10)%Z }.
(** quotients of minors P/Q and P'/Q' with Q, Q' <= K and P' <= L that differ are told apart by numpy.isclose:
    1/(Q Q') > 1e-8 + 1e-5 P'/Q'; for instance K = L = 300, or K = 1 and L = 99999 *)
Definition apart (K L : Z) : Prop := (0 <= K /\ 0 <= L /\ K * K + 1000 * (K * L) < 10 ^ 8)%Z.
(** ... and the minors with as many rows as [A], so multiplied, are at most [K] in absolute value for [A]
    and at most [L] for [A | b], with moderate [K] and [L] *)
Record small_fractions (p : lp) (d : list Z) (e K L : Z) : Prop := mkfractions {
  sf_mul :> multipliers p d e;
  sf_apart : apart K L;
  sf_e' : (K * e <= 10 ^ 10)%Z;
  sf_minor : forall s, length s = length (lA p) -> (forall j, In j s -> j < length (lc p)) ->
    (qz (product d) * qabs (mdet (columns_of s (append_column (lA p) (lb p)))) <= qz K)%Qc;
  sf_minor_b : forall s, length s = length (lA p) -> (forall j, In j s -> j <= length (lc p)) ->
    (qz (product d) * qabs (mdet (columns_of s (append_column (lA p) (lb p)))) <= qz L)%Qc }.
Definition small_data (p : lp) : Prop := exists d e K L, small_fractions p d e K L.
(** the matrix [A | I | b] *)
Definition wide (p : lp) (i k : nat) : Qc :=
  if Nat.ltb k (length (lc p)) then ent (lA p) i k
  else if Nat.ltb k (length (lc p) + length (lA p)) then (if Nat.eqb i (k - length (lc p)) then 1%Qc else 0%Qc)
  else at_ (lb p) i.
(** the same with the minors of [A | I | b] *)
Record moderate (p : lp) (d : list Z) (e K L : Z) : Prop := mkmoderate {
  md_mul :> multipliers p d e;
  md_apart : apart K L;
  md_e' : (K * e <= 10 ^ 10)%Z;
  md_minor : forall s, length s = length (lA p) -> (forall j, In j s -> j < length (lc p) + length (lA p)) ->
    (qz (product d) * qabs (det (length (lA p)) (fun i j => wide p i (nth j s 0%nat))) <= qz K)%Qc;
  md_minor_b : forall s, length s = length (lA p) -> (forall j, In j s -> j <= length (lc p) + length (lA p)) ->
    (qz (product d) * qabs (det (length (lA p)) (fun i j => wide p i (nth j s 0%nat))) <= qz L)%Qc }.
Definition moderate_data (p : lp) : Prop := exists d e K L, moderate p d e K L.

Lemma isint_0 : isint 0%Qc. Proof. exists 0%Z. reflexivity. Qed.
Lemma isint_1 : isint 1%Qc. Proof. exists 1%Z. reflexivity. Qed.
Lemma at_int v i : (forall x, In x v -> isint x) -> isint (at_ v i).
Proof.
  intros H. destruct (Nat.lt_ge_cases i (length v)) as [Hi|Hi]; [apply H; now apply nth_In|]. rewrite at_over by auto. apply isint_0.
Qed.
Lemma ent_int (A : list (list Qc)) i j : (forall r v, In r A -> In v r -> isint v) -> isint (ent A i j).
Proof.
  intros H. unfold ent. apply at_int. intros x Hx. destruct (Nat.lt_ge_cases i (length A)) as [Hi|Hi].
  - apply (H (nth i A [])); auto. now apply nth_In.
  - rewrite nth_overflow in Hx by auto. contradiction.
Qed.
Lemma ent_append M n col i j : length M = length col -> shaped n M -> i < length M -> j < n -> ent (append_column M col) i j = ent M i j.
Proof. intros L S Hi Hj. unfold ent. rewrite nth_append_column by auto. apply at_app1. now rewrite (shaped_nth n). Qed.
Lemma ent_append_last M n col i : length M = length col -> shaped n M -> i < length M -> ent (append_column M col) i n = at_ col i.
Proof.
  intros L S Hi. unfold ent. rewrite nth_append_column by auto. rewrite at_app2 by (rewrite (shaped_nth n); auto).
  rewrite (shaped_nth n), Nat.sub_diag by auto. reflexivity.
Qed.

(** ** rows negated *)
Lemma ent_append_neg p i j : wf p -> i < rows p -> j <= cols p ->
  ent (append_column (lA (negate_rows p)) (lb (negate_rows p))) i j = (sg p i * ent (append_column (lA p) (lb p)) i j)%Qc.
Proof.
  intros H Hi Hj. pose proof (wf_negate p H) as H'. pose proof (wf_b _ H) as L. pose proof (wf_b _ H') as L'.
  pose proof (rows_neg p H) as R. pose proof (wf_A _ H) as SA. pose proof (wf_A _ H') as SA'. rewrite cols_neg in SA'. unfold rows in *.
  destruct (Nat.eq_dec j (cols p)) as [->|Hne].
  - rewrite (ent_append_last _ (cols p)), (ent_append_last _ (cols p)) by (auto; congruence). apply lb_neg.
  - rewrite (ent_append _ (cols p)), (ent_append _ (cols p)) by (auto; congruence || lia). now apply ent_neg.
Qed.
Lemma minor_abs_neg p s : wf p -> length s = length (lA p) -> (forall j, In j s -> j <= length (lc p)) ->
  qabs (mdet (columns_of s (append_column (lA (negate_rows p)) (lb (negate_rows p))))) = qabs (mdet (columns_of s (append_column (lA p) (lb p)))).
Proof.
  intros H Ls Hs. pose proof (wf_b _ H) as L. pose proof (rows_neg p H) as R. unfold rows in *.
    pose proof (wf_b _ (wf_negate p H)) as L'. unfold rows in L'.
    assert (L1 : length (append_column (lA p) (lb p)) = length (lA p)) by now apply length_append_column.
    assert (L2 : length (append_column (lA (negate_rows p)) (lb (negate_rows p))) = length (lA p)) by (rewrite length_append_column; auto; congruence).
    unfold mdet in *. rewrite !length_columns in *. rewrite L1, L2.
    rewrite (@det_ext _ _ (fun i j => sg p i * ent (columns_of s (append_column (lA p) (lb p))) i j)%Qc).
    + rewrite det_rows. destruct (Prod_one (length (lA p)) (sg p) (sg_sq p)) as [->| ->]; [now rewrite Qcmult_1_l|].
      match goal with |- (qabs (- (1) * ?d) = _)%Qc => replace (- (1) * d)%Qc with (- d)%Qc by ring end. now rewrite qabs_opp.
    + intros i j Hi Hj. rewrite !ent_columns by lia. apply ent_append_neg; auto. apply Hs, nth_In. lia.
Qed.
Lemma fractions_neg p d e K L : wf p -> small_fractions p d e K L -> small_fractions (negate_rows p) d e K L.
Proof.
  intros H [[S1 S2 S3 S4 S5 S6 S8] SA SE S7 S9]. pose proof (wf_b _ H) as Lb. pose proof (rows_neg p H) as R. unfold rows in *. constructor; [constructor| | | |]; rewrite ?R; auto.
  - intros i j Hi Hj. rewrite ent_neg by auto. specialize (S4 i j Hi Hj). unfold sg. destruct (qlt (at_ (lb p) i) 0); [|now rewrite Qcmult_1_l].
    replace (qz (nth i d 1%Z) * (- (1) * ent (lA p) i j))%Qc with (- (qz (nth i d 1%Z) * ent (lA p) i j))%Qc by ring. now apply isint_opp.
  - intros i Hi. rewrite lb_neg. specialize (S5 i Hi). unfold sg. destruct (qlt (at_ (lb p) i) 0); [|now rewrite Qcmult_1_l].
    replace (qz (nth i d 1%Z) * (- (1) * at_ (lb p) i))%Qc with (- (qz (nth i d 1%Z) * at_ (lb p) i))%Qc by ring. now apply isint_opp.
  - intros s Ls Hs. change (lc (negate_rows p)) with (lc p) in Hs. rewrite minor_abs_neg; auto. intros j Hj. apply Nat.lt_le_incl. auto.
  - intros s Ls Hs. change (lc (negate_rows p)) with (lc p) in Hs. rewrite minor_abs_neg; auto.
Qed.
Lemma data_neg p : wf p -> small_data p -> small_data (negate_rows p).
Proof. intros H (d & e & K & L & HS). exists d, e, K, L. now apply fractions_neg. Qed.

(** ** the entries of the canonical form as quotients of minors *)
Definition with_column (B : list nat) (i j : nat) : list nat := map (fun k => if Nat.eqb k i then j else bk B k) (seq 0 (length B)).
Definition minor (p : lp) (s : list nat) : Qc := mdet (columns_of s (append_column (lA p) (lb p))).
Lemma nth_with_column B i j k : k < length B -> nth k (with_column B i j) 0 = if Nat.eqb k i then j else bk B k.
Proof. intros Hk. unfold with_column. now rewrite (nth_map_seq (fun k => if Nat.eqb k i then j else bk B k)). Qed.
Lemma length_with_column B i j : length (with_column B i j) = length B.
Proof. unfold with_column. now rewrite map_length, seq_length. Qed.

Section Minors.
  Context (p : lp) (B : list nat) (q : lp) (H : wf p) (HB : basis p B) (Eq : canonical p B = Ok q).
  Let m := rows p.
  Let Lb : length (lb p) = length (lA p) := wf_b _ H.
  Let LB : length B = m := bs_len _ _ HB.
  Lemma minor_ext s f : length s = m -> (forall i j, i < m -> j < m -> ent (append_column (lA p) (lb p)) i (nth j s 0) = f i j) -> minor p s = det m f.
  Proof.
    intros Ls E. unfold minor, mdet. rewrite length_columns, length_append_column by auto. apply det_ext. intros i j Hi Hj.
    rewrite ent_columns; [now apply E| |now rewrite Ls]. rewrite length_append_column; auto.
  Qed.
  Lemma append_A i j : i < m -> j < cols p -> ent (append_column (lA p) (lb p)) i j = ent (lA p) i j.
  Proof. intros Hi Hj. apply (ent_append _ (cols p)); auto. apply (wf_A _ H). Qed.
  Lemma append_b i : i < m -> ent (append_column (lA p) (lb p)) i (cols p) = at_ (lb p) i.
  Proof. intros Hi. apply ent_append_last; auto. apply (wf_A _ H). Qed.
  Lemma minor_B : minor p B = mdet (columns_of B (lA p)).
  Proof.
    unfold mdet. rewrite length_columns. apply minor_ext; auto. intros i j Hi Hj. fold (bk B j). rewrite append_A by (auto; now apply bk_lt).
    rewrite ent_columns; auto. now rewrite LB.
  Qed.
  Lemma minor_nonzero : minor p B <> 0%Qc. Proof. rewrite minor_B. apply HB. Qed.
  Lemma replace_minor i j (v : nat -> Qc) : i < m -> j <= cols p -> (forall k, k < m -> ent (append_column (lA p) (lb p)) k j = v k) ->
    minor p (with_column B i j) = det m (replace_column (ent (columns_of B (lA p))) i v).
  Proof.
    intros Hi Hj Hv. apply minor_ext; [now rewrite length_with_column|]. intros k l Hk Hl. rewrite nth_with_column by lia. unfold replace_column.
    destruct (Nat.eqb_spec l i); [now apply Hv|]. rewrite append_A by (auto; now apply bk_lt). rewrite ent_columns; auto. lia.
  Qed.
  Lemma canonical_ent i j : i < m -> j < cols p -> ent (lA q) i j = (minor p (with_column B i j) / minor p B)%Qc.
  Proof.
    intros Hi Hj. unfold canonical, bind, minv in Eq. destruct (qeq_spec (mdet (columns_of B (lA p))) 0) as [|_]; [discriminate|].
    injection Eq as <-. cbn [lA]. rewrite length_columns. change (length (lA p)) with m.
    rewrite (ent_mulmm _ m) by (auto; try apply shaped_mkmat; now rewrite length_mkmat).
    rewrite (replace_minor i j (fun k => ent (lA p) k j)) by (auto; try lia; intros; now apply append_A).
    rewrite minor_B. unfold mdet. rewrite length_columns. change (length (lA p)) with m. rewrite <- (cramer _ _ Hi).
    apply Sum_ext. intros k Hk. now rewrite ent_mkmat.
  Qed.
  Lemma canonical_b i : i < m -> at_ (lb q) i = (minor p (with_column B i (cols p)) / minor p B)%Qc.
  Proof.
    intros Hi. unfold canonical, bind, minv in Eq. destruct (qeq_spec (mdet (columns_of B (lA p))) 0) as [|_]; [discriminate|].
    injection Eq as <-. cbn [lb]. rewrite length_columns. change (length (lA p)) with m.
    rewrite (at_mulmv m) by (try apply shaped_mkmat; now rewrite length_mkmat).
    rewrite (replace_minor i (cols p) (at_ (lb p))) by (auto; intros; now apply append_b).
    rewrite minor_B. unfold mdet. rewrite length_columns. change (length (lA p)) with m. rewrite <- (cramer _ _ Hi).
    apply Sum_ext. intros k Hk. now rewrite ent_mkmat.
  Qed.
End Minors.

(** ** arithmetic *)
Lemma qabs_le x M : (qabs x <= M <-> - M <= x /\ x <= M)%Qc.
Proof. unfold qabs. destruct (qlt_spec x 0); (split; [intros K; split|intros (K1 & K2)]); qclra. Qed.
Lemma qabs_add x y : (qabs (x + y) <= qabs x + qabs y)%Qc.
Proof. unfold qabs. destruct (qlt_spec (x + y) 0), (qlt_spec x 0), (qlt_spec y 0); qclra. Qed.
Lemma qabs_mul x y : qabs (x * y)%Qc = (qabs x * qabs y)%Qc.
Proof.
  unfold qabs. destruct (qlt_spec (x * y) 0), (qlt_spec x 0), (qlt_spec y 0); try ring.
  - assert (0 < - x * - y)%Qc by (apply qmul_pos; qclra). exfalso. qclra.
  - assert (0 <= x * y)%Qc by (apply qmul_nonneg; qclra). exfalso. qclra.
  - assert (0 <= - x * y)%Qc by (apply qmul_nonneg; qclra). qclra.
  - assert (0 <= x * - y)%Qc by (apply qmul_nonneg; qclra). qclra.
Qed.
Lemma int_nonzero x : isint x -> x <> 0%Qc -> (1 <= x \/ x <= - (1))%Qc.
Proof.
  intros [z ->] Hz. destruct (Z.lt_trichotomy z 0) as [L|[->|L]].
  - right. change (- (1))%Qc with (qz (-1)). apply qz_le. lia.
  - exfalso. apply Hz. reflexivity.
  - left. change 1%Qc with (qz 1). apply qz_le. lia.
Qed.
Lemma isint_neg x : isint x -> (x < 0)%Qc -> (x <= - (1))%Qc.
Proof. intros H L. destruct (int_nonzero x H); auto; [intros E; rewrite E in L; discriminate L|]. exfalso. qclra. Qed.
Lemma quotient_pos M N D : (tol_zero * M <= 1)%Qc -> isint N -> D <> 0%Qc -> (qabs D <= M)%Qc -> (0 < N / D -> tol_zero <= N / D)%Qc.
Proof.
  intros T HN HD HM Hp. assert (E : (N / D * D)%Qc = N) by (field; auto). set (x := (N / D)%Qc) in *. clearbody x.
  apply qabs_le in HM. destruct HM as (M1 & M2). pose proof tol_pos as T0.
  assert (HD2 : (0 < D \/ D < 0)%Qc). { destruct (Q_dec (this D) 0) as [[K|K]|K]; [right; exact K|left; exact K|]. exfalso. apply HD. now apply Qc_is_canon. }
  assert (G : (1 <= x * M)%Qc).
  { destruct HD2 as [K|K].
    - assert (0 < N)%Qc by (rewrite <- E; now apply qmul_pos). apply isint_pos in H; auto.
      assert (x * D <= x * M)%Qc. { rewrite !(Qcmult_comm x). apply qmul_le_r; auto. qclra. } rewrite E in H0. qclra.
    - assert (N < 0)%Qc. { rewrite <- E. assert (0 < x * - D)%Qc by (apply qmul_pos; auto; qclra). qclra. } apply isint_neg in H; auto.
      assert (- D * x <= M * x)%Qc. { apply qmul_le_r; auto; qclra. } assert (- D * x = - N)%Qc by (rewrite <- E; ring). rewrite H1 in H0. qclra. }
  apply Qcnot_lt_le. intros K. assert (K' : (0 < tol_zero - x)%Qc) by (clear - K; qclra).
  assert (M0 : (0 < M)%Qc). { clear - HD2 M1 M2. destruct HD2; qclra. }
  assert (0 < (tol_zero - x) * M)%Qc by now apply qmul_pos. clear - G T H. qclra.
Qed.
Lemma ratio_apart K0 L0 P Q P' Q' : apart K0 L0 -> isint P -> isint Q -> isint P' -> isint Q' -> (0 <= P)%Qc -> (0 <= P' /\ P' <= qz L0)%Qc -> (0 < Q /\ Q <= qz K0)%Qc -> (0 < Q' /\ Q' <= qz K0)%Qc ->
  (P / Q < P' / Q')%Qc -> cc_lt (P / Q)%Qc (P' / Q')%Qc = true.
Proof.
  intros (AK & AL & AP) I1 I2 I3 I4 HP HP' HQ HQ' Hlt. unfold cc_lt. apply andb_true_iff. split; [|destruct (qlt_spec (P / Q) (P' / Q')); auto].
  pose proof (qdiv_lt _ _ _ _ (proj1 HQ) (proj1 HQ') Hlt) as Hx.
  assert (G : (1 <= P' * Q - P * Q')%Qc).
  { apply isint_pos; [|qclra]. apply isint_sub; now apply isint_mul. }
  assert (E : (P / Q * Q)%Qc = P). { field. intros K. rewrite K in HQ. destruct HQ as (HQ & _). discriminate HQ. }
  assert (E' : (P' / Q' * Q')%Qc = P'). { field. intros K. rewrite K in HQ'. destruct HQ' as (HQ' & _). discriminate HQ'. }
  set (r := (P / Q)%Qc) in *. set (r' := (P' / Q')%Qc) in *. clearbody r r'.
  assert (Hr : (0 <= r)%Qc). { apply Qcnot_lt_le. intros K. assert (0 < - r * Q)%Qc by (apply qmul_pos; [qclra|apply HQ]). qclra. }
  unfold comparator. destruct (qeq_spec r' 0) as [K|_]; [exfalso; qclra|]. unfold np_isclose. apply negb_true_iff.
  destruct (qle_spec (qabs (r - r')) (np_atol + np_rtol * qabs r')) as [K|]; auto. exfalso.
  unfold qabs in K. destruct (qlt_spec (r - r') 0) as [_|]; [|qclra]. destruct (qlt_spec r' 0); [qclra|].
  assert (QQ : (0 < Q * Q')%Qc) by (apply qmul_pos; [apply HQ|apply HQ']).
  assert (K2 : ((r' - r) * (Q * Q') <= (np_atol + np_rtol * r') * (Q * Q'))%Qc) by (apply qmul_le_r; qclra).
  replace ((r' - r) * (Q * Q'))%Qc with (r' * Q' * Q - r * Q * Q')%Qc in K2 by ring. rewrite E, E' in K2.
  replace ((np_atol + np_rtol * r') * (Q * Q'))%Qc with (np_atol * (Q * Q') + np_rtol * (r' * Q' * Q))%Qc in K2 by ring. rewrite E' in K2.
  assert (B1 : (Q * Q' <= qz (K0 * K0))%Qc).
  { rewrite qz_mul. clear - HQ HQ' AK. destruct HQ, HQ'. apply Qcle_trans with (qz K0 * Q')%Qc; [apply qmul_le_r; auto; qclra|].
    rewrite !(Qcmult_comm (qz K0)). apply qmul_le_r; [auto|]. change 0%Qc with (qz 0). now apply qz_le. }
  assert (B2 : (P' * Q <= qz (K0 * L0))%Qc).
  { rewrite qz_mul, (Qcmult_comm (qz K0)). clear - HQ HP' AL. destruct HQ, HP'. apply Qcle_trans with (qz L0 * Q)%Qc; [apply qmul_le_r; auto; qclra|].
    rewrite !(Qcmult_comm (qz L0)). apply qmul_le_r; [auto|]. change 0%Qc with (qz 0). now apply qz_le. }
  assert (C : (np_atol * qz (K0 * K0) + np_rtol * qz (K0 * L0) < 1)%Qc).
  { replace (np_atol * qz (K0 * K0) + np_rtol * qz (K0 * L0))%Qc with (np_atol * qz (K0 * K0 + 1000 * (K0 * L0)))%Qc by (rewrite qz_add, (qz_mul 1000); replace np_rtol with (np_atol * qz 1000)%Qc by (apply Qc_is_canon; reflexivity); ring).
    apply qz_lt in AP. revert AP. generalize (qz (K0 * K0 + 1000 * (K0 * L0)))%Qc. intros v AP. assert (E8 : (np_atol * qz (10 ^ 8) = 1)%Qc) by (apply Qc_is_canon; reflexivity).
    assert (0 < np_atol * (qz (10 ^ 8) - v))%Qc by (apply qmul_pos; [reflexivity|clear - AP; qclra]). clear - H E8. qclra. }
  assert (A1 : (np_atol * (Q * Q') <= np_atol * qz (K0 * K0))%Qc). { rewrite !(Qcmult_comm np_atol). apply qmul_le_r; [auto|discriminate]. }
  assert (A2 : (np_rtol * (P' * Q) <= np_rtol * qz (K0 * L0))%Qc). { rewrite !(Qcmult_comm np_rtol). apply qmul_le_r; [auto|discriminate]. }
  clear - G K2 C A1 A2. qclra.
Qed.

(** ** the scaled minors *)
Lemma Prod_ext n : forall f g, (forall i, i < n -> f i = g i) -> Prod n f = Prod n g.
Proof. induction n as [|n IH]; intros f g E; [reflexivity|]. cbn [Prod]. rewrite (E 0) by lia. f_equal. apply IH. intros i Hi. apply E. lia. Qed.
Lemma Prod_product d : Prod (length d) (fun i => qz (nth i d 1%Z)) = qz (product d).
Proof. induction d as [|k d IH]; [reflexivity|]. cbn [length Prod nth product fold_right]. rewrite qz_mul. f_equal. exact IH. Qed.
Lemma product_pos d : (forall k, In k d -> (0 < k)%Z) -> (0 < product d)%Z.
Proof. induction d as [|k d IH]; intros Hd; [reflexivity|]. cbn [product fold_right]. apply Z.mul_pos_pos; [apply Hd; simpl; auto|]. apply IH. intros; apply Hd; simpl; auto. Qed.
Definition scaled_minor (p : lp) (d : list Z) (s : list nat) : Qc := (qz (product d) * minor p s)%Qc.
Lemma minor_int p d e s : wf p -> multipliers p d e -> length s = rows p -> (forall j, In j s -> j <= cols p) -> isint (scaled_minor p d s).
Proof.
  intros H HS Ls Hs. pose proof (wf_b _ H) as Lb. unfold scaled_minor, minor, mdet. rewrite length_columns, length_append_column by auto. rewrite <- Prod_product, (sf_len _ _ _ HS), <- det_rows.
  apply det_int. intros i j Hi Hj. unfold rows in *. rewrite ent_columns by (rewrite ?length_append_column; auto; lia).
  assert (K : nth j s 0 <= cols p) by (apply Hs, nth_In; lia). pose proof (wf_A _ H) as SA.
  destruct (Nat.eq_dec (nth j s 0) (cols p)) as [->|Hne].
  - rewrite (ent_append_last _ (cols p)) by auto. now apply (sf_b _ _ _ HS).
  - rewrite (ent_append _ (cols p)) by (auto; lia). apply (sf_A _ _ _ HS); auto. unfold cols in *. lia.
Qed.
Lemma quotients (x y D : Qc) : D <> 0%Qc -> y <> 0%Qc -> (x / D / (y / D))%Qc = (x / y)%Qc.
Proof. intros. field. auto. Qed.
Lemma data_separated p : wf p -> small_data p -> separated p.
Proof.
  intros H (d & e & K0 & L0 & HS) B q HB Eq. pose proof (minor_nonzero p B H HB) as HD0. pose proof (product_pos d (sf_pos _ _ _ HS)) as HP.
  assert (P0 : qz (product d) <> 0%Qc). { intros K. change 0%Qc with (qz 0) in K. apply qz_inj in K. lia. }
  assert (Pp : (0 < qz (product d))%Qc). { change 0%Qc with (qz 0). now apply qz_lt. }
  assert (HD : scaled_minor p d B <> 0%Qc). { unfold scaled_minor. intros K. apply Qcmult_integral in K. tauto. }
  assert (LB : length B = rows p) by apply HB.
  assert (Pa : qabs (qz (product d)) = qz (product d)) by (unfold qabs; destruct (qlt_spec (qz (product d)) 0); [exfalso; qclra|reflexivity]).
  assert (AB : forall s, length s = rows p -> (forall j, In j s -> j < cols p) -> (qabs (scaled_minor p d s) <= qz K0)%Qc) by (intros s Ls Hs; unfold scaled_minor; rewrite qabs_mul, Pa; now apply (sf_minor _ _ _ _ _ HS)).
  assert (ABb : forall s, length s = rows p -> (forall j, In j s -> j <= cols p) -> (qabs (scaled_minor p d s) <= qz L0)%Qc) by (intros s Ls Hs; unfold scaled_minor; rewrite qabs_mul, Pa; now apply (sf_minor_b _ _ _ _ _ HS)).
  assert (EQ : forall s, (minor p s / minor p B = scaled_minor p d s / scaled_minor p d B)%Qc) by (intros s; unfold scaled_minor; field; auto).
  pose proof (canonical_ent p B q H HB Eq) as EA. pose proof (canonical_b p B q H HB Eq) as Eb.
  assert (EA' : forall i j, i < rows p -> j < cols p -> ent (lA q) i j = (scaled_minor p d (with_column B i j) / scaled_minor p d B)%Qc) by (intros; rewrite EA by auto; apply EQ).
  assert (Eb' : forall i, i < rows p -> at_ (lb q) i = (scaled_minor p d (with_column B i (cols p)) / scaled_minor p d B)%Qc) by (intros; rewrite Eb by auto; apply EQ).
  clear EA Eb EQ. rename EA' into EA. rename Eb' into Eb.
  assert (BLe : forall j, In j B -> j <= cols p). { intros j Hj. apply (bs_lt _ _ HB) in Hj. lia. }
  assert (ED : (qabs (mdet (columns_of B (lA p))) * qz (product d) = qabs (scaled_minor p d B))%Qc).
  { rewrite <- minor_B by auto. unfold scaled_minor. rewrite qabs_mul. rewrite Qcmult_comm. f_equal. unfold qabs. destruct (qlt_spec (qz (product d)) 0); [exfalso; qclra|reflexivity]. }
  assert (ID : isint (scaled_minor p d B)) by (apply (minor_int p d e); auto; apply HS).
  pose proof (AB B LB (bs_lt _ _ HB)) as BD. pose proof (ABb B LB BLe) as BDb. set (D := scaled_minor p d B) in *.
  assert (D1 : (1 <= qabs D)%Qc). { destruct (int_nonzero D ID HD) as [K|K]; unfold qabs; destruct (qlt_spec D 0); qclra. }
  pose proof (sf_apart _ _ _ _ _ HS) as AP.
  assert (TK : (tol_zero * qz K0 <= 1)%Qc).
  { assert (K1 : (1 <= K0)%Z) by (apply qz_le; change (qz 1) with 1%Qc; clear - D1 BD; qclra). assert (L1 : (1 <= L0)%Z) by (apply qz_le; change (qz 1) with 1%Qc; clear - D1 BDb; qclra).
    destruct AP as (_ & _ & AP). assert (K2 : (K0 <= 10 ^ 10)%Z) by (change (10 ^ 8)%Z with 100000000%Z in AP; change (10 ^ 10)%Z with 10000000000%Z; nia). apply qz_le in K2.
    apply Qcle_trans with (tol_zero * qz (10 ^ 10))%Qc; [|discriminate]. rewrite !(Qcmult_comm tol_zero). apply qmul_le_r; [auto|discriminate]. }
  assert (Wlt : forall i j, j <= cols p -> forall x, In x (with_column B i j) -> x <= cols p).
  { intros i j Hj x Hx. unfold with_column in Hx. apply in_map_iff in Hx. destruct Hx as (k & <- & Hk). destruct (Nat.eqb k i); auto. apply in_seq in Hk.
    assert (K : bk B k < cols p) by (apply bk_lt; auto; lia). lia. }
  assert (BNb : forall i j, i < rows p -> j <= cols p -> (qabs (scaled_minor p d (with_column B i j)) <= qz L0)%Qc).
  { intros i j Hi Hj. apply ABb; [now rewrite length_with_column|]. now apply Wlt. }
  assert (BN : forall i j, i < rows p -> j < cols p -> (qabs (scaled_minor p d (with_column B i j)) <= qz K0)%Qc).
  { intros i j Hi Hj. apply AB; [now rewrite length_with_column|]. intros x Hx. unfold with_column in Hx. apply in_map_iff in Hx. destruct Hx as (k & <- & Hk). destruct (Nat.eqb k i); auto. apply in_seq in Hk. apply bk_lt; auto. lia. }
  assert (IN : forall i j, j <= cols p -> isint (scaled_minor p d (with_column B i j))) by (intros; apply (minor_int p d e); auto; [apply HS|now rewrite length_with_column|now apply Wlt]).
  assert (IC : forall j, isint (qz e * at_ (lc p) j)).
  { intros j. destruct (Nat.lt_ge_cases j (length (lc p))) as [Hj|Hj]; [now apply (sf_c _ _ _ HS)|]. rewrite at_over by auto. rewrite Qcmult_0_r. apply isint_0. }
  destruct (basis_canon p B H HB) as (q' & Eq' & HC). assert (q' = q) by congruence. subst q'.
  constructor.
  - pose proof D1 as K1.
    apply Qcnot_lt_le. intros K. assert (K2 : (0 < (tol_zero - qabs (mdet (columns_of B (lA p)))) * qz (product d))%Qc) by (apply qmul_pos; auto; clear - K; qclra).
    assert (K3 : (tol_zero * qz (product d) <= 1)%Qc).
    { pose proof (sf_d _ _ _ HS) as L. apply qz_le in L. apply Qcle_trans with (tol_zero * qz (10 ^ 10))%Qc; [|discriminate]. rewrite !(Qcmult_comm tol_zero). apply qmul_le_r; [auto|discriminate]. }
    clear - K1 K2 K3 ED. qclra.
  - intros j Hj. rewrite (cn_red _ _ _ HC) by auto. pose proof (sf_e _ _ _ HS) as He.
    assert (E0 : qz e <> 0%Qc). { intros K. change 0%Qc with (qz 0) in K. apply qz_inj in K. lia. }
    rewrite (Sum_ext _ _ (fun k => qz e * at_ (lc p) (bk B k) * scaled_minor p d (with_column B k j) * (/ (qz e * D)))%Qc).
    + rewrite Sum_scalr. set (T := Sum _ _). assert (IT : isint T).
      { apply Sum_int. intros k Hk. apply isint_mul; auto. apply IN. lia. }
      replace (at_ (lc p) j - T * / (qz e * D))%Qc with ((qz e * at_ (lc p) j * D - T) / (qz e * D))%Qc by (field; auto). apply (quotient_pos (qz (K0 * e))); auto.
      * pose proof (sf_e' _ _ _ _ _ HS) as L. apply qz_le in L. apply Qcle_trans with (tol_zero * qz (10 ^ 10))%Qc; [|discriminate]. rewrite !(Qcmult_comm tol_zero). apply qmul_le_r; [auto|discriminate].
      * apply isint_sub; auto. now apply isint_mul.
      * intros K. apply Qcmult_integral in K. tauto.
      * rewrite qabs_mul, qz_mul, (Qcmult_comm (qz K0)). assert (Ea : qabs (qz e) = qz e). { apply qz_lt in He. change (qz 0) with 0%Qc in He. unfold qabs. destruct (qlt_spec (qz e) 0); [exfalso; qclra|reflexivity]. }
        rewrite Ea, !(Qcmult_comm (qz e)). apply qmul_le_r; auto. change 0%Qc with (qz 0). apply qz_le. lia.
    + intros k Hk. rewrite EA by auto. field. auto.
  - intros i j Hi Hj. rewrite EA by auto. apply (quotient_pos (qz K0)); auto. apply IN. lia.
  - intros i Hi Hneg. assert (K : (tol_zero <= - at_ (lb q) i)%Qc); [|qclra]. rewrite Eb in * by auto. set (w := scaled_minor p d (with_column B i (cols p))) in *.
    replace (- (w / D))%Qc with (- w / D)%Qc by (field; auto).
    apply (quotient_pos (qz K0)); auto; [apply isint_opp; now apply IN|]. replace (- w / D)%Qc with (- (w / D))%Qc by (field; auto). qclra.
  - intros i Hi. rewrite Eb by auto. apply (quotient_pos (qz K0)); auto.
  - intros i i' j Hi Hi' Hj. rewrite !EA, !Eb by auto.
    pose proof (BN i j Hi Hj) as N1. pose proof (BN i' j Hi' Hj) as N2. pose proof (BNb i (cols p) Hi ltac:(lia)) as N3. pose proof (BNb i' (cols p) Hi' ltac:(lia)) as N4.
    pose proof (IN i j ltac:(lia)) as I1. pose proof (IN i' j ltac:(lia)) as I2. pose proof (IN i (cols p) ltac:(lia)) as I3. pose proof (IN i' (cols p) ltac:(lia)) as I4.
    clear EA Eb BN BNb IN Wlt AB ABb.
    set (x := scaled_minor p d (with_column B i j)) in *. set (x' := scaled_minor p d (with_column B i' j)) in *.
    set (w := scaled_minor p d (with_column B i (cols p))) in *. set (w' := scaled_minor p d (with_column B i' (cols p))) in *. clearbody x x' w w'.
    intros P1 P2 P3 P4.
    assert (Nx : x <> 0%Qc). { intros K. rewrite K in P1. unfold Qcdiv in P1. rewrite Qcmult_0_l in P1. discriminate P1. }
    assert (Nx' : x' <> 0%Qc). { intros K. rewrite K in P2. unfold Qcdiv in P2. rewrite Qcmult_0_l in P2. discriminate P2. }
    rewrite !quotients by auto.
    assert (Mul : forall z : Qc, (z / D * D)%Qc = z) by (intros; field; auto).
    pose proof (Mul x) as Ex. pose proof (Mul x') as Ex'. pose proof (Mul w) as Ew. pose proof (Mul w') as Ew'.
    apply qabs_le in N1, N2, N3, N4.
    assert (HD2 : (0 < D \/ D < 0)%Qc). { destruct (Q_dec (this D) 0) as [[K|K]|K]; [right; exact K|left; exact K|]. exfalso. apply HD. now apply Qc_is_canon. }
    destruct HD2 as [K|K].
    + apply (ratio_apart K0 L0); auto.
      * rewrite <- Ew. apply qmul_nonneg; auto. qclra.
      * split; [rewrite <- Ew'; apply qmul_nonneg; auto; qclra|apply N4].
      * split; [rewrite <- Ex; now apply qmul_pos|apply N1].
      * split; [rewrite <- Ex'; now apply qmul_pos|apply N2].
    + replace (w / x)%Qc with (- w / - x)%Qc by (field; split; auto; intros Z; apply Nx; rewrite <- (Qcopp_involutive x), Z; reflexivity).
      replace (w' / x')%Qc with (- w' / - x')%Qc by (field; split; auto; intros Z; apply Nx'; rewrite <- (Qcopp_involutive x'), Z; reflexivity).
      assert (K' : (0 < - D)%Qc) by qclra. assert (Mn : forall z : Qc, (- z)%Qc = (z / D * - D)%Qc) by (intros; field; auto).
      apply (ratio_apart K0 L0); try (now apply isint_opp); auto.
      * rewrite Mn. apply qmul_nonneg; auto. qclra.
      * split; [rewrite Mn; apply qmul_nonneg; auto; qclra|destruct N4; qclra].
      * split; [rewrite Mn; now apply qmul_pos|destruct N1; qclra].
      * split; [rewrite Mn; now apply qmul_pos|destruct N2; qclra].
Qed.

(** ** a bound on the entries is enough *)
Lemma qabs_Sum n (f : nat -> Qc) M : (forall i, i < n -> (qabs (f i) <= M)%Qc) -> (qabs (Sum n f) <= qz (Z.of_nat n) * M)%Qc.
Proof.
  induction n as [|n IH]; intros Hf.
  - change (qz (Z.of_nat 0)) with 0%Qc. rewrite Qcmult_0_l. discriminate.
  - rewrite Sum_S. eapply Qcle_trans; [apply qabs_add|]. rewrite Nat2Z.inj_succ. unfold Z.succ. rewrite qz_add.
    specialize (IH ltac:(intros; apply Hf; lia)). specialize (Hf n ltac:(lia)). replace ((qz (Z.of_nat n) + qz 1) * M)%Qc with (qz (Z.of_nat n) * M + M)%Qc by (change (qz 1) with 1%Qc; ring). qclra.
Qed.
Lemma alt_abs i x : qabs (alt i x) = qabs x.
Proof. unfold alt. destruct (Nat.even i); auto. apply qabs_opp. Qed.
Lemma det_bound n : forall f M, (0 <= M)%Z -> (forall i j, i < n -> j < n -> (qabs (f i j) <= qz M)%Qc) ->
  (qabs (det n f) <= qz (Z.of_nat (fact n) * M ^ Z.of_nat n))%Qc.
Proof.
  induction n as [|n IH]; intros f M HM Hf; [discriminate|]. cbn [det].
  set (b := qz (Z.of_nat (fact n) * M ^ Z.of_nat n)).
  eapply Qcle_trans; [apply (qabs_Sum (S n) _ (qz M * b)%Qc)|].
  - intros j Hj. rewrite alt_abs, qabs_mul. apply Qcle_trans with (qz M * qabs (det n (fun a b0 => f (S a) (skip j b0))))%Qc.
    + apply qmul_le_r; [apply Hf; lia|apply qabs_nonneg].
    + rewrite !(Qcmult_comm (qz M)). apply qmul_le_r.
      * apply IH; auto. intros a c Ha Hc. apply Hf; [lia|]. unfold skip. destruct (Nat.ltb_spec c j); lia.
      * change 0%Qc with (qz 0). now apply qz_le.
  - unfold b. rewrite <- !qz_mul. apply qz_le. rewrite Nat2Z.inj_succ, Z.pow_succ_r by lia. cbn [fact]. 
    replace (Z.of_nat (fact n + n * fact n)) with (Z.succ (Z.of_nat n) * Z.of_nat (fact n))%Z by lia. nia.
Qed.
Record small_entries (p : lp) (M : Z) : Prop := mkentries {
  se_A : forall r v, In r (lA p) -> In v r -> exists z, v = qz z /\ (Z.abs z <= M)%Z;
  se_b : forall v, In v (lb p) -> exists z, v = qz z /\ (Z.abs z <= M)%Z;
  se_c : forall v, In v (lc p) -> exists z, v = qz z;
  se_M : (Z.of_nat (fact (length (lA p))) * M ^ Z.of_nat (length (lA p)) <= 300)%Z }.
Lemma small_entries_integers p M : wf p -> (0 <= M)%Z -> small_entries p M -> small_integers p.
Proof.
  intros H HM [S1 S2 S3 S4]. pose proof (wf_b _ H) as Lb. unfold rows in Lb. constructor.
  - intros r v Hr Hv. destruct (S1 r v Hr Hv) as (z & -> & _). now exists z.
  - intros v Hv. destruct (S2 v Hv) as (z & -> & _). now exists z.
  - intros v Hv. destruct (S3 v Hv) as (z & ->). now exists z.
  - intros s Ls Hs. unfold mdet. rewrite length_columns, length_append_column by auto.
    eapply Qcle_trans; [|apply qz_le; exact S4]. apply det_bound; auto. intros i j Hi Hj. rewrite ent_columns by (rewrite ?length_append_column; auto; lia).
    assert (G : forall v, (exists z, v = qz z /\ (Z.abs z <= M)%Z) -> (qabs v <= qz M)%Qc).
    { intros v (z & -> & Hz). apply qabs_le. rewrite <- qz_opp, !qz_le. lia. }
    assert (K : nth j s 0 <= length (lc p)) by (apply Hs, nth_In; lia). pose proof (wf_A _ H) as SA.
    destruct (Nat.eq_dec (nth j s 0) (length (lc p))) as [->|Hne].
    + change (length (lc p)) with (cols p). rewrite (ent_append_last _ (cols p)) by auto. apply G. apply S2. apply nth_In. lia.
    + rewrite (ent_append _ (cols p)) by (auto; unfold cols; lia). apply G. apply (S1 (nth i (lA p) [])); [now apply nth_In|].
      apply nth_In. rewrite (shaped_nth (cols p)) by auto. unfold cols. lia.
Qed.
(** integer data are the case of multipliers 1 *)
Lemma product_ones n : product (repeat 1%Z n) = 1%Z.
Proof. induction n as [|n IH]; [reflexivity|]. cbn [repeat product fold_right]. unfold product in IH. now rewrite IH. Qed.
Lemma nth_ones n i : nth i (repeat 1%Z n) 1%Z = 1%Z.
Proof. destruct (nth_in_or_default i (repeat 1%Z n) 1%Z) as [K|K]; auto. now apply repeat_spec in K. Qed.
Lemma integers_data p : small_integers p -> small_data p.
Proof.
  intros [S1 S2 S3 S4]. exists (repeat 1%Z (length (lA p))), 1%Z, 300%Z, 300%Z. constructor; [constructor| | | |]; rewrite ?product_ones; try lia.
  - apply repeat_length.
  - intros k Hk. apply repeat_spec in Hk. subst k. reflexivity.
  - intros i j Hi Hj. rewrite nth_ones. change (qz 1) with 1%Qc. rewrite Qcmult_1_l. now apply ent_int.
  - intros i Hi. rewrite nth_ones. change (qz 1) with 1%Qc. rewrite Qcmult_1_l. now apply at_int.
  - intros j Hj. change (qz 1) with 1%Qc. rewrite Qcmult_1_l. now apply at_int.
  - unfold apart. lia.
  - intros s Ls Hs. change (qz 1) with 1%Qc. rewrite Qcmult_1_l. apply S4; auto. intros j Hj. apply Nat.lt_le_incl. auto.
  - intros s Ls Hs. change (qz 1) with 1%Qc. rewrite Qcmult_1_l. now apply S4.
Qed.
Lemma small_entries_data p M : wf p -> (0 <= M)%Z -> small_entries p M -> small_data p.
Proof. intros H HM HE. apply integers_data. now apply (small_entries_integers p M). Qed.

(** ** matrices whose columns are, up to sign, columns of another one *)
Definition trit (s : Qc) : Prop := (s = 0 \/ s = 1 \/ s = - (1))%Qc.
Lemma choice_list {A} (d : A) (P : nat -> A -> Prop) m : (forall j, j < m -> exists a, P j a) -> exists l, length l = m /\ forall j, j < m -> P j (nth j l d).
Proof.
  induction m as [|m IH]; intros H; [exists []; split; [reflexivity|lia]|].
  destruct IH as (l & L & Hl); [intros; apply H; lia|]. destruct (H m ltac:(lia)) as (a & Ha). exists (l ++ [a]). split; [rewrite app_length; cbn; lia|].
  intros j Hj. destruct (Nat.eq_dec j m) as [->|Hne]; [rewrite app_nth2, L, Nat.sub_diag by lia; exact Ha|]. rewrite app_nth1 by lia. apply Hl. lia.
Qed.
Lemma Prod_trit n : forall s, (forall i, i < n -> trit (s i)) -> trit (Prod n s).
Proof.
  induction n as [|n IH]; intros s H; [right; left; reflexivity|]. cbn [Prod]. destruct (IH (fun i => s (S i)) ltac:(intros; apply H; lia)) as [E|[E|E]]; rewrite E;
    (destruct (H 0 ltac:(lia)) as [E0|[E0|E0]]; rewrite E0); unfold trit; [left|left|left|left|right; left|right; right|left|right; right|right; left]; ring.
Qed.
Lemma trit_abs s x : trit s -> (s * x = 0 \/ qabs (s * x) = qabs x)%Qc.
Proof. intros [-> |[-> | ->]]; [left; ring|right; now rewrite Qcmult_1_l|right]. replace (- (1) * x)%Qc with (- x)%Qc by ring. apply qabs_opp. Qed.
Definition none2 : Qc * nat := (0%Qc, 0).
Lemma det_signed m (ok : nat -> Prop) (F G : nat -> nat -> Qc) (r : nat -> Qc) : (forall i, i < m -> trit (r i)) ->
  (forall j, j < m -> exists s f, trit s /\ ok f /\ forall i, i < m -> F i j = (r i * (s * G i f))%Qc) ->
  det m F = 0%Qc \/ exists l, length l = m /\ (forall j, In j l -> ok j) /\ qabs (det m F) = qabs (det m (fun i j => G i (nth j l 0))).
Proof.
  intros Hr HF. destruct (choice_list none2 (fun j sf => trit (fst sf) /\ ok (snd sf) /\ forall i, i < m -> F i j = (r i * (fst sf * G i (snd sf)))%Qc) m) as (l & L & Hl).
  { intros j Hj. destruct (HF j Hj) as (s & f & K). now exists (s, f). }
  assert (E : det m F = (Prod m r * (Prod m (fun j => fst (nth j l none2)) * det m (fun i j => G i (nth j (map snd l) 0%nat))))%Qc).
  { rewrite (@det_ext m F (fun i j => r i * (fst (nth j l none2) * G i (nth j (map snd l) 0%nat))))%Qc.
    - rewrite (det_rows m r (fun i j => fst (nth j l none2) * G i (nth j (map snd l) 0%nat))%Qc). f_equal.
      rewrite <- det_tr. rewrite (det_rows m (fun j => fst (nth j l none2)) (fun j i => G i (nth j (map snd l) 0%nat))). f_equal. apply (det_tr m (fun i j => G i (nth j (map snd l) 0%nat))).
    - intros i j Hi Hj. change 0 with (snd none2). rewrite map_nth. now apply (Hl j). }
  destruct (trit_abs (Prod m r) (Prod m (fun j => fst (nth j l none2)) * det m (fun i j => G i (nth j (map snd l) 0%nat)))%Qc (Prod_trit m r Hr)) as [K|K]; rewrite <- E in K; [now left|].
  destruct (trit_abs (Prod m (fun j => fst (nth j l none2))) (det m (fun i j => G i (nth j (map snd l) 0%nat))) (Prod_trit m _ (fun i Hi => proj1 (Hl i Hi)))) as [K2|K2].
  - left. rewrite E, K2. ring.
  - right. exists (map snd l). split; [now rewrite map_length|]. split; [|congruence]. intros j Hj. apply in_map_iff in Hj. destruct Hj as (x & <- & Hx).
    apply (In_nth _ _ none2) in Hx. destruct Hx as (k & Hk & <-). apply Hl. lia.
Qed.
(** ... have minors no larger *)
Lemma bound_signed P X m (ok : nat -> Prop) (F G : nat -> nat -> Qc) (r : nat -> Qc) : (0 <= X)%Z -> (forall i, i < m -> trit (r i)) ->
  (forall j, j < m -> exists s f, trit s /\ ok f /\ forall i, i < m -> F i j = (r i * (s * G i f))%Qc) ->
  (forall l, length l = m -> (forall j, In j l -> ok j) -> (P * qabs (det m (fun i j => G i (nth j l 0%nat))) <= qz X)%Qc) -> (P * qabs (det m F) <= qz X)%Qc.
Proof.
  intros HX Hr HF HG. destruct (det_signed m ok F G r Hr HF) as [->|(l & L & Hl & ->)]; [|now apply HG]. change (qabs 0) with 0%Qc. rewrite Qcmult_0_r. change 0%Qc with (qz 0). now apply qz_le.
Qed.
Lemma trit_0 : trit 0%Qc. Proof. now left. Qed.
Lemma trit_1 : trit 1%Qc. Proof. right. now left. Qed.
Lemma trit_opp s : trit s -> trit (- s)%Qc.
Proof. intros [-> |[-> | ->]]; unfold trit; [left|right; right|right; left]; ring. Qed.
Lemma moderate_small p : wf p -> moderate_data p -> small_data p.
Proof.
  intros H (d & e & K & L & [HM HA He HW HWb]). exists d, e, K, L. pose proof (wf_b _ H) as Lb. pose proof (wf_A _ H) as SA.
  assert (G : forall (ok : nat -> Prop) s, length s = length (lA p) -> (forall j, In j s -> j <= length (lc p)) -> (forall j, In j s -> j < length (lc p) -> ok j) ->
    (forall j, In j s -> j = length (lc p) -> ok (length (lc p) + length (lA p))) ->
    forall X, (0 <= X)%Z -> (forall l, length l = length (lA p) -> (forall j, In j l -> ok j) -> (qz (product d) * qabs (det (length (lA p)) (fun i j => wide p i (nth j l 0%nat))) <= qz X)%Qc) ->
    (qz (product d) * qabs (mdet (columns_of s (append_column (lA p) (lb p)))) <= qz X)%Qc).
  { intros ok s Ls Hs O1 O2 X HX HB. unfold mdet. rewrite length_columns, length_append_column by auto.
    apply (bound_signed _ _ _ ok _ (wide p) (fun _ => 1%Qc)); [auto|intros; apply trit_1| |exact HB].
    intros j Hj. assert (I : In (nth j s 0) s) by (apply nth_In; lia). pose proof (Hs _ I) as Kj. exists 1%Qc. destruct (Nat.eq_dec (nth j s 0) (cols p)) as [E|Hne].
    - exists (length (lc p) + length (lA p)). split; [apply trit_1|]. split; [now apply (O2 (nth j s 0))|]. intros i Hi. rewrite !Qcmult_1_l. rewrite ent_columns by (rewrite ?length_append_column; auto; lia). rewrite E.
      rewrite (ent_append_last _ (cols p)) by auto. unfold wide. rewrite (proj2 (Nat.ltb_ge _ _)), Nat.ltb_irrefl by lia. reflexivity.
    - exists (nth j s 0). split; [apply trit_1|]. split; [apply O1; auto; unfold cols in *; lia|]. intros i Hi. rewrite !Qcmult_1_l. rewrite ent_columns by (rewrite ?length_append_column; auto; lia).
      rewrite (ent_append _ (cols p)) by (auto; unfold cols in *; lia). unfold wide. rewrite (proj2 (Nat.ltb_lt _ _)) by (unfold cols in *; lia). reflexivity. }
  pose proof HA as (A1 & A2 & _). constructor; auto.
  - intros s Ls Hs. apply (G (fun j => j < length (lc p) + length (lA p))); auto; [intros j Hj; specialize (Hs j Hj); lia|intros; lia|]. intros j Hj E. specialize (Hs j Hj). lia.
  - intros s Ls Hs. apply (G (fun j => j <= length (lc p) + length (lA p))); auto; intros; lia.
Qed.
