(** Determinants of network matrices; network programs have moderate data and integer basic solutions. *)
From Coq Require Import String List Bool Arith ZArith QArith Qcanon Lia Sorted Factorial.
From Verif Require Import Py QcTac QSum QInt ComparatorModel MatModel DetTheory DetExpand MatTheory LinearModel LinearSpec LinearProofs SefProofs LinearInv DualProofs BasisProofs BlandProofs SimplexProofs SmallProofs LinearProps SimplexProps TwoPhaseProofs TwoPhaseProps NetSpec.
Import ListNotations.
Open Scope nat_scope.
Open Scope string_scope.
Open Scope list_scope.

(** ** determinants *)
Lemma trit_alt i s : trit s -> trit (alt i s).
Proof. intros Hs. unfold alt. destruct (Nat.even i); auto. now apply trit_opp. Qed.
Lemma trit_mul s t : trit s -> trit t -> trit (s * t)%Qc.
Proof. intros [-> |[-> | ->]] Ht; [left; ring|now rewrite Qcmult_1_l|]. replace (- (1) * t)%Qc with (- t)%Qc by ring. now apply trit_opp. Qed.
Definition unskip (i0 n x : nat) : nat := if Nat.ltb x i0 then x else if Nat.eqb x i0 then n else x - 1.
Lemma indicator_skip i0 n a x : a < n -> indicator (skip i0 a) x = indicator a (unskip i0 n x).
Proof.
  intros Ha. unfold indicator, skip, unskip. destruct (Nat.ltb_spec a i0), (Nat.ltb_spec x i0), (Nat.eqb_spec x i0);
    repeat match goal with |- context [Nat.eqb ?u ?v] => destruct (Nat.eqb_spec u v) end; auto; lia.
Qed.
Lemma indicator_out i k n : i < n -> n <= k -> indicator i k = 0%Qc.
Proof. intros Hi Hk. unfold indicator. destruct (Nat.eqb_spec i k); [lia|reflexivity]. Qed.
Lemma indicator_same i : indicator i i = 1%Qc. Proof. unfold indicator. now rewrite Nat.eqb_refl. Qed.
Lemma indicator_diff i k : i <> k -> indicator i k = 0%Qc.
Proof. intros H. unfold indicator. destruct (Nat.eqb_spec i k); [contradiction|reflexivity]. Qed.
Lemma find_column (P : nat -> bool) n : (exists j, j < n /\ P j = true) \/ (forall j, j < n -> P j = false).
Proof.
  induction n as [|n IH]; [right; lia|]. destruct IH as [(j & Hj & K)|IH]; [left; exists j; split; [lia|exact K]|].
  destruct (P n) eqn:E; [left; exists n; auto|]. right. intros j Hj. destruct (Nat.eq_dec j n) as [->|]; auto. apply IH. lia.
Qed.
Lemma Sum_indicator n k : k < n -> Sum n (fun i => indicator i k) = 1%Qc.
Proof. intros Hk. rewrite (Sum_single n k); auto; [apply indicator_same|]. intros j _ Hj. now apply indicator_diff. Qed.
Lemma network_det n : forall h t : nat -> nat, trit (det n (fun i j => indicator i (h j) - indicator i (t j))%Qc).
Proof.
  induction n as [|n IH]; intros h t; [apply trit_1|].
  destruct (find_column (fun j => Nat.leb (S n) (h j) || Nat.leb (S n) (t j)) (S n)) as [(j & Hj & E)|Hall].
  - rewrite (det_column (n := n) (fun i j => indicator i (h j) - indicator i (t j))%Qc Hj).
    assert (Minor : forall i, trit (alt (i + j) (det n (fun a b => indicator (skip i a) (h (skip j b)) - indicator (skip i a) (t (skip j b)))%Qc))).
    { intros i. apply trit_alt.
      rewrite (@det_ext n _ (fun a b => indicator a (unskip i n (h (skip j b))) - indicator a (unskip i n (t (skip j b))))%Qc); [apply IH|].
      intros a b Ha Hb. now rewrite !(indicator_skip i n) by auto. }
    set (D := fun i => alt (i + j) (det n (fun a b => indicator (skip i a) (h (skip j b)) - indicator (skip i a) (t (skip j b)))%Qc)) in *.
    change (trit (Sum (S n) (fun i => (indicator i (h j) - indicator i (t j)) * D i)%Qc)).
    destruct (le_lt_dec (S n) (h j)) as [Hh|Hh]; destruct (le_lt_dec (S n) (t j)) as [Ht|Ht].
    + rewrite Sum_none; [apply trit_0|]. intros i Hi. rewrite !(indicator_out i _ (S n)) by auto. ring.
    + rewrite (Sum_single (S n) (t j)); auto.
      * rewrite (indicator_out _ (h j) (S n)), indicator_same by auto. replace ((0 - 1) * D (t j))%Qc with (- D (t j))%Qc by ring. apply trit_opp, Minor.
      * intros i Hi Hne. rewrite (indicator_out _ (h j) (S n)), indicator_diff by auto. ring.
    + rewrite (Sum_single (S n) (h j)); auto.
      * rewrite (indicator_out _ (t j) (S n)), indicator_same by auto. replace ((1 - 0) * D (h j))%Qc with (D (h j))%Qc by ring. apply Minor.
      * intros i Hi Hne. rewrite (indicator_out _ (t j) (S n)), indicator_diff by auto. ring.
    + apply orb_true_iff in E. rewrite !Nat.leb_le in E. lia.
  - left. apply (det_left_kernel (v := fun _ => 1%Qc) (k := 0)); [lia|discriminate|]. intros j Hj. specialize (Hall j Hj). apply orb_false_iff in Hall. rewrite !Nat.leb_gt in Hall.
    rewrite (Sum_ext (S n) _ (fun i => indicator i (h j) - indicator i (t j))%Qc) by (intros; ring). rewrite Sum_sub, !Sum_indicator by lia. change (1 - 1 = 0)%Qc. ring.
Qed.
(** with signs of rows *)
Definition signed_arc (r : nat -> Qc) (m : nat) (f : nat -> Qc) : Prop := exists h t, forall i, i < m -> f i = (r i * (indicator i h - indicator i t))%Qc.
Lemma arcs_det m r (F : nat -> nat -> Qc) : (forall i, i < m -> trit (r i)) -> (forall j, j < m -> signed_arc r m (fun i => F i j)) -> trit (det m F).
Proof.
  intros Hr HF. destruct (choice_list (0, 0) (fun j ht => forall i, i < m -> F i j = (r i * (indicator i (fst ht) - indicator i (snd ht)))%Qc) m) as (l & L & Hl).
  { intros j Hj. destruct (HF j Hj) as (h & t & E). now exists (h, t). }
  rewrite (@det_ext m F (fun i j => r i * (indicator i (fst (nth j l (0, 0)%nat)) - indicator i (snd (nth j l (0, 0)%nat))))%Qc) by (intros; now apply Hl).
  rewrite (det_rows m r (fun i j => indicator i (fst (nth j l (0, 0)%nat)) - indicator i (snd (nth j l (0, 0)%nat)))%Qc). apply trit_mul; [now apply Prod_trit|].
  apply (network_det m (fun j => fst (nth j l (0, 0))) (fun j => snd (nth j l (0, 0)))).
Qed.
Lemma skip_lt i n a : a < n -> i <= n -> skip i a < S n.
Proof. intros Ha Hi. unfold skip. destruct (Nat.ltb_spec a i); lia. Qed.
Lemma arc_skip r m i0 f : signed_arc r (S m) f -> i0 <= m -> signed_arc (fun a => r (skip i0 a)) m (fun a => f (skip i0 a)).
Proof.
  intros (h & t & E) Hi. exists (unskip i0 m h), (unskip i0 m t). intros a Ha. rewrite E by (now apply skip_lt). now rewrite <- !(indicator_skip i0 m) by auto.
Qed.
Lemma qabs_sum n (f : nat -> Qc) : (qabs (Sum n f) <= Sum n (fun i => qabs (f i)))%Qc.
Proof.
  induction n as [|n IH]; [discriminate|]. rewrite !Sum_S. eapply Qcle_trans; [apply qabs_add|]. clear - IH. qclra.
Qed.
Lemma trit_abs1 s : trit s -> (qabs s <= 1)%Qc.
Proof. intros [-> |[-> | ->]]; discriminate. Qed.
(** all columns are arcs, except that some may be equal to [b] *)
Lemma arcs_b_det m r (b : nat -> Qc) (F : nat -> nat -> Qc) K : (forall i, i < m -> trit (r i)) ->
  (forall j, j < m -> signed_arc r m (fun i => F i j) \/ (forall i, i < m -> F i j = b i)) -> (1 <= K)%Qc -> (Sum m (fun i => qabs (b i)) <= K)%Qc -> (qabs (det m F) <= K)%Qc.
Proof.
  intros Hr HF K1 KB.
  assert (Dec : (forall j, j < m -> signed_arc r m (fun i => F i j)) \/ exists j, j < m /\ forall i, i < m -> F i j = b i).
  { assert (G : forall k, k <= m -> (forall j, j < k -> signed_arc r m (fun i => F i j)) \/ exists j, j < m /\ forall i, i < m -> F i j = b i).
    { induction k as [|k IH]; intros Hk; [left; lia|]. destruct IH as [IH|IH]; [lia| |now right]. destruct (HF k ltac:(lia)) as [A|A]; [left|right; exists k; split; [lia|exact A]].
      intros j Hj. destruct (Nat.eq_dec j k) as [->|]; auto. apply IH. lia. }
    now apply G. }
  destruct Dec as [A|(j & Hj & A)].
  - eapply Qcle_trans; [|exact K1]. apply trit_abs1. now apply (arcs_det m r).
  - destruct m as [|m]; [lia|].
    destruct (find_column (fun k => negb (Nat.eqb k j) && forallb (fun i => qeq (F i k) (b i)) (seq 0 (S m))) (S m)) as [(k & Hk & E)|Hall].
    + apply andb_true_iff in E. destruct E as (E1 & E2). apply negb_true_iff, Nat.eqb_neq in E1. rewrite forallb_forall in E2.
      rewrite (det_equal_columns (n := S m) (f := F) Hj Hk); [change (qabs 0 <= K)%Qc; change (qabs 0) with 0%Qc; clear - K1; qclra|auto|].
      intros i Hi. rewrite A by auto. symmetry. specialize (E2 i ltac:(apply in_seq; lia)). now destruct (qeq_spec (F i k) (b i)).
    + rewrite (det_column F Hj). eapply Qcle_trans; [apply qabs_sum|]. eapply Qcle_trans; [|exact KB]. apply Sum_le. intros i Hi. rewrite A by auto. rewrite qabs_mul.
      assert (T : trit (alt (i + j) (det m (fun a c => F (skip i a) (skip j c))))).
      { apply trit_alt. apply (arcs_det m (fun a => r (skip i a))); [intros a Ha; apply Hr; apply skip_lt; auto; lia|]. intros c Hc. apply (arc_skip r m i (fun i => F i (skip j c))); [|lia].
        assert (Hs : skip j c < S m) by (apply skip_lt; auto; lia). destruct (HF _ Hs) as [G|G]; auto. exfalso. specialize (Hall (skip j c) Hs). apply andb_false_iff in Hall. destruct Hall as [Q|Q].
        - apply negb_false_iff, Nat.eqb_eq in Q. unfold skip in Q. destruct (Nat.ltb_spec c j); lia.
        - assert (forallb (fun i => qeq (F i (skip j c)) (b i)) (seq 0 (S m)) = true) by (apply forallb_forall; intros x Hx; apply in_seq in Hx; rewrite G by lia; destruct (qeq_spec (b x) (b x)); congruence). congruence. }
      apply trit_abs1 in T. pose proof (qabs_nonneg (b i)) as P. apply Qcle_trans with (1 * qabs (b i))%Qc; [rewrite (Qcmult_comm (qabs (b i))); now apply qmul_le_r|rewrite Qcmult_1_l; apply Qcle_refl].
Qed.

(** ** network programs *)
Definition side_sign (side : nat -> bool) (i : nat) : Qc := if side i then 1%Qc else (- (1))%Qc.
Lemma trit_side side i : trit (side_sign side i).
Proof. unfold side_sign. destruct (side i); [apply trit_1|apply trit_opp, trit_1]. Qed.
Lemma total_Sum b : total b = Sum (length b) (fun i => qabs (at_ b i)).
Proof. induction b as [|v b IH]; [reflexivity|]. cbn [length total fold_right]. rewrite SumS. fold (total b). rewrite IH. reflexivity. Qed.
Lemma network_columns p (side : nat -> bool) : (forall j, j < length (lc p) -> exists h t, forall i, i < length (lA p) -> nth j (nth i (lA p) []) 0%Qc = (let v := (indicator i h - indicator i t)%Qc in if side i then v else - v)%Qc) ->
  forall k, k < length (lc p) + length (lA p) -> signed_arc (side_sign side) (length (lA p)) (fun i => wide p i k).
Proof.
  intros HN k Hk. unfold wide. destruct (Nat.ltb_spec k (length (lc p))) as [K|K].
  - destruct (HN k K) as (h & t & E). exists h, t. intros i Hi. unfold ent, at_. rewrite E by auto. cbv zeta. unfold side_sign. destruct (side i); ring.
  - rewrite (proj2 (Nat.ltb_lt _ _)) by auto. set (l := k - length (lc p)). destruct (side l) eqn:El.
    + exists l, (length (lA p)). intros i Hi. rewrite (indicator_out i (length (lA p)) (length (lA p))) by lia. fold (indicator i l). destruct (Nat.eq_dec i l) as [->|Hne].
      * unfold side_sign. rewrite El. ring.
      * rewrite indicator_diff by auto. ring.
    + exists (length (lA p)), l. intros i Hi. rewrite (indicator_out i (length (lA p)) (length (lA p))) by lia. fold (indicator i l). destruct (Nat.eq_dec i l) as [->|Hne].
      * unfold side_sign. rewrite El. ring.
      * rewrite indicator_diff by auto. ring.
Qed.
Lemma arc_int r m f i : (forall i, i < m -> trit (r i)) -> signed_arc r m f -> i < m -> isint (f i).
Proof.
  intros Hr (h & t & E) Hi. rewrite E by auto. apply isint_mul; [|apply isint_sub; unfold indicator; destruct (Nat.eqb _ _); (apply isint_0 || apply isint_1)].
  destruct (Hr i Hi) as [-> |[-> | ->]]; [apply isint_0|apply isint_1|apply isint_opp, isint_1].
Qed.
Lemma network_wide p (side : nat -> bool) : (forall j, j < length (lc p) -> exists h t, forall i, i < length (lA p) -> nth j (nth i (lA p) []) 0%Qc = (let v := (indicator i h - indicator i t)%Qc in if side i then v else - v)%Qc) ->
  wf p -> forall s, length s = length (lA p) -> (forall j, In j s -> j < length (lc p) + length (lA p)) -> trit (det (length (lA p)) (fun i j => wide p i (nth j s 0))).
Proof.
  intros HN H s Ls Hs. apply (arcs_det _ (side_sign side)); [intros; apply trit_side|]. intros j Hj. apply (network_columns p side HN). apply Hs, nth_In. lia.
Qed.
Lemma network_moderate p e : wf p -> network_program p e -> moderate_data p.
Proof.
  intros H [(side & HN) S2 S3 (S4 & S5) S6]. pose proof (wf_b _ H) as Lb. unfold rows in Lb. pose proof (network_columns p side HN) as NC.
  exists (repeat 1%Z (length (lA p))), e, 1%Z, 99999%Z. constructor; [constructor| | | |]; rewrite ?product_ones; auto; try lia.
  - apply repeat_length.
  - intros k Hk. apply repeat_spec in Hk. subst k. reflexivity.
  - intros i j Hi Hj. rewrite nth_ones. change (qz 1) with 1%Qc. rewrite Qcmult_1_l. assert (K : isint (wide p i j)) by (apply (arc_int (side_sign side) (length (lA p)) (fun i => wide p i j)); auto; [intros; apply trit_side|apply NC; lia]).
    unfold wide in K. now rewrite (proj2 (Nat.ltb_lt _ _)) in K.
  - intros i Hi. rewrite nth_ones. change (qz 1) with 1%Qc. rewrite Qcmult_1_l. now apply at_int.
  - intros j Hj. apply S6. now apply nth_In.
  - unfold apart. lia.
  - intros s Ls Hs. change (qz 1) with 1%Qc. rewrite Qcmult_1_l. apply trit_abs1. now apply (network_wide p side HN H).
  - intros s Ls Hs. change (qz 1) with 1%Qc. rewrite Qcmult_1_l. apply (arcs_b_det (length (lA p)) (side_sign side) (at_ (lb p))); [intros; apply trit_side| |discriminate|].
    + intros j Hj. assert (K : nth j s 0 <= length (lc p) + length (lA p)) by (apply Hs, nth_In; lia). destruct (Nat.eq_dec (nth j s 0) (length (lc p) + length (lA p))) as [E|E].
      * right. intros i Hi. rewrite E. unfold wide. now rewrite !(proj2 (Nat.ltb_ge _ _)) by lia.
      * left. apply NC. lia.
    + rewrite total_Sum, Lb in S3. exact S3.
Qed.

(** ** integer basic solutions *)
Lemma minor_integer p s : (forall r v, In r (lA p) -> In v r -> isint v) -> (forall v, In v (lb p) -> isint v) -> isint (minor p s).
Proof.
  intros S1 S2. unfold minor, mdet. apply det_int. intros i j Hi Hj. apply ent_int. intros r v Hr Hv.
  unfold columns_of in Hr. apply in_map_iff in Hr. destruct Hr as (r' & <- & Hr'). unfold take in Hv. apply in_map_iff in Hv. destruct Hv as (k & <- & _).
  apply at_int. intros x Hx. unfold append_column in Hr'. apply in_map_iff in Hr'. destruct Hr' as ((r0 & v0) & <- & Hc). cbn [fst snd] in Hx.
  pose proof (in_combine_l _ _ _ _ Hc) as H1. pose proof (in_combine_r _ _ _ _ Hc) as H2. apply in_app_or in Hx. destruct Hx as [Hx|[<-|[]]]; eauto.
Qed.
Lemma abs_trit x y : qabs x = qabs y -> trit y -> trit x.
Proof.
  intros E T. assert (K : x = y \/ x = (- y)%Qc). { unfold qabs in E. destruct (qlt_spec x 0), (qlt_spec y 0); [left|right|right|left]; qclra. }
  destruct K as [->| ->]; auto. now apply trit_opp.
Qed.
Lemma trit_unit x : trit x -> x <> 0%Qc -> (x = 1 \/ x = - (1))%Qc.
Proof. intros [->|K]; [congruence|auto]. Qed.
Lemma simplex_integral fuel p Bz x Bo cert : wf p -> small_data p -> (forall r v, In r (lA p) -> In v r -> isint v) -> (forall v, In v (lb p) -> isint v) ->
  (forall s, length s = length (lA p) -> (forall j, In j s -> j < length (lc p)) -> trit (mdet (columns_of s (lA p)))) ->
  snd (simplex fuel p Bz) = Ok (Some x, Bo, cert) -> length x = cols p /\ forall j, j < cols p -> isint (nth j x 0%Qc).
Proof.
  intros H HS IA Ib HT E. destruct (exact_facts fuel p Bz x Bo cert H HS E) as (Hs & B & q & y & -> & -> & HI & HBm & Lx & HX & _). split; auto.
  pose proof (wf_negate p H) as Hn. destruct HI as [HB Eq HC]. assert (HX' : bsol (negate_rows p) B (at_ x)) by (split; [apply solves_neg; auto; apply HX|apply HX]).
  intros j Hj. change (nth j x 0%Qc) with (at_ x j). destruct (in_dec Nat.eq_dec j B) as [HIn|HIn]; [|destruct HX as (_ & HX); rewrite HX by auto; apply isint_0].
  apply (In_bk (negate_rows p)) in HIn; auto. destruct HIn as (k & Hk & <-). rewrite (bsol_at _ _ _ HB HC _ HX' k Hk). rewrite (canonical_b _ _ _ Hn HB Eq k Hk).
  pose proof (minor_nonzero _ _ Hn HB) as D0. pose proof (bs_len _ _ HB) as LB. pose proof (bs_lt _ _ HB) as HBl. rewrite rows_neg in LB by auto. change (cols (negate_rows p)) with (cols p) in *.
  assert (IN : forall s, isint (minor (negate_rows p) s)).
  { intros s. apply minor_integer.
    - intros r v Hr Hv. apply (In_nth _ _ []) in Hr. destruct Hr as (i & Hi & <-). change (i < rows (negate_rows p)) in Hi. rewrite rows_neg in Hi by auto.
      apply (In_nth _ _ 0%Qc) in Hv. destruct Hv as (l & Hl & <-). change (isint (ent (lA (negate_rows p)) i l)). rewrite ent_neg by auto. unfold sg.
      assert (K : isint (ent (lA p) i l)) by now apply ent_int. destruct (qlt (at_ (lb p) i) 0); [|now rewrite Qcmult_1_l]. replace (- (1) * ent (lA p) i l)%Qc with (- ent (lA p) i l)%Qc by ring. now apply isint_opp.
    - intros v Hv. cbn [negate_rows lb] in Hv. apply in_map_iff in Hv. destruct Hv as (u & <- & Hu). destruct (qlt u 0); auto. apply isint_opp. auto. }
  assert (T : trit (minor (negate_rows p) B)). { rewrite (minor_B _ _ Hn HB). apply (abs_trit _ (mdet (columns_of B (lA p)))); [now apply det_neg|]. now apply HT. }
  set (N := minor (negate_rows p) (with_column B k (cols p))). assert (KN : isint N) by apply IN. destruct (trit_unit _ T D0) as [-> | ->].
  - replace (N / 1)%Qc with N by (field; discriminate). exact KN.
  - replace (N / - (1))%Qc with (- N)%Qc by (field; discriminate). now apply isint_opp.
Qed.
Lemma collapse_int x : forall k fs, (forall v, In v x -> isint v) -> forall v, In v (collapse k fs x) -> isint v.
Proof.
  enough (G : forall n x k fs, length x <= n -> (forall v, In v x -> isint v) -> forall v, In v (collapse k fs x) -> isint v) by (intros k fs; now apply (G (length x))).
  induction n as [|n IH]; intros [|a y] k [|f fs] L Hx v Hv; cbn [length] in L; try lia; cbn [collapse] in Hv; try (now apply Hx); try contradiction.
  destruct (Nat.eqb f k).
  - destruct y as [|b y]; [now apply Hx|]. destruct Hv as [<-|Hv]; [apply isint_sub; apply Hx; simpl; auto|]. apply (IH y (S k) fs); auto; [cbn [length] in L; lia|]. intros; apply Hx; simpl; auto.
  - destruct Hv as [<-|Hv]; [apply Hx; simpl; auto|]. apply (IH y (S k) (f :: fs)); auto; [lia|]. intros; apply Hx; simpl; auto.
Qed.
Lemma down_int p x : wf p -> length x = length (lc (fst (to_sef p))) -> (forall v, In v x -> isint v) -> forall v, In v (down_if p x) -> isint v.
Proof.
  intros H L Hx v Hv. unfold down_if in Hv. destruct (lsef p) eqn:Hs; [now apply Hx|].
  destruct (split_point p H Hs x L) as (x1 & x2 & -> & L1 & L2). rewrite (down_split p H) in Hv by auto.
  assert (C : forall w, In w (collapse 0 (lfree p) x1) -> isint w) by (apply collapse_int; intros w Hw; apply Hx; apply in_or_app; auto).
  apply (In_nth _ _ 0%Qc) in Hv. destruct Hv as (j & Hj & <-). change (isint (at_ (fold_left (fun r i => neg_at i r) (lneg p) (collapse 0 (lfree p) x1)) j)).
  rewrite at_neg_all by now apply neg_nodup. assert (K : isint (at_ (collapse 0 (lfree p) x1) j)) by now apply at_int. destruct (inb j (lneg p)); auto. now apply isint_opp.
Qed.
Lemma network_sef_det p e : wf p -> network_program p e -> forall s, length s = length (lA p) -> (forall j, In j s -> j < length (lc (fst (to_sef p)))) ->
  trit (mdet (columns_of s (lA (fst (to_sef p))))).
Proof.
  intros H [(side & HN) _ _ _ _] s Ls Hs. destruct (lsef p) eqn:E.
  - rewrite C29_already_sef in * by auto. cbn [fst] in *. unfold mdet. rewrite length_columns.
    rewrite (@det_ext _ _ (fun i j => wide p i (nth j s 0))); [apply (network_wide p side HN H s Ls); intros j Hj; specialize (Hs j Hj); lia|].
    intros i j Hi Hj. rewrite ent_columns by (auto; lia). unfold wide. rewrite (proj2 (Nat.ltb_lt _ _)); [reflexivity|]. apply Hs, nth_In. lia.
  - assert (P9 : length (lA (fst (to_sef p))) = length (lA p)) by now destruct (to_sef_parts p H E) as (_ & _ & _ & _ & _ & _ & _ & _ & P9 & _).
    unfold mdet. rewrite length_columns, P9. destruct (length (lA p)) as [|m'] eqn:Em; [apply trit_1|]. rewrite <- Em in *.
    assert (Det : det (length (lA p)) (ent (columns_of s (lA (fst (to_sef p))))) = 0%Qc \/ exists l, length l = length (lA p) /\ (forall j, In j l -> j < length (lc p) + length (lA p)) /\
        qabs (det (length (lA p)) (ent (columns_of s (lA (fst (to_sef p)))))) = qabs (det (length (lA p)) (fun i j => wide p i (nth j l 0)))).
    { apply (det_signed _ _ _ (wide p) (fun _ => 1%Qc)); [intros; apply trit_1|]. intros j Hj. destruct (sef_wide p H E (nth j s 0)) as (t & f & T & B & EW).
      destruct B as [->|B]; [exists 0%Qc, 0|exists t, f]; (split; [auto; apply trit_0|]); (split; [lia|]); intros i Hi; rewrite ent_columns by lia; rewrite EW by auto; ring. }
    destruct Det as [-> |(l & Ll & Hl & El)]; [apply trit_0|]. apply (abs_trit _ _ El). apply (network_wide p side HN H l Ll). intros j Hj. specialize (Hl j Hj). lia.
Qed.
Lemma network_integral fuel p e p' x : wf p -> network_program p e -> solve fuel p = (p', Ok (Some x)) -> forall v, In v x -> isint v.
Proof.
  intros H HN E. pose proof (network_moderate p e H HN) as HM. pose proof (moderate_sef p H HM) as HMs.
  apply solve_some in E; auto. destruct E as (Bz & xs & Bo & cert & E & ->).
  assert (Hw : wf (fst (to_sef p))) by (destruct (lsef p) eqn:Hs; [now rewrite C29_already_sef by auto|now apply sef_wf]).
  assert (IA : forall i j, i < length (lA p) -> j < length (lc p) + length (lA p) -> isint (wide p i j)).
  { destruct HN as [(side & HN) _ _ _ _]. intros i j Hi Hj. apply (arc_int (side_sign side) (length (lA p)) (fun i => wide p i j)); auto; [intros; apply trit_side|]. now apply network_columns. }
  assert (P : length (lA (fst (to_sef p))) = length (lA p) /\ lb (fst (to_sef p)) = lb p).
  { destruct (lsef p) eqn:Hs; [now rewrite C29_already_sef by auto|]. now destruct (to_sef_parts p H Hs) as (P1 & _ & _ & _ & _ & _ & _ & _ & P9 & _). }
  destruct P as (PA & Pb). destruct (simplex_integral fuel (fst (to_sef p)) Bz xs Bo cert Hw) as (L & K); auto.
  - now apply moderate_small.
  - intros r v Hr Hv. apply (In_nth _ _ []) in Hr. destruct Hr as (i & Hi & <-). apply (In_nth _ _ 0%Qc) in Hv. destruct Hv as (j & Hj & <-). rewrite PA in Hi.
    change (isint (ent (lA (fst (to_sef p))) i j)). destruct (lsef p) eqn:Hs.
    + rewrite C29_already_sef in * by auto. cbn [fst] in *. assert (Hj' : j < length (lc p)) by (rewrite (shaped_nth (cols p)) in Hj; auto; apply (wf_A _ H)).
      specialize (IA i j Hi ltac:(lia)). unfold wide in IA. now rewrite (proj2 (Nat.ltb_lt _ _)) in IA.
    + destruct (sef_wide p H Hs j) as (s & f & T & B & ->); auto. destruct B as [->|B]; [rewrite Qcmult_0_l; apply isint_0|]. specialize (IA i f Hi B).
      rewrite <- (Qcmult_1_l (s * wide p i f)%Qc). apply isint_scale; auto. now rewrite Qcmult_1_l.
  - rewrite Pb. apply (nw_b _ _ HN).
  - rewrite PA. now apply (network_sef_det p e).
  - apply (down_int p xs H L). intros v Hv. apply (In_nth _ _ 0%Qc) in Hv. destruct Hv as (j & Hj & <-). apply K. rewrite <- L. exact Hj.
Qed.
