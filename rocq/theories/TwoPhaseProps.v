(** C35, C41, C42: two_phase_simplex and solve. *)
From Coq Require Import String List Bool Arith ZArith QArith Qcanon Lia Sorted Factorial.
From Verif Require Import Py QcTac QSum QInt ComparatorModel MatModel DetTheory MatTheory LinearModel LinearSpec LinearProofs SefProofs LinearInv DualProofs BasisProofs BlandProofs SimplexProofs SmallProofs LinearProps SimplexProps TwoPhaseProofs.
Import ListNotations.
Open Scope nat_scope.
Open Scope string_scope.
Open Scope list_scope.

(** ** the data stay moderate *)
Lemma isint_scale k v s : isint (k * v)%Qc -> trit s -> isint (k * (s * v))%Qc.
Proof.
  intros Hv [-> |[-> | ->]].
  - replace (k * (0 * v))%Qc with 0%Qc by ring. apply isint_0.
  - now rewrite Qcmult_1_l.
  - replace (k * (- (1) * v))%Qc with (- (k * v))%Qc by ring. now apply isint_opp.
Qed.
Lemma trit_sg p i : trit (sg p i).
Proof. unfold sg. destruct (qlt (at_ (lb p) i) 0); [apply trit_opp|]; apply trit_1. Qed.
Lemma isint_trit k s : trit s -> isint (qz k * s)%Qc.
Proof. intros Hs. rewrite <- (Qcmult_1_r s). apply isint_scale; auto. rewrite Qcmult_1_r. now exists k. Qed.
Lemma moderate_aux p : wf p -> moderate_data p -> small_data (aux p).
Proof.
  intros H (d & e & K0 & L0 & [[S1 S2 S3 S4 S5 S6 S7] SA0 S8 HW HWb]). pose proof (wf_aux p H) as Ha. pose proof (rows_aux p H) as HR. pose proof (cols_aux p) as HC. unfold rows, cols in HR, HC.
  assert (G : forall ok : nat -> Prop, (forall j, ok j -> j <= length (lc p) + length (lA p)) -> forall X, (0 <= X)%Z ->
    (forall l, length l = length (lA p) -> (forall j, In j l -> ok j) -> (qz (product d) * qabs (det (length (lA p)) (fun i j => wide p i (nth j l 0%nat))) <= qz X)%Qc) ->
    forall s, length s = length (lA p) -> (forall j, In j s -> ok j) -> (qz (product d) * qabs (mdet (columns_of s (append_column (lA (aux p)) (lb (aux p))))) <= qz X)%Qc).
  { intros ok HB1 X HX HW' s Ls Hs. pose proof (wf_b _ Ha) as Lb. pose proof (wf_A _ Ha) as SA. unfold rows, cols in Lb, SA. unfold mdet. rewrite length_columns, length_append_column, HR by auto.
    apply (bound_signed _ _ _ ok _ (wide p) (sg p)); [auto|intros; apply trit_sg| |exact HW'].
    intros j Hj. assert (Kok : ok (nth j s 0)) by (apply Hs, nth_In; lia). pose proof (HB1 _ Kok) as K. set (k := nth j s 0) in *.
    assert (EC : forall i, i < length (lA p) -> ent (columns_of s (append_column (lA (aux p)) (lb (aux p)))) i j = ent (append_column (lA (aux p)) (lb (aux p))) i k).
    { intros i Hi. apply ent_columns; [rewrite length_append_column; auto; lia|lia]. }
    unfold wide. destruct (Nat.ltb_spec k (length (lc p))) as [K1|K1]; [|destruct (Nat.ltb_spec k (length (lc p) + length (lA p))) as [K2|K2]].
    + exists 1%Qc, k. split; [apply trit_1|]. split; auto. intros i Hi. rewrite EC, (ent_append _ (length (lc (aux p)))), ent_aux1, ent_neg by (auto; lia).
      rewrite (proj2 (Nat.ltb_lt _ _)) by auto. ring.
    + exists (sg p (k - length (lc p))), k. split; [apply trit_sg|]. split; auto. intros i Hi. rewrite EC, (ent_append _ (length (lc (aux p)))) by (auto; lia).
      replace k with (cols p + (k - length (lc p))) at 1 by (unfold cols; lia). rewrite ent_aux2 by (auto; unfold rows; lia).
      rewrite (proj2 (Nat.ltb_ge _ _)), (proj2 (Nat.ltb_lt _ _)) by auto. unfold delta. destruct (Nat.eqb_spec i (k - length (lc p))) as [->|]; [|change (Q2Qc 0) with 0%Qc; ring].
      rewrite Qcmult_1_r. symmetry. apply sg_sq.
    + exists 1%Qc, k. split; [apply trit_1|]. split; auto. intros i Hi. replace k with (length (lc (aux p))) in EC by lia. rewrite EC, (ent_append_last _ (length (lc (aux p)))) by (auto; lia).
      rewrite (proj2 (Nat.ltb_ge _ _)), (proj2 (Nat.ltb_ge _ _)) by auto. rewrite lb_aux, lb_neg. ring. }
  pose proof SA0 as (A1 & A2 & _). exists d, e, K0, L0. constructor; [constructor| | | |]; rewrite ?HR, ?HC; auto.
  - intros i j Hi Hj. destruct (Nat.lt_ge_cases j (length (lc p))) as [K|K].
    + rewrite ent_aux1, ent_neg by auto. apply isint_scale; auto. apply trit_sg.
    + replace j with (cols p + (j - length (lc p))) by (unfold cols; lia). rewrite ent_aux2 by (auto; unfold rows; lia). apply isint_trit. unfold delta. destruct (Nat.eqb _ _); [apply trit_1|apply trit_0].
  - intros i Hi. rewrite lb_aux, lb_neg. apply isint_scale; auto. apply trit_sg.
  - intros j Hj. apply isint_trit. destruct (Nat.lt_ge_cases j (length (lc p))) as [K|K]; [rewrite lc_aux1 by auto; apply trit_0|].
    replace j with (cols p + (j - length (lc p))) by (unfold cols; lia). rewrite lc_aux2 by (auto; unfold rows; lia). apply trit_opp, trit_1.
  - apply (G (fun j => j < length (lc p) + length (lA p))); auto. intros; lia.
  - apply (G (fun j => j <= length (lc p) + length (lA p))); auto.
Qed.
(** every column after splitting the free variables is, up to sign, a column before *)
Lemma at_cons0 a (r : list Qc) : at_ (a :: r) 0 = a. Proof. reflexivity. Qed.
Lemma at_consS a (r : list Qc) j : at_ (a :: r) (S j) = at_ r j. Proof. reflexivity. Qed.
Lemma expand_column n : forall k fs j, exists s f, trit s /\ (s = 0%Qc \/ f < n) /\ forall r, length r = n -> at_ (expand k fs r) j = (s * at_ r f)%Qc.
Proof.
  induction n as [|n IH]; intros k fs j.
  - exists 0%Qc, 0. split; [apply trit_0|]. split; auto. intros [|]; [|discriminate]. intros _. unfold at_. destruct j; cbn; ring.
  - destruct fs as [|f fs].
    + destruct (Nat.lt_ge_cases j (S n)) as [Hj|Hj].
      * exists 1%Qc, j. split; [apply trit_1|]. split; auto. intros [|a r] L; [discriminate|]. cbn [expand]. ring.
      * exists 0%Qc, 0. split; [apply trit_0|]. split; auto. intros [|a r] L; [discriminate|]. cbn [expand]. rewrite at_over by lia. ring.
    + assert (G : forall k' fs' j', exists s f0, trit s /\ (s = 0%Qc \/ f0 < S n) /\ forall a r, length r = n -> at_ (expand k' fs' r) j' = (s * at_ (a :: r) f0)%Qc).
      { intros k' fs' j'. destruct (IH k' fs' j') as (s & f0 & T & B & E). exists s, (S f0). split; auto. split; [destruct B; auto; right; lia|]. intros a r L. rewrite at_consS. now apply E. }
      destruct (Nat.eqb f k) eqn:Ek.
      * destruct j as [|[|j]].
        -- exists 1%Qc, 0. split; [apply trit_1|]. split; [right; lia|]. intros [|a r] L; [discriminate|]. cbn [expand]. rewrite Ek. rewrite !at_cons0. ring.
        -- exists (- (1))%Qc, 0. split; [apply trit_opp, trit_1|]. split; [right; lia|]. intros [|a r] L; [discriminate|]. cbn [expand]. rewrite Ek. rewrite at_consS, !at_cons0. ring.
        -- destruct (G (S k) fs j) as (s & f0 & T & B & E). exists s, f0. split; auto. split; auto. intros [|a r] L; [discriminate|]. cbn [expand]. rewrite Ek. rewrite !at_consS. apply E. now injection L.
      * destruct j as [|j].
        -- exists 1%Qc, 0. split; [apply trit_1|]. split; [right; lia|]. intros [|a r] L; [discriminate|]. cbn [expand]. rewrite Ek. rewrite !at_cons0. ring.
        -- destruct (G (S k) (f :: fs) j) as (s & f0 & T & B & E). exists s, f0. split; auto. split; auto. intros [|a r] L; [discriminate|]. cbn [expand]. rewrite Ek. rewrite at_consS. apply E. now injection L.
Qed.
Lemma sef_column p : wf p -> lsef p = false -> forall j, exists s f, trit s /\ (s = 0%Qc \/ f < length (lc p)) /\
  forall r, length r = length (lc p) -> at_ (expand 0 (lfree p) (fold_left (fun r i => neg_at i r) (lneg p) r)) j = (s * at_ r f)%Qc.
Proof.
  intros H Hs j. destruct (expand_column (length (lc p)) 0 (lfree p) j) as (s & f & T & B & E).
  exists (if inb f (lneg p) then - s else s)%Qc, f. split; [destruct (inb f (lneg p)); auto; now apply trit_opp|]. split.
  - destruct B as [->|B]; auto. left. destruct (inb f (lneg p)); ring.
  - intros r L. rewrite E by (now rewrite length_neg_all). rewrite at_neg_all by now apply neg_nodup. destruct (inb f (lneg p)); ring.
Qed.
(** ... and every column of the matrix in SEF is, up to sign, a column of [A | I] *)
Lemma sef_wide p : wf p -> lsef p = false -> forall j, exists s f, trit s /\ (s = 0%Qc \/ f < length (lc p) + length (lA p)) /\
  forall i, i < length (lA p) -> ent (lA (fst (to_sef p))) i j = (s * wide p i f)%Qc.
Proof.
  intros H Hs. destruct (to_sef_parts p H Hs) as (P1 & _ & _ & _ & _ & _ & _ & _ & P9 & P10 & P11). pose proof (sef_cols p H Hs) as HC.
  set (sef := fst (to_sef p)) in *. set (ks := filter (has (lineq p)) (seq 0 (rows p))) in *. change (length (lA sef) = length (lA p)) in P9. unfold cols, rows in HC. fold rows in HC.
  assert (Hrow : forall i, i < length (lA p) -> length (nth i (lA p) []) = length (lc p)) by (intros i Hi; now apply (shaped_nth (cols p)); [apply (wf_A _ H)|]).
  set (w := length (lc p) + length (lfree p)) in *.
  assert (Lpart : forall r, length r = length (lc p) -> length (expand 0 (lfree p) (fold_left (fun r i => neg_at i r) (lneg p) r)) = w) by (intros r Lr; now apply (len_part p H)).
  intros j. destruct (Nat.lt_ge_cases j w) as [Hj|Hj].
  - destruct (sef_column p H Hs j) as (s & f & T & B & E). exists s, f. split; auto. split; [destruct B; auto; right; lia|]. intros i Hi. unfold ent at 1. rewrite P11, at_app1 by (auto; rewrite Lpart; auto). rewrite E by auto.
    destruct B as [->|B]; [ring|]. unfold wide. rewrite (proj2 (Nat.ltb_lt _ _)) by auto. reflexivity.
  - destruct (Nat.lt_ge_cases (j - w) (length ks)) as [Hk|Hk].
    + set (k := nth (j - w) ks 0). assert (Hkr : k < length (lA p)). { assert (K : In k ks) by now apply nth_In. apply filter_In in K. destruct K as (K & _). apply in_seq in K. unfold rows in K. lia. }
      exists (slack_coeff (op_at (lineq p) k)), (length (lc p) + k). split; [|split; [right; lia|]].
      * unfold slack_coeff. destruct (op_at (lineq p) k =? ">=")%string; [apply trit_opp, trit_1|]. destruct (op_at (lineq p) k =? "<=")%string; [apply trit_1|apply trit_0].
      * intros i Hi. unfold ent at 1. rewrite P11, at_app2 by (auto; rewrite Lpart; auto). rewrite Lpart by auto. unfold at_, slack_row.
        rewrite (nth_indep _ _ ((fun k => if Nat.eqb i k then slack_coeff (op_at (lineq p) k) else 0%Qc) 0)) by (rewrite map_length; auto).
        rewrite (map_nth (fun k => if Nat.eqb i k then slack_coeff (op_at (lineq p) k) else 0%Qc)). fold k. unfold wide.
        rewrite (proj2 (Nat.ltb_ge _ _)), (proj2 (Nat.ltb_lt _ _)) by lia. replace (length (lc p) + k - length (lc p)) with k by lia. destruct (Nat.eqb i k); ring.
    + exists 0%Qc, 0. split; [apply trit_0|]. split; [now left|]. intros i Hi. unfold ent at 1. rewrite P11 by auto. rewrite at_over; [ring|]. rewrite app_length, Lpart by auto. unfold slack_row. rewrite map_length. lia.
Qed.
Lemma moderate_sef_same p d e K0 L0 : wf p -> moderate p d e K0 L0 -> moderate (fst (to_sef p)) d e K0 L0.
Proof.
  intros H HM. destruct (lsef p) eqn:Hs; [unfold to_sef; now rewrite Hs|]. destruct HM as [[S1 S2 S3 S4 S5 S6 S7] SA0 S8 HW HWb].
  destruct (to_sef_parts p H Hs) as (P1 & _ & _ & _ & _ & _ & _ & _ & P9 & P10 & P11). pose proof (sef_wf p H Hs) as Hw. pose proof (sef_cols p H Hs) as HC.
  set (sef := fst (to_sef p)) in *. set (ks := filter (has (lineq p)) (seq 0 (rows p))) in *. change (length (lA sef) = length (lA p)) in P9. unfold cols, rows in HC. fold rows in HC.
  assert (Hrow : forall i, i < length (lA p) -> length (nth i (lA p) []) = length (lc p)) by (intros i Hi; now apply (shaped_nth (cols p)); [apply (wf_A _ H)|]).
  set (w := length (lc p) + length (lfree p)) in *.
  assert (Lpart : forall r, length r = length (lc p) -> length (expand 0 (lfree p) (fold_left (fun r i => neg_at i r) (lneg p) r)) = w) by (intros r Lr; now apply (len_part p H)).
  assert (Col : 0 < length (lA p) -> forall j, exists s f, trit s /\ f < length (lc p) + length (lA p) /\ forall i, i < length (lA p) -> ent (lA sef) i j = (s * wide p i f)%Qc).
  { intros Hm j. destruct (sef_wide p H Hs j) as (s & f & T & [->|B] & E); [exists 0%Qc, 0; split; auto; split; [lia|]; intros i Hi; unfold sef; rewrite E by auto; ring|]. exists s, f. split; [exact T|]. split; [exact B|exact E]. }
  assert (IW : forall i f, i < length (lA p) -> isint (qz (nth i d 1%Z) * wide p i f)%Qc).
  { intros i f Hi. unfold wide. destruct (Nat.ltb_spec f (length (lc p))); [now apply S4|]. destruct (Nat.ltb f (length (lc p) + length (lA p))); [|now apply S5].
    apply isint_trit. destruct (Nat.eqb i (f - length (lc p))); [apply trit_1|apply trit_0]. }
  assert (G : forall (last : bool) X, (0 <= X)%Z ->
    (forall l, length l = length (lA p) -> (forall j, In j l -> j < length (lc p) + length (lA p) \/ last = true /\ j = length (lc p) + length (lA p)) -> (qz (product d) * qabs (det (length (lA p)) (fun i j => wide p i (nth j l 0%nat))) <= qz X)%Qc) ->
    forall s, length s = length (lA p) -> (forall j, In j s -> j < length (lc sef) + length (lA p) \/ last = true /\ j = length (lc sef) + length (lA p)) -> (qz (product d) * qabs (det (length (lA p)) (fun i j => wide sef i (nth j s 0%nat))) <= qz X)%Qc).
  { intros last X HX HW' s Ls Hl. apply (bound_signed _ _ _ (fun j => j < length (lc p) + length (lA p) \/ last = true /\ j = length (lc p) + length (lA p)) _ (wide p) (fun _ => 1%Qc)); [auto|intros; apply trit_1| |exact HW'].
    intros j Hj. assert (K : nth j s 0 < length (lc sef) + length (lA p) \/ last = true /\ nth j s 0 = length (lc sef) + length (lA p)) by (apply Hl, nth_In; lia). set (k := nth j s 0) in *.
    destruct (Nat.lt_ge_cases k (length (lc sef))) as [K1|K1]; [|destruct (Nat.lt_ge_cases k (length (lc sef) + length (lA p))) as [K2|K2]].
    + destruct (Col ltac:(lia) k) as (t & f & T & B & E). exists t, f. split; auto. split; auto. intros i Hi. rewrite Qcmult_1_l, <- E by auto. unfold wide. now rewrite (proj2 (Nat.ltb_lt _ _)).
    + exists 1%Qc, (length (lc p) + (k - length (lc sef))). split; [apply trit_1|]. split; [lia|]. intros i Hi. rewrite !Qcmult_1_l. unfold wide. rewrite P9.
      rewrite (proj2 (Nat.ltb_ge _ _)), (proj2 (Nat.ltb_lt _ _)), (proj2 (Nat.ltb_ge _ _)), (proj2 (Nat.ltb_lt _ _)) by lia. now replace (length (lc p) + (k - length (lc sef)) - length (lc p)) with (k - length (lc sef)) by lia.
    + exists 1%Qc, (length (lc p) + length (lA p)). split; [apply trit_1|]. split; [right; split; auto; destruct K as [K|(K & _)]; [lia|exact K]|]. intros i Hi. rewrite !Qcmult_1_l. unfold wide. rewrite P9, P1.
      rewrite !(proj2 (Nat.ltb_ge _ _)) by lia. reflexivity. }
  pose proof SA0 as (A1 & A2 & _). constructor; [constructor| | | |]; rewrite ?P9, ?P1; auto.
  - intros i j Hi _. destruct (Col ltac:(lia) j) as (s & f & T & _ & E). rewrite E by auto. apply isint_scale; auto.
  - intros j _. rewrite P10. destruct (Nat.lt_ge_cases j w) as [Hj|Hj].
    + set (c1 := if (lobj p =? "min")%string then vopp (lc p) else lc p) in *. assert (L1 : length c1 = length (lc p)) by (unfold c1; destruct (lobj p =? "min")%string; [apply length_vopp|reflexivity]).
      rewrite at_app1 by (rewrite Lpart; auto). destruct (sef_column p H Hs j) as (s & f & T & B & E). rewrite E by auto. destruct B as [->|B]; [rewrite Qcmult_0_l, Qcmult_0_r; apply isint_0|].
      apply isint_scale; auto. unfold c1. destruct (lobj p =? "min")%string; [|now apply S6]. rewrite at_vopp. replace (qz e * - at_ (lc p) f)%Qc with (- (qz e * at_ (lc p) f))%Qc by ring. apply isint_opp. now apply S6.
    + rewrite at_app2 by (rewrite Lpart; auto; destruct (lobj p =? "min")%string; [apply length_vopp|reflexivity]). rewrite at_repeat0, Qcmult_0_r. apply isint_0.
  - intros s Ls Hl. apply (G false K0); auto. intros l Ll Hll. apply HW; auto. intros j Hj. destruct (Hll j Hj) as [|(E & _)]; [auto|discriminate E].
  - intros s Ls Hl. apply (G true L0); auto.
    + intros l Ll Hll. apply HWb; auto. intros j Hj. specialize (Hll j Hj). lia.
    + intros j Hj. specialize (Hl j Hj). destruct (Nat.eq_dec j (length (lc sef) + length (lA p))); [right; auto|left; lia].
Qed.
Lemma moderate_sef p : wf p -> moderate_data p -> moderate_data (fst (to_sef p)).
Proof. intros H (d & e & K & L & HM). exists d, e, K, L. now apply moderate_sef_same. Qed.
(** integers bounded by [M], with m! M^m <= 300 for m rows, are an instance *)
Lemma entries_moderate p M : wf p -> (1 <= M)%Z -> small_entries p M -> moderate_data p.
Proof.
  intros H HM [S1 S2 S3 S4]. pose proof (wf_b _ H) as Lb. pose proof (wf_A _ H) as SA. unfold rows in Lb.
  assert (EA : forall i j, i < length (lA p) -> j < length (lc p) -> exists z, ent (lA p) i j = qz z /\ (Z.abs z <= M)%Z).
  { intros i j Hi Hj. apply (S1 (nth i (lA p) [])); [now apply nth_In|]. apply nth_In. now rewrite (shaped_nth (cols p)) by auto. }
  assert (Eb : forall i, i < length (lA p) -> exists z, at_ (lb p) i = qz z /\ (Z.abs z <= M)%Z) by (intros i Hi; apply S2, nth_In; lia).
  assert (W : forall s, length s = length (lA p) -> (forall j, In j s -> j <= length (lc p) + length (lA p)) -> (1 * qabs (det (length (lA p)) (fun i j => wide p i (nth j s 0%nat))) <= qz 300)%Qc).
  { intros s Ls Hs. rewrite Qcmult_1_l. eapply Qcle_trans; [|apply qz_le; exact S4]. apply det_bound; [lia|]. intros i j Hi Hj.
    assert (G : forall v, (exists z, v = qz z /\ (Z.abs z <= M)%Z) -> (qabs v <= qz M)%Qc).
    { intros v (z & -> & Hz). apply qabs_le. rewrite <- qz_opp, !qz_le. lia. }
    apply G. unfold wide. destruct (Nat.ltb_spec (nth j s 0) (length (lc p))); [now apply EA|]. destruct (Nat.ltb (nth j s 0) _); [|now apply Eb].
    destruct (Nat.eqb i _); [exists 1%Z|exists 0%Z]; (split; [reflexivity|cbn; lia]). }
  exists (repeat 1%Z (length (lA p))), 1%Z, 300%Z, 300%Z. constructor; [constructor| | | |]; rewrite ?product_ones; try lia.
  - apply repeat_length.
  - intros k Hk. apply repeat_spec in Hk. subst k. reflexivity.
  - intros i j Hi Hj. rewrite nth_ones. change (qz 1) with 1%Qc. rewrite Qcmult_1_l. destruct (EA i j Hi Hj) as (z & -> & _). now exists z.
  - intros i Hi. rewrite nth_ones. change (qz 1) with 1%Qc. rewrite Qcmult_1_l. destruct (Eb i Hi) as (z & -> & _). now exists z.
  - intros j Hj. change (qz 1) with 1%Qc. rewrite Qcmult_1_l. apply at_int. exact S3.
  - unfold apart. lia.
  - intros s Ls Hs. apply W; auto. intros j Hj. apply Nat.lt_le_incl. auto.
  - exact W.
Qed.

(** * C35 *)
(** [y] proves that no nonnegative point satisfies the equations *)
Definition infeasibility_certificate (p : lp) (y : list Qc) : Prop :=
  length y = length (lA p) /\ (forall j, j < length (lc p) -> (0 <= inner y (column (lA p) j))%Qc) /\ (inner y (lb p) < 0)%Qc.
Lemma certificate_infeasible p y : wf p -> lsef p = true -> infeasibility_certificate p y -> infeasible (meaning p).
Proof.
  intros H Hs (L & HA & HB) x Hx. apply sfeas_iff in Hx; auto. destruct Hx as (X1 & X2 & X3). rewrite (inner_Sum (rows p)) in HB by auto.
  assert (Q : Sum (rows p) (fun i => at_ y i * at_ (lb p) i)%Qc = Sum (cols p) (fun j => Sum (rows p) (fun i => at_ y i * ent (lA p) i j) * at_ x j)%Qc).
  { rewrite <- Sum_assoc. apply Sum_ext. intros i Hi. now rewrite X2. }
  assert (0 <= Sum (cols p) (fun j => Sum (rows p) (fun i => at_ y i * ent (lA p) i j) * at_ x j))%Qc.
  { apply Sum_nonneg. intros j Hj. apply qmul_nonneg; [|auto]. specialize (HA j Hj). now rewrite (inner_column (rows p)) in HA by auto. }
  rewrite Q in HB. clear - HB H0. qclra.
Qed.
Lemma certificate_unbounded p x d : wf p -> lsef p = true -> unbounded_certificate p x d -> unbounded (meaning p).
Proof.
  intros H Hs (Fx & Ld & U1 & U2 & U3). apply (ray_unbounded p x d); auto. intros j Hj. apply U2. unfold cols in Hj. lia.
Qed.
Lemma farkas_accepted p y : lsef p = true -> wf p -> length y = rows p -> (forall j, j < cols p -> (0 <= Sum (rows p) (fun i => at_ y i * ent (lA p) i j))%Qc) ->
  (Sum (rows p) (fun i => at_ y i * at_ (lb p) i) <= - tol_zero)%Qc -> infeasibility_certificate p y /\ verify_infeasibility p y = Ok true.
Proof.
  intros Hs H L Y1 Y2. pose proof tol_pos as T.
  assert (Eb : inner y (lb p) = Sum (rows p) (fun i => at_ y i * at_ (lb p) i)%Qc) by now apply inner_Sum. split.
    + split; auto. split.
      * intros j Hj. rewrite (inner_column (rows p)) by auto. now apply Y1.
      * rewrite Eb. clear - Y2 T. qclra.
    + unfold verify_infeasibility. rewrite Hs. cbn [negb]. change (rows p) with (length (lA p)). change (rows p) with (length (lA p)) in L. rewrite L, Nat.eqb_refl. cbn [negb]. f_equal. apply andb_true_iff. split.
      * apply forallb_forall. intros v Hv. apply (In_nth _ _ 0%Qc) in Hv. destruct Hv as (j & Hj & <-). fold (at_ (mulvm (cols p) y (lA p)) j). rewrite length_mulvm in Hj.
        apply ge0_true. rewrite at_mulvm, L by auto. specialize (Y1 j Hj). clear - Y1 T. unfold rows in Y1. qclra.
      * apply neg_true. rewrite (dot_Sum (rows p)) by auto. exact Y2.
Qed.
Lemma decides p fuel : wf p -> lsef p = true -> 0 < length (lA p) -> full_row_rank p -> small_data p -> small_data (aux p) ->
  2 ^ (length (lc p) + length (lA p)) <= fuel -> exists r, two_phase_simplex fuel p = (p, Ok r) /\
    ((exists x B y, r = (Some x, Some B, CVec y) /\ optimal (meaning p) x) \/
     (exists x d, r = (None, None, CPair x d) /\ unbounded_certificate p x d) \/
     (exists y, r = (None, None, CVec y) /\ infeasibility_certificate p y /\ verify_infeasibility p y = Ok true)).
Proof.
  intros H Hs Hm HR HS HA Hfuel. destruct (two_phase_cases p H Hs HS HA HR Hm fuel Hfuel) as [(Bz & E & HB & HF)|(y & E & L & Y1 & Y2)].
  - assert (F : 2 ^ length (lc p) <= fuel) by (etransitivity; [|exact Hfuel]; apply Nat.pow_le_mono_r; lia).
    destruct (simplex_terminates p Bz fuel H Hs HS HB HF F) as (r & Er & [K|K]); exists r; (split; [congruence|]); tauto.
  - exists (None, None, CVec y). split; auto. right. right. exists y. split; auto. now apply farkas_accepted.
Qed.
(** every program in SEF with linearly independent equations and moderate data *)
Theorem C35_decides_partial p fuel : reachable p -> lsef p = true -> 0 < length (lA p) -> full_row_rank p ->
  moderate_data p -> 2 ^ (length (lc p) + length (lA p)) <= fuel ->
  exists r, two_phase_simplex fuel p = (p, Ok r) /\
    ((exists x B y, r = (Some x, Some B, CVec y) /\ optimal (meaning p) x) \/
     (exists x d, r = (None, None, CPair x d) /\ unbounded_certificate p x d /\ unbounded (meaning p)) \/
     (exists y, r = (None, None, CVec y) /\ infeasibility_certificate p y /\ verify_infeasibility p y = Ok true /\ infeasible (meaning p))).
Proof.
  intros Hr Hs Hm HR HE Hfuel. pose proof (reachable_wf p Hr) as H.
  destruct (decides p fuel H Hs Hm HR) as (r & E & K); auto.
  - now apply moderate_small.
  - now apply moderate_aux.
  - exists r. split; auto. destruct K as [K|[(x & d & K1 & K2)|(y & K1 & K2 & K3)]]; auto.
    + right. left. exists x, d. split; auto. split; auto. now apply (certificate_unbounded p x d).
    + right. right. exists y. split; auto. split; auto. split; auto. now apply (certificate_infeasible p y).
Qed.
Print Assumptions C35_decides_partial.

(** and every program in SEF with linearly dependent equations and moderate data: the method raises
    ValueError when the program has a feasible point, whatever its optimum, and answers correctly
    when it has none *)
Theorem C35_dependent p fuel : reachable p -> lsef p = true -> 0 < length (lA p) -> ~ full_row_rank p ->
  moderate_data p -> 2 ^ (length (lc p) + length (lA p)) <= fuel ->
  (snd (two_phase_simplex fuel p) = Raise ValueError /\ exists x, feasible (meaning p) x) \/
  (exists y, two_phase_simplex fuel p = (p, Ok (None, None, CVec y)) /\ infeasibility_certificate p y /\ verify_infeasibility p y = Ok true /\ infeasible (meaning p)).
Proof.
  intros Hr Hs Hm HR HE Hfuel. pose proof (reachable_wf p Hr) as H.
  destruct (two_phase_dependent p H Hs (moderate_small p H HE) (moderate_aux p H HE) Hm fuel Hfuel) as [(E & F)|(y & E & L & Y1 & Y2)].
  - intros Bz E. apply HR. apply is_basis_basis in E. now apply (basis_independent p _ H E).
  - left. rewrite E. auto.
  - right. exists y. split; auto. destruct (farkas_accepted p y Hs H L Y1 Y2) as (K1 & K2). split; auto. split; auto. now apply (certificate_infeasible p y).
Qed.
Print Assumptions C35_dependent.

(** a solution is always the outcome of one run of simplex on the program itself *)
Lemma two_phase_some fuel p p' x Bo cert : two_phase_simplex fuel p = (p', Ok (Some x, Bo, cert)) -> exists Bz, snd (simplex fuel p Bz) = Ok (Some x, Bo, cert).
Proof.
  unfold two_phase_simplex. destruct (auxiliary p) as [a0| |]; try discriminate. cbv zeta. destruct (simplex fuel (fst (to_sef a0)) _) as [a' [[[s bz] ce]| |]]; try discriminate.
  destruct s as [xs|]; [|discriminate]. destruct bz as [bz|]; [|discriminate]. destruct (evaluate a' xs) as [v| |]; try discriminate. destruct (is_close_to_zero v).
  - destruct (is_basis p bz) as [[|]| |]; try discriminate; [intros E; exists bz; now rewrite E|]. destruct (Nat.leb _ _); [discriminate|].
    destruct (complete_basis _ _ _ _ _ _) as [[B|]| |]; try discriminate; intros E; eexists; rewrite E; reflexivity.
  - destruct (minv _) as [X| |]; discriminate.
Qed.
(** for every program: the point satisfies the equations, its entries are nonnegative and its value
    is optimal, the last two up to 10^-10 *)
Theorem C35_solution_partial fuel p p' x Bo cert : reachable p -> two_phase_simplex fuel p = (p', Ok (Some x, Bo, cert)) ->
  satisfies p x /\ (forall j, j < length x -> (- Q2Qc (1 # 10000000000) < nth j x 0)%Qc) /\
  (exists y, cert = CVec y /\ verify_optimality p y = Ok true /\ inner y (lb p) = inner (lc p) x) /\
  (forall x', feasible (meaning p) x' -> (value (meaning p) x' <= value (meaning p) x + Q2Qc (1 # 10000000000) * total x')%Qc).
Proof.
  intros Hr E. apply two_phase_some in E. destruct E as (Bz & E). apply C32_solution_partial in E; auto.
  destruct E as (B & y & _ & -> & S1 & S2 & _ & _ & _ & S3 & _ & S4 & S5). split; auto. split; auto. split; auto. exists y. auto.
Qed.
Print Assumptions C35_solution_partial.
(** x1 + x2 = 1 stated twice: the program has an optimum, the method raises *)
Theorem C35_redundant_refuted : exists p x, reachable p /\ lsef p = true /\ optimal (meaning p) x /\ snd (two_phase_simplex 64 p) = Raise ValueError.
Proof.
  destruct (linear_program (mat 2 [[1; 1]; [2; 2]]%Z) (vec [1; 2]%Z) (vec [1; 0]%Z) 0%Qc "max" None None None) as [p| |] eqn:E; try discriminate E.
  assert (Hr : reachable p) by (refine (r_new _ _ _ _ _ _ _ _ _ _ E); repeat constructor). injection E as <-.
  eexists. exists [1; 0]%Qc. split; [exact Hr|]. split; [reflexivity|]. split.
  - split.
    + split; [reflexivity|]. split.
      * intros [|[|i]] Hi; [| |cbn in Hi; lia]; apply Qc_is_canon; reflexivity.
      * intros [|[|j]] Hj; [| |cbn in Hj; lia]; cbn; discriminate.
    + intros y (L & HA & HB). destruct y as [|y1 [|y2 [|]]]; try discriminate L. specialize (HA 0 ltac:(cbn; lia)). specialize (HB 1 ltac:(cbn; lia)).
      cbn in HA, HB. unfold as_good, value. cbn. change (Q2Qc 1) with 1%Qc in *. change (Q2Qc 0) with 0%Qc in *.
      change (qz 1) with 1%Qc in *. change (qz 0) with 0%Qc in *. clear - HA HB. qclra.
  - vm_compute. reflexivity.
Qed.
Print Assumptions C35_redundant_refuted.

(** the four kinds of SEF program: bounded, unbounded, infeasible, and one whose phase-one basis keeps
    an artificial column and has to be completed *)
Definition sef_program (A : list (list Z)) (n : nat) (b c : list Z) : res lp :=
  linear_program (mat n A) (vec b) (vec c) 0%Qc "max" None None None.
Definition kind (r : res lp) : option (option (list Q) * option (list Z) * option (list Q)) :=
  match r with
  | Ok p => match snd (two_phase_simplex 4096 p) with
            | Ok (x, B, CVec y) => Some (option_map (map this) x, B, Some (map this y))
            | Ok (x, B, CPair _ _) => Some (option_map (map this) x, B, None)
            | _ => None end
  | _ => None end.
Example C35_outcomes :
  kind (sef_program [[1; 1; 1; 0]; [1; -1; 0; -1]]%Z 4 [4; 1]%Z [1; 2; 0; 0]%Z) =
    Some (Some [5 # 2; 3 # 2; 0; 0]%Q, Some [1; 2]%Z, Some [3 # 2; -1 # 2]%Q) /\
  kind (sef_program [[1; -1; 1; 0]; [-2; 1; 0; 1]]%Z 4 [2; 1]%Z [0; 1; 0; 0]%Z) = Some (None, None, None) /\
  kind (sef_program [[1; 1; 1; 0]; [1; 1; 0; -1]]%Z 4 [1; 2]%Z [1; 1; 0; 0]%Z) = Some (None, None, Some [1; -1]%Q) /\
  kind (sef_program [[1; 1; 1]; [1; -1; 1]]%Z 3 [1; 1]%Z [1; 2; 3]%Z) = Some (Some [0; 0; 1]%Q, Some [2; 3]%Z, Some [5 # 2; 1 # 2]%Q).
Proof. vm_compute. repeat split; reflexivity. Qed.
Example C35_nontrivial : exists p, sef_program [[1; 1; 1; 0]; [1; -1; 0; -1]]%Z 4 [4; 1]%Z [1; 2; 0; 0]%Z = Ok p /\
  reachable p /\ lsef p = true /\ full_row_rank p /\ moderate_data p.
Proof.
  destruct (sef_program [[1; 1; 1; 0]; [1; -1; 0; -1]]%Z 4 [4; 1]%Z [1; 2; 0; 0]%Z) as [p| |] eqn:E; try discriminate E. unfold sef_program in E.
  assert (Hr : reachable p) by (refine (r_new _ _ _ _ _ _ _ _ _ _ E); repeat constructor). injection E as <-.
  eexists. split; [reflexivity|]. split; [exact Hr|]. split; [reflexivity|]. split.
  - intros y L K i Hi. destruct y as [|y1 [|y2 [|]]]; try discriminate L. pose proof (K 2 ltac:(cbn; lia)) as K1. pose proof (K 3 ltac:(cbn; lia)) as K2.
    cbn in K1, K2. change (qz 1) with 1%Qc in *. change (qz 0) with 0%Qc in *. change (qz (-1)) with (Qcopp 1%Qc) in *. change (Q2Qc 0) with 0%Qc in *.
    destruct i as [|[|i]]; cbn; [qclra|qclra|cbn in Hi; lia].
  - apply (entries_moderate _ 4); [now apply reachable_wf|lia|constructor].
    + intros r v Hr' Hv. cbn in Hr'. repeat destruct Hr' as [<-|Hr']; try contradiction; cbn in Hv; repeat (destruct Hv as [<-|Hv]; [eexists; split; [reflexivity|lia]|]); contradiction.
    + intros v Hv. cbn in Hv. repeat (destruct Hv as [<-|Hv]; [eexists; split; [reflexivity|lia]|]). contradiction.
    + intros v Hv. cbn in Hv. repeat (destruct Hv as [<-|Hv]; [eexists; reflexivity|]). contradiction.
    + vm_compute. discriminate.
Qed.

(** * C41 *)
Definition down_if (p : lp) (x : list Qc) : list Qc := if lsef p then x else down p x.
Lemma solve_some fuel p p' x : wf p -> solve fuel p = (p', Ok (Some x)) ->
  exists Bz xs Bo cert, snd (simplex fuel (fst (to_sef p)) Bz) = Ok (Some xs, Bo, cert) /\ x = down_if p xs.
Proof.
  intros H. unfold solve, down_if. destruct (lsef p) eqn:Hs.
  - rewrite C29_already_sef by auto. cbn [fst]. destruct (two_phase_simplex fuel p) as [q [[[o B] ce]| |]] eqn:E; cbn [rmap fst]; try discriminate.
    intros K. injection K as -> ->. apply two_phase_some in E. destruct E as (Bz & E). exists Bz, x, B, ce. auto.
  - destruct (to_sef_parts p H Hs) as (_ & _ & _ & _ & _ & _ & _ & P8 & _). destruct (to_sef p) as [sef rv]. cbn [fst snd] in *. subst rv. fold (down p).
    cbv zeta. set (cand := map Z.of_nat _). set (back := fun o : option (list Qc) => match o with Some x => Some (from_sef (mkrev (length (lineq p)) (cat 0 (lfree p)) (lneg p)) x) | None => o end).
    assert (HB : forall o, back o = Some x -> exists xs, o = Some xs /\ x = down p xs) by (intros [xs|] K; [injection K as <-; exists xs; auto|discriminate K]).
    assert (HT : snd (p, rmap (fun o : outcome => back (fst (fst o))) (snd (two_phase_simplex fuel sef))) = Ok (Some x) ->
      exists Bz xs Bo cert, snd (simplex fuel sef Bz) = Ok (Some xs, Bo, cert) /\ x = down p xs).
    { cbn [snd]. destruct (two_phase_simplex fuel sef) as [q [[[o B] ce]| |]] eqn:E; cbn [rmap fst snd]; try discriminate. intros K. injection K as K.
      apply HB in K. destruct K as (xs & -> & ->). apply two_phase_some in E. destruct E as (Bz & E). exists Bz, xs, B, ce. auto. }
    destruct (Nat.leb (rows sef) (cols sef)); [|intros K; apply HT; apply (f_equal snd) in K; exact K].
    destruct (is_basis sef cand) as [[|]| |]; try discriminate; [|intros K; apply HT; apply (f_equal snd) in K; exact K].
    destruct (snd (simplex fuel sef cand)) as [[[o B] ce]|e|] eqn:E; [|destruct e; discriminate|discriminate].
    intros K. injection K as _ K. apply HB in K. destruct K as (xs & -> & ->). exists cand, xs, B, ce. auto.
Qed.
Lemma optimal_down p x : reachable p -> optimal (meaning (fst (to_sef p))) x -> optimal (meaning p) (down_if p x).
Proof.
  intros Hr Ho. unfold down_if. destruct (lsef p) eqn:Hs; [now rewrite C29_already_sef in Ho by auto|]. now apply (C29_to_sef p Hr Hs).
Qed.
(** moderate data: the answer is an optimum, whatever the shape of the program *)
Theorem C41_optimal_partial fuel p p' x : reachable p -> moderate_data p -> solve fuel p = (p', Ok (Some x)) -> optimal (meaning p) x.
Proof.
  intros Hr HE E. pose proof (reachable_wf p Hr) as H. apply solve_some in E; auto. destruct E as (Bz & xs & Bo & cert & E & ->). apply optimal_down; auto.
  apply (exact_optimal fuel _ Bz xs Bo cert); auto; [apply reachable_wf; now constructor|]. apply moderate_small; [apply reachable_wf; now constructor|]. now apply moderate_sef.
Qed.
Print Assumptions C41_optimal_partial.

(** for every program: constraints and signs hold up to [t], and no feasible point is better by more
    than [t] times its size (entries and slacks) *)
Definition related_within (t : Qc) (r : relation) (lhs rhs : Qc) : Prop :=
  match r with Equal => lhs = rhs | AtMost => (lhs < rhs + t)%Qc | AtLeast => (rhs - t < lhs)%Qc end.
Definition signed_within (t : Qc) (s : sign) (x : Qc) : Prop :=
  match s with Nonnegative => (- t < x)%Qc | Nonpositive => (x < t)%Qc | Unrestricted => True end.
Definition feasible_within (t : Qc) (P : problem) (x : list Qc) : Prop :=
  length x = length (costs P) /\
  (forall i, i < length (rhs P) -> related_within t (nth i (relations P) Equal) (inner (nth i (coefficients P) []) x) (nth i (rhs P) 0%Qc)) /\
  (forall j, j < length (costs P) -> signed_within t (nth j (signs P) Nonnegative) (nth j x 0%Qc)).
Definition magnitude (P : problem) (x : list Qc) : Qc :=
  (total (map qabs x) + total (map (fun i => qabs (nth i (rhs P) 0 - inner (nth i (coefficients P) []) x)%Qc) (seq 0 (length (rhs P)))))%Qc.

Lemma total_app u v : total (u ++ v) = (total u + total v)%Qc. Proof. apply Sigma_app. Qed.
Lemma total_unmerge x : forall k fs, (total (unmerge k fs x) <= total (map qabs x))%Qc.
Proof.
  induction x as [|a x IH]; intros k fs; [apply Qcle_refl|]. cbn [unmerge map].
  assert (B : forall l : list Qc, (total l <= total (map qabs l))%Qc).
  { unfold total. intros l. rewrite Sigma_map. apply Sigma_le. intros v _. unfold qabs. destruct (qlt_spec v 0); qclra. }
  destruct fs as [|f fs]; [apply B|]. unfold total in *. destruct (Nat.eqb f k); rewrite !Sigma_cons.
  - specialize (IH (S k) fs). unfold qabs at 1, qmax. destruct (qle_spec a 0), (qle_spec (- a) 0), (qlt_spec a 0); qclra.
  - specialize (IH (S k) (f :: fs)). unfold qabs at 1. destruct (qlt_spec a 0); qclra.
Qed.
Lemma total_qabs_negs l x : NoDup l -> total (map qabs (fold_left (fun r i => neg_at i r) l x)) = total (map qabs x).
Proof.
  intros Hl. rewrite !total_Sum, !map_length, length_neg_all. apply Sum_ext. intros j Hj.
  assert (A : forall u : list Qc, j < length u -> at_ (map qabs u) j = qabs (at_ u j)).
  { intros u Hu. unfold at_. rewrite (nth_indep _ _ (qabs 0)) by now rewrite map_length. apply (map_nth qabs). }
  rewrite !A by now rewrite ?length_neg_all. rewrite at_neg_all by auto. destruct (inb j l); auto. unfold qabs.
  destruct (qlt_spec (- at_ x j) 0), (qlt_spec (at_ x j) 0); qclra.
Qed.
Lemma total_up p y : wf p -> (total (up p y) <= magnitude (meaning p) y)%Qc.
Proof.
  intros H. unfold up, magnitude. rewrite total_app. cbn [meaning rhs coefficients]. rewrite (wf_b _ H).
  set (negs := fold_left _ _ _). assert (E : total (map qabs negs) = total (map qabs y)) by (apply total_qabs_negs, (neg_nodup p H)).
  pose proof (total_unmerge negs 0 (lfree p)) as K1. rewrite E in K1. set (g := fun i => qabs _). 
  assert (K2 : (total (map g (filter (has (lineq p)) (seq 0 (rows p)))) <= total (map g (seq 0 (rows p))))%Qc).
  { unfold total. rewrite !Sigma_map, Sigma_filter. apply Sigma_le. intros i _. assert (0 <= g i)%Qc by apply qabs_nonneg. unfold ind. destruct (has (lineq p) i); qclra. }
  clear - K1 K2. qclra.
Qed.
Lemma slack_value_In r : forall ks s, length s = length ks -> NoDup ks -> In r ks -> In (slack_value ks s r) s.
Proof.
  unfold slack_value. induction ks as [|k ks IH]; intros s L Hn Hr; [contradiction|]. destruct s as [|v s]; [discriminate L|]. inversion Hn as [|? ? N1 N2]; subst.
  cbn [map inner]. destruct (Nat.eqb_spec r k) as [->|Hne].
  - left. replace (inner (map (fun k0 => if Nat.eqb k k0 then 1%Qc else 0%Qc) ks) s) with 0%Qc; [ring|]. clear - N1. revert s. induction ks as [|k' ks IH]; intros [|w s]; auto. cbn [map inner].
    destruct (Nat.eqb_spec k k') as [->|Hne]; [exfalso; apply N1; simpl; auto|]. rewrite <- IH by (intros K; apply N1; simpl; auto). ring.
  - right. destruct Hr as [->|Hr]; [congruence|]. replace (0 * v + _)%Qc with (inner (map (fun k0 => if Nat.eqb r k0 then 1%Qc else 0%Qc) ks) s) by ring. apply IH; auto.
Qed.
Lemma down_within t p x : wf p -> lsef p = false -> (0 < t)%Qc -> satisfies (fst (to_sef p)) x -> (forall j, j < length x -> (- t < nth j x 0)%Qc) -> feasible_within t (meaning p) (down p x).
Proof.
  intros H Hs Ht (L & HA) Hx. set (sef := fst (to_sef p)) in *. change (length (lc sef)) with (cols sef) in L.
  destruct (split_point p H Hs x L) as (x1 & x2 & Ex & L1 & L2). destruct (to_sef_parts p H Hs) as (Eb & _ & _ & _ & _ & _ & _ & _ & P9 & _). fold sef in Eb, P9.
  assert (HL : length (down p x) = cols p).
  { rewrite Ex, (down_split p H) by auto. rewrite length_neg_all. apply length_collapse; auto. apply (free_from p H). }
  split; [exact HL|]. change (rhs (meaning p)) with (lb p). change (coefficients (meaning p)) with (lA p). rewrite (wf_b _ H). split.
  - intros r Hr. rewrite nth_relations by (now rewrite (wf_b _ H)). specialize (HA r). rewrite P9 in HA. specialize (HA Hr). rewrite Ex in HA. unfold sef in HA. rewrite (row_inner p H Hs) in HA by auto. rewrite <- Ex in HA. fold sef in HA. rewrite Eb in HA.
    set (ks := filter (has (lineq p)) (seq 0 (rows p))) in *.
    assert (HN : inb r ks = true -> (- t < slack_value ks x2 r)%Qc).
    { intros K. apply inb_In in K. pose proof (slack_value_In r ks x2 L2 (ks_NoDup p) K) as Hi. assert (Hi' : In (slack_value ks x2 r) x) by (rewrite Ex; apply in_or_app; auto).
      apply (In_nth _ _ 0%Qc) in Hi'. destruct Hi' as (j & Hj & <-). now apply Hx. }
    destruct (rel_slack p H r Hr) as [(E1 & E2)|[(E1 & E2 & E3)|(E1 & E2 & E3)]]; fold ks in E1; rewrite E1 in HA.
    + rewrite E2. cbn [related_within]. rewrite <- HA. ring.
    + rewrite E3. rewrite E2 in HA. cbn [related_within]. specialize (HN E1). clear - HN HA. qclra.
    + rewrite E3. rewrite E2 in HA. cbn [related_within]. specialize (HN E1). clear - HN HA. qclra.
  - intros j Hj. change (length (costs (meaning p))) with (cols p) in Hj. rewrite nth_signs by auto. pose proof (down_at p H Hs x j L Hj) as E. cbn zeta in E. fold (at_ (down p x) j). rewrite E.
    assert (Hk : (- t < at_ x (j + below (lfree p) j))%Qc).
    { destruct (le_lt_dec (length x) (j + below (lfree p) j)) as [K|K]; [unfold at_; rewrite nth_overflow by auto; clear - Ht; qclra|now apply Hx]. }
    unfold sgn. destruct (inb j (lfree p)); [exact I|]. destruct (inb j (lneg p)); cbn [signed_within]; [clear - Hk; qclra|exact Hk].
Qed.
Lemma qmul_le_l (a b c : Qc) : (a <= b -> 0 <= c -> c * a <= c * b)%Qc. Proof. qcnra. Qed.
Lemma rel_sef p i : wf p -> lsef p = true -> rel p i = Equal.
Proof. intros H E. destruct (sef_parts p H E) as (E1 & _). unfold rel. now rewrite E1. Qed.
Lemma sgn_sef p i : wf p -> lsef p = true -> sgn p i = Nonnegative.
Proof. intros H E. destruct (sef_parts p H E) as (_ & E2 & E3 & _). unfold sgn. now rewrite E2, E3. Qed.
(** any data whatever: feasible up to 10^-10, and optimal up to 10^-10 times the size of the competitor *)
Theorem C41_near_optimal_partial fuel p p' x : reachable p -> solve fuel p = (p', Ok (Some x)) ->
  feasible_within (Q2Qc (1 # 10000000000)) (meaning p) x /\
  forall x', feasible (meaning p) x' ->
    if maximise (meaning p) then (value (meaning p) x' <= value (meaning p) x + Q2Qc (1 # 10000000000) * magnitude (meaning p) x')%Qc
    else (value (meaning p) x <= value (meaning p) x' + Q2Qc (1 # 10000000000) * magnitude (meaning p) x')%Qc.
Proof.
  intros Hr E. pose proof (reachable_wf p Hr) as H. pose proof tol_pos as T. change (Q2Qc (1 # 10000000000)) with tol_zero. apply solve_some in E; auto. destruct E as (Bz & xs & Bo & cert & E & ->).
  apply C32_solution_partial in E; [|now constructor]. destruct E as (B & y & _ & _ & S1 & S2 & _ & _ & _ & _ & _ & _ & S5).
  change (Q2Qc (1 # 10000000000)) with tol_zero in S2, S5. unfold down_if. destruct (lsef p) eqn:Hs.
  - rewrite C29_already_sef in * by auto. cbn [fst] in *. destruct S1 as (L & S1). split.
    + split; [exact L|]. change (rhs (meaning p)) with (lb p). change (coefficients (meaning p)) with (lA p). rewrite (wf_b _ H). split.
      * intros i Hi. rewrite nth_relations by (now rewrite (wf_b _ H)). rewrite rel_sef by auto. now apply S1.
      * intros j Hj. change (length (costs (meaning p))) with (cols p) in Hj. rewrite nth_signs by auto. rewrite sgn_sef by auto. apply S2. unfold cols in Hj. lia.
    + intros x' Hx'. specialize (S5 x' Hx'). rewrite max_sef by auto.
      assert (K : (total x' <= magnitude (meaning p) x')%Qc).
      { assert (total x' = total (map qabs x')).
        { unfold total. rewrite Sigma_map. apply Sigma_ext. intros v Hv. apply sfeas_iff in Hx'; auto. destruct Hx' as (X1 & _ & X3). apply (In_nth _ _ 0%Qc) in Hv. destruct Hv as (j & Hj & <-). rewrite X1 in Hj.
          specialize (X3 j Hj). unfold at_ in X3. unfold qabs. destruct (qlt_spec (nth j x' 0) 0)%Qc; auto. exfalso. clear - X3 q. qclra. }
        unfold magnitude. assert (0 <= total (map (fun i => qabs (nth i (rhs (meaning p)) 0 - inner (nth i (coefficients (meaning p)) []) x')%Qc) (seq 0 (length (rhs (meaning p))))))%Qc.
        { unfold total. rewrite Sigma_map. apply Sigma_nonneg. intros. apply qabs_nonneg. }
        clear - H0 H1. qclra. }
      assert (tol_zero * total x' <= tol_zero * magnitude (meaning p) x')%Qc by (apply qmul_le_l; auto; apply Qclt_le_weak; auto). clear - S5 H0. qclra.
  - split; [now apply down_within|]. intros x' Hx'. destruct (up_ok p H Hs x' Hx') as (U1 & U2). specialize (S5 _ U1).
    pose proof (total_up p x' H) as K. assert (K2 : (tol_zero * total (up p x') <= tol_zero * magnitude (meaning p) x')%Qc) by (apply qmul_le_l; auto; apply Qclt_le_weak; auto).
    rewrite !(down_value p H Hs) in S5 by (first [apply U1|apply S1]). rewrite U2 in S5. destruct S1 as (L & S1).
    assert (HO : String.eqb (lobj p) "min" = negb (maximise (meaning p))) by (unfold meaning; cbn; destruct (wf_obj _ H) as [->| ->]; auto). rewrite HO in S5.
    destruct (maximise (meaning p)); cbn [negb] in S5; clear - S5 K2; qclra.
Qed.
Print Assumptions C41_near_optimal_partial.
(** maximise 5e-11 x2 subject to x1 + x2 = 10^11: the answer has value 0, the optimum is 5 *)
Theorem C41_tolerance_refuted : exists p x x', reachable p /\ snd (solve 64 p) = Ok (Some x) /\ feasible (meaning p) x' /\ (value (meaning p) x + qz 5 <= value (meaning p) x')%Qc.
Proof.
  destruct (linear_program (mat 2 [[1; 1]]%Z) (Nd (Vec [qz 100000000000])) (Nd (Vec [0%Qc; Q2Qc (5 # 100000000000)])) 0%Qc "max" None None None) as [p| |] eqn:E; try discriminate E.
  assert (Hr : reachable p) by (refine (r_new _ _ _ _ _ _ _ _ _ _ E); repeat constructor). injection E as E.
  assert (G : match snd (solve 64 p) with Ok (Some x) => map this x = [100000000000; 0]%Q | _ => False end) by (rewrite <- E; vm_compute; reflexivity).
  destruct (snd (solve 64 p)) as [[x|]| |] eqn:ES; try contradiction. apply of_this in G.
  exists p, x, [0%Qc; qz 100000000000]. split; [exact Hr|]. split; [exact ES|]. subst p x. split.
  - split; [reflexivity|]. split.
    + intros [|i] Hi; [|cbn in Hi; lia]. apply Qc_is_canon. reflexivity.
    + intros [|[|j]] Hj; [| |cbn in Hj; lia]; cbn; discriminate.
  - vm_compute. discriminate.
Qed.
Print Assumptions C41_tolerance_refuted.
(** minimise 2 x1 - 2 x2 + 3 x3, x1 + x2 >= 2, x2 - x3 <= 3, x1 + x3 <= 1, x2 free, x3 <= 0 *)
Definition mixed_program : res lp :=
  linear_program (mat 3 [[1; 1; 0]; [0; 1; -1]; [1; 0; 1]]%Z) (vec [2; 3; 1]%Z) (vec [2; -2; 3]%Z) 0%Qc "min" (Some [">="; "<="; "<="]) (Some [2%Z]) (Some [3%Z]).
Example C41_nontrivial : exists p x, mixed_program = Ok p /\ reachable p /\ moderate_data p /\ snd (solve 4096 p) = Ok (Some x) /\ map this x = [0; 2; -1]%Q.
Proof.
  destruct mixed_program as [p| |] eqn:E; try discriminate E. unfold mixed_program in E.
  assert (Hr : reachable p) by (refine (r_new _ _ _ _ _ _ _ _ _ _ E); repeat constructor). injection E as E.
  assert (G : match snd (solve 4096 p) with Ok (Some x) => map this x = [0; 2; -1]%Q | _ => False end) by (rewrite <- E; vm_compute; reflexivity).
  destruct (snd (solve 4096 p)) as [[x|]| |] eqn:ES; try contradiction. exists p, x. split; [reflexivity|]. split; [exact Hr|]. split; [|auto].
  apply (entries_moderate _ 3); [now apply reachable_wf|lia|]. subst p. constructor.
  + intros r v Hr' Hv. cbn in Hr'. repeat destruct Hr' as [<-|Hr']; try contradiction; cbn in Hv; repeat (destruct Hv as [<-|Hv]; [eexists; split; [reflexivity|lia]|]); contradiction.
  + intros v Hv. cbn in Hv. repeat (destruct Hv as [<-|Hv]; [eexists; split; [reflexivity|lia]|]). contradiction.
  + intros v Hv. cbn in Hv. repeat (destruct Hv as [<-|Hv]; [eexists; reflexivity|]). contradiction.
  + vm_compute. discriminate.
Qed.

(** * C42 *)
Lemma Sum_delta n i (v : Qc) : i < n -> Sum n (fun r => if Nat.eqb r i then v else 0%Qc) = v.
Proof. intros Hi. rewrite (Sum_single n i); [now rewrite Nat.eqb_refl|auto|]. intros j _ Hj. destruct (Nat.eqb_spec j i); [contradiction|auto]. Qed.
(** the equations among the constraints are linearly independent *)
Definition independent_equations (p : lp) : Prop :=
  forall y, length y = length (lA p) -> (forall i, i < length (lA p) -> nth i (inequalities p) "=" <> "=" -> nth i y 0%Qc = 0%Qc) ->
    (forall j, j < length (lc p) -> inner y (column (lA p) j) = 0%Qc) -> forall i, i < length y -> nth i y 0%Qc = 0%Qc.
Lemma rank_sef p : wf p -> independent_equations p -> full_row_rank (fst (to_sef p)).
Proof.
  intros H HI. destruct (lsef p) eqn:Hs.
  - rewrite C29_already_sef by auto. cbn [fst]. intros y L K. apply (HI y L); auto. intros i Hi Hn. exfalso. apply Hn. unfold inequalities.
    rewrite nth_map_seq by (rewrite (wf_b _ H); auto). destruct (sef_parts p H Hs) as (-> & _). reflexivity.
  - destruct (to_sef_parts p H Hs) as (_ & _ & _ & _ & _ & _ & _ & _ & P9 & _ & P11). pose proof (sef_wf p H Hs) as Hw. pose proof (sef_cols p H Hs) as HC. set (sef := fst (to_sef p)) in *.
    set (ks := filter (has (lineq p)) (seq 0 (rows p))) in *. intros y L K. rewrite P9 in L.
    assert (K' : forall j, j < cols sef -> Sum (rows p) (fun i => at_ y i * ent (lA sef) i j)%Qc = 0%Qc) by (intros j Hj; rewrite <- (inner_column (rows p)) by auto; now apply K).
    apply (HI y L).
    + intros i Hi Hn. assert (Hk : In i ks).
      { unfold ks. apply filter_In. split; [apply in_seq; unfold rows; lia|]. unfold inequalities in Hn. rewrite nth_map_seq in Hn by (rewrite (wf_b _ H); auto).
        unfold has, dmem. destruct (dget Nat.eqb i (lineq p)) as [s|]; [reflexivity|congruence]. }
      destruct (In_nth _ _ 0 Hk) as (k & Hkl & Ek). specialize (K' (cols p + length (lfree p) + k) ltac:(fold ks in HC; lia)).
      assert (EE : forall r, r < rows p -> ent (lA sef) r (cols p + length (lfree p) + k) = if Nat.eqb r i then slack_coeff (op_at (lineq p) i) else 0%Qc).
      { intros r Hr'. unfold ent. rewrite P11 by auto. set (e := expand _ _ _). assert (Le : length e = cols p + length (lfree p)) by (apply (len_part p H); apply shaped_nth; auto; apply (wf_A _ H)).
        rewrite at_app2 by lia. rewrite Le. replace (cols p + length (lfree p) + k - (cols p + length (lfree p))) with k by lia. unfold slack_row, at_.
        rewrite (nth_indep _ _ ((fun k0 => if Nat.eqb r k0 then slack_coeff (op_at (lineq p) k0) else 0%Qc) 0)) by now rewrite map_length.
        rewrite (map_nth (fun k0 => if Nat.eqb r k0 then slack_coeff (op_at (lineq p) k0) else 0%Qc)). now rewrite Ek. }
      rewrite (Sum_ext (rows p) _ (fun r => if Nat.eqb r i then at_ y i * slack_coeff (op_at (lineq p) i) else 0)%Qc) in K'.
      2:{ intros r Hr'. rewrite EE by auto. destruct (Nat.eqb_spec r i) as [->|]; ring. }
      rewrite Sum_delta in K' by auto. destruct (rel_slack p H i Hi) as [(E1 & _)|[(_ & E2 & _)|(_ & E2 & _)]].
      * fold ks in E1. apply inb_false in E1. contradiction.
      * rewrite E2 in K'. fold (at_ y i). clear - K'. qclra.
      * rewrite E2 in K'. fold (at_ y i). clear - K'. qclra.
    + intros j Hj. change (length (lc p)) with (cols p) in Hj. rewrite (inner_column (rows p)) by auto.
      set (e := mkvec (cols p) (fun k => if Nat.eqb k j then 1%Qc else 0%Qc)). set (e' := fold_left (fun r i => neg_at i r) (lneg p) e).
      assert (Le : length e' = cols p) by (unfold e'; rewrite length_neg_all; apply length_mkvec).
      set (x1 := unmerge 0 (lfree p) e'). assert (L1 : length x1 = cols p + length (lfree p)) by (unfold x1; rewrite length_unmerge; rewrite Le; auto; apply (free_from p H)).
      set (x2 := repeat 0%Qc (length ks)). assert (L2 : length x2 = length ks) by apply repeat_length.
      assert (D : down p (x1 ++ x2) = e).
      { rewrite (down_split p H) by auto. unfold x1. rewrite collapse_unmerge by (rewrite Le; apply (free_from p H)). apply neg_all_twice. apply (neg_nodup p H). }
      assert (R : forall r, r < rows p -> Sum (cols sef) (fun k => ent (lA sef) r k * at_ (x1 ++ x2) k)%Qc = ent (lA p) r j).
      { intros r Hr'. rewrite <- inner_row by (try apply (wf_A _ Hw); rewrite ?P9; auto). unfold sef. rewrite (row_inner p H Hs) by auto. rewrite D. fold ks.
        assert (Z : slack_value ks x2 r = 0%Qc). { unfold slack_value, x2. clear. induction ks as [|k l IH]; [reflexivity|]. cbn [map length repeat inner]. rewrite IH. ring. }
        rewrite Z. rewrite (inner_row (cols p)) by (auto; apply (wf_A _ H)).
        rewrite (Sum_ext (cols p) _ (fun k => if Nat.eqb k j then ent (lA p) r j else 0%Qc)).
        - rewrite Sum_delta by auto. destruct (inb r ks); ring.
        - intros k Hk. unfold e. rewrite at_mkvec by auto. destruct (Nat.eqb_spec k j) as [->|]; ring. }
      rewrite (Sum_ext (rows p) _ (fun r => at_ y r * Sum (cols sef) (fun k => ent (lA sef) r k * at_ (x1 ++ x2) k))%Qc) by (intros r Hr'; now rewrite R).
      rewrite Sum_assoc. rewrite (Sum_ext (cols sef) _ (fun _ => 0%Qc)); [apply Sum_zero|]. intros k Hk. rewrite K' by auto. ring.
Qed.
(** conversely dependent equations make dependent rows *)
Lemma rank_sef_conv p : wf p -> full_row_rank (fst (to_sef p)) -> independent_equations p.
Proof.
  intros H HR y L Hy K. destruct (lsef p) eqn:Hs; [rewrite C29_already_sef in HR by auto; now apply HR|].
  destruct (to_sef_parts p H Hs) as (P1 & _ & _ & _ & _ & _ & _ & _ & P9 & P10 & P11). pose proof (sef_cols p H Hs) as HC.
  set (sef := fst (to_sef p)) in *. set (ks := filter (has (lineq p)) (seq 0 (rows p))) in *. change (length (lA sef) = length (lA p)) in P9. unfold cols, rows in HC. fold rows in HC.
  assert (Hrow : forall i, i < length (lA p) -> length (nth i (lA p) []) = length (lc p)) by (intros i Hi; now apply (shaped_nth (cols p)); [apply (wf_A _ H)|]).
  set (w := length (lc p) + length (lfree p)) in *.
  assert (Lpart : forall r, length r = length (lc p) -> length (expand 0 (lfree p) (fold_left (fun r i => neg_at i r) (lneg p) r)) = w) by (intros r Lr; now apply (len_part p H)).
  apply HR; [congruence|]. intros j Hj. rewrite (inner_column (rows p)) by auto. destruct (Nat.lt_ge_cases j w) as [Hjw|Hjw].
  - destruct (sef_column p H Hs j) as (s & f & T & B & E).
    rewrite (Sum_ext (rows p) _ (fun i => s * (at_ y i * ent (lA p) i f))%Qc).
    + rewrite Sum_scal. destruct B as [->|B]; [ring|]. rewrite <- (inner_column (rows p)) by auto. rewrite K by auto. ring.
    + intros i Hi. unfold ent at 1. rewrite P11, at_app1 by (auto; rewrite Lpart; auto). rewrite E by auto. unfold ent. ring.
  - assert (Hk : j - w < length ks) by (unfold cols in *; lia). set (k := nth (j - w) ks 0). assert (Hkk : In k ks) by now apply nth_In. apply filter_In in Hkk. destruct Hkk as (Hk1 & Hk2). apply in_seq in Hk1. unfold rows in Hk1.
    rewrite (Sum_ext (rows p) _ (fun i => if Nat.eqb i k then at_ y k * slack_coeff (op_at (lineq p) k) else 0)%Qc).
    + rewrite Sum_delta by (unfold rows; lia). destruct (string_dec (op_at (lineq p) k) "=") as [->|Q]; [unfold slack_coeff; cbn; ring|].
      assert (Z : at_ y k = 0%Qc); [|rewrite Z; ring]. apply Hy; [lia|]. unfold inequalities. rewrite nth_map_seq by (rewrite (wf_b _ H); auto; unfold rows; lia). exact Q.
    + intros i Hi. unfold ent at 1. rewrite P11, at_app2 by (auto; rewrite Lpart; auto). rewrite Lpart by auto. unfold at_ at 2, slack_row.
      rewrite (nth_indep _ _ ((fun k => if Nat.eqb i k then slack_coeff (op_at (lineq p) k) else 0%Qc) 0)) by (rewrite map_length; auto).
      rewrite (map_nth (fun k => if Nat.eqb i k then slack_coeff (op_at (lineq p) k) else 0%Qc)). fold k. destruct (Nat.eqb_spec i k) as [->|]; ring.
Qed.
(** the basis that [solve] tries first on a program that is not in SEF *)
Definition first_guess (p : lp) : list Z := let sef := fst (to_sef p) in map Z.of_nat (seq (S (rows sef)) (cols sef - rows sef)).
Lemma infeasible_down p : reachable p -> infeasible (meaning (fst (to_sef p))) -> infeasible (meaning p).
Proof. intros Hr Ho. destruct (lsef p) eqn:Hs; [now rewrite C29_already_sef in Ho by auto|]. now apply (C29_to_sef p Hr Hs). Qed.
Lemma unbounded_down p : reachable p -> unbounded (meaning (fst (to_sef p))) -> unbounded (meaning p).
Proof. intros Hr Ho. destruct (lsef p) eqn:Hs; [now rewrite C29_already_sef in Ho by auto|]. now apply (C29_to_sef p Hr Hs). Qed.
Lemma solve_decides_sef p fuel : reachable p -> 0 < length (lA p) -> independent_equations p -> moderate_data (fst (to_sef p)) ->
  2 ^ (length (lc (fst (to_sef p))) + length (lA p)) <= fuel ->
  lsef p = true \/ is_basis (fst (to_sef p)) (first_guess p) <> Ok true \/ feasible_basis (fst (to_sef p)) (first_guess p) ->
  (exists x, solve fuel p = (p, Ok (Some x)) /\ optimal (meaning p) x) \/
  (solve fuel p = (p, Ok None) /\ (infeasible (meaning p) \/ unbounded (meaning p))).
Proof.
  intros Hr Hm HI HES Hfuel HG. pose proof (reachable_wf p Hr) as H. assert (Hrs : reachable (fst (to_sef p))) by now constructor. pose proof (reachable_wf _ Hrs) as Hw.
  pose proof (rank_sef p H HI) as HR.
  assert (ES : lsef (fst (to_sef p)) = true). { destruct (lsef p) eqn:Hs; [now rewrite C29_already_sef by auto|]. now destruct (to_sef_parts p H Hs) as (_ & _ & _ & _ & P & _). }
  assert (EL : length (lA (fst (to_sef p))) = length (lA p)). { destruct (lsef p) eqn:Hs; [now rewrite C29_already_sef by auto|]. now destruct (to_sef_parts p H Hs) as (_ & _ & _ & _ & _ & _ & _ & _ & P & _). }
  pose proof (C35_decides_partial (fst (to_sef p)) fuel Hrs ES ltac:(lia) HR HES ltac:(now rewrite EL)) as (r & E & HC).
  assert (KR : match fst (fst r) with Some x => optimal (meaning p) (down_if p x) | None => infeasible (meaning p) \/ unbounded (meaning p) end).
  { destruct HC as [(x & B & y & -> & Ho)|[(x & d & -> & _ & Hu)|(y & -> & _ & _ & Hi)]]; cbn [fst].
    - now apply optimal_down.
    - right. now apply unbounded_down.
    - left. now apply infeasible_down. }
  clear HC. destruct r as [[o B0] ce]. cbn [fst] in KR. pose proof (unbounded_down p Hr) as HUD. pose proof (fun x => optimal_down p x Hr) as HOD. unfold solve. unfold down_if in KR, HOD. destruct (lsef p) eqn:Hs.
  - rewrite C29_already_sef in E by auto. cbn [fst] in E. rewrite E. cbn [rmap fst]. destruct o as [x|]; [left; exists x; split; [reflexivity|exact KR]|right; split; [reflexivity|exact KR]].
  - destruct HG as [HG|HG]; [discriminate HG|]. destruct (to_sef_parts p H Hs) as (_ & _ & _ & _ & _ & _ & _ & P8 & _). unfold first_guess in HG. destruct (to_sef p) as [sef rv]. cbn [fst snd] in *. subst rv. cbv zeta in *.
    set (cand := map Z.of_nat _) in *. fold (down p).
    assert (KT : (exists x, (p, rmap (fun o : outcome => match fst (fst o) with Some x => Some (down p x) | None => fst (fst o) end) (snd (two_phase_simplex fuel sef))) = (p, Ok (Some x)) /\ optimal (meaning p) x) \/
      ((p, rmap (fun o : outcome => match fst (fst o) with Some x => Some (down p x) | None => fst (fst o) end) (snd (two_phase_simplex fuel sef))) = (p, Ok None) /\ (infeasible (meaning p) \/ unbounded (meaning p)))).
    { rewrite E. cbn [snd rmap fst]. destruct o as [x|]; [left; eexists; split; [reflexivity|exact KR]|right; split; [reflexivity|exact KR]]. }
    destruct (Nat.leb (rows sef) (cols sef)); [|exact KT]. destruct (is_basis_total sef cand) as (b & Eb); [unfold rows; lia|]. rewrite Eb in *. destruct b; [|exact KT].
    destruct HG as [HG|HG]; [congruence|].
    assert (F : 2 ^ length (lc sef) <= fuel) by (etransitivity; [|exact Hfuel]; apply Nat.pow_le_mono_r; lia).
    destruct (simplex_terminates sef cand fuel Hw ES ltac:(now apply moderate_small) Eb HG F) as (r' & Er & [(x & B & y & -> & Ho)|(x & d & -> & Hu)]); rewrite Er; cbn [snd].
    + left. eexists. split; [reflexivity|]. now apply HOD.
    + right. split; [reflexivity|]. right. apply HUD. now apply (certificate_unbounded sef x d).
Qed.
Lemma solve_decides p fuel : reachable p -> 0 < length (lA p) -> independent_equations p -> moderate_data p ->
  2 ^ (length (lc (fst (to_sef p))) + length (lA p)) <= fuel ->
  lsef p = true \/ is_basis (fst (to_sef p)) (first_guess p) <> Ok true \/ feasible_basis (fst (to_sef p)) (first_guess p) ->
  (exists x, solve fuel p = (p, Ok (Some x)) /\ optimal (meaning p) x) \/
  (solve fuel p = (p, Ok None) /\ (infeasible (meaning p) \/ unbounded (meaning p))).
Proof. intros Hr Hm HI HE. apply solve_decides_sef; auto. apply moderate_sef; auto. now apply reachable_wf. Qed.
Lemma unmerge_zeros n : forall k fs, exists l, unmerge k fs (repeat 0%Qc n) = repeat 0%Qc l.
Proof.
  induction n as [|n IH]; intros k fs; [exists 0; reflexivity|]. cbn [repeat unmerge]. destruct fs as [|f fs]; [exists (S n); reflexivity|].
  destruct (Nat.eqb f k); [destruct (IH (S k) fs) as (l & ->); exists (S (S l)); reflexivity|destruct (IH (S k) (f :: fs)) as (l & ->); exists (S l); reflexivity].
Qed.
Lemma inner_zeros u n : inner u (repeat 0%Qc n) = 0%Qc.
Proof. revert u. induction n as [|n IH]; intros [|a u]; try reflexivity. cbn [repeat inner]. rewrite IH. ring. Qed.
Lemma filter_all {A} (f : A -> bool) l : (forall a, In a l -> f a = true) -> filter f l = l.
Proof. induction l as [|a l IH]; intros K; [reflexivity|]. cbn [filter]. rewrite K by (simpl; auto). f_equal. apply IH. intros; apply K; simpl; auto. Qed.
Lemma slack_guess p : wf p -> lsef p = false -> (forall i, i < length (lA p) -> nth i (inequalities p) "=" = "<=") -> (forall i, i < length (lb p) -> (0 <= nth i (lb p) 0)%Qc) ->
  length (lc (fst (to_sef p))) = 2 * length (lA p) -> feasible_basis (fst (to_sef p)) (first_guess p).
Proof.
  intros H Hs Hop Hb Hc. set (y := repeat 0%Qc (cols p)).
  assert (Hy : feasible (meaning p) y).
  { split; [apply repeat_length|]. split.
    - intros i Hi. cbn [meaning rhs] in Hi. rewrite (wf_b _ H) in Hi. cbn [meaning relations coefficients rhs].
      change Equal with (relation_of "="). rewrite (map_nth relation_of (inequalities p) "="). rewrite Hop by auto. unfold y. rewrite inner_zeros. apply Hb. now rewrite (wf_b _ H).
    - intros j Hj. assert (E : nth j y 0%Qc = 0%Qc). { unfold y. destruct (nth_in_or_default j (repeat 0%Qc (cols p)) 0%Qc) as [K|K]; auto. now apply repeat_spec in K. }
      rewrite E. destruct (nth j (signs (meaning p)) Nonnegative); cbn [signed]; try apply Qcle_refl. exact I. }
  destruct (up_ok p H Hs y Hy) as (U & _). exists (up p y). split; auto. intros j Hj Hn. destruct U as (L & _). change (length (costs (meaning (fst (to_sef p))))) with (cols (fst (to_sef p))) in L.
  destruct (to_sef_parts p H Hs) as (_ & _ & _ & _ & _ & _ & _ & _ & P9 & _). pose proof (sef_cols p H Hs) as HC. unfold first_guess in Hn. set (sef := fst (to_sef p)) in *.
  set (ks := filter (has (lineq p)) (seq 0 (rows p))) in *.
  assert (Hks : length ks = rows p).
  { unfold ks. replace (filter (has (lineq p)) (seq 0 (rows p))) with (seq 0 (rows p)); [apply seq_length|]. symmetry. apply filter_all. intros i Hi. apply in_seq in Hi.
    specialize (Hop i ltac:(unfold rows in Hi; lia)). unfold inequalities in Hop. rewrite nth_map_seq in Hop by (rewrite (wf_b _ H); lia). unfold has, dmem. destruct (dget Nat.eqb i (lineq p)); [reflexivity|discriminate Hop]. }
  change (cols sef = 2 * rows p) in Hc. change (length (lA sef) = rows p) in P9. unfold cols in HC at 1. fold (cols sef) in HC.
  assert (Hj' : j < rows p).
  { destruct (le_lt_dec (rows p) j) as [K|K]; auto. exfalso. apply Hn. apply in_map_iff. exists (S j). split; auto. apply in_seq. unfold rows at 1 2 3. rewrite P9. lia. }
  unfold up. fold ks. change (fold_left (fun r i => neg_at i r) (lneg p) y) with (fold_left (fun r i => neg_at i r) (lneg p) y).
  assert (EY : fold_left (fun r i => neg_at i r) (lneg p) y = y).
  { apply vec_ext; [apply length_neg_all|]. intros k Hk. rewrite at_neg_all by apply (neg_nodup p H).
    assert (E : at_ y k = 0%Qc). { unfold at_, y. destruct (nth_in_or_default k (repeat 0%Qc (cols p)) 0%Qc) as [K|K]; auto. now apply repeat_spec in K. } rewrite E. now destruct (inb k (lneg p)). }
  unfold up in L. rewrite EY in *. fold ks in L. unfold y in *. destruct (unmerge_zeros (cols p) 0 (lfree p)) as (l & El). rewrite El in *. rewrite app_length, repeat_length, map_length in L.
  rewrite app_nth1 by (rewrite repeat_length; lia). destruct (nth_in_or_default j (repeat 0%Qc l) 0%Qc) as [K|K]; auto. now apply repeat_spec in K.
Qed.
(** moderate data and independent equations.  Complete for programs in SEF, for programs whose
    SEF does not have exactly twice as many columns as rows, and for all-"<=" programs with b >= 0 *)
Theorem C42_complete_partial p fuel : reachable p -> 0 < length (lA p) -> independent_equations p -> moderate_data p ->
  2 ^ (length (lc (fst (to_sef p))) + length (lA p)) <= fuel ->
  lsef p = true \/ length (lc (fst (to_sef p))) <> 2 * length (lA p) \/
    ((forall i, i < length (lA p) -> nth i (inequalities p) "=" = "<=") /\ (forall i, i < length (lb p) -> (0 <= nth i (lb p) 0)%Qc)) ->
  (exists x, solve fuel p = (p, Ok (Some x)) /\ optimal (meaning p) x) \/
  (solve fuel p = (p, Ok None) /\ (infeasible (meaning p) \/ unbounded (meaning p))).
Proof.
  intros Hr Hm HI HE Hfuel HG. pose proof (reachable_wf p Hr) as H. apply (solve_decides p fuel); auto. destruct (lsef p) eqn:Hs; [auto|]. right.
  destruct (to_sef_parts p H Hs) as (_ & _ & _ & _ & _ & _ & _ & _ & P9 & _).
  destruct (Nat.eq_dec (length (lc (fst (to_sef p)))) (2 * length (lA p))) as [K|K].
  - destruct HG as [HG|[HG|(G1 & G2)]]; [discriminate|contradiction|]. right. now apply slack_guess.
  - left. intros E. unfold is_basis in E. destruct (Nat.eqb_spec (rows (fst (to_sef p))) (length (first_guess p))) as [L|]; cbn [negb] in E; [|discriminate E].
    unfold first_guess in L. rewrite map_length, seq_length in L. unfold rows in L. rewrite P9 in L. unfold rows in L, P9. apply K. unfold cols in L. lia.
Qed.
Print Assumptions C42_complete_partial.
(** dependent equations: an exception when there is a feasible point, None when there is none *)
Theorem C42_dependent p fuel : reachable p -> 0 < length (lA p) -> ~ independent_equations p -> moderate_data p ->
  2 ^ (length (lc (fst (to_sef p))) + length (lA p)) <= fuel ->
  (snd (solve fuel p) = Raise ValueError /\ exists x, feasible (meaning p) x) \/
  (solve fuel p = (p, Ok None) /\ infeasible (meaning p)).
Proof.
  intros Hr Hm HI HE Hfuel. pose proof (reachable_wf p Hr) as H. assert (Hrs : reachable (fst (to_sef p))) by now constructor. pose proof (reachable_wf _ Hrs) as Hw.
  assert (HR : ~ full_row_rank (fst (to_sef p))) by (intros K; apply HI; now apply rank_sef_conv). pose proof (moderate_sef p H HE) as HES.
  assert (ES : lsef (fst (to_sef p)) = true). { destruct (lsef p) eqn:Hs; [now rewrite C29_already_sef by auto|]. now destruct (to_sef_parts p H Hs) as (_ & _ & _ & _ & P & _). }
  assert (EL : length (lA (fst (to_sef p))) = length (lA p)). { destruct (lsef p) eqn:Hs; [now rewrite C29_already_sef by auto|]. now destruct (to_sef_parts p H Hs) as (_ & _ & _ & _ & _ & _ & _ & _ & P & _). }
  assert (NB : forall Bz, is_basis (fst (to_sef p)) Bz <> Ok true) by (intros Bz E; apply HR; apply is_basis_basis in E; now apply (basis_independent _ _ Hw E)).
  assert (KD := C35_dependent (fst (to_sef p)) fuel Hrs ES ltac:(lia) HR HES ltac:(now rewrite EL)).
  unfold solve. destruct (lsef p) eqn:Hs.
  - rewrite C29_already_sef in KD by auto. cbn [fst] in KD. destruct KD as [(E & F)|(y & E & _ & _ & F)].
    + left. destruct (two_phase_simplex fuel p) as [p' r]. cbn [snd] in *. subst r. auto.
    + right. rewrite E. auto.
  - assert (HF : (exists x, feasible (meaning (fst (to_sef p))) x) -> exists x, feasible (meaning p) x) by (intros (x & Hx); exists (down p x); now apply (down_feasible p H Hs)).
    pose proof (infeasible_down p Hr) as HD. destruct (to_sef_parts p H Hs) as (_ & _ & _ & _ & _ & _ & _ & P8 & _). destruct (to_sef p) as [sef rv]. cbn [fst snd] in *. subst rv. cbv zeta.
    set (cand := map Z.of_nat _) in *.
    assert (KT : (snd (p, rmap (fun o : outcome => match fst (fst o) with Some x => Some (down p x) | None => fst (fst o) end) (snd (two_phase_simplex fuel sef))) = Raise ValueError /\ exists x, feasible (meaning p) x) \/
      ((p, rmap (fun o : outcome => match fst (fst o) with Some x => Some (down p x) | None => fst (fst o) end) (snd (two_phase_simplex fuel sef))) = (p, Ok None) /\ infeasible (meaning p))).
    { destruct KD as [(E & F)|(y & E & _ & _ & F)]; [left; rewrite E; auto|right; rewrite E; auto]. }
    destruct (Nat.leb (rows sef) (cols sef)); [|exact KT]. destruct (is_basis_total sef cand) as (b & Eb); [unfold rows; lia|]. destruct b; [destruct (NB _ Eb)|]. rewrite Eb. exact KT.
Qed.
Print Assumptions C42_dependent.
(** the program of C35_redundant_refuted has such equations *)
Example C42_dependent_example : exists p, linear_program (mat 2 [[1; 1]; [2; 2]]%Z) (vec [1; 2]%Z) (vec [1; 0]%Z) 0%Qc "max" None None None = Ok p /\
  reachable p /\ lsef p = true /\ ~ full_row_rank p /\ ~ independent_equations p /\ moderate_data p.
Proof.
  destruct (linear_program (mat 2 [[1; 1]; [2; 2]]%Z) (vec [1; 2]%Z) (vec [1; 0]%Z) 0%Qc "max" None None None) as [p| |] eqn:E; try discriminate E.
  assert (Hr : reachable p) by (refine (r_new _ _ _ _ _ _ _ _ _ _ E); repeat constructor). injection E as <-. eexists. split; [reflexivity|]. split; [exact Hr|]. split; [reflexivity|].
  assert (N : forall y : list Qc, y = [qz 2; qz (-1)] -> forall j, j < 2 -> inner y (column [[qz 1; qz 1]; [qz 2; qz 2]] j) = 0%Qc).
  { intros y -> [|[|j]] Hj; [| |lia]; apply Qc_is_canon; reflexivity. }
  split; [|split].
  - intros K. specialize (K [qz 2; qz (-1)] eq_refl (N _ eq_refl) 0 ltac:(cbn; lia)). discriminate K.
  - intros K. specialize (K [qz 2; qz (-1)] eq_refl). specialize (K ltac:(intros [|[|i]] Hi Q; [| |cbn in Hi; lia]; exfalso; apply Q; reflexivity) (N _ eq_refl) 0 ltac:(cbn; lia)). discriminate K.
  - apply (entries_moderate _ 2); [now apply reachable_wf|lia|constructor].
    + intros r v Hr' Hv. cbn in Hr'. repeat destruct Hr' as [<-|Hr']; try contradiction; cbn in Hv; repeat (destruct Hv as [<-|Hv]; [eexists; split; [reflexivity|lia]|]); contradiction.
    + intros v Hv. cbn in Hv. repeat (destruct Hv as [<-|Hv]; [eexists; split; [reflexivity|lia]|]). contradiction.
    + intros v Hv. cbn in Hv. repeat (destruct Hv as [<-|Hv]; [eexists; reflexivity|]). contradiction.
    + vm_compute. discriminate.
Qed.
(** minimise x subject to x >= 1: the optimum is 1, solve returns None *)
Theorem C42_refuted : exists p x, reachable p /\ optimal (meaning p) x /\ snd (solve 64 p) = Ok None.
Proof.
  destruct (linear_program (mat 1 [[1]]%Z) (vec [1]%Z) (vec [1]%Z) 0%Qc "min" (Some [">="]) None None) as [p| |] eqn:E; try discriminate E.
  assert (Hr : reachable p) by (refine (r_new _ _ _ _ _ _ _ _ _ _ E); repeat constructor). injection E as <-.
  eexists. exists [1%Qc]. split; [exact Hr|]. split.
  - split.
    + split; [reflexivity|]. split; intros [|i] Hi; try (cbn in Hi; lia); cbn; discriminate.
    + intros y (L & HA & HB). destruct y as [|y1 [|]]; try discriminate L. specialize (HA 0 ltac:(cbn; lia)). cbn in HA. unfold as_good, value. cbn.
      change (qz 1) with 1%Qc in *. change (Q2Qc 0) with 0%Qc in *. clear - HA. qclra.
  - vm_compute. reflexivity.
Qed.
Print Assumptions C42_refuted.
(** with inequalities only there is nothing to be dependent *)
Lemma no_equations p : (forall i, i < length (lA p) -> nth i (inequalities p) "=" <> "=") -> independent_equations p.
Proof. intros H y L K _ i Hi. apply K; [lia|]. apply H. lia. Qed.
Theorem C42_inequalities_partial p fuel : reachable p -> 0 < length (lA p) -> moderate_data p ->
  2 ^ (length (lc (fst (to_sef p))) + length (lA p)) <= fuel ->
  (forall i, i < length (lA p) -> nth i (inequalities p) "=" = "<=") -> (forall i, i < length (lb p) -> (0 <= nth i (lb p) 0)%Qc) ->
  (exists x, solve fuel p = (p, Ok (Some x)) /\ optimal (meaning p) x) \/ (solve fuel p = (p, Ok None) /\ unbounded (meaning p)).
Proof.
  intros Hr Hm HE Hfuel H1 H2. pose proof (reachable_wf p Hr) as H. destruct (C42_complete_partial p fuel Hr Hm) as [K|(K1 & [K2|K2])]; auto.
  - apply no_equations. intros i Hi. rewrite H1 by auto. discriminate.
  - exfalso. apply (K2 (repeat 0%Qc (cols p))). split; [apply repeat_length|]. split.
    + intros i Hi. cbn [meaning rhs] in Hi. rewrite (wf_b _ H) in Hi. cbn [meaning relations coefficients rhs]. change Equal with (relation_of "="). rewrite (map_nth relation_of (inequalities p) "="). rewrite H1 by auto.
      rewrite inner_zeros. apply H2. now rewrite (wf_b _ H).
    + intros j Hj. assert (E : nth j (repeat 0%Qc (cols p)) 0%Qc = 0%Qc). { destruct (nth_in_or_default j (repeat 0%Qc (cols p)) 0%Qc) as [K|K]; auto. now apply repeat_spec in K. }
      rewrite E. destruct (nth j (signs (meaning p)) Nonnegative); cbn [signed]; try apply Qcle_refl. exact I.
Qed.
Print Assumptions C42_inequalities_partial.
(** maximise 3 x1 + 2 x2, x1 + x2 <= 4, 2 x1 + x2 <= 5: as many constraints as variables *)
Definition textbook_program : res lp :=
  linear_program (mat 2 [[1; 1]; [2; 1]]%Z) (vec [4; 5]%Z) (vec [3; 2]%Z) 0%Qc "max" (Some ["<="; "<="]) None None.
Example C42_nontrivial : exists p x, textbook_program = Ok p /\ reachable p /\ moderate_data p /\
  (forall i, i < length (lA p) -> nth i (inequalities p) "=" = "<=") /\ (forall i, i < length (lb p) -> (0 <= nth i (lb p) 0)%Qc) /\
  snd (solve 64 p) = Ok (Some x) /\ map this x = [1; 3]%Q.
Proof.
  destruct textbook_program as [p| |] eqn:E; try discriminate E. unfold textbook_program in E.
  assert (Hr : reachable p) by (refine (r_new _ _ _ _ _ _ _ _ _ _ E); repeat constructor). injection E as E.
  assert (G : match snd (solve 64 p) with Ok (Some x) => map this x = [1; 3]%Q | _ => False end) by (rewrite <- E; vm_compute; reflexivity).
  destruct (snd (solve 64 p)) as [[x|]| |] eqn:ES; try contradiction. exists p, x. split; [reflexivity|]. split; [exact Hr|]. subst p. split; [|split; [|split; [|auto]]].
  - apply (entries_moderate _ 5); [now apply reachable_wf|lia|constructor].
    + intros r v Hr' Hv. cbn in Hr'. repeat destruct Hr' as [<-|Hr']; try contradiction; cbn in Hv; repeat (destruct Hv as [<-|Hv]; [eexists; split; [reflexivity|lia]|]); contradiction.
    + intros v Hv. cbn in Hv. repeat (destruct Hv as [<-|Hv]; [eexists; split; [reflexivity|lia]|]). contradiction.
    + intros v Hv. cbn in Hv. repeat (destruct Hv as [<-|Hv]; [eexists; reflexivity|]). contradiction.
    + vm_compute. discriminate.
  - intros [|[|i]] Hi; [reflexivity|reflexivity|cbn in Hi; lia].
  - intros [|[|i]] Hi; [cbn; discriminate|cbn; discriminate|cbn in Hi; lia].
Qed.

(** ** deciding the hypothesis for a given program *)
Fixpoint tuples (m N : nat) : list (list nat) :=
  match m with 0 => [[]] | S m' => flat_map (fun l => map (fun j => j :: l) (seq 0 N)) (tuples m' N) end.
Lemma In_tuples N m : forall s, length s = m -> (forall j, In j s -> j < N) -> In s (tuples m N).
Proof.
  induction m as [|m IH]; intros [|j s] L Hs; try discriminate; [now left|]. cbn [tuples]. apply in_flat_map. exists s. split; [apply IH; [now injection L|intros; apply Hs; simpl; auto]|].
  apply in_map_iff. exists j. split; auto. apply in_seq. specialize (Hs j ltac:(simpl; auto)). lia.
Qed.
Definition integral (v : Qc) : bool := Z.eqb (Zpos (Qden (this v))) 1.
Lemma integral_ok v : integral v = true -> isint v.
Proof.
  unfold integral. rewrite Z.eqb_eq. intros E. exists (Qnum (this v)). apply Qc_is_canon. unfold qz. cbn [this Q2Qc]. rewrite Qred_correct. unfold Qeq. cbn [Qnum Qden inject_Z]. rewrite E. lia.
Qed.
Definition moderate_check (p : lp) (d : list Z) (e K L : Z) : bool :=
  let m := length (lA p) in let n := length (lc p) in
  Nat.eqb (length d) m && forallb (Z.ltb 0) d && Z.ltb 0 e
  && forallb (fun i => forallb (fun j => integral (qz (nth i d 1%Z) * ent (lA p) i j)%Qc) (seq 0 n)) (seq 0 m)
  && forallb (fun i => integral (qz (nth i d 1%Z) * at_ (lb p) i)%Qc) (seq 0 m)
  && forallb (fun j => integral (qz e * at_ (lc p) j)%Qc) (seq 0 n)
  && forallb (fun s => qle (qz (product d) * qabs (det m (fun i j => wide p i (nth j s 0%nat))))%Qc (qz K)) (tuples m (n + m))
  && forallb (fun s => qle (qz (product d) * qabs (det m (fun i j => wide p i (nth j s 0%nat))))%Qc (qz L)) (tuples m (S (n + m)))
  && Z.leb (product d) (10 ^ 10) && Z.leb (K * e) (10 ^ 10) && Z.leb 0 K && Z.leb 0 L && Z.ltb (K * K + 1000 * (K * L)) (10 ^ 8).
Lemma moderate_check_ok p d e K L : moderate_check p d e K L = true -> moderate_data p.
Proof.
  unfold moderate_check. cbv zeta. rewrite !andb_true_iff, !forallb_forall. intros ((((((((((((H1 & H2) & H3) & H4) & H5) & H6) & H7) & H7b) & H8) & H9) & HA) & HB) & HC).
  apply Nat.eqb_eq in H1. apply Z.ltb_lt in H3. apply Z.leb_le in H8, H9, HA, HB. apply Z.ltb_lt in HC. exists d, e, K, L. constructor; [constructor| | | |]; auto.
  - intros k Hk. apply Z.ltb_lt. now apply H2.
  - intros i j Hi Hj. apply integral_ok. specialize (H4 i ltac:(apply in_seq; lia)). rewrite forallb_forall in H4. apply H4. apply in_seq. lia.
  - intros i Hi. apply integral_ok. apply H5. apply in_seq. lia.
  - intros j Hj. apply integral_ok. apply H6. apply in_seq. lia.
  - split; auto.
  - intros s Ls Hs. specialize (H7 s (In_tuples _ _ s Ls Hs)). now destruct (qle_spec (qz (product d) * qabs (det (length (lA p)) (fun i j => wide p i (nth j s 0%nat))))%Qc (qz K)).
  - intros s Ls Hs. specialize (H7b s (In_tuples _ _ s Ls (fun j Hj => le_n_S _ _ (Hs j Hj)))). now destruct (qle_spec (qz (product d) * qabs (det (length (lA p)) (fun i j => wide p i (nth j s 0%nat))))%Qc (qz L)).
Qed.
(** fractional data: maximise 3/2 x1 + 4/3 x2, x1/2 + x2/4 <= 5/2, x1/3 + x2 <= 7/3 *)
Definition fractional_program : res lp :=
  linear_program (Nd (Mat 2 [[Q2Qc (1 # 2); Q2Qc (1 # 4)]; [Q2Qc (1 # 3); 1%Qc]])) (Nd (Vec [Q2Qc (5 # 2); Q2Qc (7 # 3)])) (Nd (Vec [Q2Qc (3 # 2); Q2Qc (4 # 3)])) 0%Qc
    "max" (Some ["<="; "<="]) None None.
Example C42_fractional : exists p x, fractional_program = Ok p /\ reachable p /\ moderate_data p /\
  (forall i, i < length (lA p) -> nth i (inequalities p) "=" = "<=") /\ (forall i, i < length (lb p) -> (0 <= nth i (lb p) 0)%Qc) /\
  snd (solve 64 p) = Ok (Some x) /\ map this x = [23 # 5; 4 # 5]%Q.
Proof.
  destruct fractional_program as [p| |] eqn:E; try discriminate E. unfold fractional_program in E.
  assert (Hr : reachable p) by (refine (r_new _ _ _ _ _ _ _ _ _ _ E); repeat constructor). injection E as E.
  assert (G : match snd (solve 64 p) with Ok (Some x) => map this x = [23 # 5; 4 # 5]%Q | _ => False end) by (rewrite <- E; vm_compute; reflexivity).
  assert (M : moderate_check p [4; 3]%Z 6 300 300 = true) by (rewrite <- E; vm_compute; reflexivity).
  destruct (snd (solve 64 p)) as [[x|]| |] eqn:ES; try contradiction. exists p, x. split; [reflexivity|]. split; [exact Hr|]. split; [now apply (moderate_check_ok p [4; 3]%Z 6 300 300)|].
  subst p. split; [|split; [|auto]].
  - intros [|[|i]] Hi; [reflexivity|reflexivity|cbn in Hi; lia].
  - intros [|[|i]] Hi; [cbn; discriminate|cbn; discriminate|cbn in Hi; lia].
Qed.
