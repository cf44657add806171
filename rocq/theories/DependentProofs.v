(** Proofs about remove_dependent_rows. *)
From Coq Require Import String List Bool Arith ZArith QArith Qcanon Lia.
From Verif Require Import Py QcTac QSum QInt MatModel MatTheory LinearModel LinearInv PolyModel PolyProofs RrefModel RrefProofs DependentModel DependentSpec.
Import ListNotations.
Open Scope nat_scope.

Lemma close0 a : math_isclose a 0 = true <-> a = 0%Qc.
Proof. exact (isclose_zero a). Qed.
Lemma close0f a : math_isclose a 0 = false <-> a <> 0%Qc.
Proof. rewrite <- close0. destruct (math_isclose a 0); split; intros H; auto; try discriminate. now destruct H. Qed.
Lemma close_iff x y : math_isclose x y = true <-> close x y.
Proof. unfold math_isclose, close. destruct (qle_spec (qabs (x - y)) (Q2Qc (1 # 1000000000) * qmax (qabs x) (qabs y))); split; intros; auto; try discriminate; contradiction. Qed.
Lemma all_zero_spec r : all_zero r = true <-> forall j, at_ r j = 0%Qc.
Proof.
  unfold all_zero. rewrite forallb_forall. split.
  - intros H j. destruct (Nat.lt_ge_cases j (length r)) as [K|K]; [|apply nth_overflow, K]. specialize (H _ (nth_In r 0%Qc K)). destruct (qeq_spec (nth j r 0%Qc) 0); [auto|discriminate H].
  - intros H x Hx. destruct (In_nth _ _ 0%Qc Hx) as (j & _ & E). specialize (H j). unfold at_ in H. rewrite E in H. rewrite H. destruct (qeq_spec 0 0); auto.
Qed.
(** the loop over the columns, from column 1 on *)
Lemma duplicate_later t : forall r s c, length r = length s -> 0 < c -> (duplicate c t r s = true <->
  forall j, j < length r -> (at_ r j = 0%Qc /\ at_ s j = 0%Qc) \/ (at_ r j <> 0%Qc /\ at_ s j <> 0%Qc /\ close (at_ r j / at_ s j) t)).
Proof.
  induction r as [|x r IH]; intros [|y s] c L Hc; try discriminate L; [cbn; split; [intros; lia|reflexivity]|].
  injection L as L. assert (Hc' : Nat.eqb c 0 = false) by (apply Nat.eqb_neq; lia). specialize (IH s (S c) L ltac:(lia)).
  assert (Cons : forall P : nat -> Prop, (forall j, j < length (x :: r) -> P j) <-> P 0 /\ forall j, j < length r -> P (S j)).
  { intros P. split; [intros H; split; [apply H; cbn; lia|intros j Hj; apply H; cbn; lia]|]. intros (H0 & H) [|j] Hj; [auto|]. apply H. cbn in Hj. lia. }
  rewrite Cons. change (at_ (x :: r) 0) with x. change (at_ (y :: s) 0) with y. cbn [duplicate]. rewrite Hc'.
  destruct (math_isclose x 0) eqn:X; [apply close0 in X|apply close0f in X].
  - destruct (math_isclose y 0) eqn:Y; [apply close0 in Y|apply close0f in Y].
    + rewrite IH. split; [intros H; split; [now left|exact H]|now intros (_ & H)].
    + split; [discriminate|]. intros ([(_ & K)|(K & _)] & _); contradiction.
  - destruct (math_isclose y 0) eqn:Y; [apply close0 in Y|apply close0f in Y].
    + split; [discriminate|]. intros ([(K & _)|(_ & K & _)] & _); contradiction.
    + destruct (math_isclose (x / y)%Qc t) eqn:Q; cbn [negb].
      * apply close_iff in Q. rewrite IH. split; [intros H; split; [right; auto|exact H]|now intros (_ & H)].
      * split; [discriminate|]. intros ([(K & _)|(_ & _ & K)] & _); [contradiction|]. apply close_iff in K. congruence.
Qed.
Definition similar (w : nat) (r s : list Qc) : Prop :=
  at_ r 0 <> 0%Qc /\ at_ s 0 <> 0%Qc /\ forall j, j < w -> (at_ r j = 0%Qc /\ at_ s j = 0%Qc) \/ (at_ r j <> 0%Qc /\ at_ s j <> 0%Qc /\ (j = 0 \/ close (at_ r j / at_ s j) (at_ r 0 / at_ s 0))).
Lemma duplicate_spec r s w : length r = w -> length s = w -> 0 < w ->
  (duplicate 0 0%Qc r s = true <-> similar w r s \/ ((forall j, at_ r j = 0%Qc) /\ forall j, at_ s j = 0%Qc)).
Proof.
  intros Lr Ls Hw. destruct r as [|x r]; [cbn in Lr; lia|]. destruct s as [|y s]; [cbn in Ls; lia|]. cbn [duplicate Nat.eqb].
  assert (L : length r = length s) by (cbn in *; lia). unfold similar. change (at_ (x :: r) 0) with x. change (at_ (y :: s) 0) with y.
  destruct (math_isclose x 0) eqn:X; [apply close0 in X|apply close0f in X].
  - destruct (math_isclose y 0) eqn:Y; [apply close0 in Y|apply close0f in Y].
    + rewrite (duplicate_later _ _ _ _ L) by lia. split.
      * intros H. right. assert (Z : forall j, j < length r -> at_ r j = 0%Qc /\ at_ s j = 0%Qc).
        { intros j Hj. destruct (H j Hj) as [K|(A & B & C)]; auto. apply close_iff, close0 in C. exfalso. apply A. replace (at_ r j) with (at_ r j / at_ s j * at_ s j)%Qc by (field; auto). rewrite C. ring. }
        split; intros [|j]; auto; change (at_ (?a :: ?l) (S j)) with (at_ l j); destruct (Nat.lt_ge_cases j (length r)) as [K|K]; try (now apply Z); apply nth_overflow; lia.
      * intros [(K & _)|(H1 & H2)]; [contradiction|]. intros j _. left. exact (conj (H1 (S j)) (H2 (S j))).
    + split; [discriminate|]. intros [(K & _)|(_ & K)]; [contradiction|]. specialize (K 0). contradiction.
  - destruct (math_isclose y 0) eqn:Y; [apply close0 in Y|apply close0f in Y].
    + split; [discriminate|]. intros [(_ & K & _)|(K & _)]; [contradiction|]. specialize (K 0). contradiction.
    + rewrite (duplicate_later _ _ _ _ L) by lia. split.
      * intros H. left. repeat split; auto. intros [|j] Hj; [right; auto|]. destruct (H j ltac:(cbn in Lr; lia)) as [K|(A & B & C)]; [now left|right; auto].
      * intros [(_ & _ & H)|(K & _)]; [|specialize (K 0); contradiction]. intros j Hj. destruct (H (S j) ltac:(cbn in Lr; lia)) as [K|(A & B & [C|C])]; [now left|discriminate C|right; auto].
Qed.

(** ** the loops over the rows *)
Lemma fill_length arr j : length (fill_zero arr j) = length arr. Proof. unfold fill_zero. now rewrite map_length, seq_length. Qed.
Lemma fill_nth arr j k : k < length arr -> nth k (fill_zero arr j) [] = if Nat.eqb k j then map (fun _ => 0%Qc) (nth k arr []) else nth k arr [].
Proof. intros H. unfold fill_zero. now rewrite (nth_map_seq _ _ _ []) by exact H. Qed.
Lemma zeros_at (l : list Qc) j : at_ (map (fun _ => 0%Qc) l) j = 0%Qc.
Proof. unfold at_. revert j. induction l as [|a l IH]; intros [|j]; auto. apply IH. Qed.
Section Rows.
Variables (rows : matrix) (w : nat).
Hypothesis Hrows : forall k, k < length rows -> length (nth k rows []) = w.
Hypothesis Hw : 0 < w.
Definition row k := nth k rows [].
Definition zero (r : list Qc) : Prop := forall j, at_ r j = 0%Qc.
(** [P]: the pairs that have been compared *)
Definition Inv (P : nat -> nat -> Prop) (arr : matrix) : Prop :=
  length arr = length rows /\ forall k, k < length rows -> length (nth k arr []) = w /\
    ((nth k arr [] = row k /\ forall i, i < k -> P i k -> duplicate 0 0%Qc (nth i arr []) (row k) = false) \/
     (zero (nth k arr []) /\ (zero (row k) \/ exists i, i < k /\ P i k /\ nth i arr [] = row i /\ ~ zero (row i) /\ duplicate 0 0%Qc (row i) (row k) = true))).
Lemma inv_step P arr i j : Inv P arr -> (forall i' k, P i' k -> i' <= i) -> i < j -> j < length rows ->
  Inv (fun i' k => P i' k \/ (i' = i /\ k = j)) (check_pair arr i j).
Proof.
  intros (L & H) HP Hij Hj. unfold check_pair. destruct (duplicate 0 0%Qc (nth i arr []) (nth j arr [])) eqn:D.
  - split; [now rewrite fill_length|]. intros k Hk. rewrite fill_nth by lia. destruct (H k Hk) as (Lk & C). destruct (Nat.eqb k j) eqn:E.
    + apply Nat.eqb_eq in E. subst k. rewrite map_length. split; [exact Lk|]. right. split; [intros t; apply zeros_at|].
      destruct C as [(E & _)|(_ & [Z|(i' & I1 & I2 & I3 & I4 & I5)])].
      * rewrite E in D. destruct (H i ltac:(lia)) as (Li & Ci). apply (duplicate_spec _ _ w Li (Hrows _ Hj) Hw) in D. destruct D as [S|(_ & Z)]; [|now left]. right. exists i.
        destruct Ci as [(Ei & _)|(Z & _)]; [|exfalso; destruct S as (S & _); now apply S]. rewrite fill_nth by lia. replace (Nat.eqb i j) with false by (symmetry; apply Nat.eqb_neq; lia).
        rewrite Ei in *. repeat split; auto. { intros Z. destruct S as (S & _). now apply S. } apply (duplicate_spec _ _ w Li (Hrows _ Hj) Hw). now left.
      * now left.
      * right. exists i'. rewrite fill_nth by lia. pose proof (HP _ _ I2). replace (Nat.eqb i' j) with false by (symmetry; apply Nat.eqb_neq; lia). repeat split; auto.
    + apply Nat.eqb_neq in E. split; [exact Lk|]. destruct C as [(E1 & E2)|(Z & C)].
      * left. split; auto. intros i' Hi' [K|(_ & K)]; [|contradiction]. rewrite fill_nth by lia. pose proof (HP _ _ K). replace (Nat.eqb i' j) with false by (symmetry; apply Nat.eqb_neq; lia). auto.
      * right. split; auto. destruct C as [C|(i' & I1 & I2 & I3 & I4 & I5)]; [now left|right]. exists i'. rewrite fill_nth by lia. pose proof (HP _ _ I2). replace (Nat.eqb i' j) with false by (symmetry; apply Nat.eqb_neq; lia). repeat split; auto.
  - split; auto. intros k Hk. destruct (H k Hk) as (Lk & C). split; auto. destruct C as [(E1 & E2)|(Z & C)].
    + left. split; auto. intros i' Hi' [K|(-> & ->)]; [auto|]. congruence.
    + right. split; auto. destruct C as [C|(i' & I1 & I2 & I3 & I4 & I5)]; [now left|right]. exists i'. repeat split; auto.
Qed.
Lemma inv_ext P Q arr : (forall i k, i < k -> k < length rows -> P i k <-> Q i k) -> Inv P arr -> Inv Q arr.
Proof.
  intros E (L & H). split; auto. intros k Hk. destruct (H k Hk) as (Lk & C). split; auto. destruct C as [(E1 & E2)|(Z & C)].
  - left. split; auto. intros i Hi K. apply E2; auto. now apply E.
  - right. split; auto. destruct C as [C|(i & I1 & I2 & I3)]; [now left|right]. exists i. split; auto. split; [now apply E|auto].
Qed.
Lemma inv_row arr i : Inv (fun i' _ => i' < i) arr -> Inv (fun i' _ => i' < S i) (check_row (length rows) arr i).
Proof.
  intros H. unfold check_row. set (f := fun arr j => if Nat.leb j i then arr else check_pair arr i j).
  assert (G : forall t, t <= length rows -> Inv (fun i' k => i' < i \/ (i' = i /\ k < t)) (fold_left f (seq 0 t) arr)).
  { induction t as [|t IH]; intros Ht; [apply (inv_ext (fun i' _ => i' < i)); [intros; lia|exact H]|]. rewrite seq_S, fold_left_app. cbn [fold_left Nat.add]. specialize (IH ltac:(lia)). unfold f at 1.
    destruct (Nat.leb_spec t i) as [K|K].
    - eapply inv_ext; [|exact IH]. intros i' k H1 H2. cbn. lia.
    - eapply inv_ext; [|apply (inv_step _ _ i t IH); [intros; lia|lia|lia]]. intros i' k H1 H2. cbn. lia. }
  eapply inv_ext; [|apply (G _ (Nat.le_refl _))]. intros; cbn; lia.
Qed.
Lemma inv_all : Inv (fun _ _ => True) (check_all rows).
Proof.
  unfold check_all. assert (G : forall t, t <= length rows -> Inv (fun i' _ => i' < t) (fold_left (check_row (length rows)) (seq 0 t) rows)).
  { induction t as [|t IH]; intros Ht.
    - split; auto. intros k Hk. split; [now apply Hrows|]. left. split; auto. intros i _ K. lia.
    - rewrite seq_S, fold_left_app. cbn [fold_left Nat.add]. apply inv_row, IH. lia. }
  eapply inv_ext; [|apply (G _ (Nat.le_refl _))]. intros; cbn; lia.
Qed.
End Rows.

(** ** deleting the zero rows *)
Lemma firstn_snoc (l : matrix) k : k < length l -> firstn (S k) l = firstn k l ++ [nth k l []].
Proof. revert k. induction l as [|a l IH]; intros [|k] H; cbn in *; try lia; auto. f_equal. apply IH. lia. Qed.
Lemma skipn_cons (l : matrix) k : k < length l -> skipn k l = nth k l [] :: skipn (S k) l.
Proof. revert k. induction l as [|a l IH]; intros [|k] H; cbn in *; try lia; auto. apply IH. lia. Qed.
Lemma delete_spec arr : delete_zero_rows arr = filter (fun r => negb (all_zero r)) arr.
Proof.
  unfold delete_zero_rows. set (m := length arr). set (f := fun new i => if all_zero (nth (m - 1 - i) arr []) then delete_row (m - 1 - i) new else new).
  assert (G : forall t, t <= m -> fold_left f (seq 0 t) arr = firstn (m - t) arr ++ filter (fun r => negb (all_zero r)) (skipn (m - t) arr)).
  { induction t as [|t IH]; intros Ht.
    - rewrite Nat.sub_0_r. unfold m. rewrite firstn_all, skipn_all. cbn. now rewrite app_nil_r.
    - rewrite seq_S, fold_left_app. cbn [fold_left Nat.add]. rewrite IH by lia. unfold f. replace (m - 1 - t) with (m - S t) by lia. replace (m - t) with (S (m - S t)) by lia. set (k := m - S t). assert (Hk : k < length arr) by (subst k; fold m; lia).
      rewrite (skipn_cons arr k Hk). cbn [filter]. rewrite (firstn_snoc arr k Hk). destruct (all_zero (nth k arr [])); cbn [negb].
      + unfold delete_row. rewrite <- app_assoc. assert (Lk : length (firstn k arr) = k) by (rewrite firstn_length; lia). rewrite firstn_app, Lk, Nat.sub_diag, firstn_O, app_nil_r.
        rewrite firstn_all2 by lia. f_equal. rewrite skipn_app, Lk, (skipn_all2 (n := S k)) by lia. replace (S k - k) with 1 by lia. reflexivity.
      + now rewrite <- app_assoc. }
  rewrite (G m) by lia. now rewrite Nat.sub_diag.
Qed.
Lemma filter_positions {A} (d : A) (f : A -> bool) l : filter f l = map (fun k => nth k l d) (filter (fun k => f (nth k l d)) (seq 0 (length l))).
Proof.
  induction l as [|a l IH] using rev_ind; [reflexivity|]. rewrite app_length. cbn [length]. rewrite Nat.add_1_r, seq_S, !filter_app, map_app, IH. cbn [Nat.add filter].
  assert (E : nth (length l) (l ++ [a]) d = a) by (rewrite app_nth2, Nat.sub_diag by lia; reflexivity). rewrite E.
  f_equal; [|destruct (f a); cbn; [now rewrite E|reflexivity]].
  assert (G : forall ks, (forall k, In k ks -> k < length l) -> map (fun k => nth k l d) (filter (fun k => f (nth k l d)) ks) = map (fun k => nth k (l ++ [a]) d) (filter (fun k => f (nth k (l ++ [a]) d)) ks)).
  { induction ks as [|k ks IHk]; intros H; [reflexivity|]. cbn [filter]. rewrite (app_nth1 l [a] d (H k ltac:(now left))). destruct (f (nth k l d)); cbn [map]; rewrite ?IHk by (intros; apply H; now right); [|reflexivity]. now rewrite (app_nth1 l [a] d (H k ltac:(now left))). }
  apply G. intros k Hk. apply in_seq in Hk. lia.
Qed.

(** ** the outcome *)
Lemma augmented_row A b k : length A = length b -> k < length A -> nth k (map (fun rv => fst rv ++ [snd rv]) (combine A b)) [] = nth k A [] ++ [at_ b k].
Proof.
  revert b k. induction A as [|a A IH]; intros [|v b] [|k] L H; cbn in *; try lia; auto. apply IH; lia.
Qed.
Section Outcome.
Variables (m n : nat) (A : matrix) (b : list Qc).
Hypothesis HA : rectangular m n A.
Hypothesis Hb : length b = m.
Definition rs := map (fun rv => fst rv ++ [snd rv]) (combine A b).
Lemma rs_length : length rs = m.
Proof. unfold rs. rewrite map_length, combine_length. destruct HA. lia. Qed.
Lemma rs_row k : k < m -> nth k rs [] = nth k A [] ++ [at_ b k].
Proof. intros H. destruct HA. apply augmented_row; lia. Qed.
Lemma row_width k : k < m -> length (nth k A []) = n.
Proof. intros H. destruct HA as (L & W). apply W, nth_In. lia. Qed.
Lemma rs_width k : k < length rs -> length (nth k rs []) = S n.
Proof. rewrite rs_length. intros H. rewrite rs_row, app_length, row_width by auto. cbn. lia. Qed.
Lemma rs_at k j : k < m -> j <= n -> at_ (nth k rs []) j = coefficient n A b k j.
Proof.
  intros H Hj. rewrite rs_row by auto. unfold coefficient, at_, ent. pose proof (row_width k H) as W. destruct (Nat.ltb_spec j n).
  - now rewrite app_nth1 by lia.
  - rewrite app_nth2 by lia. replace (j - length (nth k A [])) with 0 by lia. reflexivity.
Qed.
Lemma rs_over k j : k < m -> n < j -> at_ (nth k rs []) j = 0%Qc.
Proof. intros H Hj. apply nth_overflow. rewrite rs_width; [lia|]. now rewrite rs_length. Qed.
Lemma rs_zero k : k < m -> (forall j, at_ (nth k rs []) j = 0%Qc) <-> trivial n A b k.
Proof.
  intros H. split; intros Z.
  - intros j Hj. rewrite <- rs_at by auto. apply Z.
  - intros j. destruct (Nat.le_gt_cases j n); [rewrite rs_at by auto; auto|apply rs_over; auto].
Qed.
Lemma rs_similar i k : i < m -> k < m -> similar (S n) (nth i rs []) (nth k rs []) <-> nearly_multiple n A b i k.
Proof.
  intros Hi Hk. unfold similar, nearly_multiple. rewrite !(rs_at _ 0) by (auto; lia).
  split; intros (H1 & H2 & H); (split; [exact H1|split; [exact H2|]]); intros j Hj; specialize (H j ltac:(lia)); [rewrite !rs_at in H by (auto; lia); exact H|rewrite !rs_at by (auto; lia); exact H].
Qed.
Definition arr := check_all rs.
Definition kept := filter (fun k => negb (all_zero (nth k arr []))) (seq 0 m).
Lemma arr_inv : Inv rs (S n) (fun _ _ => True) arr.
Proof. apply inv_all; [exact rs_width|lia]. Qed.
Lemma kept_row k : In k kept -> k < m /\ nth k arr [] = nth k rs [] /\ ~ trivial n A b k.
Proof.
  unfold kept. intros H. apply filter_In in H. destruct H as (H1 & H2). apply in_seq in H1. assert (Hk : k < m) by lia. split; auto.
  apply negb_true_iff in H2. assert (NZ : ~ forall j, at_ (nth k arr []) j = 0%Qc) by (intros K; apply all_zero_spec in K; congruence).
  destruct arr_inv as (_ & I). destruct (I k ltac:(rewrite rs_length; auto)) as (_ & [(E & _)|(Z & _)]); [|contradiction]. split; [exact E|].
  intros T. apply NZ. rewrite E. apply rs_zero; auto.
Qed.
Lemma kept_iff k : In k kept <-> k < m /\ ~ trivial n A b k /\ forall i, In i kept -> i < k -> ~ nearly_multiple n A b i k.
Proof.
  split.
  - intros H. destruct (kept_row k H) as (Hk & E & T). repeat split; auto. intros i Hi Hik NM. destruct (kept_row i Hi) as (Hi' & Ei & Ti).
    destruct arr_inv as (_ & I). destruct (I k ltac:(rewrite rs_length; auto)) as (_ & [(_ & D)|(Z & _)]).
    + specialize (D i Hik Logic.I). rewrite Ei in D. unfold row in D. assert (K : duplicate 0 0%Qc (nth i rs []) (nth k rs []) = true); [|congruence].
      apply (duplicate_spec _ _ (S n)); try (apply rs_width; rewrite rs_length; auto); [lia|]. left. apply rs_similar; auto.
    + apply T. apply rs_zero; auto. rewrite <- E. exact Z.
  - intros (Hk & T & N). apply filter_In. split; [apply in_seq; lia|]. destruct (all_zero (nth k arr [])) eqn:Z; auto. exfalso. rewrite all_zero_spec in Z.
    destruct arr_inv as (_ & I). destruct (I k ltac:(rewrite rs_length; auto)) as (_ & [(E & _)|(_ & [Zr|(i & I1 & _ & I3 & I4 & I5)])]).
    + apply T, rs_zero; auto. unfold row in E. now rewrite <- E.
    + apply T, rs_zero; auto.
    + assert (Hi : i < m) by lia. apply (duplicate_spec _ _ (S n)) in I5; try (apply rs_width; rewrite rs_length; auto); [|lia]. destruct I5 as [S|(Zi & _)]; [|contradiction].
      apply (N i); auto; [|now apply rs_similar]. apply filter_In. split; [apply in_seq; lia|]. destruct (all_zero (nth i arr [])) eqn:Zi; auto. exfalso. apply I4. rewrite all_zero_spec in Zi. rewrite <- I3. exact Zi.
Qed.
Lemma outcome : remove_dependent_rows A b = Ok (chosen A b kept).
Proof.
  unfold remove_dependent_rows, augmented. destruct HA as (LA & _). replace (Nat.eqb (length A) (length b)) with true by (symmetry; apply Nat.eqb_eq; lia). cbn [bind]. fold rs arr.
  rewrite delete_spec, (filter_positions []). destruct arr_inv as (L & _). rewrite L, rs_length. fold kept. f_equal. unfold split_last, chosen. rewrite !map_map.
  f_equal; apply map_ext_in; intros k Hk; destruct (kept_row k Hk) as (K & E & _); rewrite E, rs_row by auto; [apply removelast_last|apply last_last].
Qed.
End Outcome.

(** ** increasing lists *)
Lemma sorted_increasing p : Sorted.StronglySorted lt p -> increasing p.
Proof.
  induction 1 as [|a p H IH F]; intros i k Hik Hk; [cbn in Hk; lia|]. destruct k as [|k]; [lia|]. cbn in Hk. destruct i as [|i]; cbn.
  - rewrite Forall_forall in F. apply F, nth_In. lia.
  - apply IH; lia.
Qed.
Lemma filter_sorted f p : Sorted.StronglySorted lt p -> Sorted.StronglySorted lt (filter f p).
Proof.
  induction 1 as [|a p H IH F]; cbn; [constructor|]. destruct (f a); [|exact IH]. constructor; [exact IH|]. apply Forall_forall. intros x Hx. apply filter_In in Hx. rewrite Forall_forall in F. now apply F.
Qed.
Lemma seq_sorted a t : Sorted.StronglySorted lt (seq a t).
Proof. revert a. induction t as [|t IH]; intros a; cbn; constructor; [apply IH|]. apply Forall_forall. intros x Hx. apply in_seq in Hx. lia. Qed.
Lemma kept_increasing m n A b : rectangular m n A -> length b = m -> increasing (kept m A b).
Proof. intros _ _. apply sorted_increasing, filter_sorted, seq_sorted. Qed.
Lemma filter_all (f : nat -> bool) l : (forall x, In x l -> In x (filter f l)) -> filter f l = l.
Proof. intros H. assert (G : forall x, In x l -> f x = true) by (intros x Hx; apply H, filter_In in Hx; tauto). clear H. induction l as [|a l IH]; [reflexivity|]. cbn. rewrite (G a) by now left. f_equal. apply IH. intros x Hx. apply G. now right. Qed.

(** ** solutions *)
Lemma solves_equation n A b x k : (forall i, i < length A -> length (nth i A []) = n) -> k < length A -> solves n A b x ->
  Sum n (fun j => (coefficient n A b k j * at_ x j)%Qc) = coefficient n A b k n.
Proof.
  intros _ Hk S. specialize (S k Hk). unfold coefficient. rewrite Nat.ltb_irrefl. rewrite <- S. apply Sum_ext. intros j Hj. replace (Nat.ltb j n) with true by (symmetry; apply Nat.ltb_lt; lia). reflexivity.
Qed.
Lemma equation_multiple n A b i k x t : (forall j, j <= n -> coefficient n A b k j = (t * coefficient n A b i j)%Qc) ->
  Sum n (fun j => (ent A i j * at_ x j)%Qc) = at_ b i -> Sum n (fun j => (ent A k j * at_ x j)%Qc) = at_ b k.
Proof.
  intros H E. assert (En : at_ b k = (t * at_ b i)%Qc) by (specialize (H n (Nat.le_refl _)); unfold coefficient in H; now rewrite Nat.ltb_irrefl in H).
  rewrite En, <- E, <- Sum_scal. apply Sum_ext. intros j Hj. specialize (H j ltac:(lia)). unfold coefficient in H. replace (Nat.ltb j n) with true in H by (symmetry; apply Nat.ltb_lt; lia). rewrite H. ring.
Qed.
Lemma equation_trivial n A b k x : trivial n A b k -> Sum n (fun j => (ent A k j * at_ x j)%Qc) = at_ b k.
Proof.
  intros T. apply (equation_multiple n A b k k x 0%Qc). { intros j Hj. rewrite (T j Hj). ring. }
  rewrite (Sum_ext n _ (fun _ => 0%Qc)). { rewrite Sum_zero. specialize (T n (Nat.le_refl _)). unfold coefficient in T. rewrite Nat.ltb_irrefl in T. now rewrite T. }
  intros j Hj. specialize (T j ltac:(lia)). unfold coefficient in T. replace (Nat.ltb j n) with true in T by (symmetry; apply Nat.ltb_lt; lia). rewrite T. ring.
Qed.
Lemma chosen_ent A b ks i j : i < length ks -> ent (fst (chosen A b ks)) i j = ent A (nth i ks 0) j.
Proof. intros H. unfold ent, chosen. cbn [fst]. f_equal. rewrite (nth_indep _ [] (nth 0 A [])) by now rewrite map_length. exact (map_nth (fun k => nth k A []) ks 0 i). Qed.
Lemma chosen_at A b ks i : i < length ks -> at_ (snd (chosen A b ks)) i = at_ b (nth i ks 0).
Proof. intros H. unfold chosen, at_. cbn [snd]. rewrite (nth_indep _ 0%Qc (nth 0 b 0%Qc)) by now rewrite map_length. exact (map_nth (fun k => nth k b 0%Qc) ks 0 i). Qed.
Lemma chosen_solves n A b ks x : solves n (fst (chosen A b ks)) (snd (chosen A b ks)) x <-> forall k, In k ks -> Sum n (fun j => (ent A k j * at_ x j)%Qc) = at_ b k.
Proof.
  assert (L : length (fst (chosen A b ks)) = length ks) by (unfold chosen; cbn [fst]; apply map_length). split.
  - intros H k Hk. destruct (In_nth _ _ 0 Hk) as (i & Hi & E). specialize (H i ltac:(lia)). rewrite chosen_at, E in H by auto. rewrite <- H. apply Sum_ext. intros j _. now rewrite chosen_ent, E by auto.
  - intros H i Hi. rewrite L in Hi. rewrite chosen_at by auto. rewrite <- (H (nth i ks 0) (nth_In ks 0 Hi)). apply Sum_ext. intros j _. now rewrite chosen_ent by auto.
Qed.
(** whole numbers: close ratios are equal *)
Lemma qabs_z z : qabs (qz z) = qz (Z.abs z). Proof. apply qabs_qz. Qed.
Lemma close_whole N r s r0 s0 : (N * N < 1000000000)%Z -> (Z.abs r <= N)%Z -> (Z.abs s <= N)%Z -> (Z.abs r0 <= N)%Z -> (Z.abs s0 <= N)%Z -> s <> 0%Z -> s0 <> 0%Z ->
  close (qz r / qz s) (qz r0 / qz s0) -> (qz r / qz s = qz r0 / qz s0)%Qc.
Proof.
  intros HN Hr Hs Hr0 Hs0 S S0 C. apply close_iff in C.
  assert (NS : qz s <> 0%Qc) by (intros K; apply S; apply qz_inj; exact K). assert (NS0 : qz s0 <> 0%Qc) by (intros K; apply S0; apply qz_inj; exact K).
  set (D := Z.abs (s * s0)).
  assert (HD : D = (Z.sgn (s * s0) * (s * s0))%Z) by (unfold D; nia).
  assert (E1 : (qz D * (qz r / qz s))%Qc = qz (Z.sgn (s * s0) * r * s0)) by (rewrite HD, !qz_mul; field; auto).
  assert (E2 : (qz D * (qz r0 / qz s0))%Qc = qz (Z.sgn (s * s0) * r0 * s)) by (rewrite HD, !qz_mul; field; auto).
  assert (SG : (Z.abs (Z.sgn (s * s0)) = 1)%Z) by (assert (s * s0 <> 0)%Z by nia; destruct (s * s0)%Z; cbn; lia).
  apply (PolyProofs.isclose_int D _ _ (N * N)).
  - unfold D. assert (s * s0 <> 0)%Z by nia. lia.
  - rewrite E1. eexists. reflexivity.
  - rewrite E2. eexists. reflexivity.
  - rewrite E1, qabs_z. apply qz_le. rewrite !Z.abs_mul, SG. nia.
  - rewrite E2, qabs_z. apply qz_le. rewrite !Z.abs_mul, SG. nia.
  - exact HN.
  - exact C.
Qed.
Lemma chosen_coefficient n A b ks i j : i < length ks -> coefficient n (fst (chosen A b ks)) (snd (chosen A b ks)) i j = coefficient n A b (nth i ks 0) j.
Proof. intros H. unfold coefficient. destruct (Nat.ltb j n); [now apply chosen_ent|now apply chosen_at]. Qed.
Lemma positions_all {X} (d : X) l : map (fun k => nth k l d) (seq 0 (length l)) = l.
Proof. induction l as [|a l IH]; [reflexivity|]. cbn [length seq map nth]. f_equal. rewrite <- seq_shift, map_map. exact IH. Qed.
Lemma filter_len {X} (f : X -> bool) l : length (filter f l) <= length l.
Proof. induction l as [|a l IH]; cbn; [lia|]. destruct (f a); cbn; lia. Qed.
Lemma trivial_dec n A b k : {trivial n A b k} + {~ trivial n A b k}.
Proof.
  destruct (forallb (fun j => qeq (coefficient n A b k j) 0) (seq 0 (S n))) eqn:E; [left|right].
  - rewrite forallb_forall in E. intros j Hj. specialize (E j ltac:(apply in_seq; lia)). cbv beta in E. destruct (qeq_spec (coefficient n A b k j) 0); [auto|discriminate E].
  - intros T. assert (K : forallb (fun j => qeq (coefficient n A b k j) 0) (seq 0 (S n)) = true); [|congruence]. apply forallb_forall. intros j Hj. apply in_seq in Hj. rewrite (T j ltac:(lia)). destruct (qeq_spec 0 0); auto.
Qed.
Lemma dropped m n A b : rectangular m n A -> length b = m -> forall k, k < m -> ~ In k (kept m A b) ->
  trivial n A b k \/ exists i, In i (kept m A b) /\ i < k /\ nearly_multiple n A b i k.
Proof.
  intros HA Hb k Hk NI. destruct (trivial_dec n A b k) as [T|T]; [now left|right].
  destruct (existsb (fun i => Nat.ltb i k && duplicate 0 0%Qc (nth i (rs A b) []) (nth k (rs A b) [])) (kept m A b)) eqn:E.
  - apply existsb_exists in E. destruct E as (i & Hi & D). apply andb_true_iff in D. destruct D as (L & D). apply Nat.ltb_lt in L. exists i. split; [exact Hi|split; [exact L|]].
    assert (Hi' : i < m) by lia. apply (rs_similar m); auto. apply (duplicate_spec _ _ (S n)) in D; try (apply (rs_width m); auto; rewrite (rs_length m n); auto); [|lia]. destruct D as [D|(Z & _)]; [exact D|].
    exfalso. apply (kept_row m n A b HA Hb) in Hi. destruct Hi as (_ & _ & Hi). apply Hi. apply (rs_zero m); auto.
  - exfalso. apply NI. apply (kept_iff m n); auto. repeat split; auto. intros i Hi Hik NM. assert (Hi' : i < m) by lia.
    assert (K : existsb (fun i => Nat.ltb i k && duplicate 0 0%Qc (nth i (rs A b) []) (nth k (rs A b) [])) (kept m A b) = true); [|congruence].
    apply existsb_exists. exists i. split; auto. apply andb_true_iff. split; [now apply Nat.ltb_lt|]. apply (duplicate_spec _ _ (S n)); try (apply (rs_width m); auto; rewrite (rs_length m n); auto); [lia|]. left. now apply (rs_similar m).
Qed.
Lemma near_exact N n A b i k : (N * N < 1000000000)%Z -> whole_up_to N n A b -> i < length A -> k < length A -> nearly_multiple n A b i k ->
  forall j, j <= n -> coefficient n A b k j = (coefficient n A b k 0 / coefficient n A b i 0 * coefficient n A b i j)%Qc.
Proof.
  intros HN W Hi Hk (N1 & N2 & H) j Hj. destruct (H j Hj) as [(Z1 & Z2)|(M1 & M2 & [->|C])].
  - rewrite Z1, Z2. ring.
  - field. exact N1.
  - destruct (W i j Hi Hj) as (r & Er & Br), (W k j Hk Hj) as (s & Es & Bs), (W i 0 Hi ltac:(lia)) as (r0 & Er0 & Br0), (W k 0 Hk ltac:(lia)) as (s0 & Es0 & Bs0).
    rewrite Er, Es, Er0, Es0 in *. assert (s <> 0%Z) by (intros ->; now apply M2). assert (s0 <> 0%Z) by (intros ->; now apply N2).
    apply (close_whole N) in C; auto. replace (qz r) with (qz r / qz s * qz s)%Qc by (field; auto). rewrite C. field. auto.
Qed.
Lemma close_refl x : close x x.
Proof.
  unfold close. replace (x - x)%Qc with 0%Qc by ring. assert (H : (0 <= qmax (qabs x) (qabs x))%Qc).
  { destruct (qmax_spec (qabs x) (qabs x)) as [(_ & ->)|(_ & ->)]; destruct (qabs_spec x) as [(? & ->)|(? & ->)]; qclra. }
  replace (qabs 0) with 0%Qc by (apply Qc_is_canon; reflexivity). apply qmul_nonneg; [discriminate|exact H].
Qed.
Lemma exact_near n A b i k t : t <> 0%Qc -> coefficient n A b i 0 <> 0%Qc -> (forall j, j <= n -> coefficient n A b k j = (t * coefficient n A b i j)%Qc) -> nearly_multiple n A b i k.
Proof.
  intros T NZ H. assert (P : forall v, v <> 0%Qc -> (t * v <> 0)%Qc) by (intros v Hv K; apply Qcmult_integral in K; tauto).
  split; [exact NZ|]. split; [rewrite H by lia; now apply P|]. intros j Hj. rewrite (H j Hj), (H 0 ltac:(lia)).
  destruct (qeq_spec (coefficient n A b i j) 0) as [E|E]; [left; rewrite E; split; ring|right]. repeat split; auto. right.
  replace (coefficient n A b i j / (t * coefficient n A b i j))%Qc with (/ t)%Qc by (field; auto). replace (coefficient n A b i 0 / (t * coefficient n A b i 0))%Qc with (/ t)%Qc by (field; auto). apply close_refl.
Qed.
