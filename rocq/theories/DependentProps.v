(** C79: __remove_dependent_rows.  [remove_dependent_rows A b] is the model of the function; [solves],
    [trivial], [multiple_of], [nearly_multiple] and [chosen] are from DependentSpec. *)
From Coq Require Import String List Bool Arith ZArith QArith Qcanon Lia.
From Verif Require Import Py QcTac QSum QInt MatModel MatTheory LinearModel DependentModel DependentSpec DependentProofs.
Import ListNotations.
Open Scope nat_scope.
Definition qv (l : list Q) : list Qc := map Q2Qc l.
Definition qm (l : list (list Q)) : list (list Qc) := map qv l.

(** ** C79: exactly which rows come back *)
Theorem C79_rows : forall m n A b, rectangular m n A -> length b = m ->
  exists ks, remove_dependent_rows A b = Ok (chosen A b ks) /\ increasing ks /\
    forall k, In k ks <-> k < m /\ ~ trivial n A b k /\ forall i, In i ks -> i < k -> ~ nearly_multiple n A b i k.
Proof.
  intros m n A b HA Hb. exists (kept m A b). split; [now apply (outcome m n)|]. split; [now apply (kept_increasing m n)|]. intros k. now apply kept_iff.
Qed.
Theorem C79_lengths : forall A b, length A <> length b -> remove_dependent_rows A b = Raise ValueError.
Proof. intros A b H. unfold remove_dependent_rows, augmented. apply Nat.eqb_neq in H. now rewrite H. Qed.

(** no solution is lost, whatever the numbers *)
Theorem C79_solutions_kept : forall m n A b A' b', rectangular m n A -> length b = m -> remove_dependent_rows A b = Ok (A', b') ->
  rectangular (length b') n A' /\ length b' <= m /\ forall x, solves n A b x -> solves n A' b' x.
Proof.
  intros m n A b A' b' HA Hb E. rewrite (outcome m n) in E by auto. injection E as <- <-.
  assert (K : forall k, In k (kept m A b) -> k < m) by (intros k Hk; apply (kept_iff m n) in Hk; tauto). split; [|split].
  - split; [now rewrite !map_length|]. intros r Hr. apply in_map_iff in Hr. destruct Hr as (k & <- & Hk). apply (proj2 HA), nth_In. rewrite (proj1 HA). now apply K.
  - rewrite map_length. unfold kept. rewrite <- (seq_length m 0) at 2. apply filter_len.
  - intros x S. apply (chosen_solves n A b (kept m A b) x). intros k Hk. apply S. rewrite (proj1 HA). now apply K.
Qed.

(** whole numbers up to 31622: the solutions are the same *)
Theorem C79_whole : forall m n A b A' b', rectangular m n A -> length b = m -> whole_up_to 31622 n A b -> remove_dependent_rows A b = Ok (A', b') ->
  forall x, solves n A' b' x <-> solves n A b x.
Proof.
  intros m n A b A' b' HA Hb W E x. split; [|now apply (C79_solutions_kept m n A b A' b')].
  rewrite (outcome m n) in E by auto. assert (E' : chosen A b (kept m A b) = (A', b')) by congruence. intros S.
  assert (S' : solves n (fst (chosen A b (kept m A b))) (snd (chosen A b (kept m A b))) x) by (rewrite E'; exact S). rewrite chosen_solves in S'. clear S E E'.
  intros k Hk. rewrite (proj1 HA) in Hk. destruct (in_dec Nat.eq_dec k (kept m A b)) as [K|K]; [now apply S'|].
  destruct (dropped m n A b HA Hb k Hk K) as [T|(i & Ki & Hik & NM)]; [now apply equation_trivial|].
  assert (Hi : i < m) by lia. apply (equation_multiple n A b i k x (coefficient n A b k 0 / coefficient n A b i 0)); [|now apply S'].
  apply (near_exact 31622 n A b i k); auto; [lia|rewrite (proj1 HA); auto|rewrite (proj1 HA); auto].
Qed.

(** what is left: no equation 0 = 0, and no later row that is a multiple of an earlier one beginning
    with a number other than 0; doing it again changes nothing *)
Theorem C79_no_multiples : forall m n A b A' b', rectangular m n A -> length b = m -> remove_dependent_rows A b = Ok (A', b') ->
  (forall k, k < length b' -> ~ trivial n A' b' k) /\
  forall i k, i < k -> k < length b' -> coefficient n A' b' i 0 <> 0%Qc -> ~ multiple_of n A' b' i k /\ ~ multiple_of n A' b' k i.
Proof.
  intros m n A b A' b' HA Hb E. rewrite (outcome m n) in E by auto. assert (E' : (A', b') = chosen A b (kept m A b)) by congruence. clear E.
  assert (EA : A' = fst (chosen A b (kept m A b))) by now rewrite <- E'. assert (Eb : b' = snd (chosen A b (kept m A b))) by now rewrite <- E'. clear E'.
  assert (L : length b' = length (kept m A b)) by (rewrite Eb; unfold chosen; cbn [snd]; apply map_length). set (ks := kept m A b) in *.
  assert (Co : forall k j, k < length b' -> coefficient n A' b' k j = coefficient n A b (nth k ks 0) j) by (intros k j Hk; rewrite EA, Eb; apply chosen_coefficient; lia).
  assert (NT : forall k, k < length b' -> ~ trivial n A' b' k).
  { intros k Hk T. assert (I : In (nth k ks 0) ks) by (apply nth_In; lia). apply (kept_iff m n) in I; auto. destruct I as (_ & I & _). apply I. intros j Hj. rewrite <- Co by lia. now apply T. }
  split; [exact NT|].
  assert (G : forall i k, i < k -> k < length b' -> coefficient n A' b' i 0 <> 0%Qc -> ~ multiple_of n A' b' i k).
  { intros i k Hik Hk NZ (t & Ht).
    assert (I : In (nth k ks 0) ks) by (apply nth_In; lia). apply (kept_iff m n) in I; auto. destruct I as (_ & _ & I). apply (I (nth i ks 0)); [fold ks; apply nth_In; lia|apply (kept_increasing m n A b HA Hb); unfold ks in *; lia|].
    assert (T0 : t <> 0%Qc) by (intros ->; apply (NT k Hk); intros j Hj; rewrite (Ht j Hj); ring).
    apply (exact_near n A b _ _ t T0); [rewrite <- Co by lia; exact NZ|]. intros j Hj. rewrite <- !Co by lia. now apply Ht. }
  intros i k Hik Hk NZ. split; [now apply G|]. intros (t & Ht). apply (G i k Hik Hk NZ).
  assert (T0 : t <> 0%Qc) by (intros ->; apply NZ; rewrite (Ht 0 ltac:(lia)); ring).
  exists (/ t)%Qc. intros j Hj. rewrite (Ht j Hj). field. exact T0.
Qed.
Theorem C79_again : forall m n A b A' b', rectangular m n A -> length b = m -> remove_dependent_rows A b = Ok (A', b') ->
  remove_dependent_rows A' b' = Ok (A', b').
Proof.
  intros m n A b A' b' HA Hb E. destruct (C79_solutions_kept m n A b A' b' HA Hb E) as (HA' & _ & _).
  rewrite (outcome (length b') n A' b' HA' eq_refl). f_equal.
  rewrite (outcome m n) in E by auto. assert (E' : (A', b') = chosen A b (kept m A b)) by congruence. clear E.
  assert (EA : A' = fst (chosen A b (kept m A b))) by now rewrite <- E'. assert (Eb : b' = snd (chosen A b (kept m A b))) by now rewrite <- E'. clear E'.
  assert (L : length b' = length (kept m A b)) by (rewrite Eb; unfold chosen; cbn [snd]; apply map_length). set (ks := kept m A b) in *.
  assert (Co : forall k j, k < length b' -> coefficient n A' b' k j = coefficient n A b (nth k ks 0) j) by (intros k j Hk; rewrite EA, Eb; apply chosen_coefficient; lia).
  assert (All : kept (length b') A' b' = seq 0 (length b')).
  { apply filter_all. intros k Hk. apply in_seq in Hk. apply (kept_iff (length b') n A' b' HA' eq_refl). split; [lia|].
    assert (I : In (nth k ks 0) ks) by (apply nth_In; lia). apply (kept_iff m n) in I; auto. destruct I as (_ & T & N). split.
    - intros T'. apply T. intros j Hj. rewrite <- Co by lia. now apply T'.
    - intros i Hi Hik NM. apply (N (nth i ks 0)); [fold ks; apply nth_In; lia|apply (kept_increasing m n A b HA Hb); unfold ks in *; lia|].
      unfold nearly_multiple in *. rewrite !Co in NM by lia. destruct NM as (N1 & N2 & N3). split; [exact N1|split; [exact N2|]]. intros j Hj. specialize (N3 j Hj). rewrite !Co in N3 by lia. exact N3. }
  rewrite All. unfold chosen. f_equal.
  - rewrite <- (proj1 HA'). apply positions_all.
  - apply positions_all.
Qed.

(** ** what the function misses or gets wrong *)
(** a row beginning with 0 is never recognised as a multiple: equal rows stay *)
Theorem C79_first_zero_refuted : forall m n A b A' b', rectangular m n A -> length b = m -> remove_dependent_rows A b = Ok (A', b') ->
  forall k, k < m -> coefficient n A b k 0 = 0%Qc -> ~ trivial n A b k ->
  exists l, l < length b' /\ nth l A' [] = nth k A [] /\ at_ b' l = at_ b k.
Proof.
  intros m n A b A' b' HA Hb E k Hk Z T. rewrite (outcome m n) in E by auto. assert (E' : (A', b') = chosen A b (kept m A b)) by congruence. clear E.
  assert (I : In k (kept m A b)) by (apply (kept_iff m n); auto; repeat split; auto; intros i _ _ (_ & K & _); contradiction).
  destruct (In_nth _ _ 0 I) as (l & Hl & El). injection E' as -> ->. exists l. split; [now rewrite map_length|]. split.
  - rewrite (nth_indep _ [] (nth 0 A [])) by now rewrite map_length. rewrite (map_nth (fun k => nth k A []) (kept m A b) 0 l). now rewrite El.
  - rewrite <- El. exact (chosen_at A b (kept m A b) l Hl).
Qed.
Example C79_equal_rows : remove_dependent_rows (qm [[0; 1]; [0; 1]]%Q) (qv [5; 5]%Q) = Ok (qm [[0; 1]; [0; 1]]%Q, qv [5; 5]%Q).
Proof. vm_compute. reflexivity. Qed.
(** an equation that is not a multiple of another one is dropped when the numbers are close: a point
    solves what comes back and not the equations given *)
Theorem C79_tolerance_refuted : exists A b A' b' x, rectangular 2 2 A /\ length b = 2 /\ remove_dependent_rows A b = Ok (A', b') /\
  length b' = 1 /\ solves 2 A' b' x /\ ~ solves 2 A b x.
Proof.
  exists (qm [[1; 1]; [1; 10000000001 # 10000000000]]%Q), (qv [1; 1]%Q), (qm [[1; 1]]%Q), (qv [1]%Q), (qv [0; 1]%Q).
  split; [split; [reflexivity|intros r [<-|[<-|[]]]; reflexivity]|]. split; [reflexivity|]. split; [vm_compute; reflexivity|]. split; [reflexivity|]. split.
  - intros [|i] Hi; [vm_compute; reflexivity|cbn in Hi; lia].
  - intros S. specialize (S 1 ltac:(cbn; lia)). vm_compute in S. discriminate S.
Qed.
(** the same with whole numbers of six digits *)
Theorem C79_whole_refuted : exists A b A' b' x, rectangular 2 2 A /\ length b = 2 /\ whole_up_to 100001 2 A b /\ remove_dependent_rows A b = Ok (A', b') /\
  length b' = 1 /\ solves 2 A' b' x /\ ~ solves 2 A b x.
Proof.
  exists (qm [[100000; 100001]; [99999; 100000]]%Q), (qv [0; 0]%Q), (qm [[100000; 100001]]%Q), (qv [0]%Q), (qv [100001; -100000]%Q).
  split; [split; [reflexivity|intros r [<-|[<-|[]]]; reflexivity]|]. split; [reflexivity|]. split.
  { intros i j Hi Hj. destruct i as [|[|i]]; [| |cbn in Hi; lia]; (destruct j as [|[|[|j]]]; [| | |lia]);
      [exists 100000%Z|exists 100001%Z|exists 0%Z|exists 99999%Z|exists 100000%Z|exists 0%Z]; (split; [vm_compute; reflexivity|lia]). }
  split; [vm_compute; reflexivity|]. split; [reflexivity|]. split.
  - intros [|i] Hi; [vm_compute; reflexivity|cbn in Hi; lia].
  - intros S. specialize (S 1 ltac:(cbn; lia)). vm_compute in S. discriminate S.
Qed.
(** nothing is removed when no row is nearly a multiple of another *)
Theorem C79_nothing_removed : forall m n A b A' b', rectangular m n A -> length b = m ->
  (forall k, k < m -> ~ trivial n A b k) -> (forall i k, i < k -> k < m -> ~ nearly_multiple n A b i k) ->
  remove_dependent_rows A b = Ok (A', b') -> A' = A /\ b' = b.
Proof.
  intros m n A b A' b' HA Hb T N E. rewrite (outcome m n) in E by auto.
  assert (All : kept m A b = seq 0 m).
  { apply filter_all. intros k Hk. apply in_seq in Hk. apply (kept_iff m n A b HA Hb). repeat split; [lia|apply T; lia|]. intros i _ Hik. apply N; lia. }
  rewrite All in E. unfold chosen in E. injection E as <- <-. split; [rewrite <- (proj1 HA)|rewrite <- Hb]; apply positions_all.
Qed.
(** so a row that is a combination of others, not a multiple of one, stays *)
Theorem C79_combination_refuted : exists A b, rectangular 3 2 A /\ length b = 3 /\
  (forall x, solves 2 (firstn 2 A) (firstn 2 b) x -> solves 2 A b x) /\ remove_dependent_rows A b = Ok (A, b).
Proof.
  exists (qm [[1; 2]; [3; 1]; [4; 3]]%Q), (qv [1; 1; 2]%Q). split; [split; [reflexivity|intros r [<-|[<-|[<-|[]]]]; reflexivity]|]. split; [reflexivity|]. split; [|vm_compute; reflexivity].
  intros x S. pose proof (S 0 ltac:(cbn; lia)) as E0. pose proof (S 1 ltac:(cbn; lia)) as E1.
  intros [|[|[|i]]] Hi; [exact E0|exact E1| |cbn in Hi; lia]. rewrite !Sum_S, Sum_0 in *. unfold ent, at_ in *. cbn [qm qv map nth firstn] in *. qclra.
Qed.

(** ** a case that meets the hypotheses: of six rows three come back *)
Definition A79 := qm [[1; 2; 0]; [0; 0; 0]; [2; 4; 0]; [0; 1; 1]; [-3; -6; 0]; [1; 2; 1]]%Q.
Definition b79 := qv [3; 0; 6; 4; -9; 3]%Q.
Example C79_case : rectangular 6 3 A79 /\ length b79 = 6 /\ whole_up_to 31622 3 A79 b79 /\
  remove_dependent_rows A79 b79 = Ok (qm [[1; 2; 0]; [0; 1; 1]; [1; 2; 1]]%Q, qv [3; 4; 3]%Q).
Proof.
  split; [split; [reflexivity|intros r Hr; cbn in Hr; repeat (destruct Hr as [<-|Hr]; [reflexivity|]); destruct Hr]|]. split; [reflexivity|]. split; [|vm_compute; reflexivity].
  intros i j Hi Hj. cbn in Hi.
  assert (G : exists z, In z [0; 1; 2; 3; 4; -3; -6; 6; -9]%Z /\ coefficient 3 A79 b79 i j = qz z).
  { do 6 (destruct i as [|i]; [do 4 (destruct j as [|j]; [first [exists 0%Z; split; [cbn; tauto|vm_compute; reflexivity]|exists 1%Z; split; [cbn; tauto|vm_compute; reflexivity]|exists 2%Z; split; [cbn; tauto|vm_compute; reflexivity]|exists 3%Z; split; [cbn; tauto|vm_compute; reflexivity]|exists 4%Z; split; [cbn; tauto|vm_compute; reflexivity]|exists (-3)%Z; split; [cbn; tauto|vm_compute; reflexivity]|exists (-6)%Z; split; [cbn; tauto|vm_compute; reflexivity]|exists 6%Z; split; [cbn; tauto|vm_compute; reflexivity]|exists (-9)%Z; split; [cbn; tauto|vm_compute; reflexivity]]|]); lia|]). lia. }
  destruct G as (z & Hz & E). exists z. split; [exact E|]. cbn in Hz. lia.
Qed.

Print Assumptions C79_rows.
Print Assumptions C79_lengths.
Print Assumptions C79_solutions_kept.
Print Assumptions C79_whole.
Print Assumptions C79_no_multiples.
Print Assumptions C79_again.
Print Assumptions C79_first_zero_refuted.
Print Assumptions C79_tolerance_refuted.
Print Assumptions C79_whole_refuted.
Print Assumptions C79_nothing_removed.
Print Assumptions C79_combination_refuted.
