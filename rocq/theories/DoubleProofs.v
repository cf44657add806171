(** Proofs about rounding to double precision. *)
From Coq Require Import String List Bool Arith ZArith QArith Qcanon Qround Qpower Lia Permutation.
From Verif Require Import Py QcTac QSum QInt ComparatorModel MatModel MatTheory LinearModel LinearSpec DoubleSpec DoubleModel.
Import ListNotations.
Open Scope nat_scope.
Open Scope string_scope.
Open Scope list_scope.

(** ** absolute values *)
Lemma qabs_cases x : (0 <= x /\ qabs x = x)%Qc \/ (x < 0 /\ qabs x = - x)%Qc.
Proof. unfold qabs. destruct (qlt_spec x 0); [right|left]; split; auto; qclra. Qed.
Ltac qab := repeat match goal with |- context [qabs ?x] => destruct (qabs_cases x) as [(? & ->)|(? & ->)] | H : context [qabs ?x] |- _ => let E := fresh in destruct (qabs_cases x) as [(? & E)|(? & E)]; rewrite E in *; clear E end.
Lemma qabs_add a b : (qabs (a + b) <= qabs a + qabs b)%Qc. Proof. qab; qclra. Qed.
Lemma qabs_le x y : (qabs x <= y)%Qc <-> (- y <= x /\ x <= y)%Qc.
Proof. split; [intros H; split|intros (H1 & H2)]; qab; qclra. Qed.
Lemma qabs_opp x : qabs (- x) = qabs x. Proof. qab; qclra. Qed.
Lemma qabs_pos x : (0 <= x)%Qc -> qabs x = x. Proof. intros. qab; qclra. Qed.
Lemma qabs_0 : qabs 0 = 0%Qc. Proof. reflexivity. Qed.
Lemma qabs_zero x : (qabs x <= 0)%Qc -> x = 0%Qc. Proof. intros H. qab; qclra. Qed.
Lemma qabs_mul a b : qabs (a * b) = (qabs a * qabs b)%Qc.
Proof.
  destruct (qabs_cases a) as [(Ha & ->)|(Ha & ->)], (qabs_cases b) as [(Hb & ->)|(Hb & ->)]; destruct (qabs_cases (a * b)) as [(H & ->)|(H & ->)]; auto; try ring.
  - exfalso. pose proof (qmul_nonneg _ _ Ha Hb). qclra.
  - pose proof (qmul_nonneg a (- b)%Qc Ha ltac:(qclra)). qclra.
  - pose proof (qmul_nonneg (- a)%Qc b ltac:(qclra) Hb). qclra.
  - pose proof (qmul_nonneg (- a)%Qc (- b)%Qc ltac:(qclra) ltac:(qclra)). qclra.
Qed.

(** ** powers of two *)
Lemma pow2_add a b : pow2 (a + b) = (pow2 a * pow2 b)%Qc.
Proof. apply Qc_is_canon. unfold pow2. rewrite this_mult, !this_Q2Qc. apply Qpower_plus. discriminate. Qed.
Lemma pow2_int e : (0 <= e)%Z -> pow2 e = qz (2 ^ e).
Proof.
  intros H. apply Qc_is_canon. unfold pow2, qz. rewrite !this_Q2Qc. rewrite <- (Z2Nat.id e) by auto. generalize (Z.to_nat e). clear. intros n. induction n as [|n IH]; [reflexivity|].
  rewrite Nat2Z.inj_succ, <- Z.add_1_r, Qpower_plus by discriminate. rewrite IH, Z.pow_add_r by lia. rewrite inject_Z_mult. reflexivity.
Qed.
Lemma pow2_0 : pow2 0 = 1%Qc. Proof. reflexivity. Qed.
Lemma pow2_opp e : (pow2 e * pow2 (- e))%Qc = 1%Qc.
Proof. rewrite <- pow2_add. now rewrite Z.add_opp_diag_r. Qed.
Lemma pow2_pos e : (0 < pow2 e)%Qc.
Proof.
  assert (G : forall e, (0 <= e)%Z -> (0 < pow2 e)%Qc) by (intros f Hf; rewrite pow2_int by auto; rewrite <- qz_0; apply qz_lt; now apply Z.pow_pos_nonneg).
  destruct (Z.le_gt_cases 0 e) as [H|H]; [auto|]. specialize (G (- e)%Z ltac:(lia)). pose proof (pow2_opp e) as E. destruct (qlt_spec 0 (pow2 e)) as [|N]; auto. exfalso. apply Qcnot_lt_le in N.
  pose proof (qmul_nonneg (- pow2 e) (pow2 (- e)) ltac:(qclra) ltac:(qclra)). replace (- pow2 e * pow2 (- e))%Qc with (- (pow2 e * pow2 (- e)))%Qc in * by ring. rewrite E in *. qclra.
Qed.
Lemma pow2_le a b : (a <= b)%Z -> (pow2 a <= pow2 b)%Qc.
Proof.
  intros H. replace b with (a + (b - a))%Z by lia. rewrite pow2_add, (pow2_int (b - a)) by lia. pose proof (pow2_pos a). assert (K : (1 <= qz (2 ^ (b - a)))%Qc) by (rewrite <- qz_1; apply qz_le; pose proof (Z.pow_pos_nonneg 2 (b - a)); lia).
  pose proof (qmul_le_r _ _ (pow2 a) K ltac:(qclra)). replace (1 * pow2 a)%Qc with (pow2 a) in * by ring. replace (pow2 a * qz (2 ^ (b - a)))%Qc with (qz (2 ^ (b - a)) * pow2 a)%Qc by ring. auto.
Qed.
(** ** doubles *)
Lemma double_opp x : is_double x -> is_double (- x).
Proof. intros (m & e & H1 & H2 & ->). exists (- m)%Z, e. split; [lia|]. split; auto. rewrite qz_opp. ring. Qed.
Lemma double_int z : (Z.abs z <= 2 ^ 53)%Z -> is_double (qz z).
Proof.
  intros H. destruct (Z.eq_dec (Z.abs z) (2 ^ 53)) as [E|E].
  - exists (Z.sgn z * 2 ^ 52)%Z, 1%Z. split; [|split; [lia|]].
    + rewrite Z.abs_mul. assert (K : (Z.abs (Z.sgn z) <= 1)%Z) by (destruct z; cbn; lia). change (Z.abs (2 ^ 52)) with 4503599627370496%Z. change (2 ^ 53)%Z with 9007199254740992%Z. lia.
    + rewrite pow2_int by lia. rewrite <- qz_mul. f_equal. rewrite <- Z.mul_assoc. change (2 ^ 52 * 2 ^ 1)%Z with (2 ^ 53)%Z. rewrite <- E. now rewrite Z.mul_comm, Z.abs_sgn.
  - exists z, 0%Z. split; [lia|]. split; [lia|]. rewrite pow2_0. ring.
Qed.
Lemma double_isint x : isint x -> (qabs x <= qz (2 ^ 53))%Qc -> is_double x.
Proof.
  intros (z & ->) H. apply double_int. apply qabs_le in H. destruct H as (H1 & H2). apply (proj1 (qz_le _ _)) in H2. rewrite <- qz_opp in H1. apply (proj1 (qz_le _ _)) in H1. lia.
Qed.
Lemma double_0 : is_double 0. Proof. apply (double_int 0). lia. Qed.
(** a double is its own rounding *)
Lemma rounds_double x y : rounds x y -> is_double x -> y = x.
Proof. intros (_ & H) D. specialize (H x D). replace (x - x)%Qc with 0%Qc in H by ring. rewrite qabs_0 in H. apply qabs_zero in H. qclra. Qed.
Lemma rounds_int x y : rounds x y -> isint x -> (qabs x <= qz (2 ^ 53))%Qc -> y = x.
Proof. intros H I B. apply rounds_double; auto. now apply double_isint. Qed.
Lemma rounds_le x y d : rounds x y -> is_double d -> (x <= d)%Qc -> (y <= d)%Qc.
Proof. intros (_ & H) D L. specialize (H d D). destruct (qle_spec y d) as [|K]; auto. exfalso. qab; qclra. Qed.
Lemma rounds_ge x y d : rounds x y -> is_double d -> (d <= x)%Qc -> (d <= y)%Qc.
Proof. intros (_ & H) D L. specialize (H d D). destruct (qle_spec d y) as [|K]; auto. exfalso. qab; qclra. Qed.

(** ** there is a nearest double, close by *)
Lemma nearest_integer t : exists n, (qabs (t - qz n) <= Q2Qc (1 # 2))%Qc /\ forall z, (qabs (t - qz n) <= qabs (t - qz z))%Qc.
Proof.
  set (h := Q2Qc (1 # 2)). assert (Hh : (h + h = 1)%Qc) by (apply Qc_is_canon; reflexivity).
  set (n := Qfloor (this (t + h)%Qc)). exists n.
  assert (F1 : (qz n <= t + h)%Qc) by (unfold n, qz, Qcle; rewrite this_Q2Qc; apply Qfloor_le).
  assert (F2 : (t + h < qz n + 1)%Qc). { rewrite <- qz_1, <- qz_add. unfold n, qz, Qclt. rewrite this_Q2Qc. apply Qlt_floor. }
  assert (K : (qabs (t - qz n) <= h)%Qc) by (apply qabs_le; split; qclra). split; auto.
  intros z. destruct (Z.lt_trichotomy z n) as [L|[->|L]]; [|apply Qcle_refl|].
  - assert (Lz : (qz z + 1 <= qz n)%Qc) by (rewrite <- qz_1, <- qz_add; apply qz_le; lia). clearbody h. qab; qclra.
  - assert (Lz : (qz n + 1 <= qz z)%Qc) by (rewrite <- qz_1, <- qz_add; apply qz_le; lia). clearbody h. qab; qclra.
Qed.
Lemma binade x : (0 < x)%Qc -> exists k, (pow2 k <= x /\ x < pow2 (k + 1))%Qc.
Proof.
  intros Hx. set (B := Zpos (Qden (this x))). set (A := Qnum (this x)).
  assert (HB : (qz B * x = qz A)%Qc). { apply Qc_is_canon. unfold qz. rewrite this_mult, !this_Q2Qc. unfold A, B. destruct (this x) as [n d]. unfold Qeq, Qmult, inject_Z. cbn [Qnum Qden]. rewrite Pos.mul_1_l, Z.mul_1_r. apply Z.mul_comm. }
  assert (B0 : (0 < B)%Z) by reflexivity. assert (A0 : (0 < A)%Z). { apply qz_lt. rewrite <- HB. rewrite qz_0. apply qmul_pos; auto. rewrite <- qz_0. now apply qz_lt. }
  assert (L : (pow2 (- B) <= x)%Qc).
  { assert (K : (qz B <= pow2 B)%Qc) by (rewrite pow2_int by lia; apply qz_le; pose proof (Z.pow_gt_lin_r 2 B); lia). assert (K1 : (1 <= qz A)%Qc) by (rewrite <- qz_1; apply qz_le; lia).
    pose proof (pow2_pos (- B)) as P. pose proof (qmul_le_r (qz B) (pow2 B) (x * pow2 (- B)) K ltac:(apply qmul_nonneg; qclra)) as M.
    replace (qz B * (x * pow2 (- B)))%Qc with (qz A * pow2 (- B))%Qc in M by (rewrite <- HB; ring). replace (pow2 B * (x * pow2 (- B)))%Qc with (x * (pow2 B * pow2 (- B)))%Qc in M by ring. rewrite pow2_opp in M.
    pose proof (qmul_le_r 1 (qz A) (pow2 (- B)) K1 ltac:(qclra)). qclra. }
  assert (U : (x < pow2 A)%Qc).
  { assert (K : (qz A < pow2 A)%Qc) by (rewrite pow2_int by lia; apply qz_lt; pose proof (Z.pow_gt_lin_r 2 A); lia). assert (K1 : (1 <= qz B)%Qc) by (rewrite <- qz_1; apply qz_le; lia).
    pose proof (qmul_le_r 1 (qz B) x K1 ltac:(qclra)). qclra. }
  assert (G : forall j : nat, (x < pow2 (- B + Z.of_nat j))%Qc -> exists k, (pow2 k <= x /\ x < pow2 (k + 1))%Qc).
  { induction j as [|j IH]; intros Hj; [rewrite Z.add_0_r in Hj; exfalso; qclra|]. destruct (qlt_spec x (pow2 (- B + Z.of_nat j))) as [K|K]; [auto|]. exists (- B + Z.of_nat j)%Z. split; [now apply Qcnot_lt_le|].
    replace (- B + Z.of_nat j + 1)%Z with (- B + Z.of_nat (S j))%Z by lia. exact Hj. }
  apply (G (Z.to_nat (A + B))). replace (- B + Z.of_nat (Z.to_nat (A + B)))%Z with A by lia. exact U.
Qed.
Lemma rounds_pos x : (0 < x)%Qc -> exists y, rounds x y /\ (qabs (x - y) <= unit_roundoff * x + underflow)%Qc.
Proof.
  intros Hx. destruct (binade x Hx) as (k & K1 & K2). set (e := Z.max (k - 52) (-1074)). set (t := (x * pow2 (- e))%Qc).
  assert (Et : (x = t * pow2 e)%Qc) by (unfold t; replace (x * pow2 (- e) * pow2 e)%Qc with (x * (pow2 e * pow2 (- e)))%Qc by ring; rewrite pow2_opp; ring).
  pose proof (pow2_pos e) as Pe. pose proof (pow2_pos (- e)) as Pe'.
  assert (T0 : (0 < t)%Qc) by (apply qmul_pos; auto).
  assert (T1 : (t < qz (2 ^ 53))%Qc).
  { assert (K : (x < pow2 53 * pow2 e)%Qc). { rewrite <- pow2_add. apply (Qclt_le_trans _ _ _ K2). apply pow2_le. unfold e. lia. }
    rewrite Et in K. rewrite <- pow2_int by lia. destruct (qlt_spec t (pow2 53)) as [|N]; auto. exfalso. apply Qcnot_lt_le in N. pose proof (qmul_le_r _ _ (pow2 e) N ltac:(qclra)). qclra. }
  destruct (nearest_integer t) as (n & N1 & N2).
  assert (Scale : forall z, (qabs (x - qz z * pow2 e) = qabs (t - qz z) * pow2 e)%Qc).
  { intros z. rewrite Et at 1. replace (t * pow2 e - qz z * pow2 e)%Qc with ((t - qz z) * pow2 e)%Qc by ring. rewrite qabs_mul. f_equal. apply qabs_pos. qclra. }
  assert (Near : forall z, (qabs (x - qz n * pow2 e) <= qabs (x - qz z * pow2 e))%Qc) by (intros z; rewrite !Scale; apply qmul_le_r; [apply N2|qclra]).
  assert (n0 : (0 <= n)%Z). { destruct (Z.le_gt_cases 0 n); auto. exfalso. specialize (N2 0%Z). rewrite qz_0 in N2. assert (qz n <= - (1))%Qc by (rewrite <- qz_1, <- qz_opp; apply qz_le; lia). qab; qclra. }
  assert (n1 : (n <= 2 ^ 53)%Z). { destruct (Z.le_gt_cases n (2 ^ 53)); auto. exfalso. specialize (N2 (2 ^ 53)%Z). assert (qz (2 ^ 53) + 1 <= qz n)%Qc by (rewrite <- qz_1, <- qz_add; apply qz_le; lia). qab; qclra. }
  exists (qz n * pow2 e)%Qc. split; [split|].
  - destruct (Z.eq_dec n (2 ^ 53)) as [->|E].
    + exists (2 ^ 52)%Z, (e + 1)%Z. split; [lia|]. split; [unfold e; lia|]. rewrite pow2_add, (pow2_int 1) by lia. change (2 ^ 53)%Z with (2 ^ 52 * 2 ^ 1)%Z. rewrite qz_mul. ring.
    + exists n, e. split; [lia|]. split; [unfold e; lia|reflexivity].
  - intros d (m & f & M1 & M2 & ->). destruct (Z.le_gt_cases e f) as [L|L].
    + replace (qz m * pow2 f)%Qc with (qz (m * 2 ^ (f - e)) * pow2 e)%Qc; [apply Near|]. rewrite qz_mul, <- pow2_int by lia. replace (pow2 f) with (pow2 (f - e) * pow2 e)%Qc by (rewrite <- pow2_add; f_equal; lia). ring.
    + assert (Ee : e = (k - 52)%Z) by (unfold e in *; lia). apply (Qcle_trans _ _ _ (Near (2 ^ 52)%Z)). rewrite <- pow2_int by lia. rewrite <- pow2_add. replace (52 + e)%Z with k by lia.
      assert (D : (qz m * pow2 f <= pow2 k)%Qc).
      { pose proof (pow2_pos f) as Pf. assert (Q : (qz m <= pow2 53)%Qc) by (rewrite pow2_int by lia; apply qz_le; lia). pose proof (qmul_le_r _ _ (pow2 f) Q ltac:(qclra)) as Q2. rewrite <- pow2_add in Q2. pose proof (pow2_le (53 + f) k ltac:(lia)). qclra. }
      qab; qclra.
  - rewrite Scale. pose proof (qmul_le_r _ _ (pow2 e) N1 ltac:(qclra)) as Q. change (Q2Qc (1 # 2)) with (pow2 (-1)) in Q. rewrite <- pow2_add in Q.
    assert (U1 : (0 < unit_roundoff * x)%Qc) by (apply qmul_pos; auto; apply pow2_pos). pose proof (pow2_pos (-1075)) as U2. fold underflow in U2.
    destruct (Z.max_spec (k - 52) (-1074)) as [(L & E)|(L & E)]; fold e in E; set (X := (qabs (t - qz n) * pow2 e)%Qc) in *; clearbody X; rewrite E in Q.
    + change (-1 + -1074)%Z with (-1075)%Z in Q. fold underflow in Q. qclra.
    + replace (-1 + (k - 52))%Z with (-53 + k)%Z in Q by lia. rewrite pow2_add in Q. fold unit_roundoff in Q. assert (R : (pow2 k * unit_roundoff <= x * unit_roundoff)%Qc) by (apply qmul_le_r; auto; pose proof (pow2_pos (-53)); unfold unit_roundoff; qclra). qclra.
Qed.
Lemma rounds_opp x y : rounds x y -> rounds (- x) (- y).
Proof.
  intros (D & H). split; [now apply double_opp|]. intros d Hd. specialize (H (- d)%Qc (double_opp d Hd)).
  replace (- x - - y)%Qc with (- (x - y))%Qc by ring. replace (- x - d)%Qc with (- (x - - d))%Qc by ring. now rewrite !qabs_opp.
Qed.
Lemma rounds_some x : exists y, rounds x y /\ (qabs (x - y) <= unit_roundoff * qabs x + underflow)%Qc.
Proof.
  pose proof (pow2_pos (-1075)) as U2. fold underflow in U2. destruct (qlt_spec x 0) as [N|N].
  - destruct (rounds_pos (- x) ltac:(qclra)) as (y & R & B). exists (- y)%Qc. split; [rewrite <- (Qcopp_involutive x); now apply rounds_opp|].
    replace (x - - y)%Qc with (- (- x - y))%Qc by ring. rewrite qabs_opp. replace (qabs x) with (- x)%Qc by (qab; qclra). exact B.
  - destruct (qeq_spec x 0) as [->|Z].
    + exists 0%Qc. split; [split; [apply double_0|]|].
      * intros d _. replace (0 - 0)%Qc with 0%Qc by ring. rewrite qabs_0. apply qabs_nonneg.
      * replace (0 - 0)%Qc with 0%Qc by ring. rewrite qabs_0. qclra.
    + destruct (rounds_pos x ltac:(qclra)) as (y & R & B). exists y. split; auto. replace (qabs x) with x by (qab; qclra). exact B.
Qed.
Lemma rounds_error x y : rounds x y -> (qabs (y - x) <= unit_roundoff * qabs x + underflow)%Qc.
Proof.
  intros (D & H). destruct (rounds_some x) as (y' & (D' & _) & B). specialize (H y' D'). replace (y - x)%Qc with (- (x - y))%Qc by ring. rewrite qabs_opp. qclra.
Qed.

(** ** sums *)
Lemma exact_perm l l' : Permutation l l' -> exact_sum l = exact_sum l'.
Proof. unfold exact_sum. induction 1; cbn [fold_right]; try congruence. ring. Qed.
Lemma absolute_perm l l' : Permutation l l' -> absolute_sum l = absolute_sum l'.
Proof. unfold absolute_sum. induction 1; cbn [fold_right]; try congruence. ring. Qed.
Lemma exact_app l l' : exact_sum (l ++ l') = (exact_sum l + exact_sum l')%Qc.
Proof. unfold exact_sum. induction l as [|a l IH]; cbn [fold_right app]; [ring|]. rewrite IH. ring. Qed.
Lemma absolute_app l l' : absolute_sum (l ++ l') = (absolute_sum l + absolute_sum l')%Qc.
Proof. unfold absolute_sum. induction l as [|a l IH]; cbn [fold_right app]; [ring|]. rewrite IH. ring. Qed.
Lemma absolute_nonneg l : (0 <= absolute_sum l)%Qc.
Proof. unfold absolute_sum. induction l as [|a l IH]; cbn [fold_right]; [apply Qcle_refl|]. pose proof (qabs_nonneg (fst a * snd a)). qclra. Qed.
Lemma exact_absolute l : (qabs (exact_sum l) <= absolute_sum l)%Qc.
Proof. unfold exact_sum, absolute_sum. induction l as [|a l IH]; cbn [fold_right]; [apply Qcle_refl|]. pose proof (qabs_add (fst a * snd a) (fold_right (fun ax s => fst ax * snd ax + s)%Qc 0%Qc l)). qclra. Qed.
Lemma exact_int l : (forall a x, In (a, x) l -> isint (a * x)) -> isint (exact_sum l).
Proof.
  unfold exact_sum. induction l as [|(a & x) l IH]; intros H; cbn [fold_right fst snd]; [exists 0%Z; reflexivity|]. apply isint_add; [apply H; simpl; auto|]. apply IH. intros; apply H; simpl; auto.
Qed.
Lemma exact_inner u v : exact_sum (combine u v) = inner u v.
Proof. revert v. induction u as [|a u IH]; intros [|x v]; try reflexivity. cbn [combine exact_sum fold_right fst snd inner]. fold (exact_sum (combine u v)). now rewrite IH. Qed.

Lemma summed_int l v : summed l v -> (forall a x, In (a, x) l -> isint (a * x)) -> (absolute_sum l <= qz (2 ^ 53))%Qc -> v = exact_sum l.
Proof.
  induction 1 as [|a x r R|l l1 l2 v1 v2 r P N1 N2 H1 IH1 H2 IH2 R|l a x l1 v r P N1 H1 IH1 R]; intros I B.
  - reflexivity.
  - cbn [exact_sum absolute_sum fold_right fst snd] in *. rewrite (rounds_int _ _ R); [ring|apply I; simpl; auto|qclra].
  - pose proof (exact_absolute l) as A. pose proof (exact_int l I) as Ii. rewrite (exact_perm _ _ P), exact_app in *. rewrite (absolute_perm _ _ P), absolute_app in *.
    pose proof (absolute_nonneg l1). pose proof (absolute_nonneg l2).
    assert (E1 : v1 = exact_sum l1). { apply IH1; [|qclra]. intros a x Hx. apply I. apply (Permutation_in _ (Permutation_sym P)). apply in_or_app. auto. }
    assert (E2 : v2 = exact_sum l2). { apply IH2; [|qclra]. intros a x Hx. apply I. apply (Permutation_in _ (Permutation_sym P)). apply in_or_app. auto. }
    subst v1 v2. apply (rounds_int _ _ R); auto. qclra.
  - pose proof (exact_absolute l) as A. pose proof (exact_int l I) as Ii. rewrite (exact_perm _ _ P) in *. rewrite (absolute_perm _ _ P) in *. cbn [exact_sum absolute_sum fold_right fst snd] in *. fold (exact_sum l1) in *. fold (absolute_sum l1) in *.
    pose proof (qabs_nonneg (a * x)).
    assert (E1 : v = exact_sum l1). { apply IH1; [|qclra]. intros a' x' Hx. apply I. apply (Permutation_in _ (Permutation_sym P)). simpl. auto. }
    subst v. apply (rounds_int _ _ R); auto. qclra.
Qed.
Lemma dot_int u v r : f_dot u v r -> (forall a, In a u -> isint a) -> (forall x, In x v -> isint x) -> (absolute_sum (combine u v) <= qz (2 ^ 53))%Qc -> r = inner u v.
Proof.
  intros H Iu Iv B. rewrite <- exact_inner. apply summed_int; auto. intros a x Hx. apply isint_mul; [apply Iu; now apply in_combine_l in Hx|apply Iv; now apply in_combine_r in Hx].
Qed.

(** ** error of sums in general *)
Definition growth (n : nat) : Qc := ((1 + unit_roundoff) ^ n)%Qc.
Definition error_bound (n : nat) (total : Qc) : Qc := ((growth n - 1) * total + qz (2 * Z.of_nat n) * growth n * underflow)%Qc.
Lemma u_pos : (0 < unit_roundoff)%Qc. Proof. apply pow2_pos. Qed.
Lemma h_pos : (0 < underflow)%Qc. Proof. apply pow2_pos. Qed.
Lemma growth_S n : growth (S n) = ((1 + unit_roundoff) * growth n)%Qc. Proof. reflexivity. Qed.
Lemma growth_ge n : (1 <= growth n)%Qc.
Proof. induction n as [|n IH]; [apply Qcle_refl|]. rewrite growth_S. pose proof u_pos. pose proof (qmul_nonneg unit_roundoff (growth n) ltac:(qclra) ltac:(qclra)). qclra. Qed.
Lemma growth_mono a b : a <= b -> (growth a <= growth b)%Qc.
Proof. induction 1 as [|b H IH]; [apply Qcle_refl|]. rewrite growth_S. pose proof u_pos. pose proof (growth_ge b). pose proof (qmul_nonneg unit_roundoff (growth b) ltac:(qclra) ltac:(qclra)). qclra. Qed.
Lemma error_mono n T T' : (T <= T')%Qc -> (error_bound n T <= error_bound n T')%Qc.
Proof. intros H. unfold error_bound. pose proof (growth_ge n). pose proof (qmul_nonneg (growth n - 1) (T' - T) ltac:(qclra) ltac:(qclra)). qclra. Qed.
(** one more rounding of a sum of two values with known errors *)
Definition strong_bound (n : nat) (T : Qc) : Qc := ((growth n - 1) * T + (qz (2 * Z.of_nat n) * growth n - 1) * underflow)%Qc.
Lemma strong_weak n T : (strong_bound n T <= error_bound n T)%Qc.
Proof. unfold strong_bound, error_bound. pose proof h_pos. qclra. Qed.
Lemma strong_grow n T g : (growth n <= g)%Qc -> (0 <= T)%Qc -> (strong_bound n T <= (g - 1) * T + (qz (2 * Z.of_nat n) * g - 1) * underflow)%Qc.
Proof.
  intros G Tp. unfold strong_bound. pose proof h_pos as Hh. pose proof (qmul_nonneg (g - growth n) T ltac:(qclra) Tp) as Q1. set (k := qz (2 * Z.of_nat n)).
  assert (K : (0 <= k)%Qc) by (rewrite <- qz_0; apply qz_le; lia). pose proof (qmul_nonneg _ _ (qmul_nonneg (g - growth n) k ltac:(qclra) K) (Qclt_le_weak _ _ Hh)) as Q2. clearbody k. generalize dependent (growth n). intros. 
  replace ((g - 1) * T + (k * g - 1) * underflow)%Qc with ((q - 1) * T + (k * q - 1) * underflow + (g - q) * T + (g - q) * k * underflow)%Qc by ring. qclra.
Qed.
Lemma error_step n1 n2 T1 T2 s1 s2 v1 v2 r : 0 < n1 -> 0 < n2 -> (qabs s1 <= T1)%Qc -> (qabs s2 <= T2)%Qc ->
  (qabs (v1 - s1) <= strong_bound n1 T1)%Qc -> (qabs (v2 - s2) <= strong_bound n2 T2)%Qc -> rounds (v1 + v2) r ->
  (qabs (r - (s1 + s2)) <= strong_bound (n1 + n2) (T1 + T2))%Qc.
Proof.
  intros P1 P2 S1 S2 E1 E2 R. apply rounds_error in R. pose proof u_pos as U. pose proof h_pos as Hh.
  set (g := growth (n1 + n2 - 1)). assert (G1 : (growth n1 <= g)%Qc) by (apply growth_mono; lia). assert (G2 : (growth n2 <= g)%Qc) by (apply growth_mono; lia). assert (G : (growth (n1 + n2) = (1 + unit_roundoff) * g)%Qc) by (unfold g; rewrite <- growth_S; f_equal; lia).
  assert (T1p : (0 <= T1)%Qc) by (pose proof (qabs_nonneg s1); qclra). assert (T2p : (0 <= T2)%Qc) by (pose proof (qabs_nonneg s2); qclra).
  pose proof (strong_grow n1 T1 g G1 T1p) as B1. pose proof (strong_grow n2 T2 g G2 T2p) as B2.
  unfold strong_bound at 1. rewrite G. replace (2 * Z.of_nat (n1 + n2))%Z with (2 * Z.of_nat n1 + 2 * Z.of_nat n2)%Z by lia. rewrite qz_add.
  set (k1 := qz (2 * Z.of_nat n1)) in *. set (k2 := qz (2 * Z.of_nat n2)) in *. set (e1 := qabs (v1 - s1)) in *. set (e2 := qabs (v2 - s2)) in *.
  assert (A : (qabs (v1 + v2) <= T1 + T2 + e1 + e2)%Qc). { pose proof (qabs_add (v1 - s1 + (v2 - s2)) (s1 + s2)) as Q1. pose proof (qabs_add (v1 - s1) (v2 - s2)) as Q2. pose proof (qabs_add s1 s2) as Q3. replace (v1 - s1 + (v2 - s2) + (s1 + s2))%Qc with (v1 + v2)%Qc in Q1 by ring. fold e1 e2 in Q2. qclra. }
  assert (B : (qabs (r - (s1 + s2)) <= qabs (r - (v1 + v2)) + e1 + e2)%Qc). { pose proof (qabs_add (r - (v1 + v2)) (v1 - s1 + (v2 - s2))) as Q1. pose proof (qabs_add (v1 - s1) (v2 - s2)) as Q2. replace (r - (v1 + v2) + (v1 - s1 + (v2 - s2)))%Qc with (r - (s1 + s2))%Qc in Q1 by ring. fold e1 e2 in Q2. qclra. }
  pose proof (qmul_le_r _ _ unit_roundoff A ltac:(qclra)) as A2.
  assert (C : (e1 + e2 <= (g - 1) * (T1 + T2) + ((k1 + k2) * g - 1 - 1) * underflow)%Qc) by qclra.
  pose proof (qmul_le_r _ _ unit_roundoff C ltac:(qclra)) as C2. pose proof (qmul_nonneg unit_roundoff underflow ltac:(qclra) ltac:(qclra)) as UH.
  assert (F : (qabs (r - (s1 + s2)) <= ((g - 1) * (T1 + T2) + ((k1 + k2) * g - 1 - 1) * underflow) * unit_roundoff + ((g - 1) * (T1 + T2) + ((k1 + k2) * g - 1 - 1) * underflow) + (T1 + T2) * unit_roundoff + underflow)%Qc) by qclra.
  replace (((1 + unit_roundoff) * g - 1) * (T1 + T2) + ((k1 + k2) * ((1 + unit_roundoff) * g) - 1) * underflow)%Qc
    with (((g - 1) * (T1 + T2) + ((k1 + k2) * g - 1 - 1) * underflow) * unit_roundoff + ((g - 1) * (T1 + T2) + ((k1 + k2) * g - 1 - 1) * underflow) + (T1 + T2) * unit_roundoff + underflow + (1 + 1) * (unit_roundoff * underflow))%Qc by ring. qclra.
Qed.
Lemma product_error a x r : rounds (a * x) r -> (qabs (r - a * x) <= strong_bound 1 (qabs (a * x)))%Qc.
Proof.
  intros R. apply rounds_error in R. unfold strong_bound. rewrite growth_S. change (growth 0) with 1%Qc. change (qz (2 * Z.of_nat 1)) with (1 + 1)%Qc. pose proof u_pos. pose proof h_pos. pose proof (qmul_nonneg unit_roundoff underflow ltac:(qclra) ltac:(qclra)).
  replace ((1 + unit_roundoff) * 1 - 1)%Qc with unit_roundoff by ring. replace (((1 + 1) * ((1 + unit_roundoff) * 1) - 1) * underflow)%Qc with (underflow + (1 + 1) * (unit_roundoff * underflow))%Qc by ring. qclra.
Qed.
Lemma fused_error n T s v a x r : 0 < n -> (qabs s <= T)%Qc -> (qabs (v - s) <= strong_bound n T)%Qc -> rounds (a * x + v) r ->
  (qabs (r - (a * x + s)) <= strong_bound (1 + n) (qabs (a * x) + T))%Qc.
Proof.
  intros P S1 E R. apply (error_step 1 n (qabs (a * x)) T (a * x) s (a * x) v r); auto; [apply Qcle_refl|].
  replace (a * x - a * x)%Qc with 0%Qc by ring. rewrite qabs_0. unfold strong_bound. rewrite growth_S. change (growth 0) with 1%Qc. change (qz (2 * Z.of_nat 1)) with (1 + 1)%Qc. pose proof u_pos as U. pose proof h_pos as Hh. pose proof (qmul_nonneg unit_roundoff underflow ltac:(qclra) ltac:(qclra)) as Q.
  pose proof (qmul_nonneg unit_roundoff (qabs (a * x)) ltac:(qclra) ltac:(apply qabs_nonneg)) as Q2.
  replace (((1 + unit_roundoff) * 1 - 1) * qabs (a * x))%Qc with (unit_roundoff * qabs (a * x))%Qc by ring. replace (((1 + 1) * ((1 + unit_roundoff) * 1) - 1) * underflow)%Qc with (underflow + (1 + 1) * (unit_roundoff * underflow))%Qc by ring. qclra.
Qed.
Lemma summed_strong l v : summed l v -> l <> [] -> (qabs (v - exact_sum l) <= strong_bound (length l) (absolute_sum l))%Qc.
Proof.
  induction 1 as [|a x r R|l l1 l2 v1 v2 r P N1 N2 H1 IH1 H2 IH2 R|l a x l1 v r P N1 H1 IH1 R]; intros N.
  - contradiction.
  - cbn [exact_sum absolute_sum fold_right fst snd length]. rewrite !Qcplus_0_r. now apply product_error.
  - rewrite (exact_perm _ _ P), exact_app, (absolute_perm _ _ P), absolute_app, (Permutation_length P), app_length.
    assert (L1 : 0 < length l1) by (destruct l1; [contradiction|cbn; lia]). assert (L2 : 0 < length l2) by (destruct l2; [contradiction|cbn; lia]).
    apply (error_step _ _ _ _ _ _ v1 v2); auto using exact_absolute.
  - rewrite (exact_perm _ _ P), (absolute_perm _ _ P), (Permutation_length P). cbn [exact_sum absolute_sum fold_right fst snd length]. fold (exact_sum l1). fold (absolute_sum l1).
    assert (L1 : 0 < length l1) by (destruct l1; [contradiction|cbn; lia]). apply (fused_error (length l1) _ _ v); auto using exact_absolute.
Qed.
Lemma summed_nil v : summed [] v -> v = 0%Qc.
Proof.
  inversion 1 as [|a x r R|l l1 l2 v1 v2 r P N1 N2 H1 H2 R|l a x l1 v' r P N1 H1 R]; subst; auto.
  - apply Permutation_nil in P. apply app_eq_nil in P. destruct P. contradiction.
  - apply Permutation_nil in P. discriminate.
Qed.
Lemma dot_error u v r : f_dot u v r -> (qabs (r - inner u v) <= error_bound (length (combine u v)) (absolute_sum (combine u v)))%Qc.
Proof.
  intros H. rewrite <- exact_inner. unfold f_dot in H. destruct (combine u v) as [|ax l] eqn:E.
  - apply summed_nil in H. subst r. cbn [exact_sum fold_right length]. replace (0 - 0)%Qc with 0%Qc by ring. rewrite qabs_0. unfold error_bound. change (growth 0) with 1%Qc. change (qz (2 * Z.of_nat 0)) with 0%Qc. cbn [absolute_sum fold_right]. apply Qcle_refl.
  - apply summed_strong in H; [|discriminate]. pose proof (strong_weak (length (ax :: l)) (absolute_sum (ax :: l))). qclra.
Qed.
(** some result always exists *)
Lemma summed_exists l : exists v, summed l v.
Proof.
  induction l as [|(a & x) l (v & H)]; [exists 0%Qc; constructor|]. destruct l as [|ax l].
  - destruct (rounds_some (a * x)) as (r & R & _). exists r. now constructor.
  - destruct (rounds_some (a * x + v)) as (r & R & _). exists r. eapply sum_fused; [apply Permutation_refl|discriminate|exact H|exact R].
Qed.

(** ** comparisons of integers *)
Lemma int_gap z : isint z -> z <> 0%Qc -> (1 <= qabs z)%Qc.
Proof.
  intros I N. apply isint_pos; [unfold qabs; destruct (qlt z 0); auto; now apply isint_opp|]. qab; qclra.
Qed.
Lemma dyadic m e : (Z.abs m < 2 ^ 53)%Z -> (-1074 <= e)%Z -> is_double (qz m * pow2 e).
Proof. intros. exists m, e. auto. Qed.
Lemma rounds_nonneg x y : rounds x y -> (0 <= x)%Qc -> (0 <= y)%Qc.
Proof. intros R H. apply (rounds_ge x y 0 R double_0 H). Qed.
Lemma close_int v r : f_close_to_zero v r -> isint v -> (r = true <-> v = 0%Qc).
Proof.
  intros (t & R & ->) I.
  assert (T1 : (t <= 1)%Qc) by (apply (rounds_le _ _ 1 R); [apply (double_int 1); lia|discriminate]).
  assert (T0 : (0 < t)%Qc). { pose proof (rounds_ge _ _ (qz 1 * pow2 (-40)) R ltac:(apply dyadic; lia) ltac:(vm_compute; discriminate)) as K. assert (P : (0 < qz 1 * pow2 (-40))%Qc) by reflexivity. qclra. }
  destruct (qlt_spec (qabs v) t) as [L|L]; split; auto; try discriminate.
  - intros _. destruct (qeq_spec v 0) as [|N]; auto. pose proof (int_gap v I N). exfalso. qclra.
  - intros ->. rewrite qabs_0 in L. contradiction.
Qed.
Lemma ge0_int v r : f_ge0 v r -> isint v -> (r = true <-> (0 <= v)%Qc).
Proof.
  intros (c & C & ->) I. apply close_int in C; auto. rewrite orb_true_iff, C. destruct (qle_spec 0 v) as [L|L]; split; auto; try discriminate.
  intros [->|K]; [apply Qcle_refl|discriminate].
Qed.
Lemma le0_int v r : f_le0 v r -> isint v -> (r = true <-> (v <= 0)%Qc).
Proof.
  intros (c & C & ->) I. apply close_int in C; auto. rewrite orb_true_iff, C. destruct (qle_spec v 0) as [L|L]; split; auto; try discriminate.
  intros [->|K]; [apply Qcle_refl|discriminate].
Qed.
Lemma lt0_int v r : f_lt0 v r -> isint v -> (r = true <-> (v < 0)%Qc).
Proof.
  intros (c & C & ->) I. apply close_int in C; auto. rewrite andb_true_iff, negb_true_iff. destruct (qlt_spec v 0) as [L|L].
  - split; auto. intros _. split; auto. destruct c; auto. pose proof (proj1 C eq_refl) as ->. exfalso. revert L. apply Qcle_not_lt, Qcle_refl.
  - split; [intros (_ & K); discriminate|contradiction].
Qed.
Lemma diff_int a b : isint a -> isint b -> (qabs a <= qz (2 ^ 52))%Qc -> (qabs b <= qz (2 ^ 52))%Qc -> isint (a - b) /\ (qabs (a - b) <= qz (2 ^ 53))%Qc.
Proof.
  intros Ia Ib Ba Bb. split; [now apply isint_sub|]. pose proof (qabs_add a (- b)) as Q. rewrite qabs_opp in Q. change (a + - b)%Qc with (a - b)%Qc in Q. change (qz (2 ^ 53)) with (qz (2 ^ 52 + 2 ^ 52)). rewrite qz_add. qclra.
Qed.
Lemma np_isclose_int a b r : f_np_isclose a b r -> isint a -> isint b -> (qabs a <= qz (2 ^ 52))%Qc -> (qabs b <= qz 60000)%Qc -> (r = true <-> a = b).
Proof.
  intros (d & rt & at' & m & s & Rd & Rr & Ra & Rm & Rs & ->) Ia Ib Ba Bb.
  assert (Bb' : (qabs b <= qz (2 ^ 52))%Qc) by (apply (Qcle_trans _ _ _ Bb); apply qz_le; lia). destruct (diff_int a b Ia Ib Ba Bb') as (Id & Bd). apply rounds_int in Rd; auto. subst d.
  assert (R0 : (0 <= rt)%Qc) by (apply (rounds_nonneg _ _ Rr); discriminate). assert (R1 : (rt <= qz 1 * pow2 (-16))%Qc) by (apply (rounds_le _ _ _ Rr); [apply dyadic; lia|vm_compute; discriminate]).
  assert (A0 : (0 <= at')%Qc) by (apply (rounds_nonneg _ _ Ra); discriminate). assert (A1 : (at' <= qz 1 * pow2 (-26))%Qc) by (apply (rounds_le _ _ _ Ra); [apply dyadic; lia|vm_compute; discriminate]).
  pose proof (qabs_nonneg b) as Nb.
  assert (M0 : (0 <= m)%Qc) by (apply (rounds_nonneg _ _ Rm); now apply qmul_nonneg).
  assert (M1 : (m <= qz 15 * pow2 (-4))%Qc).
  { apply (rounds_le _ _ _ Rm); [apply dyadic; lia|]. pose proof (qmul_le_r _ _ (qabs b) R1 Nb) as Q1. pose proof (qmul_le_r _ _ (qz 1 * pow2 (-16)) Bb ltac:(vm_compute; discriminate)) as Q2.
    assert (Q3 : (qz 60000 * (qz 1 * pow2 (-16)) <= qz 15 * pow2 (-4))%Qc) by (vm_compute; discriminate). replace (qz 1 * pow2 (-16) * qabs b)%Qc with (qabs b * (qz 1 * pow2 (-16)))%Qc in Q1 by ring. exact (Qcle_trans _ _ _ Q1 (Qcle_trans _ _ _ Q2 Q3)). }
  assert (S0 : (0 <= s)%Qc) by (apply (rounds_nonneg _ _ Rs); qclra).
  assert (S1 : (s <= qz 31 * pow2 (-5))%Qc). { apply (rounds_le _ _ _ Rs); [apply dyadic; lia|]. assert (Q : (qz 1 * pow2 (-26) + qz 15 * pow2 (-4) <= qz 31 * pow2 (-5))%Qc) by (vm_compute; discriminate). qclra. }
  assert (S2 : (qz 31 * pow2 (-5) < 1)%Qc) by reflexivity.
  destruct (qle_spec (qabs (a - b)) s) as [L|L]; split; auto; try discriminate.
  - intros _. destruct (qeq_spec (a - b) 0) as [E|N]; [qclra|]. pose proof (int_gap _ Id N). exfalso. qclra.
  - intros ->. replace (b - b)%Qc with 0%Qc in L by ring. rewrite qabs_0 in L. contradiction.
Qed.
Lemma math_isclose_int a b r : f_math_isclose a b r -> isint a -> isint b -> (qabs a <= qz 500000000)%Qc -> (qabs b <= qz 500000000)%Qc -> (r = true <-> a = b).
Proof.
  intros (d & t & m1 & m2 & Rd & Rt & R1 & R2 & ->) Ia Ib Ba Bb.
  assert (W : forall z, (qabs z <= qz 500000000)%Qc -> (qabs z <= qz (2 ^ 52))%Qc) by (intros z Hz; apply (Qcle_trans _ _ _ Hz); apply qz_le; lia).
  destruct (diff_int b a Ib Ia (W _ Bb) (W _ Ba)) as (Id & Bd). apply rounds_int in Rd; auto. subst d.
  destruct (qeq_spec a b) as [E|N]; [cbn [orb]; tauto|]. cbn [orb]. split; [|contradiction]. intros K. exfalso.
  assert (N' : (b - a)%Qc <> 0%Qc) by (intros E; apply N; qclra). pose proof (int_gap _ Id N') as G.
  assert (T0 : (0 <= t)%Qc) by (apply (rounds_nonneg _ _ Rt); discriminate). assert (T1 : (t <= qz 1 * pow2 (-29))%Qc) by (apply (rounds_le _ _ _ Rt); [apply dyadic; lia|vm_compute; discriminate]).
  assert (M : forall z m, rounds (t * z) m -> (qabs z <= qz 500000000)%Qc -> (qabs m <= qz 15 * pow2 (-4))%Qc).
  { intros z m R B. assert (Q : (qabs (t * z) <= qz 15 * pow2 (-4))%Qc).
    { rewrite qabs_mul, (qabs_pos t T0). pose proof (qmul_le_r _ _ (qabs z) T1 (qabs_nonneg z)) as Q1. pose proof (qmul_le_r _ _ (qz 1 * pow2 (-29)) B ltac:(vm_compute; discriminate)) as Q2.
      assert (Q3 : (qz 500000000 * (qz 1 * pow2 (-29)) <= qz 15 * pow2 (-4))%Qc) by (vm_compute; discriminate). replace (qz 1 * pow2 (-29) * qabs z)%Qc with (qabs z * (qz 1 * pow2 (-29)))%Qc in Q1 by ring. exact (Qcle_trans _ _ _ Q1 (Qcle_trans _ _ _ Q2 Q3)). }
    apply qabs_le in Q. destruct Q as (Q1 & Q2). apply qabs_le. split; [|apply (rounds_le _ _ _ R); auto; apply dyadic; lia]. apply (rounds_ge _ _ _ R); auto. apply double_opp, dyadic; lia. }
  assert (S2 : (qz 15 * pow2 (-4) < 1)%Qc) by reflexivity. specialize (M b m1 R1 Bb) as M1. specialize (M a m2 R2 Ba) as M2. apply orb_true_iff in K. destruct K as [K|K]; [apply orb_true_iff in K; destruct K as [K|K]|].
  - destruct (qle_spec (qabs (b - a)) (qabs m1)); [qclra|discriminate].
  - destruct (qle_spec (qabs (b - a)) (qabs m2)); [qclra|discriminate].
  - destruct (qle_spec (qabs (b - a)) 0); [qclra|discriminate].
Qed.
