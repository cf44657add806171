(** Proofs about double precision numbers and the comparator. *)
From Coq Require Import String List Bool Arith ZArith QArith Qcanon Qround Qpower Lia.
From Verif Require Import Py QcTac QInt ComparatorModel ComparatorSpec ComparatorProofs MatTheory BasicModel BasicProps DoubleSpec DoubleProofs FloatModel FloatSpec.
Import ListNotations.
Open Scope nat_scope.
Open Scope string_scope.
Open Scope list_scope.

Lemma cancel_lt a b c : (0 < c -> a * c < b * c -> a < b)%Qc.
Proof. intros H L. destruct (qlt_spec a b) as [|N]; auto. exfalso. apply Qcnot_lt_le in N. pose proof (qmul_le_r _ _ c N ltac:(qclra)). qclra. Qed.
Lemma pow2_Z a : (0 <= a)%Z -> pow2 a = qz (2 ^ a). Proof. apply pow2_int. Qed.
Lemma floor_log2_spec x : (0 < x)%Qc -> (pow2 (floor_log2 x) <= x /\ x < pow2 (floor_log2 x + 1))%Qc.
Proof.
  intros Hx. set (B := Zpos (Qden (this x))). set (A := Qnum (this x)).
  assert (HB : (x * qz B = qz A)%Qc). { apply Qc_is_canon. unfold qz. rewrite this_mult, !this_Q2Qc. unfold A, B. destruct (this x) as [n d]. unfold Qeq, Qmult, inject_Z. cbn [Qnum Qden]. lia. }
  assert (B0 : (0 < B)%Z) by reflexivity. assert (PB : (0 < qz B)%Qc) by (rewrite <- qz_0; now apply qz_lt). assert (A0 : (0 < A)%Z). { apply qz_lt. rewrite <- HB. rewrite qz_0. apply qmul_pos; auto. }
  destruct (Z.log2_spec A A0) as (A1 & A2). destruct (Z.log2_spec B B0) as (B1 & B2). pose proof (Z.log2_nonneg A) as NA. pose proof (Z.log2_nonneg B) as NB. unfold floor_log2. fold A B. set (a := Z.log2 A) in *. set (b := Z.log2 B) in *. clearbody a b.
  rewrite <- Z.add_1_r in A2, B2. apply qz_le in A1, B1. apply qz_lt in A2, B2. rewrite <- pow2_int in A1, A2, B1, B2 by lia.
  assert (U : (x < pow2 (a - b + 1))%Qc).
  { apply (cancel_lt _ _ (qz B) PB). rewrite HB. pose proof (qmul_le_r _ _ (pow2 (a - b + 1)) B1 ltac:(pose proof (pow2_pos (a - b + 1)); qclra)) as Q. rewrite <- pow2_add in Q. replace (b + (a - b + 1))%Z with (a + 1)%Z in Q by lia. replace (pow2 (a - b + 1) * qz B)%Qc with (qz B * pow2 (a - b + 1))%Qc by ring. qclra. }
  assert (L : (pow2 (a - b - 1) < x)%Qc).
  { apply (cancel_lt _ _ (qz B) PB). rewrite HB. pose proof (pow2_pos (a - b - 1)) as P. assert (Q : (qz B * pow2 (a - b - 1) < pow2 (b + 1) * pow2 (a - b - 1))%Qc).
    { destruct (qlt_spec (qz B * pow2 (a - b - 1)) (pow2 (b + 1) * pow2 (a - b - 1))) as [|N]; auto. exfalso. pose proof (qmul_pos (pow2 (b + 1) - qz B) (pow2 (a - b - 1)) ltac:(qclra) P) as M. replace ((pow2 (b + 1) - qz B) * pow2 (a - b - 1))%Qc with (pow2 (b + 1) * pow2 (a - b - 1) - qz B * pow2 (a - b - 1))%Qc in M by ring. qclra. }
    rewrite <- pow2_add in Q. replace (b + 1 + (a - b - 1))%Z with a in Q by lia. replace (pow2 (a - b - 1) * qz B)%Qc with (qz B * pow2 (a - b - 1))%Qc by ring. qclra. }
  destruct (qle_spec (pow2 (a - b)) x) as [K|K]; [auto|]. replace (a - b - 1 + 1)%Z with (a - b)%Z by lia. split; qclra.
Qed.

(** [rint] is a nearest integer, the even one of two *)
Lemma rint_nearest t z : (qabs (t - qz (rint t)) <= qabs (t - qz z))%Qc /\ (qabs (t - qz (rint t)) = qabs (t - qz z) -> z = rint t \/ Z.even (rint t) = true).
Proof.
  assert (K : forall h n, h = Q2Qc (1 # 2) -> (qz n - h <= t <= qz n + h)%Qc -> (qabs (t - qz n) <= qabs (t - qz z))%Qc).
  { intros h n -> (F1 & F2). destruct (Z.lt_trichotomy z n) as [L|[->|L]]; [|apply Qcle_refl|].
    - assert (Lz : (qz z + 1 <= qz n)%Qc) by (rewrite <- qz_1, <- qz_add; apply qz_le; lia). qab; qclra.
    - assert (Lz : (qz n + 1 <= qz z)%Qc) by (rewrite <- qz_1, <- qz_add; apply qz_le; lia). qab; qclra. }
  split; [apply (K _ _ eq_refl); apply rint_spec|].
  unfold rint. set (h := Q2Qc (1 # 2)). set (f := Qfloor (this (t + h)%Qc)).
  assert (F1 : (qz f <= t + h)%Qc) by (unfold f, qz, Qcle; rewrite this_Q2Qc; apply Qfloor_le).
  assert (F2 : (t + h < qz f + 1)%Qc). { rewrite <- qz_1, <- qz_add. unfold f, qz, Qclt. rewrite this_Q2Qc. apply Qlt_floor. }
  assert (Hh : (h + h = 1)%Qc) by (apply Qc_is_canon; reflexivity). clearbody f h. destruct (qeq_spec (qz f) (t + h)) as [E|E]; cbn [andb].
  - destruct (Z.odd f) eqn:O.
    + intros _. right. rewrite Z.even_sub, <- Z.negb_odd, O. reflexivity.
    + intros _. right. rewrite <- Z.negb_odd, O. reflexivity.
  - intros Q. left. destruct (Z.lt_trichotomy z f) as [L|[->|L]]; auto; exfalso.
    + assert (Lz : (qz z + 1 <= qz f)%Qc) by (rewrite <- qz_1, <- qz_add; apply qz_le; lia). qab; qclra.
    + assert (Lz : (qz f + 1 <= qz z)%Qc) by (rewrite <- qz_1, <- qz_add; apply qz_le; lia). qab; qclra.
Qed.

Lemma rnd_pos_spec x : (0 < x)%Qc -> rounds x (rnd_pos x) /\ forall d, is_double d -> qabs (x - d) = qabs (x - rnd_pos x) -> d = rnd_pos x \/ even_double (rnd_pos x).
Proof.
  intros Hx. destruct (floor_log2_spec x Hx) as (K1 & K2). unfold rnd_pos. set (k := floor_log2 x) in *. set (e := Z.max (k - 52) (-1074)). set (t := (x * pow2 (- e))%Qc).
  assert (Et : (x = t * pow2 e)%Qc) by (unfold t; replace (x * pow2 (- e) * pow2 e)%Qc with (x * (pow2 e * pow2 (- e)))%Qc by ring; rewrite pow2_opp; ring).
  pose proof (pow2_pos e) as Pe. pose proof (pow2_pos (- e)) as Pe'.
  assert (T0 : (0 < t)%Qc) by (apply qmul_pos; auto).
  assert (T1 : (t < qz (2 ^ 53))%Qc).
  { assert (K : (x < pow2 53 * pow2 e)%Qc). { rewrite <- pow2_add. apply (Qclt_le_trans _ _ _ K2). apply pow2_le. unfold e. lia. }
    rewrite Et in K. rewrite <- pow2_int by lia. now apply (cancel_lt _ _ (pow2 e)). }
  set (n := rint t). assert (N : forall z, (qabs (t - qz n) <= qabs (t - qz z))%Qc /\ (qabs (t - qz n) = qabs (t - qz z) -> z = n \/ Z.even n = true)) by (intros z; apply rint_nearest). clearbody n t.
  assert (Scale : forall z, (qabs (x - qz z * pow2 e) = qabs (t - qz z) * pow2 e)%Qc).
  { intros z. rewrite Et at 1. replace (t * pow2 e - qz z * pow2 e)%Qc with ((t - qz z) * pow2 e)%Qc by ring. rewrite qabs_mul. f_equal. apply qabs_pos. qclra. }
  assert (Near : forall z, (qabs (x - qz n * pow2 e) <= qabs (x - qz z * pow2 e))%Qc) by (intros z; rewrite !Scale; apply qmul_le_r; [apply N|qclra]).
  assert (n0 : (0 <= n)%Z). { destruct (Z.le_gt_cases 0 n); auto. exfalso. destruct (N 0%Z) as (N2 & _). rewrite qz_0 in N2. assert (qz n <= - (1))%Qc by (rewrite <- qz_1, <- qz_opp; apply qz_le; lia). qab; qclra. }
  assert (n1 : (n <= 2 ^ 53)%Z). { destruct (Z.le_gt_cases n (2 ^ 53)); auto. exfalso. destruct (N (2 ^ 53)%Z) as (N2 & _). assert (qz (2 ^ 53) + 1 <= qz n)%Qc by (rewrite <- qz_1, <- qz_add; apply qz_le; lia). qab; qclra. }
  assert (Low : (-1074 < e -> 2 ^ 52 <= n)%Z).
  { intros He. assert (Ee : e = (k - 52)%Z) by (unfold e in *; lia). destruct (Z.le_gt_cases (2 ^ 52) n); auto. exfalso. destruct (N (2 ^ 52)%Z) as (N2 & _).
    assert (Q : (qz (2 ^ 52) <= t)%Qc). { rewrite <- pow2_int by lia. destruct (qle_spec (pow2 52) t) as [|M]; auto. exfalso. assert (M' : (x < pow2 52 * pow2 e)%Qc). { rewrite Et. pose proof (qmul_pos (pow2 52 - t) (pow2 e) ltac:(qclra) Pe) as Z. replace ((pow2 52 - t) * pow2 e)%Qc with (pow2 52 * pow2 e - t * pow2 e)%Qc in Z by ring. qclra. } rewrite <- pow2_add in M'. replace (52 + e)%Z with k in M' by lia. qclra. }
    assert (qz n + 1 <= qz (2 ^ 52))%Qc by (rewrite <- qz_1, <- qz_add; apply qz_le; lia). qab; qclra. }
  (** every double is at least as far, and an equally near one is on the same grid *)
  assert (All : forall d, is_double d -> (qabs (x - qz n * pow2 e) <= qabs (x - d))%Qc /\ (qabs (x - d) = qabs (x - qz n * pow2 e) -> exists z, d = (qz z * pow2 e)%Qc)).
  { intros d (m & f & M1 & M2 & ->). destruct (Z.le_gt_cases e f) as [L|L].
    + assert (G : (qz m * pow2 f)%Qc = (qz (m * 2 ^ (f - e)) * pow2 e)%Qc) by (rewrite qz_mul, <- pow2_int by lia; replace (pow2 f) with (pow2 (f - e) * pow2 e)%Qc by (rewrite <- pow2_add; f_equal; lia); ring). rewrite G. split; [apply Near|]. intros _. eauto.
    + assert (Ee : e = (k - 52)%Z) by (unfold e in *; lia). pose proof (Near (2 ^ 52)%Z) as Q0. rewrite <- pow2_int, <- pow2_add in Q0 by lia. replace (52 + e)%Z with k in Q0 by lia.
      assert (D : (qz m * pow2 f <= pow2 k)%Qc).
      { pose proof (pow2_pos f) as Pf. assert (Q : (qz m <= pow2 53)%Qc) by (rewrite pow2_int by lia; apply qz_le; lia). pose proof (qmul_le_r _ _ (pow2 f) Q ltac:(qclra)) as Q2. rewrite <- pow2_add in Q2. pose proof (pow2_le (53 + f) k ltac:(lia)). qclra. }
      split; [qab; qclra|]. intros Q. exists (2 ^ 52)%Z. rewrite <- pow2_int, <- pow2_add by lia. replace (52 + e)%Z with k by lia. set (Y := qabs (x - qz n * pow2 e)) in *. clearbody Y. qab; qclra. }
  split; [split|].
  - destruct (Z.eq_dec n (2 ^ 53)) as [->|E].
    + exists (2 ^ 52)%Z, (e + 1)%Z. split; [lia|]. split; [unfold e; lia|]. rewrite pow2_add, (pow2_int 1) by lia. change (2 ^ 53)%Z with (2 ^ 52 * 2 ^ 1)%Z. rewrite qz_mul. ring.
    + exists n, e. split; [lia|]. split; [unfold e; lia|reflexivity].
  - intros d Hd. apply All, Hd.
  - intros d Hd Q. destruct (proj2 (All d Hd) Q) as (z & ->). rewrite !Scale in Q. destruct (N z) as (_ & N2). assert (Q' : qabs (t - qz n) = qabs (t - qz z)).
    { apply (f_equal (fun r => r * pow2 (- e))%Qc) in Q. replace (qabs (t - qz z) * pow2 e * pow2 (- e))%Qc with (qabs (t - qz z) * (pow2 e * pow2 (- e)))%Qc in Q by ring. replace (qabs (t - qz n) * pow2 e * pow2 (- e))%Qc with (qabs (t - qz n) * (pow2 e * pow2 (- e)))%Qc in Q by ring. rewrite pow2_opp in Q. rewrite !Qcmult_1_r in Q. now symmetry. }
    destruct (N2 Q') as [->|Ev]; auto. right. destruct (Z.eq_dec n (2 ^ 53)) as [->|E].
    + exists (2 ^ 52)%Z, (e + 1)%Z. split; [unfold e; lia|]. split; [reflexivity|]. rewrite pow2_add, (pow2_int 1) by lia. change (2 ^ 53)%Z with (2 ^ 52 * 2 ^ 1)%Z. rewrite qz_mul. ring.
    + exists n, e. split; [|auto]. split; [lia|]. split; [unfold e; lia|]. rewrite Z.abs_eq by auto. destruct (Z.eq_dec e (-1074)); [now right|left]. apply Low. unfold e in *. lia.
Qed.
Lemma even_opp y : even_double y -> even_double (- y).
Proof. intros (m & e & H & Ev & ->). exists (- m)%Z, e. rewrite Z.abs_opp, Z.even_opp. split; auto. split; auto. rewrite qz_opp. ring. Qed.
Lemma rnd_spec x : rounds x (rnd x) /\ forall d, is_double d -> qabs (x - d) = qabs (x - rnd x) -> d = rnd x \/ even_double (rnd x).
Proof.
  unfold rnd. destruct (qeq_spec x 0) as [->|N].
  - split.
    + split; [apply double_0|]. intros d _. replace (0 - 0)%Qc with 0%Qc by ring. rewrite qabs_0. apply qabs_nonneg.
    + intros d _ E. left. replace (0 - 0)%Qc with 0%Qc in E by ring. rewrite qabs_0 in E. qab; qclra.
  - destruct (qlt_spec x 0) as [L|L].
    + destruct (rnd_pos_spec (- x)%Qc ltac:(qclra)) as (R & T). split.
      * apply rounds_opp in R. now rewrite Qcopp_involutive in R.
      * intros d Hd E. destruct (T (- d)%Qc (double_opp d Hd)) as [Q|Q]; [| |right; now apply even_opp].
        -- replace (- x - - d)%Qc with (- (x - d))%Qc by ring. rewrite qabs_opp, E, <- qabs_opp. f_equal. ring.
        -- left. rewrite <- Q. ring.
    + apply rnd_pos_spec. qclra.
Qed.
Lemma rnd_rounds x : rounds x (rnd x). Proof. apply rnd_spec. Qed.
Lemma rnd_mono x x' : (x <= x')%Qc -> (rnd x <= rnd x')%Qc.
Proof.
  intros H. destruct (qeq_spec x x') as [->|N]; [apply Qcle_refl|]. destruct (rnd_rounds x) as (D & R). destruct (rnd_rounds x') as (D' & R'). specialize (R _ D'). specialize (R' _ D). destruct (qle_spec (rnd x) (rnd x')) as [|L]; auto. exfalso.
  set (y := rnd x) in *. set (y' := rnd x') in *. clearbody y y'. qab; qclra.
Qed.
Lemma rnd_double x : is_double x -> rnd x = x. Proof. apply rounds_double, rnd_rounds. Qed.
Lemma rnd_opp x : rnd (- x) = (- rnd x)%Qc.
Proof.
  unfold rnd. destruct (qeq_spec (- x) 0) as [E|E], (qeq_spec x 0) as [E'|E']; try (exfalso; qclra); [reflexivity|].
  destruct (qlt_spec (- x) 0) as [L|L], (qlt_spec x 0) as [L'|L']; try (exfalso; qclra).
  - now rewrite Qcopp_involutive.
  - now rewrite Qcopp_involutive.
Qed.
Lemma rnd_abs x : rnd (qabs x) = qabs (rnd x).
Proof.
  unfold qabs at 1. destruct (qlt_spec x 0) as [L|L].
  - rewrite rnd_opp. pose proof (rounds_le x (rnd x) 0 (rnd_rounds x) double_0 ltac:(qclra)). qab; qclra.
  - pose proof (rounds_ge x (rnd x) 0 (rnd_rounds x) double_0 ltac:(qclra)). qab; qclra.
Qed.

(** ** conversion *)
(** the double nearest to 1e-10 *)
Definition tenth : Qc := (qz 7737125245533627 * pow2 (-86))%Qc.
Lemma max_pos : (0 < max_double)%Qc. Proof. apply qmul_pos; [reflexivity|apply pow2_pos]. Qed.
Lemma double_max : is_double max_double. Proof. apply dyadic; lia. Qed.
Lemma to_float_fin x : (qabs x <= max_double)%Qc -> to_float x = Fin (rnd x).
Proof.
  intros H. apply qabs_le in H. destruct H as (H1 & H2). unfold to_float. pose proof (rounds_le x (rnd x) _ (rnd_rounds x) double_max H2) as A. pose proof (rounds_ge x (rnd x) _ (rnd_rounds x) (double_opp _ double_max) H1) as B.
  destruct (qlt_spec max_double (rnd x)) as [|_]; [exfalso; qclra|]. destruct (qlt_spec (rnd x) (- max_double)) as [|_]; [exfalso; qclra|]. reflexivity.
Qed.
Lemma to_float_abs x : f_abs (to_float x) = if qlt max_double (qabs (rnd x)) then PInf else Fin (qabs (rnd x)).
Proof.
  unfold to_float. pose proof max_pos. destruct (qlt_spec max_double (rnd x)) as [L|L].
  - destruct (qlt_spec max_double (qabs (rnd x))) as [|K]; [reflexivity|]. exfalso. qab; qclra.
  - destruct (qlt_spec (rnd x) (- max_double)) as [L'|L'].
    + destruct (qlt_spec max_double (qabs (rnd x))) as [|K]; [reflexivity|]. exfalso. qab; qclra.
    + destruct (qlt_spec max_double (qabs (rnd x))) as [K|K]; [|reflexivity]. exfalso. qab; qclra.
Qed.
Lemma to_float_double x : is_float (Fin x) -> to_float x = Fin x.
Proof. intros (D & H). rewrite to_float_fin by now apply qabs_le. now rewrite rnd_double. Qed.
Lemma one_le_max : (1 <= max_double)%Qc.
Proof. unfold max_double. change (2 ^ 53 - 1)%Z with 9007199254740991%Z. vm_compute. discriminate. Qed.
Lemma small_float x : (qabs x <= 1)%Qc -> to_float x = Fin (rnd x).
Proof. intros H. apply to_float_fin. pose proof one_le_max. qclra. Qed.
Lemma tenth_rnd : rnd tol_zero = tenth. Proof. apply Qc_is_canon. vm_compute. reflexivity. Qed.
Lemma tenth_lit : to_float tol_zero = Fin tenth.
Proof. rewrite small_float; [now rewrite tenth_rnd|]. vm_compute. discriminate. Qed.
Lemma tenth_pos : (0 < tenth)%Qc. Proof. reflexivity. Qed.
Lemma tenth_small : (tenth < Q2Qc (1 # 2))%Qc. Proof. reflexivity. Qed.

(** ** numpy.isclose *)
Definition bound (t : Qc) : Qc := rnd (rnd np_atol + rnd (rnd np_rtol * qabs t)).
Lemma at_range : (0 <= rnd np_atol /\ rnd np_atol <= 1)%Qc. Proof. split; vm_compute; discriminate. Qed.
Lemma rt_range : (0 <= rnd np_rtol /\ rnd np_rtol <= Q2Qc (1 # 4))%Qc. Proof. split; vm_compute; discriminate. Qed.
Lemma max_big : (qz 4 <= max_double)%Qc. Proof. vm_compute. discriminate. Qed.
Lemma quarter_double : is_double (Q2Qc (1 # 4) * max_double).
Proof. exists (2 ^ 53 - 1)%Z, 969%Z. split; [lia|]. split; [lia|]. unfold max_double. change 971%Z with (2 + 969)%Z. rewrite pow2_add. replace (pow2 2) with (qz 4) by (apply Qc_is_canon; reflexivity). replace (Q2Qc (1 # 4) * (qz (2 ^ 53 - 1) * (qz 4 * pow2 969)))%Qc with ((Q2Qc (1 # 4) * qz 4) * (qz (2 ^ 53 - 1) * pow2 969))%Qc by ring. replace (Q2Qc (1 # 4) * qz 4)%Qc with 1%Qc by (apply Qc_is_canon; reflexivity). ring. Qed.
Lemma bound_fin t : is_float (Fin t) -> f_add (to_float np_atol) (f_mul (to_float np_rtol) (f_abs (Fin t))) = Fin (bound t) /\ (bound t <= max_double)%Qc.
Proof.
  intros (D & H). apply qabs_le in H. pose proof at_range as (A0 & A1). pose proof rt_range as (R0 & R1). pose proof max_pos as MP. pose proof max_big as MB. pose proof (qabs_nonneg t) as T0.
  rewrite (small_float np_atol), (small_float np_rtol) by (vm_compute; discriminate). cbn [f_abs f_mul].
  assert (M0 : (0 <= rnd np_rtol * qabs t)%Qc) by (now apply qmul_nonneg).
  assert (M1 : (rnd np_rtol * qabs t <= Q2Qc (1 # 4) * max_double)%Qc).
  { pose proof (qmul_le_r _ _ (qabs t) R1 T0) as Q1. pose proof (qmul_le_r _ _ (Q2Qc (1 # 4)) H ltac:(discriminate)) as Q2. replace (Q2Qc (1 # 4) * qabs t)%Qc with (qabs t * Q2Qc (1 # 4))%Qc in Q1 by ring. replace (Q2Qc (1 # 4) * max_double)%Qc with (max_double * Q2Qc (1 # 4))%Qc by ring. exact (Qcle_trans _ _ _ Q1 Q2). }
  assert (Q : (Q2Qc (1 # 4) * max_double <= max_double)%Qc) by (clear - MP; set (M := max_double) in *; clearbody M; qclra).
  rewrite (to_float_fin (rnd np_rtol * qabs t)) by (rewrite (qabs_pos _ M0); exact (Qcle_trans _ _ _ M1 Q)). cbn [f_add].
  pose proof (rounds_nonneg _ _ (rnd_rounds (rnd np_rtol * qabs t)) M0) as S0. pose proof (rounds_le _ _ _ (rnd_rounds (rnd np_rtol * qabs t)) quarter_double M1) as S1.
  assert (Z : (rnd np_atol + rnd (rnd np_rtol * qabs t) <= max_double)%Qc).
  { set (M := max_double) in *. clearbody M. set (m := rnd (rnd np_rtol * qabs t)) in *. clearbody m. set (a := rnd np_atol) in *. clearbody a. clear - A1 S1 MB MP. unfold qz, inject_Z in *. qclra. }
  rewrite to_float_fin; [|rewrite qabs_pos; [exact Z|]]. 2: { set (m := rnd (rnd np_rtol * qabs t)) in *. clearbody m. set (a := rnd np_atol) in *. clearbody a. clear - A0 S0. qclra. }
  split; [reflexivity|]. apply (rounds_le _ _ _ (rnd_rounds _) double_max Z).
Qed.
Lemma isclose_fin v t : is_float (Fin t) -> fl_isclose (Fin v) (Fin t) = qle (qabs (rnd (v - t))) (bound t).
Proof.
  intros H. destruct (bound_fin t H) as (E & B). unfold fl_isclose. cbn [f_finite andb]. rewrite E. unfold f_sub. cbn [f_opp f_add]. change (v + - t)%Qc with (v - t)%Qc. rewrite to_float_abs.
  destruct (qlt_spec max_double (qabs (rnd (v - t)))) as [L|L]; cbn [f_le]; [|reflexivity]. destruct (qle_spec (qabs (rnd (v - t))) (bound t)) as [K|K]; [exfalso; qclra|reflexivity].
Qed.
Lemma close_fin x : fl_close_to_zero (Fin x) = qlt (qabs x) tenth.
Proof. unfold fl_close_to_zero. now rewrite tenth_lit. Qed.

(** ** order *)
Lemma f_lt_spec a b : f_lt a b = true <-> below a b.
Proof. destruct a, b; cbn; try (split; [discriminate|tauto] || tauto). destruct (qlt_spec x x0); split; auto; discriminate. Qed.
Lemma f_le_spec a b : f_le a b = true <-> at_most a b.
Proof.
  unfold at_most. destruct a, b; cbn; try (split; [intros H; first [discriminate|left; exact I|right; split; [reflexivity|discriminate]]|intros [H|(H & H')]; first [contradiction|discriminate|reflexivity|congruence]]).
  destruct (qle_spec x x0) as [L|L]; split; auto; try discriminate.
  - intros _. destruct (qeq_spec x x0) as [->|N]; [right; split; [reflexivity|discriminate]|left; qclra].
  - intros [H|(H & _)]; [exfalso; qclra|]. injection H as ->. exfalso. apply L, Qcle_refl.
Qed.
Lemma f_le_lt a b : a <> NaN -> b <> NaN -> f_le a b = negb (f_lt b a).
Proof. intros Ha Hb. destruct a, b; cbn; try reflexivity; try contradiction. destruct (qle_spec x x0), (qlt_spec x0 x); try reflexivity; exfalso; qclra. Qed.
Lemma comparator_nan v t : v = NaN \/ t = NaN -> fl_comparator t v = false.
Proof. intros [->| ->]; unfold fl_comparator, fl_close_to_zero, fl_isclose; [|destruct v; reflexivity]. rewrite tenth_lit. destruct t; cbn; try reflexivity. destruct (qeq x 0); reflexivity. Qed.
Definition ge (v t : fnum) : bool := fl_comparator t v || f_le t v.
Definition le (v t : fnum) : bool := fl_comparator t v || f_le v t.
Lemma fzero t : f_eq (Fin t) (Fin 0) = qeq t 0. Proof. reflexivity. Qed.
Lemma rnd_toward d d' : (qabs d' <= qabs d)%Qc -> (qabs (rnd d') <= qabs (rnd d))%Qc.
Proof. intros H. rewrite <- !rnd_abs. now apply rnd_mono. Qed.
(** nearer values are close as well *)
Lemma comparator_toward t x y : is_float (Fin t) -> (qabs (y - t) <= qabs (x - t))%Qc -> fl_comparator (Fin t) (Fin x) = true -> fl_comparator (Fin t) (Fin y) = true.
Proof.
  intros Ht H. unfold fl_comparator. rewrite fzero. destruct (qeq_spec t 0) as [->|N].
  - rewrite !close_fin. replace (y - 0)%Qc with y in H by ring. replace (x - 0)%Qc with x in H by ring. destruct (qlt_spec (qabs x) tenth), (qlt_spec (qabs y) tenth); auto; try discriminate. exfalso. qclra.
  - rewrite !isclose_fin by auto. apply rnd_toward in H. destruct (qle_spec (qabs (rnd (x - t))) (bound t)), (qle_spec (qabs (rnd (y - t))) (bound t)); auto; try discriminate. exfalso. qclra.
Qed.
Lemma comparator_inf t v : v = PInf \/ v = NInf -> fl_comparator t v = true -> v = t.
Proof. intros [->| ->]; unfold fl_comparator, fl_close_to_zero, fl_isclose; rewrite ?tenth_lit; destruct t; cbn; try discriminate; auto; destruct (qeq x 0); discriminate. Qed.
Lemma comparator_tinf v t : t = PInf \/ t = NInf -> fl_comparator t v = true -> v = t.
Proof. intros [->| ->]; unfold fl_comparator, fl_isclose; destruct v; cbn; try discriminate; auto. Qed.
Lemma ge_mono v v' t : is_float t -> at_most v v' -> ge v t = true -> ge v' t = true.
Proof.
  unfold ge. intros Ht Hv. rewrite <- f_le_spec in Hv. rewrite !orb_true_iff. intros [H|H].
  - destruct t as [t| | |].
    + destruct v as [x| | |].
      * destruct v' as [y| | |]; cbn in Hv |- *; try discriminate; auto. destruct (qle_spec t y) as [L|L]; auto. left. apply (comparator_toward t x y Ht); auto. destruct (qle_spec x y) as [K|]; [|discriminate]. qab; qclra.
      * apply comparator_inf in H; [discriminate|auto].
      * apply comparator_inf in H; [discriminate|auto].
      * rewrite comparator_nan in H by auto. discriminate.
    + apply comparator_tinf in H; auto. subst v. right. exact Hv.
    + apply comparator_tinf in H; auto. subst v. right. exact Hv.
    + rewrite comparator_nan in H by auto. discriminate.
  - right. destruct t as [t| | |], v as [x| | |], v' as [y| | |]; cbn in *; try discriminate; auto. destruct (qle_spec x y), (qle_spec t x), (qle_spec t y); auto; try discriminate. exfalso. qclra.
Qed.
Lemma le_anti v v' t : is_float t -> at_most v' v -> le v t = true -> le v' t = true.
Proof.
  unfold le. intros Ht Hv. rewrite <- f_le_spec in Hv. rewrite !orb_true_iff. intros [H|H].
  - destruct t as [t| | |].
    + destruct v as [x| | |].
      * destruct v' as [y| | |]; cbn in Hv |- *; try discriminate; auto. destruct (qle_spec y t) as [L|L]; auto. left. apply (comparator_toward t x y Ht); auto. destruct (qle_spec y x) as [K|]; [|discriminate]. qab; qclra.
      * apply comparator_inf in H; [discriminate|auto].
      * apply comparator_inf in H; [discriminate|auto].
      * rewrite comparator_nan in H by auto. discriminate.
    + apply comparator_tinf in H; auto. subst v. right. exact Hv.
    + apply comparator_tinf in H; auto. subst v. right. exact Hv.
    + rewrite comparator_nan in H by auto. discriminate.
  - right. destruct t as [t| | |], v as [x| | |], v' as [y| | |]; cbn in *; try discriminate; auto. destruct (qle_spec y x), (qle_spec x t), (qle_spec y t); auto; try discriminate. exfalso. qclra.
Qed.

(** ** the width of the band *)
Definition u1 : Qc := Q2Qc (1 # 9007199254740992).
Definition h1 : Qc := Q2Qc (1 # 1267650600228229401496703205376).
Lemma u1_eq : unit_roundoff = u1. Proof. apply Qc_is_canon. reflexivity. Qed.
Lemma h1_ge : (underflow <= h1)%Qc. Proof. unfold underflow. replace h1 with (pow2 (-100)) by (apply Qc_is_canon; reflexivity). apply pow2_le. lia. Qed.
Lemma rnd_err x : (qabs (rnd x - x) <= u1 * qabs x + h1)%Qc.
Proof. pose proof (rounds_error x (rnd x) (rnd_rounds x)) as E. rewrite u1_eq in E. pose proof h1_ge as K. set (A := qabs (rnd x - x)) in *. set (B := (u1 * qabs x)%Qc) in *. clearbody A B. qclra. Qed.
Lemma rnd_pos_err x : (0 <= x)%Qc -> (x - (u1 * x + h1) <= rnd x /\ rnd x <= x + (u1 * x + h1))%Qc.
Proof. intros H. pose proof (rnd_err x) as E. rewrite (qabs_pos x H) in E. apply qabs_le in E. set (A := rnd x) in *. set (B := (u1 * x)%Qc) in *. clearbody A B. destruct E. split; qclra. Qed.
Lemma bound_range t : ((1 - qz 6 * u1) * allowance t <= bound t /\ bound t <= (1 + qz 6 * u1) * allowance t)%Qc.
Proof.
  unfold bound, allowance. set (T := qabs t). assert (T0 : (0 <= T)%Qc) by apply qabs_nonneg. clearbody T. pose proof at_range as (A0 & _). pose proof rt_range as (R0 & _).
  assert (A : (Q2Qc (1 # 100000000) * (1 - qz 2 * u1) <= rnd np_atol /\ rnd np_atol <= Q2Qc (1 # 100000000) * (1 + qz 2 * u1))%Qc) by (split; vm_compute; discriminate).
  assert (R : (Q2Qc (1 # 100000) * (1 - qz 2 * u1) <= rnd np_rtol /\ rnd np_rtol <= Q2Qc (1 # 100000) * (1 + qz 2 * u1))%Qc) by (split; vm_compute; discriminate).
  destruct R as (R1 & R2). apply qmul_le_r with (c := T) in R1, R2; auto. set (X := (rnd np_rtol * T)%Qc) in *. assert (X0 : (0 <= X)%Qc) by now apply qmul_nonneg. clearbody X.
  pose proof (rnd_pos_err X X0) as M. pose proof (rounds_nonneg _ _ (rnd_rounds X) X0) as M0. set (m := rnd X) in *. clearbody m. set (a := rnd np_atol) in *. clearbody a. clear R0.
  assert (S0 : (0 <= a + m)%Qc) by qclra. pose proof (rnd_pos_err (a + m) S0) as S. set (s := rnd (a + m)) in *. clearbody s. destruct A, M, S. unfold u1, h1, qz, inject_Z in *. split; qclra.
Qed.
Lemma band_in v t : is_float (Fin t) -> (distance v t <= (1 - slack) * allowance t)%Qc -> fl_isclose (Fin v) (Fin t) = true.
Proof.
  intros Ht H. rewrite isclose_fin by auto. destruct (qle_spec (qabs (rnd (v - t))) (bound t)) as [|N]; auto. exfalso. apply N. clear N. rewrite <- rnd_abs. fold (distance v t) in *. pose proof (rnd_pos_err (distance v t) (qabs_nonneg _)) as (_ & E). pose proof (bound_range t) as (B & _).
  assert (K : (Q2Qc (1 # 100000000) <= allowance t)%Qc). { unfold allowance. pose proof (qmul_nonneg (Q2Qc (1 # 100000)) (qabs t) ltac:(discriminate) (qabs_nonneg t)) as Q. set (Y := (Q2Qc (1 # 100000) * qabs t)%Qc) in *. clearbody Y. qclra. }
  replace slack with (qz 8 * u1)%Qc in H by (apply Qc_is_canon; reflexivity). set (D := distance v t) in *. clearbody D. set (r := rnd D) in *. clearbody r. set (b := bound t) in *. clearbody b. set (A := allowance t) in *. clearbody A. unfold u1, h1, qz, inject_Z in *. clear Ht. qclra.
Qed.
Lemma band_out v t : is_float (Fin t) -> fl_isclose (Fin v) (Fin t) = true -> (distance v t <= (1 + slack) * allowance t)%Qc.
Proof.
  intros Ht. rewrite isclose_fin by auto. destruct (qle_spec (qabs (rnd (v - t))) (bound t)) as [H|]; [|discriminate]. intros _. rewrite <- rnd_abs in H. fold (distance v t) in *. pose proof (rnd_pos_err (distance v t) (qabs_nonneg _)) as (E & _). pose proof (bound_range t) as (_ & B).
  assert (K : (Q2Qc (1 # 100000000) <= allowance t)%Qc). { unfold allowance. pose proof (qmul_nonneg (Q2Qc (1 # 100000)) (qabs t) ltac:(discriminate) (qabs_nonneg t)) as Q. set (Y := (Q2Qc (1 # 100000) * qabs t)%Qc) in *. clearbody Y. qclra. }
  replace slack with (qz 8 * u1)%Qc by (apply Qc_is_canon; reflexivity). set (D := distance v t) in *. clearbody D. set (r := rnd D) in *. clearbody r. set (b := bound t) in *. clearbody b. set (A := allowance t) in *. clearbody A. unfold u1, h1, qz, inject_Z in *. clear Ht. qclra.
Qed.

(** ** integers *)
Lemma qz_sub a b : qz (a - b) = (qz a - qz b)%Qc. Proof. unfold Z.sub. rewrite qz_add, qz_opp. ring. Qed.
Lemma floor_range x : (qz (Qfloor (this x)) <= x /\ x < qz (Qfloor (this x)) + 1)%Qc.
Proof. rewrite <- qz_1, <- qz_add. unfold qz, Qcle, Qclt. rewrite !this_Q2Qc. split; [apply Qfloor_le|apply Qlt_floor]. Qed.
(** the integral and the fractional part of a double are doubles, and so is the distance to the next integer when it is below one half *)
Lemma double_parts x : is_double x -> (0 <= x)%Qc -> let n := Qfloor (this x) in
  is_double (qz n) /\ is_double (x - qz n) /\ ((Q2Qc (1 # 2) < x - qz n)%Qc -> is_double (1 - (x - qz n))).
Proof.
  intros (m & e & M & E & Hx) X0 n. destruct (floor_range x) as (F1 & F2). fold n in F1, F2.
  assert (n0 : (0 <= n)%Z). { apply Z.lt_succ_r. apply qz_lt. rewrite <- Z.add_1_r, qz_add, qz_0, qz_1. qclra. }
  destruct (Z.le_gt_cases 0 e) as [L|L].
  - assert (I : x = qz (m * 2 ^ e)) by (rewrite Hx, qz_mul, pow2_int by auto; reflexivity). assert (En : n = (m * 2 ^ e)%Z) by (unfold n; rewrite I; unfold qz; rewrite (Qfloor_comp _ _ (this_Q2Qc _)); apply Qfloor_Z). assert (Ez : qz n = x) by now rewrite En. rewrite Ez. replace (x - x)%Qc with 0%Qc by ring.
    split; [exists m, e; auto|]. split; [apply double_0|]. intros H. exfalso. revert H. apply Qcle_not_lt. discriminate.
  - set (w := (2 ^ (- e))%Z). assert (W0 : (0 < w)%Z) by (apply Z.pow_pos_nonneg; lia). assert (Pw : qz w = pow2 (- e)) by (symmetry; apply pow2_int; lia). pose proof (pow2_pos e) as Pe. pose proof (pow2_opp e) as PE. rewrite <- Pw in PE.
    assert (Ex : (x * qz w = qz m)%Qc) by (rewrite Hx; replace (qz m * pow2 e * qz w)%Qc with (qz m * (pow2 e * qz w))%Qc by ring; rewrite PE; ring).
    assert (Back : forall z, (qz z = qz (z * w) * pow2 e)%Qc) by (intros z; rewrite qz_mul; replace (qz z * qz w * pow2 e)%Qc with (qz z * (pow2 e * qz w))%Qc by ring; rewrite PE; ring).
    assert (Fr : (x - qz n = qz (m - n * w) * pow2 e)%Qc) by (rewrite (Back n), Hx; unfold Z.sub; rewrite qz_add, qz_opp; ring).
    assert (W1 : (0 < qz w)%Qc) by (rewrite <- qz_0; now apply qz_lt).
    assert (Q1 : (n * w <= m)%Z) by (apply qz_le; rewrite qz_mul, <- Ex; apply qmul_le_r; [auto|qclra]).
    assert (m0 : (0 <= m)%Z) by nia. assert (Nm : (n <= m)%Z) by nia.
    split; [apply double_int; lia|]. split; [rewrite Fr; apply dyadic; lia|].
    intros H. rewrite Fr in *. assert (One : (1 = qz w * pow2 e)%Qc) by (rewrite <- PE; ring). assert (Q2 : (w < 2 * (m - n * w))%Z).
    { apply qz_lt. apply (cancel_lt _ _ (pow2 e) Pe). rewrite <- One. rewrite qz_mul. replace (qz 2 * qz (m - n * w) * pow2 e)%Qc with (qz 2 * (qz (m - n * w) * pow2 e))%Qc by ring. set (Y := (qz (m - n * w) * pow2 e)%Qc) in *. clearbody Y. unfold qz, inject_Z. clear - H. qclra. }
    assert (Q3 : (m - n * w < w)%Z). { apply qz_lt. apply (cancel_lt _ _ (pow2 e) Pe). rewrite <- One, <- Fr. qclra. }
    replace (1 - qz (m - n * w) * pow2 e)%Qc with (qz (w - (m - n * w)) * pow2 e)%Qc by (rewrite One, !qz_sub; ring). apply dyadic; lia.
Qed.
(** [x] is closer than [tenth] to an integer *)
Definition near_int (x : Qc) : Prop := exists n : Z, (distance x (qz n) < tenth)%Qc.
Lemma near_int_abs x : near_int (qabs x) <-> near_int x.
Proof.
  unfold near_int, distance, qabs at 2. destruct (qlt x 0); [|reflexivity]. split; intros (n & H); exists (- n)%Z; rewrite qz_opp.
  - replace (x - - qz n)%Qc with (- (- x - qz n))%Qc by ring. now rewrite qabs_opp.
  - replace (- x - - qz n)%Qc with (- (x - qz n))%Qc by ring. now rewrite qabs_opp.
Qed.
Lemma near_int_frac x : let n := Qfloor (this x) in near_int x <-> (x - qz n < tenth \/ 1 - (x - qz n) < tenth)%Qc.
Proof.
  intros n. destruct (floor_range x) as (F1 & F2). fold n in F1, F2. clearbody n. unfold near_int, distance. split.
  - intros (k & H). destruct (Z.le_gt_cases k n) as [L|L].
    + left. apply qz_le in L. qab; qclra.
    + right. assert (qz n + 1 <= qz k)%Qc by (rewrite <- qz_1, <- qz_add; apply qz_le; lia). qab; qclra.
  - intros [H|H]; [exists n|exists (n + 1)%Z; rewrite qz_add, qz_1]; qab; qclra.
Qed.
Lemma is_integer_fin x : is_float (Fin x) -> exists b, fl_is_integer (Fin x) = Ok b /\ (b = true <-> near_int x).
Proof.
  intros (D & B). apply qabs_le in B. assert (X0 : (0 <= qabs x)%Qc) by apply qabs_nonneg. enough (G : exists b, fl_is_integer (Fin x) = Ok b /\ (b = true <-> near_int (qabs x))) by (destruct G as (b & E & K); exists b; split; [exact E|]; rewrite K; apply near_int_abs). assert (Da : is_double (qabs x)) by (unfold qabs; destruct (qlt x 0); auto; now apply double_opp).
  unfold fl_is_integer. cbn [f_abs f_int bind]. set (y := qabs x) in *. clearbody y. clear x D.
  destruct (qlt_spec y 0) as [|_]; [exfalso; qclra|]. cbn [bind]. destruct (double_parts y Da X0) as (D1 & D2 & D3). pose proof (near_int_frac y) as NF. cbv zeta in NF. destruct (floor_range y) as (F1 & F2). set (n := Qfloor (this y)) in *. clearbody n. pose proof tenth_small as TS. pose proof max_pos. pose proof one_le_max.
  assert (n0 : (0 <= qz n)%Qc). { rewrite <- qz_0. apply qz_le. apply Z.lt_succ_r. apply qz_lt. rewrite <- Z.add_1_r, qz_add, qz_0, qz_1. qclra. }
  rewrite to_float_double by (split; auto; split; qclra). unfold f_sub. cbn [f_opp f_add]. change (y + - qz n)%Qc with (y - qz n)%Qc. rewrite to_float_double by (split; auto; split; qclra). cbn [f_lt].
  destruct (qlt_spec (Q2Qc (1 # 2)) (y - qz n)) as [L|L].
  - cbn [f_opp f_add]. change (1 + - (y - qz n))%Qc with (1 - (y - qz n))%Qc. rewrite to_float_double by (split; [auto|split; qclra]). rewrite close_fin. eexists. split; [reflexivity|]. rewrite NF. rewrite qabs_pos by qclra.
    destruct (qlt_spec (1 - (y - qz n)) tenth) as [K|K]; split; auto; try discriminate. intros [Q|Q]; exfalso; qclra.
  - rewrite close_fin. eexists. split; [reflexivity|]. rewrite NF. rewrite qabs_pos by qclra. destruct (qlt_spec (y - qz n) tenth) as [K|K]; split; auto; try discriminate. intros [Q|Q]; exfalso; qclra.
Qed.
Lemma is_integer_inf v : v = PInf \/ v = NInf -> fl_is_integer v = Raise ArithmeticError.
Proof. intros [->| ->]; reflexivity. Qed.

(** no double lies between 1e-10 and the double nearest to it *)
Lemma gap x : is_double x -> (0 <= x)%Qc -> ((x < tenth)%Qc <-> (x < eps10)%Qc).
Proof.
  intros D X. pose proof (rnd_rounds eps10) as (_ & R). specialize (R x D). change (rnd eps10) with (rnd tol_zero) in R. rewrite tenth_rnd in R. assert (L : (eps10 < tenth)%Qc) by reflexivity. split; intros H; [|qclra].
  destruct (qlt_spec x eps10) as [|N]; auto. exfalso. qab; qclra.
Qed.
Lemma gap_abs x : is_double x -> ((qabs x < tenth)%Qc <-> strictly_within eps10 x 0).
Proof.
  intros D. rewrite gap; [|unfold qabs; destruct (qlt x 0); auto; now apply double_opp|apply qabs_nonneg]. unfold strictly_within. split; [intros H; split|intros (H1 & H2)]; qab; qclra.
Qed.
Lemma near_integer_abs x : near_integer (qabs x) <-> near_integer x.
Proof.
  unfold near_integer, strictly_within, qabs. destruct (qlt x 0); [|reflexivity]. split; intros (n & H1 & H2); exists (- n)%Z; change (Q2Qc (inject_Z (- n))) with (qz (- n)); change (Q2Qc (inject_Z n)) with (qz n) in *; rewrite qz_opp; split; qclra.
Qed.
Lemma near_int_double x : is_double x -> (near_int x <-> near_integer x).
Proof.
  intros D0. rewrite <- near_int_abs, <- near_integer_abs. assert (D : is_double (qabs x)) by (unfold qabs; destruct (qlt x 0); auto; now apply double_opp). pose proof (qabs_nonneg x) as X0. set (y := qabs x) in *. clearbody y. clear x D0.
  split.
  - intros H. apply near_int_frac in H. destruct (double_parts y D X0) as (D1 & D2 & D3). destruct (floor_range y) as (F1 & F2). set (n := Qfloor (this y)) in *. clearbody n. pose proof tenth_small. destruct H as [H|H].
    + apply gap in H; [|auto|qclra]. exists n. fold (qz n). split; qclra.
    + apply gap in H; [|apply D3; qclra|qclra]. exists (n + 1)%Z. change (Q2Qc (inject_Z (n + 1))) with (qz (n + 1)). rewrite qz_add, qz_1. split; qclra.
  - intros (n & H1 & H2). exists n. fold (qz n) in *. assert (L : (eps10 < tenth)%Qc) by reflexivity. unfold distance. qab; qclra.
Qed.
Lemma close_exact x : is_double x -> fl_close_to_zero (Fin x) = is_close_to_zero x.
Proof.
  intros D. rewrite close_fin. destruct (qlt_spec (qabs x) tenth) as [H|H], (close_zero_spec x) as [K|K]; auto; exfalso; [apply K|apply H]; now apply gap_abs.
Qed.
