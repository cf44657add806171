(** Proofs about the printed form. *)
From Coq Require Import String Ascii List Bool Arith ZArith QArith Qcanon Qround Lia.
From Verif Require Import Py QcTac QInt ComparatorModel LinearModel LinearSpec BasicModel BasicProps PolyProofs MatTheory TextModel TextSpec.
Import ListNotations.
Open Scope nat_scope.
Open Scope string_scope.
Open Scope list_scope.

(** ** digits *)
Definition digits_ok (l : list Z) : Prop := Forall (fun d => (0 <= d <= 9)%Z) l.
Definition dval (acc : Z) (l : list Z) : Z := fold_left (fun n d => (10 * n + d)%Z) l acc.
Lemma dval_app acc l m : dval acc (l ++ m) = dval (dval acc l) m.
Proof. apply fold_left_app. Qed.
Lemma decimal_digits l : digits_ok l -> forall acc, decimal acc (map digit_code l) = Some (dval acc l).
Proof.
  induction 1 as [|d l Hd _ IH]; intros acc; [reflexivity|]. cbn [map decimal dval fold_left]. unfold digit_code at 1 2.
  destruct (Z.leb_spec 48 (48 + d)); [|lia]. destruct (Z.leb_spec (48 + d) 57); [|lia]. cbn [andb].
  unfold digit_code. replace (48 + d - 48)%Z with d by lia. apply IH.
Qed.
Lemma digs_spec : forall f n, (0 <= n < 2 ^ Z.of_nat (S f))%Z -> digits_ok (digs f n) /\ dval 0 (digs f n) = n /\ digs f n <> [] /\
  ((1 <= n)%Z -> (10 ^ (Z.of_nat (length (digs f n)) - 1) <= n < 10 ^ Z.of_nat (length (digs f n)))%Z).
Proof.
  induction f as [|f IH]; intros n H; cbn [digs].
  - change (2 ^ Z.of_nat 1)%Z with 2%Z in H. repeat split; try (constructor; [lia|constructor]); try discriminate; cbn; lia.
  - destruct (Z.ltb_spec n 10) as [L|L].
    + repeat split; try (constructor; [lia|constructor]); try discriminate; cbn; lia.
    + pose proof (Z.div_mod n 10 ltac:(lia)) as E. pose proof (Z.mod_pos_bound n 10 ltac:(lia)) as M.
      assert (Q1 : (1 <= n / 10)%Z) by (clear - L E M; set (q := (n / 10)%Z) in *; set (r := (n mod 10)%Z) in *; clearbody q r; lia).
      assert (Q2 : (n / 10 < 2 ^ Z.of_nat (S f))%Z).
      { rewrite (Nat2Z.inj_succ (S f)), Z.pow_succ_r in H by lia. set (X := (2 ^ Z.of_nat (S f))%Z) in *. clearbody X. clear - H E M Q1. lia. }
      destruct (IH (n / 10)%Z (conj (Z.le_trans _ _ _ Z.le_0_1 Q1) Q2)) as (I1 & I2 & I3 & I4). specialize (I4 Q1). repeat split.
      * apply Forall_app. split; auto. constructor; [lia|constructor].
      * rewrite dval_app, I2. cbn [dval fold_left]. lia.
      * destruct (digs f (n / 10)); discriminate.
      * rewrite app_length. cbn [length]. set (k := length (digs f (n / 10))) in *.
        assert (K : (0 < k)%nat) by (unfold k; destruct (digs f (n / 10)); [congruence|cbn; lia]).
        replace (Z.of_nat (k + 1) - 1)%Z with (Z.succ (Z.of_nat k - 1)) by lia. rewrite Z.pow_succ_r by lia. lia.
      * rewrite app_length. cbn [length]. set (k := length (digs f (n / 10))) in *.
        replace (Z.of_nat (k + 1)) with (Z.succ (Z.of_nat k)) by lia. rewrite Z.pow_succ_r by lia. lia.
Qed.
Lemma log2_fuel n : (0 <= n)%Z -> (0 <= n < 2 ^ Z.of_nat (S (Z.to_nat (Z.log2 n))))%Z.
Proof.
  intros H. pose proof (Z.log2_nonneg n). replace (Z.of_nat (S (Z.to_nat (Z.log2 n)))) with (Z.succ (Z.log2 n)) by lia.
  destruct (Z.eq_dec n 0) as [->|N]; [cbn; lia|]. split; auto. apply Z.log2_spec; lia.
Qed.
Definition int_digits n := digs (Z.to_nat (Z.log2 n)) n.
Lemma int_digits_spec n : (0 <= n)%Z -> digits_ok (int_digits n) /\ dval 0 (int_digits n) = n /\ int_digits n <> [] /\
  ((1 <= n)%Z -> (10 ^ (Z.of_nat (length (int_digits n)) - 1) <= n < 10 ^ Z.of_nat (length (int_digits n)))%Z).
Proof. intros H. apply digs_spec, log2_fuel, H. Qed.
Lemma padded_spec : forall k n, (0 <= n)%Z -> digits_ok (padded k n) /\ length (padded k n) = k /\ forall acc, dval acc (padded k n) = (acc * pow10 k + n mod pow10 k)%Z.
Proof.
  induction k as [|k IH]; intros n H; cbn [padded].
  - repeat split; [constructor|]. intros acc. cbn. rewrite Z.mod_1_r. lia.
  - pose proof (Z.div_mod n 10 ltac:(lia)) as E. pose proof (Z.mod_pos_bound n 10 ltac:(lia)) as M.
    destruct (IH (n / 10)%Z ltac:(lia)) as (I1 & I2 & I3). repeat split.
    + apply Forall_app. split; auto. constructor; [lia|constructor].
    + rewrite app_length, I2. cbn. lia.
    + intros acc. rewrite dval_app, I3. cbn [dval fold_left]. unfold pow10. rewrite Nat2Z.inj_succ, Z.pow_succ_r by lia.
      set (q := (10 ^ Z.of_nat k)%Z). assert (Q : (0 < q)%Z) by (unfold q; apply Z.pow_pos_nonneg; lia).
      rewrite (Z.rem_mul_r n 10 q) by lia. ring.
Qed.
Lemma pow10_pos k : (0 < pow10 k)%Z.
Proof. unfold pow10. apply Z.pow_pos_nonneg; lia. Qed.

(** ** powers of ten *)
Lemma qz_pos z : (0 < z)%Z -> (0 < qz z)%Qc.
Proof. intros H. rewrite <- qz_0. now apply (proj2 (qz_lt _ _)). Qed.
Lemma qz_nz z : (0 < z)%Z -> qz z <> 0%Qc.
Proof. intros H E. apply qz_pos in H. rewrite E in H. discriminate H. Qed.
Lemma ten_to_nat k : ten_to (Z.of_nat k) = qz (pow10 k).
Proof. unfold ten_to, pow10. destruct (Z.ltb_spec (Z.of_nat k) 0); [lia|reflexivity]. Qed.
Lemma ten_to_inv e : (ten_to e * ten_to (- e) = 1)%Qc.
Proof.
  assert (P : forall k, (0 <= k)%Z -> (1 / qz (10 ^ k) * qz (10 ^ k) = 1)%Qc).
  { intros k Hk. unfold Qcdiv. rewrite Qcmult_1_l, Qcmult_comm. apply Qcmult_inv_r, qz_nz, Z.pow_pos_nonneg; lia. }
  unfold ten_to. destruct (Z.ltb_spec e 0), (Z.ltb_spec (- e) 0); try lia.
  - apply P; lia.
  - rewrite Z.opp_involutive, Qcmult_comm. apply P; lia.
  - assert (e = 0%Z) as -> by lia. reflexivity.
Qed.
Lemma ten_to_pos e : (0 < ten_to e)%Qc.
Proof.
  unfold ten_to. destruct (Z.ltb_spec e 0).
  - apply qdiv_pos; [reflexivity|]. apply qz_pos, Z.pow_pos_nonneg; lia.
  - apply qz_pos, Z.pow_pos_nonneg; lia.
Qed.
Lemma ten_to_succ e : ten_to (e + 1) = (ten_to e * qz 10)%Qc.
Proof.
  destruct (Z.ltb_spec e 0) as [L|L].
  - pose proof (ten_to_inv e) as I1. pose proof (ten_to_inv (e + 1)) as I2.
    assert (S : ten_to (- e) = (ten_to (- (e + 1)) * qz 10)%Qc).
    { unfold ten_to. destruct (Z.ltb_spec (- e) 0), (Z.ltb_spec (- (e + 1)) 0); try lia. rewrite <- qz_mul. apply (f_equal qz).
      replace (- e)%Z with (Z.succ (- (e + 1))) by lia. rewrite Z.pow_succ_r by lia. ring. }
    rewrite S in I1. set (a := ten_to e) in *. set (b := ten_to (e + 1)) in *. set (d := ten_to (- (e + 1))) in *.
    transitivity (b * (a * (d * qz 10)))%Qc; [rewrite I1; ring|]. transitivity (a * qz 10 * (b * d))%Qc; [ring|]. rewrite I2. ring.
  - unfold ten_to. destruct (Z.ltb_spec (e + 1) 0), (Z.ltb_spec e 0); try lia. rewrite <- qz_mul. apply (f_equal qz).
    replace (e + 1)%Z with (Z.succ e) by lia. rewrite Z.pow_succ_r by lia. ring.
Qed.
Lemma ten_to_add e k : ten_to (e + Z.of_nat k) = (ten_to e * ten_to (Z.of_nat k))%Qc.
Proof.
  induction k as [|k IH]; [rewrite Z.add_0_r; change (ten_to (Z.of_nat 0)) with 1%Qc; ring|].
  rewrite Nat2Z.inj_succ. replace (e + Z.succ (Z.of_nat k))%Z with (e + Z.of_nat k + 1)%Z by lia.
  replace (Z.succ (Z.of_nat k)) with (Z.of_nat k + 1)%Z by lia. rewrite !ten_to_succ, IH. ring.
Qed.
Lemma ten_to_plus e k : ten_to (e + k) = (ten_to e * ten_to k)%Qc.
Proof.
  destruct (Z.leb_spec 0 k) as [H|H].
  - replace k with (Z.of_nat (Z.to_nat k)) by lia. apply ten_to_add.
  - pose proof (ten_to_add (e + k) (Z.to_nat (- k))) as A. rewrite Z2Nat.id in A by lia. replace (e + k + - k)%Z with e in A by lia.
    rewrite A. rewrite <- Qcmult_assoc, (Qcmult_comm (ten_to (- k))), ten_to_inv. ring.
Qed.
Lemma shift_ten x e : shift x e = (x * ten_to e)%Qc.
Proof. unfold shift, ten_to. destruct (Z.ltb e 0); [|reflexivity]. unfold Qcdiv. ring. Qed.
Lemma ten_to_0 : ten_to 0 = 1%Qc. Proof. reflexivity. Qed.
Lemma ten_to_3 : ten_to 3 = qz 1000. Proof. reflexivity. Qed.

(** ** fixed point *)
Lemma strip_zeros_spec l : digits_ok l -> digits_ok (strip_zeros l) /\ forall acc,
  (qz (dval acc (strip_zeros l)) * ten_to (- Z.of_nat (length (strip_zeros l))) = qz (dval acc l) * ten_to (- Z.of_nat (length l)))%Qc.
Proof.
  induction 1 as [|d l Hd _ (IH1 & IH2)]; [split; [constructor|reflexivity]|].
  assert (Z0 : forall acc e, (qz (10 * acc) * ten_to (e - 1) = qz acc * ten_to e)%Qc).
  { intros acc e. replace e with (e - 1 + 1)%Z at 2 by lia. rewrite ten_to_succ, qz_mul. ring. }
  assert (G : forall acc, (qz (dval (10 * acc + d) (strip_zeros l)) * ten_to (- Z.of_nat (S (length (strip_zeros l)))) = qz (dval acc (d :: l)) * ten_to (- Z.of_nat (length (d :: l))))%Qc).
  { intros acc. cbn [dval fold_left length]. change (fold_left (fun n d0 => (10 * n + d0)%Z) l (10 * acc + d)%Z) with (dval (10 * acc + d) l).
    replace (- Z.of_nat (S (length (strip_zeros l))))%Z with (- Z.of_nat (length (strip_zeros l)) + -1)%Z by lia.
    replace (- Z.of_nat (S (length l)))%Z with (- Z.of_nat (length l) + -1)%Z by lia. rewrite !ten_to_plus, !Qcmult_assoc, IH2. reflexivity. }
  cbn [strip_zeros]. destruct (strip_zeros l) as [|d' l'] eqn:E.
  - destruct (Z.eqb_spec d 0) as [->|N].
    + split; [constructor|]. intros acc. rewrite <- G. change (dval acc []) with acc. change (dval (10 * acc + 0) []) with (10 * acc + 0)%Z. rewrite Z.add_0_r. symmetry. apply (Z0 acc 0%Z).
    + split; [constructor; auto|]. intros acc. rewrite <- G. reflexivity.
  - split; [constructor; auto|]. intros acc. rewrite <- G. reflexivity.
Qed.

Lemma cut_free c a b : ~ In c a -> cut c (a ++ c :: b) = Some (a, b).
Proof.
  induction a as [|x a IH]; intros H; cbn [app cut]; [now rewrite Z.eqb_refl|].
  destruct (Z.eqb_spec x c) as [->|N]; [destruct H; now left|]. rewrite IH; auto. intros I. apply H. now right.
Qed.
Lemma cut_none c a : ~ In c a -> cut c a = None.
Proof.
  induction a as [|x a IH]; intros H; cbn [cut]; [reflexivity|].
  destruct (Z.eqb_spec x c) as [->|N]; [destruct H; now left|]. rewrite IH; auto. intros I. apply H. now right.
Qed.
Lemma digit_codes_free l c : digits_ok l -> (c < 48 \/ 57 < c)%Z -> ~ In c (map digit_code l).
Proof. intros H Hc I. apply in_map_iff in I. destruct I as (d & E & Hd). eapply Forall_forall in H; [|exact Hd]. unfold digit_code in E. lia. Qed.

(** a plain number: whole part, dot, digits, no exponent *)
Lemma read_plain w f : digits_ok w -> digits_ok f ->
  read_unsigned (map digit_code w ++ dot :: map digit_code f) = Some (qz (dval 0 w) + qz (dval 0 f) * ten_to (- Z.of_nat (length f)))%Qc.
Proof.
  intros Hw Hf. unfold read_unsigned, dot. rewrite cut_free by (apply digit_codes_free; auto; lia).
  rewrite cut_none by (apply digit_codes_free; auto; lia). rewrite !decimal_digits by auto. rewrite map_length, ten_to_0. f_equal. ring.
Qed.
(** the three parts of a printed magnitude *)
Definition layout (t : text) : Prop := exists w r, t = map digit_code w ++ dot :: r /\ w <> [] /\ digits_ok w /\
  (forall c, In c r -> (48 <= c <= 57)%Z \/ c = 101%Z \/ c = 43%Z \/ c = 45%Z).
Lemma layout_plain w f : digits_ok w -> digits_ok f -> w <> [] -> layout (map digit_code w ++ dot :: map digit_code f).
Proof.
  intros Hw Hf N. exists w, (map digit_code f). repeat split; auto. intros c I. apply in_map_iff in I. destruct I as (d & <- & Hd).
  eapply Forall_forall in Hf; [|exact Hd]. unfold digit_code. lia.
Qed.
Lemma fixed_text_spec n k : (0 <= n)%Z -> layout (fixed_text n k) /\ read_unsigned (fixed_text n k) = Some (qz n * ten_to (- Z.of_nat k))%Qc.
Proof.
  intros H. unfold fixed_text. pose proof (pow10_pos k) as P.
  destruct (padded_spec k (n mod pow10 k)) as (D1 & D2 & D3); [apply Z.mod_pos_bound; lia|].
  destruct (strip_zeros_spec _ D1) as (S1 & S2). destruct (int_digits_spec (n / pow10 k)) as (I1 & I2 & I3 & _); [apply Z.div_pos; lia|].
  set (f := match strip_zeros (padded k (n mod pow10 k)) with [] => [0%Z] | _ => _ end).
  assert (F : digits_ok f /\ (qz (dval 0 f) * ten_to (- Z.of_nat (length f)) = qz (n mod pow10 k) * ten_to (- Z.of_nat k))%Qc).
  { assert (V : (qz (dval 0 (strip_zeros (padded k (n mod pow10 k)))) * ten_to (- Z.of_nat (length (strip_zeros (padded k (n mod pow10 k))))) = qz (n mod pow10 k) * ten_to (- Z.of_nat k))%Qc).
    { rewrite S2, D2, D3. rewrite Z.mod_mod by lia. reflexivity. }
    unfold f. destruct (strip_zeros (padded k (n mod pow10 k))) as [|d l] eqn:E; [|split; auto].
    split; [constructor; [lia|constructor]|]. rewrite <- V. cbn. rewrite qz_0. ring. }
  destruct F as (F1 & F2). unfold int_text. change (digs (Z.to_nat (Z.log2 (n / pow10 k))) (n / pow10 k)) with (int_digits (n / pow10 k)).
  cbn [app]. split; [now apply layout_plain|]. rewrite read_plain by auto. f_equal. rewrite F2, I2.
  rewrite (Z.div_mod n (pow10 k)) at 3 by lia. rewrite qz_add, qz_mul, <- ten_to_nat. pose proof (ten_to_inv (Z.of_nat k)) as I.
  set (a := ten_to (Z.of_nat k)) in *. set (b := ten_to (- Z.of_nat k)) in *. transitivity (qz (n / pow10 k) * (a * b) + qz (n mod pow10 k) * b)%Qc; [rewrite I; ring|ring].
Qed.

(** ** the exponent *)
Lemma size_nat_gt p : (Z.pos p < 2 ^ Z.of_nat (Pos.size_nat p))%Z.
Proof.
  induction p as [p IH|p IH|]; cbn [Pos.size_nat]; rewrite ?Nat2Z.inj_succ, ?Z.pow_succ_r by lia; [rewrite Pos2Z.inj_xI|rewrite Pos2Z.inj_xO|cbn]; lia.
Qed.
Lemma log_below_spec : forall fuel k x, (x * ten_to (Z.of_nat k) < 1)%Qc -> (1 <= x * ten_to (Z.of_nat (S k + fuel)))%Qc ->
  let e := log_below fuel (S k) x in (1 <= x * ten_to (- e))%Qc /\ (x * ten_to (- e - 1) < 1)%Qc /\ (e < 0)%Z.
Proof.
  induction fuel as [|f IH]; intros k x H1 H2; cbn [log_below].
  - rewrite Nat.add_0_r in H2. repeat split; try lia; [now rewrite Z.opp_involutive|]. replace (- - Z.of_nat (S k) - 1)%Z with (Z.of_nat k) by lia. exact H1.
  - rewrite shift_ten. destruct (qle_spec 1 (x * ten_to (Z.of_nat (S k)))) as [L|L].
    + repeat split; try lia; [now rewrite Z.opp_involutive|]. replace (- - Z.of_nat (S k) - 1)%Z with (Z.of_nat k) by lia. exact H1.
    + apply IH; [now apply Qcnot_le_lt|]. replace (S (S k) + f)%nat with (S k + S f)%nat by lia. exact H2.
Qed.
Lemma Qfloor_qc x : (qz (Qfloor (this x)) <= x)%Qc /\ (x < qz (Qfloor (this x) + 1))%Qc.
Proof.
  split; [unfold Qcle, qz; cbn [this Q2Qc]; rewrite Qred_correct; apply Qfloor_le|].
  unfold Qclt, qz. cbn [this Q2Qc]. rewrite Qred_correct. apply Qlt_floor.
Qed.
Lemma floor_log10_spec x : (0 < x)%Qc -> (ten_to (floor_log10 x) <= x)%Qc /\ (x < ten_to (floor_log10 x + 1))%Qc /\ ((x < 1)%Qc -> (floor_log10 x < 0)%Z).
Proof.
  intros H. unfold floor_log10. destruct (qlt_spec x 1) as [L|L].
  - set (f := Pos.size_nat _). destruct (log_below_spec f 0 x) as (A1 & A2 & A3).
    + change (Z.of_nat 0) with 0%Z. rewrite ten_to_0. now rewrite Qcmult_1_r.
    + pose proof (isint_pos _ (den_int x)) as D. specialize (D ltac:(apply qmul_pos; auto; apply qz_pos; lia)).
      eapply Qcle_trans; [exact D|]. rewrite Qcmult_comm. apply Qclt_le_weak in H. rewrite ten_to_nat.
      assert (B : (qz (Z.pos (Qden (this x))) <= qz (pow10 (1 + f)))%Qc).
      { apply (proj2 (qz_le _ _)). pose proof (size_nat_gt (Qden (this x))) as G. unfold pow10.
        assert ((2 ^ Z.of_nat f <= 10 ^ Z.of_nat f)%Z) by (apply Z.pow_le_mono_l; lia).
        assert ((10 ^ Z.of_nat f <= 10 ^ Z.of_nat (1 + f))%Z) by (apply Z.pow_le_mono_r; lia). fold f in G. lia. }
      set (u := qz (pow10 (1 + f))) in *. set (w := qz (Z.pos (Qden (this x)))) in *. clearbody u w. clear - H B. qcnra.
    + set (e := log_below f 1 x) in *. repeat split; auto.
      * pose proof (ten_to_inv e) as I. pose proof (ten_to_pos e) as P. set (a := ten_to e) in *. set (b := ten_to (- e)) in *. clearbody a b. clear - I P A1 H.
        assert (E : x = (x * b * a)%Qc) by (transitivity (x * (a * b))%Qc; [rewrite I; ring|ring]). rewrite E. set (y := (x * b)%Qc) in *. clearbody y. clear E. qcnra.
      * pose proof (ten_to_inv (e + 1)) as I. pose proof (ten_to_pos (e + 1)) as P. replace (- (e + 1))%Z with (- e - 1)%Z in I by lia.
        set (a := ten_to (e + 1)) in *. set (b := ten_to (- e - 1)) in *. clearbody a b. clear - I P A2 H.
        assert (E : x = (x * b * a)%Qc) by (transitivity (x * (a * b))%Qc; [rewrite I; ring|ring]). rewrite E. set (y := (x * b)%Qc) in *. clearbody y. clear E. qcnra.
  - assert (L1 : (1 <= x)%Qc) by now apply Qcnot_lt_le. destruct (Qfloor_qc x) as (F1 & F2). set (n := Qfloor (this x)) in *.
    assert (N : (1 <= n)%Z).
    { assert (G : (qz 1 < qz (n + 1))%Qc) by (rewrite qz_1; eapply Qcle_lt_trans; eauto). apply (proj1 (qz_lt _ _)) in G. lia. }
    destruct (int_digits_spec n) as (_ & _ & K & B); [lia|]. specialize (B N). fold (int_digits n). set (k := length (int_digits n)) in *.
    assert (K0 : (0 < k)%nat) by (unfold k; destruct (int_digits n); [congruence|cbn; lia]).
    repeat split; [| |intros C; exfalso; clear - L1 C; qclra].
    + eapply Qcle_trans; [|exact F1]. unfold ten_to. destruct (Z.ltb_spec (Z.of_nat k - 1) 0); [lia|]. apply (proj2 (qz_le _ _)). lia.
    + eapply Qclt_le_trans; [exact F2|]. replace (Z.of_nat k - 1 + 1)%Z with (Z.of_nat k) by lia. rewrite ten_to_nat. apply (proj2 (qz_le _ _)). unfold pow10. lia.
Qed.

Lemma read_sci w f s t e : digits_ok w -> digits_ok f -> w <> [] -> digits_ok e ->
  (s = 43%Z /\ t = dval 0 e \/ s = 45%Z /\ t = (- dval 0 e)%Z) ->
  let u := map digit_code w ++ dot :: map digit_code f ++ 101%Z :: s :: map digit_code e in
  layout u /\ read_unsigned u = Some ((qz (dval 0 w) + qz (dval 0 f) * ten_to (- Z.of_nat (length f))) * ten_to t)%Qc.
Proof.
  intros Hw Hf N He Hs u. split.
  - exists w, (map digit_code f ++ 101%Z :: s :: map digit_code e). repeat split; auto. intros c I.
    assert (D : forall l, digits_ok l -> In c (map digit_code l) -> (48 <= c <= 57)%Z).
    { intros l Hl Il. apply in_map_iff in Il. destruct Il as (d & <- & Hd). eapply Forall_forall in Hl; [|exact Hd]. unfold digit_code. lia. }
    apply in_app_or in I. destruct I as [I|[<-|[<-|I]]]; [left; now apply (D f)|auto| |left; now apply (D e)]. destruct Hs as [(-> & _)|(-> & _)]; auto.
  - unfold u, read_unsigned, dot. rewrite cut_free by (apply digit_codes_free; auto; lia). rewrite cut_free by (apply digit_codes_free; auto; lia).
    rewrite !decimal_digits, map_length by auto. unfold read_exponent. rewrite !decimal_digits by auto.
    destruct Hs as [(-> & ->)|(-> & ->)]; reflexivity.
Qed.
Lemma rint_le a x : (qz a <= x)%Qc -> (a <= rint x)%Z.
Proof.
  intros H. destruct (rint_spec x) as (_ & B). assert (G : (qz a < qz (rint x + 1))%Qc) by (rewrite qz_add, qz_1; clear - H B; set (r := qz (rint x)) in *; clearbody r; qclra).
  apply (proj1 (qz_lt _ _)) in G. lia.
Qed.
Lemma rint_ge a x : (x <= qz a)%Qc -> (rint x <= a)%Z.
Proof.
  intros H. destruct (rint_spec x) as (B & _). assert (G : (qz (rint x) < qz (a + 1))%Qc) by (rewrite qz_add, qz_1; clear - H B; set (r := qz (rint x)) in *; clearbody r; qclra).
  apply (proj1 (qz_lt _ _)) in G. lia.
Qed.
Lemma rint_int z : rint (qz z) = z.
Proof. apply Z.le_antisymm; [apply rint_ge|apply rint_le]; apply Qcle_refl. Qed.
Lemma sci_scale x : (0 < x)%Qc -> let e := floor_log10 x in (qz 1000 <= x * ten_to (3 - e) /\ x * ten_to (3 - e) <= qz 10000 /\ qz 1000 * ten_to (e - 3) <= x)%Qc.
Proof.
  intros H e. destruct (floor_log10_spec x H) as (A & B & _). fold e in A, B. rewrite ten_to_succ in B.
  pose proof (ten_to_inv e) as I. pose proof (ten_to_pos e) as P. pose proof (ten_to_pos (- e)) as P'.
  replace (3 - e)%Z with (3 + - e)%Z by lia. replace (e - 3)%Z with (e + - (3))%Z by lia. rewrite !ten_to_plus, ten_to_3.
  pose proof (ten_to_inv 3) as I3. rewrite ten_to_3 in I3. set (a := ten_to e) in *. set (b := ten_to (- e)) in *. set (c := ten_to (- (3))) in *. clearbody a b c e.
  assert (E : (x * (qz 1000 * b) = qz 1000 * (x * b))%Qc) by ring. rewrite E.
  assert (Q1 : (1 <= x * b)%Qc) by (rewrite <- I; clear - A P'; qcnra).
  assert (Q2 : (x * b <= qz 10)%Qc) by (replace (qz 10) with (a * qz 10 * b)%Qc by (transitivity (a * b * qz 10)%Qc; [ring|rewrite I; ring]); clear - B P'; set (y := (a * qz 10)%Qc) in *; clearbody y; qcnra).
  set (y := (x * b)%Qc) in *. clearbody y. repeat split.
  - clear - Q1. change (qz 1000) with (Q2Qc (1000 # 1)). qclra.
  - clear - Q2. change (qz 1000) with (Q2Qc (1000 # 1)). change (qz 10000) with (Q2Qc (10000 # 1)). change (qz 10) with (Q2Qc (10 # 1)) in Q2. qclra.
  - replace (qz 1000 * (a * c))%Qc with a; auto. transitivity (a * (qz 1000 * c))%Qc; [rewrite I3; ring|ring].
Qed.
Lemma sci_text_spec x : (0 < x)%Qc -> layout (sci_text x) /\ read_unsigned (sci_text x) = Some (qz (rint (x * ten_to (3 - floor_log10 x))) * ten_to (floor_log10 x - 3))%Qc.
Proof.
  intros H. destruct (sci_scale x H) as (A & B & _). unfold sci_text. rewrite shift_ten. set (e := floor_log10 x) in *. set (r := rint (x * ten_to (3 - e))) in *.
  assert (R : (1000 <= r <= 10000)%Z) by (split; [now apply rint_le|now apply rint_ge]).
  assert (G : forall r e, (1000 <= r <= 9999)%Z ->
    let t := map digit_code (padded 1 (r / 1000)) ++ [dot] ++ map digit_code (padded 3 (r mod 1000)) ++ lit "e" ++ (if Z.ltb e 0 then lit "-" else lit "+") ++
      (if Z.ltb (Z.abs e) 100 then map digit_code (padded 2 (Z.abs e)) else int_text (Z.abs e)) in
    layout t /\ read_unsigned t = Some (qz r * ten_to (e - 3))%Qc).
  { clear. intros r e R t. assert (M : (0 <= r mod 1000 < 1000)%Z) by (apply Z.mod_pos_bound; lia). assert (Q : (1 <= r / 1000 <= 9)%Z) by (split; [apply Z.div_le_lower_bound; lia|apply Z.lt_succ_r, Z.div_lt_upper_bound; lia]).
    destruct (padded_spec 1 (r / 1000)) as (W1 & W2 & W3); [lia|]. destruct (padded_spec 3 (r mod 1000)) as (F1 & F2 & F3); [lia|].
    assert (X : exists d, digits_ok d /\ (if Z.ltb (Z.abs e) 100 then map digit_code (padded 2 (Z.abs e)) else int_text (Z.abs e)) = map digit_code d /\ dval 0 d = Z.abs e).
    { destruct (Z.ltb_spec (Z.abs e) 100).
      - destruct (padded_spec 2 (Z.abs e)) as (E1 & _ & E3); [lia|]. exists (padded 2 (Z.abs e)). repeat split; auto. rewrite E3. change (pow10 2) with 100%Z. rewrite Z.mod_small; lia.
      - destruct (int_digits_spec (Z.abs e)) as (E1 & E2 & _); [lia|]. exists (int_digits (Z.abs e)). repeat split; auto. }
    destruct X as (d & D1 & D2 & D3).
    assert (T : t = map digit_code (padded 1 (r / 1000)) ++ dot :: map digit_code (padded 3 (r mod 1000)) ++ 101%Z :: (if Z.ltb e 0 then 45%Z else 43%Z) :: map digit_code d).
    { unfold t. rewrite D2. change (lit "e") with [101%Z]. change (lit "-") with [45%Z]. change (lit "+") with [43%Z]. cbn [app]. destruct (Z.ltb e 0); reflexivity. }
    destruct (read_sci (padded 1 (r / 1000)) (padded 3 (r mod 1000)) (if Z.ltb e 0 then 45%Z else 43%Z) e d) as (L & V); auto.
    - cbn. discriminate.
    - destruct (Z.ltb_spec e 0); [right|left]; split; auto; lia.
    - rewrite T. split; [exact L|]. refine (eq_trans V _). apply (f_equal Some). rewrite F2, W3, F3. change (pow10 1) with 10%Z. change (pow10 3) with 1000%Z.
      rewrite !Z.mod_small by lia. rewrite !Z.mul_0_l, !Z.add_0_l. replace (e - 3)%Z with (e + - (3))%Z by lia. rewrite ten_to_plus. change (- Z.of_nat 3)%Z with (- (3))%Z.
      rewrite (Z.div_mod r 1000) at 3 by lia. rewrite qz_add, qz_mul. pose proof (ten_to_inv 3) as I. rewrite ten_to_3 in I. set (c := ten_to (- (3))) in *. clearbody c.
      transitivity (qz (r / 1000) * (qz 1000 * c) * ten_to e + qz (r mod 1000) * c * ten_to e)%Qc; [rewrite I; ring|ring]. }
  destruct (Z.eqb_spec r 10000) as [E|E].
  - destruct (G 1000%Z (e + 1)%Z) as (G1 & G2); [lia|]. split; [exact G1|]. refine (eq_trans G2 _). rewrite E. apply (f_equal Some).
    replace (e + 1 - 3)%Z with (e - 3 + 1)%Z by lia. rewrite ten_to_succ. change 10000%Z with (1000 * 10)%Z. rewrite qz_mul. ring.
  - apply G. lia.
Qed.

Lemma qabs_nonneg x : (0 <= x)%Qc -> qabs x = x.
Proof. intros H. unfold qabs. destruct (qlt_spec x 0); auto. exfalso. qclra. Qed.
Lemma qabs_neg x : (x <= 0)%Qc -> qabs x = (- x)%Qc.
Proof. intros H. unfold qabs. destruct (qlt_spec x 0); auto. assert (x = 0%Qc) as -> by (apply Qcle_antisym; qclra). ring. Qed.
Lemma qabs_bound x d : (- d <= x)%Qc -> (x <= d)%Qc -> (qabs x <= d)%Qc.
Proof. intros H K. unfold qabs. destruct (qlt_spec x 0); qclra. Qed.
Lemma qabs_inv x d : (qabs x <= d)%Qc -> (- d <= x /\ x <= d)%Qc.
Proof. unfold qabs. destruct (qlt_spec x 0); intros; split; qclra. Qed.
Lemma ten_to_ge1 k : (1 <= ten_to (Z.of_nat k))%Qc.
Proof. rewrite ten_to_nat, <- qz_1. apply (proj2 (qz_le _ _)). pose proof (pow10_pos k). lia. Qed.
Lemma ten_to_mono a b : (a <= b)%Z -> (ten_to a <= ten_to b)%Qc.
Proof.
  intros H. replace b with (a + Z.of_nat (Z.to_nat (b - a)))%Z by lia. rewrite ten_to_plus. pose proof (ten_to_ge1 (Z.to_nat (b - a))) as G. pose proof (ten_to_pos a) as P.
  set (u := ten_to (Z.of_nat _)) in *. set (v := ten_to a) in *. clearbody u v. clear - G P. qcnra.
Qed.
Lemma log_unique y a : (0 < y)%Qc -> (ten_to a <= y)%Qc -> (y < ten_to (a + 1))%Qc -> floor_log10 y = a.
Proof.
  intros H A B. destruct (floor_log10_spec y H) as (C & D & _). set (b := floor_log10 y) in *.
  destruct (Z.lt_trichotomy a b) as [L|[E|L]]; auto; exfalso.
  - pose proof (ten_to_mono (a + 1) b ltac:(lia)) as M. clear - M B C. qclra.
  - pose proof (ten_to_mono (b + 1) a ltac:(lia)) as M. clear - M A D. qclra.
Qed.
Lemma rounded m k : (0 <= m)%Qc -> (qz 1000 * ten_to (- k) <= m)%Qc -> (3 <= k)%Z ->
  let v := (qz (rint (m * ten_to k)) * ten_to (- k))%Qc in
  (0 <= v)%Qc /\ (qabs (v - m) <= m * Q2Qc (1 # 2000))%Qc /\ ((exists z, m * qz 1000 = qz z)%Qc -> v = m).
Proof.
  intros H0 H K v. pose proof (ten_to_inv k) as I. pose proof (ten_to_pos k) as P. pose proof (ten_to_pos (- k)) as P'.
  assert (M0 : (0 <= m * ten_to k)%Qc) by (clear - H0 P; qcnra). split; [|split].
  - assert (R : (0 <= rint (m * ten_to k))%Z) by (apply rint_le; rewrite qz_0; exact M0). apply (proj2 (qz_le _ _)) in R. rewrite qz_0 in R.
    unfold v. set (r := qz _) in *. set (u := ten_to (- k)) in *. clearbody r u. clear - R P'. qcnra.
  - destruct (rint_spec (m * ten_to k)) as (R1 & R2). unfold v. set (r := qz (rint _)) in *. set (a := ten_to k) in *. set (b := ten_to (- k)) in *. clearbody r a b. change (qz 1000) with (Q2Qc (1000 # 1)) in H.
    assert (E : m = (m * a * b)%Qc) by (transitivity (m * (a * b))%Qc; [rewrite I; ring|ring]). assert (B : (b * Q2Qc (1 # 2) <= m * Q2Qc (1 # 2000))%Qc) by (clear - H; qclra).
    assert (U : ((r - Q2Qc (1 # 2)) * b <= m)%Qc) by (rewrite E; set (y := (m * a)%Qc) in *; clearbody y; clear - R1 P'; qcnra).
    assert (V : (m <= (r + Q2Qc (1 # 2)) * b)%Qc) by (rewrite E; set (y := (m * a)%Qc) in *; clearbody y; clear - R2 P'; qcnra).
    apply qabs_bound; clear - U V B; [assert (((r - Q2Qc (1 # 2)) * b = r * b - b * Q2Qc (1 # 2))%Qc) as E by ring|]; assert (((r + Q2Qc (1 # 2)) * b = r * b + b * Q2Qc (1 # 2))%Qc) as E' by ring; assert (((r - Q2Qc (1 # 2)) * b = r * b - b * Q2Qc (1 # 2))%Qc) as E'' by ring; rewrite E', E'' in *; set (y := (r * b)%Qc) in *; clearbody y; qclra.
  - intros (z & Hz). unfold v. assert (E : (m * ten_to k = qz (z * pow10 (Z.to_nat (k - 3))))%Qc).
    { replace k with (3 + Z.of_nat (Z.to_nat (k - 3)))%Z at 1 by lia. rewrite ten_to_plus, ten_to_3, ten_to_nat, Qcmult_assoc, Hz, qz_mul. reflexivity. }
    rewrite E, rint_int, <- E, <- Qcmult_assoc, I. ring.
Qed.
Lemma is_integer_near m : (0 <= m)%Qc -> is_integer m = true -> exists z, (0 <= z)%Z /\ (qz z - tol_zero < m)%Qc /\ (m < qz z + tol_zero)%Qc.
Proof.
  intros H E. unfold is_integer in E. rewrite (qabs_nonneg m H) in E. destruct (Qfloor_qc m) as (F1 & F2). unfold int_of in E. change (Q2Qc (inject_Z (Qfloor (this m)))) with (qz (Qfloor (this m))) in E.
  set (n := Qfloor (this m)) in *. rewrite qz_add, qz_1 in F2. unfold is_close_to_zero in E.
  assert (N : (0 <= n)%Z).
  { assert (G : (qz 0 < qz (n + 1))%Qc) by (rewrite qz_add, qz_0, qz_1; clear - H F2; set (q := qz n) in *; clearbody q; qclra). apply (proj1 (qz_lt _ _)) in G. lia. }
  destruct (qlt_spec (Q2Qc (1 # 2)) (m - qz n)) as [L|L].
  - exists (n + 1)%Z. rewrite qz_add, qz_1. rewrite qabs_nonneg in E by (clear - F2; set (q := qz n) in *; clearbody q; qclra).
    destruct (qlt_spec (1 - (m - qz n)) tol_zero) as [T|T]; [|discriminate E]. set (q := qz n) in *. clearbody q. unfold tol_zero in *. repeat split; [lia| |]; clear - F1 F2 T; qclra.
  - exists n. rewrite qabs_nonneg in E by (clear - F1; set (q := qz n) in *; clearbody q; qclra).
    destruct (qlt_spec (m - qz n) tol_zero) as [T|T]; [|discriminate E]. set (q := qz n) in *. clearbody q. unfold tol_zero in *. repeat split; [lia| |]; clear - F1 F2 T; qclra.
Qed.
Lemma magnitude_spec m : (0 <= m)%Qc -> layout (magnitude_text m) /\ exists v, read_unsigned (magnitude_text m) = Some v /\ (0 <= v)%Qc /\ shown_as v m.
Proof.
  intros H. unfold magnitude_text, shown_as. rewrite (qabs_nonneg m H). assert (C0 : is_close_to_zero m = qlt m (Q2Qc (1 # 10000000000))) by (unfold is_close_to_zero; now rewrite (qabs_nonneg m H)). rewrite C0. clear C0.
  destruct (qlt_spec m (Q2Qc (1 # 10000000000))) as [L0|L0].
  { split; [exists [0%Z], []; repeat split; try discriminate; [constructor; [lia|constructor]|intros c []]|]. exists 0%Qc. split; [vm_compute; reflexivity|]. repeat split; [apply Qcle_refl|intros C; exfalso; clear - L0 C; qclra|].
    intros (z & Hz) _. assert (Z0 : z = 0%Z).
    { apply Z.le_antisymm.
      - assert (G : (qz z < qz 1)%Qc) by (rewrite <- Hz, qz_1; change (qz 1000) with (Q2Qc (1000 # 1)); clear - L0; qclra). apply (proj1 (qz_lt _ _)) in G. lia.
      - apply (proj1 (qz_le _ _)). rewrite <- Hz, qz_0. change (qz 1000) with (Q2Qc (1000 # 1)); clear - H; qclra. }
    subst z. rewrite qz_0 in Hz. change (qz 1000) with (Q2Qc (1000 # 1)) in Hz. apply Qcle_antisym; clear - Hz H; qclra. }
  assert (M0 : (0 < m)%Qc) by (clear - L0; qclra). assert (N0 : (m < Q2Qc (1 # 10000000000))%Qc -> False) by (intros C; apply L0, C).
  assert (G : forall t v, layout t -> read_unsigned t = Some v -> (0 <= v)%Qc -> (qabs (v - m) <= m * Q2Qc (1 # 2000))%Qc -> ((exists z, m * qz 1000 = qz z)%Qc -> (m <= qz 10000000000)%Qc -> v = m) ->
    layout t /\ exists v, read_unsigned t = Some v /\ (0 <= v)%Qc /\ ((m < Q2Qc (1 # 10000000000))%Qc -> v = 0%Qc) /\ ((Q2Qc (1 # 10000000000) <= m)%Qc -> (qabs (v - m) <= m * Q2Qc (1 # 2000))%Qc) /\ ((exists z, m * qz 1000 = qz z)%Qc -> (m <= qz 10000000000)%Qc -> v = m)).
  { intros t v T1 T2 T3 T4 T5. split; auto. exists v. repeat split; auto. intros C. destruct (N0 C). }
  destruct (qlt_spec (qz 10000000000) m) as [L1|L1].
  { destruct (sci_text_spec m M0) as (S1 & S2). destruct (sci_scale m M0) as (_ & _ & C).
    assert (K : (m < 1)%Qc -> False) by (intros C'; change (qz 10000000000) with (Q2Qc (10000000000 # 1)) in L1; clear - C' L1; qclra).
    replace (floor_log10 m - 3)%Z with (- (3 - floor_log10 m))%Z in * by lia.
    assert (V : let v := (qz (rint (m * ten_to (3 - floor_log10 m))) * ten_to (- (3 - floor_log10 m)))%Qc in (0 <= v)%Qc /\ (qabs (v - m) <= m * Q2Qc (1 # 2000))%Qc).
    { set (k := (3 - floor_log10 m)%Z) in *. clearbody k. (* the bound on k is not needed here *)
      pose proof (ten_to_inv k) as I. pose proof (ten_to_pos k) as P. pose proof (ten_to_pos (- k)) as P'. cbv zeta. split.
      - assert (R : (0 <= rint (m * ten_to k))%Z) by (apply rint_le; rewrite qz_0; clear - H P; qcnra). apply (proj2 (qz_le _ _)) in R. rewrite qz_0 in R.
        set (r := qz _) in *. set (u := ten_to (- k)) in *. clearbody r u. clear - R P'. qcnra.
      - destruct (rint_spec (m * ten_to k)) as (R1 & R2). set (r := qz (rint _)) in *. set (a := ten_to k) in *. set (b := ten_to (- k)) in *. clearbody r a b. change (qz 1000) with (Q2Qc (1000 # 1)) in C.
        assert (E : m = (m * a * b)%Qc) by (transitivity (m * (a * b))%Qc; [rewrite I; ring|ring]). assert (B : (b * Q2Qc (1 # 2) <= m * Q2Qc (1 # 2000))%Qc) by (clear - C; qclra).
        assert (U : ((r - Q2Qc (1 # 2)) * b <= m)%Qc) by (rewrite E; set (y := (m * a)%Qc) in *; clearbody y; clear - R1 P'; qcnra).
        assert (V : (m <= (r + Q2Qc (1 # 2)) * b)%Qc) by (rewrite E; set (y := (m * a)%Qc) in *; clearbody y; clear - R2 P'; qcnra).
        assert (((r + Q2Qc (1 # 2)) * b = r * b + b * Q2Qc (1 # 2))%Qc) as E' by ring; assert (((r - Q2Qc (1 # 2)) * b = r * b - b * Q2Qc (1 # 2))%Qc) as E'' by ring; rewrite E', E'' in *; set (y := (r * b)%Qc) in *; clearbody y; apply qabs_bound; clear - U V B; qclra. }
    cbv zeta in V. destruct V as (V1 & V2). eapply G; eauto. intros _ C'. exfalso. clear - C' L1. set (u := qz 10000000000) in *. clearbody u. qclra. }
  assert (L1' : (m <= qz 10000000000)%Qc) by now apply Qcnot_lt_le.
  destruct (is_integer m) eqn:EI.
  { destruct (is_integer_near m H EI) as (z & Z0 & Z1 & Z2). unfold tol_zero in *.
    assert (R : rint m = z).
    { destruct (rint_spec m) as (R1 & R2). apply Z.le_antisymm.
      - assert (K : (qz (rint m) < qz (z + 1))%Qc) by (rewrite qz_add, qz_1; set (r := qz (rint m)) in *; set (q := qz z) in *; clearbody r q; clear - R1 Z2; qclra). apply (proj1 (qz_lt _ _)) in K. lia.
      - assert (K : (qz z < qz (rint m + 1))%Qc) by (rewrite qz_add, qz_1; set (r := qz (rint m)) in *; set (q := qz z) in *; clearbody r q; clear - R2 Z1; qclra). apply (proj1 (qz_lt _ _)) in K. lia. }
    rewrite R. assert (Zp : (1 <= z)%Z).
    { destruct (Z.eq_dec z 0) as [->|]; [|lia]. rewrite qz_0 in Z2. exfalso. apply N0. clear - Z2. qclra. }
    destruct (int_digits_spec z Z0) as (D1 & D2 & D3 & _). pose proof (proj2 (qz_le _ _) Zp) as Zq. rewrite qz_1 in Zq.
    apply (G _ (qz z)).
    - exact (layout_plain (int_digits z) [] D1 (Forall_nil _) D3).
    - refine (eq_trans (read_plain (int_digits z) [] D1 (Forall_nil _)) _). rewrite D2. apply (f_equal Some). cbn. rewrite qz_0. ring.
    - set (q := qz z) in *. clearbody q. clear - Zq. qclra.
    - set (q := qz z) in *. clearbody q. apply qabs_bound; clear - Zq Z1 Z2; qclra.
    - intros (k & Hk) _. assert (k = 1000 * z)%Z as ->.
      { apply Z.le_antisymm.
        - assert (K : (qz k < qz (1000 * z + 1))%Qc) by (rewrite <- Hk, qz_add, qz_mul, qz_1; change (qz 1000) with (Q2Qc (1000 # 1)); set (q := qz z) in *; clearbody q; clear - Z2; qclra). apply (proj1 (qz_lt _ _)) in K. lia.
        - assert (K : (qz (1000 * z) < qz (k + 1))%Qc) by (rewrite qz_add, <- Hk, qz_mul, qz_1; change (qz 1000) with (Q2Qc (1000 # 1)); set (q := qz z) in *; clearbody q; clear - Z1; qclra). apply (proj1 (qz_lt _ _)) in K. lia. }
      rewrite qz_mul in Hk. change (qz 1000) with (Q2Qc (1000 # 1)) in Hk. set (q := qz z) in *. clearbody q. apply Qcle_antisym; clear - Hk; qclra. }
  destruct (qlt_spec m 1) as [L2|L2].
  - destruct (floor_log10_spec m M0) as (_ & _ & E0). specialize (E0 L2). destruct (sci_scale m M0) as (S1 & S2 & S3). set (e := floor_log10 m) in *.
    replace (Z.abs e + 3)%Z with (3 - e)%Z by lia. rewrite !shift_ten. replace (e - 3)%Z with (- (3 - e))%Z in S3 by lia.
    destruct (rounded m (3 - e) H S3 ltac:(lia)) as (V1 & V2 & V3). set (n := rint (m * ten_to (3 - e))) in *.
    assert (N : (1000 <= n <= 10000)%Z) by (split; [now apply rint_le|now apply rint_ge]).
    destruct (qlt m (Q2Qc (1 # 10000))).
    + set (y := (qz n * ten_to (- (3 - e)))%Qc) in *.
      assert (Y : (0 < y)%Qc) by (apply qmul_pos; [apply qz_pos; lia|apply ten_to_pos]). destruct (sci_text_spec y Y) as (T1 & T2).
      assert (R : (qz (rint (y * ten_to (3 - floor_log10 y))) * ten_to (floor_log10 y - 3) = y)%Qc).
      { assert (Q : forall k, isint (y * ten_to k) -> (qz (rint (y * ten_to k)) * ten_to (- k) = y)%Qc).
        { intros k (z & Hz). rewrite Hz, rint_int, <- Hz, <- Qcmult_assoc, ten_to_inv. ring. }
        replace (floor_log10 y - 3)%Z with (- (3 - floor_log10 y))%Z by lia. apply Q. unfold y at 1.
        assert (T : ten_to (- (3 - e)) = (ten_to e * ten_to (- (3)))%Qc) by (rewrite <- ten_to_plus; f_equal; lia). pose proof (ten_to_inv 3) as I3. rewrite ten_to_3 in I3. pose proof (ten_to_pos e) as Pe.
        destruct (Z.eq_dec n 10000) as [EN|EN].
        - assert (E' : floor_log10 y = (e + 1)%Z).
          { assert (Ey : y = ten_to (e + 1)) by (unfold y; rewrite EN, T, ten_to_succ; change 10000%Z with (1000 * 10)%Z; rewrite qz_mul; transitivity (ten_to e * qz 10 * (qz 1000 * ten_to (- (3))))%Qc; [ring|rewrite I3; ring]).
            apply log_unique; auto; rewrite Ey; [apply Qcle_refl|]. rewrite (ten_to_succ (e + 1)). pose proof (ten_to_pos (e + 1)) as P1. set (u := ten_to (e + 1)) in *. clearbody u. change (qz 10) with (Q2Qc (10 # 1)). clear - P1. qclra. }
          rewrite E', <- Qcmult_assoc, <- ten_to_plus. replace (- (3 - e) + (3 - (e + 1)))%Z with (-1)%Z by lia. rewrite EN. exists 1000%Z. apply Qc_is_canon. reflexivity.
        - assert (E' : floor_log10 y = e).
          { assert (N1 : (qz 1000 <= qz n)%Qc) by (apply (proj2 (qz_le _ _)); lia). assert (N2 : (qz n < qz 10000)%Qc) by (apply (proj2 (qz_lt _ _)); lia).
            pose proof (ten_to_pos (- (3 - e))) as P3. apply log_unique; auto.
            - replace (ten_to e) with (qz 1000 * ten_to (- (3 - e)))%Qc by (rewrite T; transitivity (ten_to e * (qz 1000 * ten_to (- (3))))%Qc; [ring|rewrite I3; ring]). unfold y. set (u := ten_to (- (3 - e))) in *. set (a := qz 1000) in *. set (b := qz n) in *. clearbody u a b. clear - N1 P3. qcnra.
            - replace (ten_to (e + 1)) with (qz 10000 * ten_to (- (3 - e)))%Qc by (rewrite T, ten_to_succ; change 10000%Z with (1000 * 10)%Z; rewrite qz_mul; transitivity (ten_to e * qz 10 * (qz 1000 * ten_to (- (3))))%Qc; [ring|rewrite I3; ring]). unfold y. set (u := ten_to (- (3 - e))) in *. set (a := qz 10000) in *. set (b := qz n) in *. clearbody u a b. clear - N2 P3. qcnra. }
          rewrite E', <- Qcmult_assoc, (Qcmult_comm (ten_to _)), ten_to_inv. exists n. ring. }
      rewrite R in T2. apply (G _ y); auto.
    + destruct (fixed_text_spec n (Z.to_nat (3 - e))) as (T1 & T2); [lia|]. rewrite Z2Nat.id in T2 by lia. eapply G; eauto.
  - assert (L2' : (1 <= m)%Qc) by now apply Qcnot_lt_le. rewrite shift_ten. destruct (rounded m 3 H) as (V1 & V2 & V3); [|lia|].
    + rewrite <- ten_to_3, ten_to_inv. exact L2'.
    + destruct (fixed_text_spec (rint (m * ten_to 3)) 3) as (T1 & T2).
      * apply rint_le. rewrite qz_0. change (ten_to 3) with (Q2Qc (1000 # 1)). clear - H. qclra.
      * change (- Z.of_nat 3)%Z with (- (3))%Z in T2. eapply G; eauto.
Qed.

(** ** a formatted number *)
Definition plain_char (c : Z) : Prop := (43 <= c <= 57)%Z \/ c = 101%Z.
Record formatted (x : Qc) (t : text) (i d : nat) : Prop := mkformatted {
  f_parts : exists a r, t = a ++ dot :: r /\ length a = i /\ length r = d /\ ~ In dot a /\ ~ In dot r;
  f_chars : forall c, In c t -> plain_char c;
  f_read : exists v, read_number t = Some v /\ shown_as v x /\ (0 < v -> 0 < x)%Qc /\ (v < 0 -> x < 0)%Qc;
  f_nonneg : (0 <= x)%Qc -> hd 0%Z t <> 45%Z }.
Lemma split_dots_free a : ~ In dot a -> split_dots a = [a].
Proof.
  induction a as [|c a IH]; intros H; cbn [split_dots]; [reflexivity|]. destruct (Z.eqb_spec c dot) as [E|E]; [destruct H; now left|].
  rewrite IH by (intros I; apply H; now right). reflexivity.
Qed.
Lemma split_dots_cut a r : ~ In dot a -> ~ In dot r -> split_dots (a ++ dot :: r) = [a; r].
Proof.
  induction a as [|c a IH]; intros H K; cbn [app split_dots]; [rewrite Z.eqb_refl, (split_dots_free r K); reflexivity|].
  destruct (Z.eqb_spec c dot) as [E|E]; [destruct H; now left|]. rewrite IH; auto. intros I. apply H. now right.
Qed.
Lemma shown_opp v x : shown_as v x -> shown_as (- v) (- x).
Proof.
  assert (A : forall y, qabs (- y) = qabs y).
  { intros y. unfold qabs. destruct (qlt_spec (- y) 0), (qlt_spec y 0); try ring; try (exfalso; qclra). apply Qcle_antisym; qclra. }
  intros (S1 & S2 & S3). unfold shown_as. rewrite A. repeat split.
  - intros H. rewrite (S1 H). reflexivity.
  - intros H. replace (- v - - x)%Qc with (- (v - x))%Qc by ring. rewrite A. auto.
  - intros (z & Hz) H. rewrite S3; auto. exists (- z)%Z. rewrite qz_opp, <- Hz. ring.
Qed.
Lemma layout_chars t : layout t -> forall c, In c t -> plain_char c.
Proof.
  intros (w & r & -> & _ & Hw & Hr) c I. unfold plain_char. apply in_app_or in I. destruct I as [I|[<-|I]].
  - apply in_map_iff in I. destruct I as (d & <- & Hd). eapply Forall_forall in Hw; [|exact Hd]. unfold digit_code. lia.
  - unfold dot. lia.
  - specialize (Hr _ I). lia.
Qed.
Lemma layout_hd t : layout t -> exists d t', t = digit_code d :: t' /\ (0 <= d <= 9)%Z.
Proof.
  intros (w & r & -> & N & Hw & _). destruct w as [|d w]; [congruence|]. exists d, (map digit_code w ++ dot :: r). split; auto. now inversion Hw.
Qed.
Lemma read_layout t : layout t -> read_number t = read_unsigned t.
Proof.
  intros H. destruct (layout_hd t H) as (d & t' & -> & Hd).
  assert (C : d = 0%Z \/ d = 1%Z \/ d = 2%Z \/ d = 3%Z \/ d = 4%Z \/ d = 5%Z \/ d = 6%Z \/ d = 7%Z \/ d = 8%Z \/ d = 9%Z) by lia.
  repeat (destruct C as [->|C]; [reflexivity|]). subst d. reflexivity.
Qed.
Lemma is_negative_spec x : is_negative x = true <-> (x <= - tol_zero)%Qc.
Proof.
  unfold is_negative, cc_lt, comparator. change (qeq 0 0) with true. cbv iota. unfold is_close_to_zero, qabs.
  rewrite andb_true_iff, negb_true_iff. unfold tol_zero.
  destruct (qlt_spec x 0) as [L|L]; [destruct (qlt_spec (- x) (Q2Qc (1 # 10000000000))) as [T|T]|destruct (qlt_spec x (Q2Qc (1 # 10000000000))) as [T|T]]; split; try (intros (A & B); congruence); try (intros A; exfalso; qclra); intros; try (split; congruence); try qclra.
Qed.
Lemma format_spec x : exists t i d, format_number x = Ok (t, i, d) /\ formatted x t i d.
Proof.
  unfold format_number. set (m := qabs x). assert (M : (0 <= m)%Qc) by (unfold m, qabs; destruct (qlt_spec x 0); qclra).
  destruct (magnitude_spec m M) as (L & v & V1 & V2 & V3). pose proof (layout_chars _ L) as CH. pose proof (read_layout _ L) as RL.
  pose proof (layout_hd _ L) as (d0 & t0 & HD & HD0). destruct L as (w & r & E & N & Hw & Hr). rewrite E in *.
  assert (D1 : ~ In dot (map digit_code w)) by (apply digit_codes_free; auto; unfold dot; lia).
  assert (D2 : ~ In dot r) by (intros I; specialize (Hr _ I); unfold dot in Hr; lia).
  destruct (is_negative x) eqn:EN.
  - apply is_negative_spec in EN. unfold tol_zero in EN. change (lit "-") with [45%Z].
    assert (D3 : ~ In dot (45%Z :: map digit_code w)) by (intros [I|I]; [discriminate I|auto]).
    change ([45%Z] ++ map digit_code w ++ dot :: r) with ((45%Z :: map digit_code w) ++ dot :: r). rewrite split_dots_cut by auto. cbn [map].
    eexists _, _, _. split; [reflexivity|]. split.
    + exists (45%Z :: map digit_code w), r. auto.
    + intros c [<-|I]; [unfold plain_char; lia|auto].
    + exists (- v)%Qc. change (read_number ((45%Z :: map digit_code w) ++ dot :: r)) with (match read_unsigned (map digit_code w ++ dot :: r) with Some v => Some (- v)%Qc | None => None end).
      rewrite V1. split; [reflexivity|]. split; [|split; [intros C; exfalso; clear - V2 C; qclra|intros _; clear - EN; qclra]].
      replace x with (- m)%Qc by (unfold m, qabs; destruct (qlt_spec x 0); [ring|exfalso; qclra]). now apply shown_opp.
    + intros C. exfalso. clear - EN C. qclra.
  - rewrite split_dots_cut by auto. cbn [map]. eexists _, _, _. split; [reflexivity|]. split.
    + exists (map digit_code w), r. auto.
    + auto.
    + exists v. rewrite RL. split; [exact V1|].
      assert (X : ~ (x <= - tol_zero)%Qc) by (rewrite <- is_negative_spec; congruence).
      assert (S : shown_as v x).
      { destruct (qlt_spec x 0) as [L|L].
        - assert (Em : m = (- x)%Qc) by (unfold m, qabs; destruct (qlt_spec x 0); [ring|contradiction]).
          assert (Z : v = 0%Qc). { destruct V3 as (V3 & _). apply V3. rewrite (qabs_nonneg m M), Em. unfold tol_zero in X. clear - X. qclra. }
          subst v. replace x with (- m)%Qc by (rewrite Em; ring). replace 0%Qc with (- 0)%Qc by ring. now apply shown_opp.
        - replace x with m; auto. unfold m, qabs. destruct (qlt_spec x 0); [contradiction|reflexivity]. }
      split; [exact S|]. split; [|intros C; exfalso; clear - C V2; qclra].
      intros C. destruct (qlt_spec 0 x) as [|P]; auto. exfalso. destruct S as (S & _). rewrite S in C; [discriminate C|].
      unfold tol_zero in X. unfold qabs. destruct (qlt_spec x 0); clear - X P; qclra.
    + intros _. rewrite HD. cbn [hd]. unfold digit_code. lia.
Qed.
