From Coq Require Import List Bool Arith ZArith QArith Qcanon Lia.
From Verif Require Import Py QcTac QInt QSum MatModel DetTheory MatTheory RrefModel RrefSpec.
Import ListNotations.
Open Scope nat_scope.

(** *** math.isclose *)
Lemma qabs_spec x : (0 <= x)%Qc /\ qabs x = x \/ (x < 0)%Qc /\ qabs x = (- x)%Qc.
Proof. unfold qabs. destruct (qlt_spec x 0); [right; auto|left; split; auto]. now apply Qcnot_lt_le. Qed.
Lemma qmax_spec x y : (x < y)%Qc /\ qmax x y = y \/ (y <= x)%Qc /\ qmax x y = x.
Proof. unfold qmax. destruct (qle_spec x y) as [H|H]; [|right; split; auto; qclra]. destruct (Qclt_le_dec x y) as [K|K]; [auto|right; split; auto; qclra]. Qed.
Lemma isclose_zero a : isclose a 0 = true <-> a = 0%Qc.
Proof.
  unfold isclose. destruct (qle_spec (qabs (a - 0)) (Q2Qc (1 # 1000000000) * qmax (qabs a) (qabs 0))) as [H|H]; split; try discriminate; auto.
  - intros _. assert (E0 : qabs 0 = 0%Qc) by reflexivity. rewrite E0 in H. assert (EE : (a - 0 = a)%Qc) by ring. rewrite EE in H. set (t := Q2Qc (1 # 1000000000)) in H. assert (T : (0 <= 1 - t)%Qc /\ (1 - t <> 0)%Qc) by (split; discriminate). destruct T as (T1 & T2). clearbody t.
    destruct (qabs_spec a) as [(Ha & Ea)|(Ha & Ea)]; rewrite Ea in H; destruct (qmax_spec (qabs a) 0) as [(Hm & Em)|(Hm & Em)]; rewrite ?Ea in *; try rewrite Em in H.
    + exfalso. clear - Ha Hm. qclra.
    + assert (K : (0 <= (1 - t) * a)%Qc) by now apply qmul_nonneg. assert (K2 : ((1 - t) * a = a - t * a)%Qc) by ring. assert (K3 : ((1 - t) * a = 0)%Qc) by (clear - K K2 H; qclra). apply Qcmult_integral in K3. tauto.
    + exfalso. clear - Ha Hm. qclra.
    + exfalso. assert (K : (0 < (1 - t) * - a)%Qc). { apply qmul_pos; [|clear - Ha; qclra]. destruct (Qc_dec 0 (1 - t)) as [[Z|Z]|Z]; auto; [exfalso; clear - Z T1; qclra|congruence]. } assert (K2 : ((1 - t) * - a = - a - t * - a)%Qc) by ring. clear - K K2 H. qclra.
  - intros ->. exfalso. apply H. vm_compute. discriminate.
Qed.
Lemma isclose_one a : isclose a 1 = true <-> nearly_one a.
Proof.
  unfold isclose, nearly_one, billionth. assert (E1 : qabs 1 = 1%Qc) by reflexivity. rewrite E1.
  assert (G : (qabs (a - 1) <= Q2Qc (1 # 1000000000) * qmax (qabs a) 1)%Qc <-> (0 < a)%Qc /\ (1 - Q2Qc (1 # 1000000000) <= a)%Qc /\ ((1 - Q2Qc (1 # 1000000000)) * a <= 1)%Qc).
  { set (t := Q2Qc (1 # 1000000000)). assert (T : (0 < t)%Qc /\ (t < 1)%Qc) by (split; reflexivity). destruct T as (T1 & T2). clearbody t.
    assert (M1 : ((1 - t) * a = a - t * a)%Qc) by ring. rewrite M1. assert (M2 : (t * 1 = t)%Qc) by ring. assert (M3 : (t * - a = - (t * a))%Qc) by ring.
    assert (P1 : (0 < a - 1 -> 0 < t * (a - 1))%Qc) by (intros; now apply qmul_pos). assert (P2 : (0 <= a -> 0 <= t * a)%Qc) by (intros; apply qmul_nonneg; auto; clear - T1; qclra). assert (P4 : (0 < a -> a <= 1 -> t * a <= t)%Qc). { intros A1 A2. assert (X : (0 <= t * (1 - a))%Qc) by (apply qmul_nonneg; [clear - T1; qclra|clear - A2; qclra]). assert (X2 : (t * (1 - a) = t - t * a)%Qc) by ring. clear - X X2. qclra. }
    assert (P3 : (a < 0 -> 0 < (1 - t) * - a)%Qc) by (intros Hn; apply qmul_pos; [clear - T2; qclra|clear - Hn; qclra]). assert (M4 : ((1 - t) * - a = - a + t * a)%Qc) by ring. rewrite M4 in P3.
    destruct (qabs_spec (a - 1)) as [(A1 & A2)|(A1 & A2)]; rewrite A2; destruct (qabs_spec a) as [(B1 & B2)|(B1 & B2)]; rewrite B2; [destruct (qmax_spec a 1) as [(C1 & C2)|(C1 & C2)]|destruct (qmax_spec (- a) 1) as [(C1 & C2)|(C1 & C2)]|destruct (qmax_spec a 1) as [(C1 & C2)|(C1 & C2)]|destruct (qmax_spec (- a) 1) as [(C1 & C2)|(C1 & C2)]]; rewrite C2, ?M2, ?M3; (split; [intros H; repeat split|intros (H1 & H2 & H3)]).
    all: try (clear M1 M2 M3 M4 P1 P3 P4; clear E1; qclra).
    all: try (specialize (P3 B1); clear - P3 A1 B1 C1 H T1 T2; qclra).
    all: try (exfalso; clear - A1 B1 C1 T1 T2 H; qclra).
    - assert (Z : (0 < a)%Qc) by (clear - H T2; qclra). specialize (P4 Z). assert (Z2 : (a <= 1)%Qc) by (clear - A1; qclra). specialize (P2 B1). clear - P2 Z2. qclra. }
  destruct (qle_spec (qabs (a - 1)) (Q2Qc (1 # 1000000000) * qmax (qabs a) 1)) as [H|H]; rewrite G in H; (split; [intros K; try discriminate K; exact H|intros K; auto; contradiction]).
Qed.
Lemma isclose_int_spec a b : (Z.of_nat a < 1000000000)%Z -> (Z.of_nat b < 1000000000)%Z -> (isclose_int a b = true <-> a = b).
Proof.
  intros Ha Hb. unfold isclose_int, isclose. set (x := qz (Z.of_nat a)). set (y := qz (Z.of_nat b)). set (B := qz 1000000000). assert (EB : (Q2Qc (1 # 1000000000) * B = 1)%Qc) by (apply Qc_is_canon; reflexivity). set (t := Q2Qc (1 # 1000000000)) in *. assert (T1 : (0 < t)%Qc) by reflexivity. clearbody t.
  assert (X0 : (0 <= x)%Qc) by (unfold x; rewrite <- qz_0; apply qz_le; lia). assert (Y0 : (0 <= y)%Qc) by (unfold y; rewrite <- qz_0; apply qz_le; lia).
  assert (XB : (x < B)%Qc) by (apply qz_lt; lia). assert (YB : (y < B)%Qc) by (apply qz_lt; lia).
  assert (AX : qabs x = x) by (destruct (qabs_spec x) as [(_ & ?)|(Z & _)]; auto; exfalso; clear - Z X0; qclra). assert (AY : qabs y = y) by (destruct (qabs_spec y) as [(_ & ?)|(Z & _)]; auto; exfalso; clear - Z Y0; qclra). rewrite AX, AY.
  assert (MB : (t * qmax x y < 1)%Qc). { rewrite <- EB. assert (D : (qmax x y < B)%Qc) by (destruct (qmax_spec x y) as [(_ & ->)|(_ & ->)]; auto). assert (K : (0 < t * (B - qmax x y))%Qc) by (apply qmul_pos; auto; clear - D; qclra). assert (K2 : (t * (B - qmax x y) = t * B - t * qmax x y)%Qc) by ring. clear - K K2. qclra. }
  destruct (qle_spec (qabs (x - y)) (t * qmax x y)) as [H|H]; split; try discriminate; auto.
  - intros _. destruct (Nat.lt_trichotomy a b) as [L|[L|L]]; auto; exfalso.
    + assert (K : (x + 1 <= y)%Qc) by (unfold x, y; rewrite <- qz_1, <- qz_add; apply qz_le; lia). destruct (qabs_spec (x - y)) as [(Z & E)|(Z & E)]; rewrite E in H; clear - K Z H MB; qclra.
    + assert (K : (y + 1 <= x)%Qc) by (unfold x, y; rewrite <- qz_1, <- qz_add; apply qz_le; lia). destruct (qabs_spec (x - y)) as [(Z & E)|(Z & E)]; rewrite E in H; clear - K Z H MB; qclra.
  - intros ->. exfalso. apply H. unfold x. fold y. replace (y - y)%Qc with 0%Qc by ring. change (qabs 0) with 0%Qc. apply qmul_nonneg; [clear - T1; qclra|]. destruct (qmax_spec y y) as [(Z & E)|(Z & E)]; rewrite E; auto.
Qed.

(** *** row operations *)
Lemma nth_map_seq {A} (f : nat -> A) m r d : r < m -> nth r (map f (seq 0 m)) d = f r.
Proof. intros H. rewrite (nth_indep _ d (f 0)) by (now rewrite map_length, seq_length). rewrite map_nth. now rewrite seq_nth. Qed.
Lemma length_swap M i k : length (swap_rows M i k) = length M. Proof. unfold swap_rows. now rewrite map_length, seq_length. Qed.
Lemma length_divide M i x : length (divide_row M i x) = length M. Proof. unfold divide_row. now rewrite map_length, seq_length. Qed.
Lemma length_eliminate M i c : length (eliminate M i c) = length M. Proof. unfold eliminate. now rewrite map_length, seq_length. Qed.
Lemma ent_swap M i k r j : r < length M -> ent (swap_rows M i k) r j = ent M (if Nat.eqb r i then k else if Nat.eqb r k then i else r) j.
Proof. intros H. unfold ent at 1, swap_rows. rewrite nth_map_seq by auto. reflexivity. Qed.
Lemma ent_divide M i x r j : r < length M -> ent (divide_row M i x) r j = if Nat.eqb r i then (ent M r j / x)%Qc else ent M r j.
Proof.
  intros H. unfold ent at 1, divide_row. rewrite nth_map_seq by auto. cbv zeta. destruct (Nat.eqb r i); [|reflexivity]. rewrite at_map; [reflexivity|]. unfold Qcdiv. ring.
Qed.
Lemma ent_eliminate n M i c r j : shaped n M -> i < length M -> r < length M -> ent (eliminate M i c) r j = if Nat.eqb r i then ent M r j else (ent M r j - ent M i j * (ent M r c / ent M i c))%Qc.
Proof.
  intros S Hi H. unfold ent at 1, eliminate. rewrite nth_map_seq by auto. cbv zeta. destruct (Nat.eqb r i); [reflexivity|]. rewrite at_vsub by (rewrite map_length, !(shaped_nth n) by auto; reflexivity). rewrite at_map by ring. reflexivity.
Qed.
Lemma shaped_rows n M (f : nat -> list Qc) m : (forall r, r < m -> length (f r) = n) -> M = map f (seq 0 m) -> shaped n M.
Proof. intros H ->. apply Forall_forall. intros v Hv. apply in_map_iff in Hv as (r & <- & Hr). apply in_seq in Hr. apply H. lia. Qed.
Lemma shaped_swap n M i k : shaped n M -> i < length M -> k < length M -> shaped n (swap_rows M i k).
Proof. intros S Hi Hk. eapply shaped_rows; [|reflexivity]. intros r Hr. cbv beta. apply shaped_nth; auto. destruct (Nat.eqb r i); auto. destruct (Nat.eqb r k); auto. Qed.
Lemma shaped_divide n M i x : shaped n M -> shaped n (divide_row M i x).
Proof. intros S. eapply shaped_rows; [|reflexivity]. intros r Hr. cbv beta zeta. destruct (Nat.eqb r i); rewrite ?map_length; now apply shaped_nth. Qed.
Lemma shaped_eliminate n M i c : shaped n M -> i < length M -> shaped n (eliminate M i c).
Proof. intros S Hi. eapply shaped_rows; [|reflexivity]. intros r Hr. cbv beta zeta. destruct (Nat.eqb r i); [now apply shaped_nth|]. rewrite length_vsub; rewrite ?map_length, !(shaped_nth n) by auto; reflexivity. Qed.

(** *** row space *)
Lemma rs_row n M i : i < length M -> in_row_space n M (ent M i).
Proof. intros H. exists (delta i). intros j _. symmetry. now apply (Sum_delta_l (length M) i (fun k => ent M k j)). Qed.
Lemma rs_lin n M u v a b : in_row_space n M u -> in_row_space n M v -> in_row_space n M (fun j => (a * u j + b * v j)%Qc).
Proof.
  intros (w & Hw) (z & Hz). exists (fun i => (a * w i + b * z i)%Qc). intros j Hj. rewrite Hw, Hz by auto. rewrite <- !Sum_scal, <- Sum_add. apply Sum_ext. intros i _. ring.
Qed.
Lemma rs_ext n M u v : (forall j, j < n -> u j = v j) -> in_row_space n M u -> in_row_space n M v.
Proof. intros H (w & Hw). exists w. intros j Hj. rewrite <- H by auto. now apply Hw. Qed.
Lemma finite_choice {A} (m : nat) (P : nat -> A -> Prop) (a0 : A) : (forall i, i < m -> exists a, P i a) -> exists f : nat -> A, forall i, i < m -> P i (f i).
Proof.
  induction m as [|m IH]; intros H; [exists (fun _ => a0); intros; lia|]. destruct (IH ltac:(intros i Hi; apply H; lia)) as (f & Hf). destruct (H m ltac:(lia)) as (a & Ha).
  exists (fun i => if Nat.eqb i m then a else f i). intros i Hi. destruct (Nat.eqb_spec i m) as [->|Ne]; auto. apply Hf. lia.
Qed.
Lemma rs_trans n M N v : (forall i, i < length N -> in_row_space n M (ent N i)) -> in_row_space n N v -> in_row_space n M v.
Proof.
  intros H (w & Hw). destruct (finite_choice (length N) (fun i a => forall j, j < n -> ent N i j = Sum (length M) (fun k => (a k * ent M k j)%Qc)) (fun _ => 0%Qc) H) as (W & HW).
  exists (fun k => Sum (length N) (fun i => (w i * W i k)%Qc)). intros j Hj. rewrite Hw by auto. transitivity (Sum (length N) (fun i => Sum (length M) (fun k => (w i * W i k * ent M k j)%Qc))).
  - apply Sum_ext. intros i Hi. rewrite HW by auto. rewrite <- Sum_scal. apply Sum_ext. intros k _. ring.
  - rewrite Sum_swap. apply Sum_ext. intros k _. now rewrite Sum_scalr.
Qed.
Lemma same_of_rows n M N : (forall i, i < length N -> in_row_space n M (ent N i)) -> (forall i, i < length M -> in_row_space n N (ent M i)) -> same_row_space n M N.
Proof. intros H1 H2 v. split; intros H; [apply (rs_trans n N M)|apply (rs_trans n M N)]; auto. Qed.
Lemma same_refl n M : same_row_space n M M. Proof. intros v. reflexivity. Qed.
Lemma same_trans n M N P : same_row_space n M N -> same_row_space n N P -> same_row_space n M P.
Proof. intros H1 H2 v. rewrite (H1 v). apply H2. Qed.
Lemma same_swap n M i k : i < length M -> k < length M -> same_row_space n M (swap_rows M i k).
Proof.
  intros Hi Hk. apply same_of_rows.
  - rewrite length_swap. intros r Hr. set (s := if Nat.eqb r i then k else if Nat.eqb r k then i else r). apply rs_ext with (u := ent M s); [intros j _; symmetry; now apply ent_swap|]. apply rs_row. unfold s. destruct (Nat.eqb r i); auto. destruct (Nat.eqb r k); auto.
  - intros r Hr. set (s := if Nat.eqb r i then k else if Nat.eqb r k then i else r). assert (Hs : s < length M) by (unfold s; destruct (Nat.eqb r i); auto; destruct (Nat.eqb r k); auto).
    apply rs_ext with (u := ent (swap_rows M i k) s); [|apply rs_row; now rewrite length_swap]. intros j _. rewrite ent_swap by auto. f_equal. unfold s. destruct (Nat.eqb_spec r i) as [->|]; [|destruct (Nat.eqb_spec r k) as [->|]].
    + destruct (Nat.eqb_spec k i); [auto|]. now rewrite Nat.eqb_refl.
    + now rewrite Nat.eqb_refl.
    + destruct (Nat.eqb_spec r i); [congruence|]. destruct (Nat.eqb_spec r k); [congruence|]. reflexivity.
Qed.
Lemma same_divide n M i x : i < length M -> x <> 0%Qc -> same_row_space n M (divide_row M i x).
Proof.
  intros Hi Hx. apply same_of_rows.
  - rewrite length_divide. intros r Hr. apply rs_ext with (u := fun j => ((if Nat.eqb r i then / x else 1) * ent M r j + 0 * ent M r j)%Qc); [|apply rs_lin; now apply rs_row]. intros j _. rewrite ent_divide by auto. destruct (Nat.eqb r i); [unfold Qcdiv; ring|ring].
  - intros r Hr. apply rs_ext with (u := fun j => ((if Nat.eqb r i then x else 1) * ent (divide_row M i x) r j + 0 * ent (divide_row M i x) r j)%Qc); [|apply rs_lin; apply rs_row; now rewrite length_divide]. intros j _. rewrite ent_divide by auto. destruct (Nat.eqb r i); [field; auto|ring].
Qed.
Lemma same_eliminate n M i c : shaped n M -> i < length M -> same_row_space n M (eliminate M i c).
Proof.
  intros S Hi. apply same_of_rows.
  - rewrite length_eliminate. intros r Hr. apply rs_ext with (u := fun j => (1 * ent M r j + (if Nat.eqb r i then 0 else - (ent M r c / ent M i c)) * ent M i j)%Qc); [|apply rs_lin; now apply rs_row]. intros j _. rewrite (ent_eliminate n) by auto. destruct (Nat.eqb r i); ring.
  - intros r Hr. apply rs_ext with (u := fun j => (1 * ent (eliminate M i c) r j + (if Nat.eqb r i then 0 else ent M r c / ent M i c) * ent (eliminate M i c) i j)%Qc); [|apply rs_lin; apply rs_row; now rewrite length_eliminate].
    intros j _. rewrite !(ent_eliminate n) by auto. rewrite Nat.eqb_refl. destruct (Nat.eqb r i); ring.
Qed.

(** *** the search for a pivot *)
Lemma find_pivot_spec n : (Z.of_nat n < 1000000000)%Z -> forall fuel M row col i, (Z.of_nat (length M) < 1000000000)%Z ->
  row < length M -> col < n -> i + row <= length M -> (n - col) * (length M + 1 - row) <= fuel + i ->
  (forall k j, row <= k -> k < length M -> j < col -> ent M k j = 0%Qc) ->
  (forall k, row <= k -> k < row + i -> ent M k col = 0%Qc) ->
  (exists M', find_pivot fuel n M row col i = Ok (M', n) /\ M' = M /\ forall k j, row <= k -> k < length M -> j < n -> ent M k j = 0%Qc) \/
  (exists k c M', find_pivot fuel n M row col i = Ok (M', c) /\ row <= k /\ k < length M /\ (M' = swap_rows M row k \/ M' = M) /\ col <= c /\ c < n /\ ent M' row c <> 0%Qc /\
     (k = row -> M' = M) /\ (k <> row -> M' = swap_rows M row k) /\ (forall r j, row <= r -> r < length M -> j < c -> ent M' r j = 0%Qc)).
Proof.
  intros Hn. induction fuel as [|fuel IH]; intros M row col i Hm Hr Hc Hi Hf Z1 Z2.
  { exfalso. assert ((n - col) * (length M + 1 - row) >= 1 * (length M + 1 - row)) by (apply Nat.mul_le_mono_r; lia). lia. }
  remember (find_pivot (S fuel) n M row col i) as F eqn:EF. cbn [find_pivot] in EF. unfold read at 1 in EF. rewrite (proj2 (Nat.ltb_lt _ _) Hr), (proj2 (Nat.ltb_lt _ _) Hc) in EF. cbn [andb bind] in EF.
  destruct (isclose (ent M row col) 0) eqn:E0; cbn [negb] in EF.
  2:{ right. exists row, col, M. do 6 (split; [auto|]). split; [intros K; apply isclose_zero in K; congruence|]. split; [auto|]. split; [intros K; congruence|]. exact Z1. }
  apply isclose_zero in E0. destruct (isclose_int (i + row) (length M)) eqn:E1.
  - apply isclose_int_spec in E1; [|lia..]. assert (ZC : forall k, row <= k -> k < length M -> ent M k col = 0%Qc) by (intros k K1 K2; apply Z2; lia).
    destruct (isclose_int (S col) n) eqn:E2.
    + apply isclose_int_spec in E2; [|lia..]. left. exists M. rewrite E2 in EF. split; auto. split; auto. intros k j K1 K2 K3. destruct (Nat.eq_dec j col) as [->|]; auto. apply Z1; auto. lia.
    + assert (NE : S col <> n) by (intros K; apply (isclose_int_spec (S col) n) in K; [congruence|lia..]).
      destruct (IH M row (S col) 0) as [(M' & IHx)|(k & c & M' & IHx)]; auto; try lia.
      * intros k j K1 K2 K3. destruct (Nat.eq_dec j col) as [->|]; auto. apply Z1; auto. lia.
      * left. rewrite EF. eauto.
      * right. exists k, c, M'. destruct IHx as (F0 & F1 & F2 & F3 & F4 & F5). split; [rewrite EF; exact F0|]. split; auto. split; auto. split; auto. split; [lia|auto].
  - assert (NE : i + row <> length M) by (intros K; apply (isclose_int_spec (i + row) (length M)) in K; [congruence|lia..]).
    unfold read in EF. assert (Hri : row + i < length M) by lia. rewrite (proj2 (Nat.ltb_lt _ _) Hri), (proj2 (Nat.ltb_lt _ _) Hc) in EF. cbn [andb bind] in EF.
    destruct (isclose (ent M (row + i) col) 0) eqn:E2; cbn [negb] in EF.
    + apply isclose_zero in E2. rewrite EF. apply IH; auto; try lia. intros k K1 K2. destruct (Nat.eq_dec k (row + i)) as [->|]; auto. apply Z2; auto. lia.
    + assert (N0 : i <> 0) by (intros ->; rewrite Nat.add_0_r in E2; rewrite E0 in E2; discriminate E2). right. exists (row + i), col, (swap_rows M row (row + i)). split; auto. split; [lia|]. split; auto. split; auto. split; auto. split; auto. split; [|split; [lia|split; [auto|]]].
      * rewrite ent_swap by auto. rewrite Nat.eqb_refl. intros K. apply isclose_zero in K. congruence.
      * intros r j K1 K2 K3. rewrite ent_swap by auto. destruct (Nat.eqb r row); [apply Z1; auto; lia|]. destruct (Nat.eqb r (row + i)); apply Z1; auto.
Qed.

(** *** the main loop *)
Section Loop.
Context (n : nat) (Hn : (Z.of_nat n < 1000000000)%Z) (one : Qc -> Prop) (Inv : matrix -> list nat -> nat -> Prop).
Context (one_1 : one 1%Qc) (one_nz : forall x, one x -> x <> 0%Qc).
Context (inv_near : forall M p row c, Inv M p row -> shaped n M -> length p = row -> row < length M -> c < n -> nearly_one (ent M row c) -> one (ent M row c)).
Context (inv_swap : forall M p row k, Inv M p row -> shaped n M -> length p = row -> row < length M -> row < k -> k < length M -> Inv (swap_rows M row k) p row).
Context (inv_eliminate : forall M p row c, Inv M p row -> shaped n M -> length p = row -> row < length M -> c < n -> one (ent M row c) -> Inv (eliminate M row c) (p ++ [c]) (S row)).
Context (inv_divide : forall M p row c, Inv M p row -> shaped n M -> length p = row -> row < length M -> c < n -> ent M row c <> 0%Qc -> Inv (eliminate (divide_row M row (ent M row c)) row c) (p ++ [c]) (S row)).
Definition state (M : matrix) (p : list nat) (row col : nat) : Prop :=
  length p = row /\ row <= length M /\ increasing p /\ (forall i, i < row -> nth i p 0 < col /\ leads one M i (nth i p 0)) /\ (forall k j, row <= k -> k < length M -> j < col -> ent M k j = 0%Qc).
Lemma leads_swap M i c row k : i < row -> row < length M -> row <= k -> k < length M -> leads one M i c -> leads one (swap_rows M row k) i c.
Proof.
  intros H0 H1 H2 H3 (L1 & L2 & L3). assert (X : forall r j, r < row -> ent (swap_rows M row k) r j = ent M r j).
  { intros r j Hr. rewrite ent_swap by lia. destruct (Nat.eqb_spec r row); [lia|]. destruct (Nat.eqb_spec r k); [lia|]. auto. }
  split; [|split].
  - now rewrite X.
  - intros j Hj. rewrite X by auto. auto.
  - rewrite length_swap. intros r R1 R2. rewrite ent_swap by auto. destruct (Nat.eqb r row); [apply L3; lia|]. destruct (Nat.eqb r k); [apply L3; lia|now apply L3].
Qed.
Lemma state_swap M p row col k : state M p row col -> row < length M -> row <= k -> k < length M -> state (swap_rows M row k) p row col.
Proof.
  intros (S1 & S2 & S3 & S4 & S5) H1 H2 H3. split; auto. rewrite length_swap. split; auto. split; auto. split.
  - intros i Hi. destruct (S4 i Hi) as (A1 & A2). split; auto. now apply leads_swap.
  - intros r j R1 R2 R3. rewrite ent_swap by auto. destruct (Nat.eqb r row); [apply S5; lia|]. destruct (Nat.eqb r k); apply S5; auto.
Qed.
Lemma state_divide M p row col x : state M p row col -> row < length M -> state (divide_row M row x) p row col.
Proof.
  intros (S1 & S2 & S3 & S4 & S5) H1. split; auto. rewrite length_divide. split; auto. split; auto. assert (D0 : (0 / x = 0)%Qc) by (unfold Qcdiv; ring). split.
  - intros i Hi. destruct (S4 i Hi) as (A1 & (L1 & L2 & L3)). split; auto. split; [|split].
    + rewrite ent_divide by lia. destruct (Nat.eqb_spec i row); [lia|auto].
    + intros j Hj. rewrite ent_divide by lia. destruct (Nat.eqb_spec i row); [lia|auto].
    + rewrite length_divide. intros r R1 R2. rewrite ent_divide by auto. rewrite L3 by auto. destruct (Nat.eqb r row); auto.
  - intros r j R1 R2 R3. rewrite ent_divide by auto. rewrite S5 by auto. destruct (Nat.eqb r row); auto.
Qed.
(** once a pivot that is nearly one stands at (row, c) *)
Lemma state_eliminate M p row c : shaped n M -> state M p row c -> row < length M -> c < n -> one (ent M row c) ->
  state (eliminate M row c) (p ++ [c]) (S row) (S c).
Proof.
  intros SH (S1 & S2 & S3 & S4 & S5) Hr Hc N1. assert (NZ : ent M row c <> 0%Qc) by (apply one_nz; exact N1).
  assert (EN : forall r j, r < length M -> ent (eliminate M row c) r j = if Nat.eqb r row then ent M r j else (ent M r j - ent M row j * (ent M r c / ent M row c))%Qc) by (intros; now apply (ent_eliminate n)).
  assert (ER : forall r j, r < length M -> j < c -> ent (eliminate M row c) r j = ent M r j). { intros r j R1 R2. rewrite EN by auto. destruct (Nat.eqb r row); auto. rewrite (S5 row j) by auto. ring. }
  split; [rewrite app_length; cbn; lia|]. rewrite length_eliminate. split; [lia|]. split; [|split].
  - intros i k Hik Hk. rewrite app_length in Hk. cbn in Hk. destruct (Nat.eq_dec k row) as [->|].
    + rewrite (app_nth2 p [c]) with (n := row) by lia. rewrite S1, Nat.sub_diag. cbn [nth]. rewrite app_nth1 by lia. now apply S4.
    + rewrite !app_nth1 by lia. apply S3; lia.
  - intros i Hi. destruct (Nat.eq_dec i row) as [->|].
    + rewrite app_nth2 by lia. rewrite S1, Nat.sub_diag. cbn [nth]. split; [lia|]. split; [|split].
      * rewrite EN by auto. now rewrite Nat.eqb_refl.
      * intros j Hj. rewrite ER by auto. apply S5; auto.
      * rewrite length_eliminate. intros k K1 K2. rewrite EN by auto. destruct (Nat.eqb_spec k row); [congruence|]. field. auto.
    + rewrite app_nth1 by lia. destruct (S4 i ltac:(lia)) as (A1 & (L1 & L2 & L3)). split; [lia|]. split; [|split].
      * rewrite ER by lia. auto.
      * intros j Hj. rewrite ER by lia. auto.
      * rewrite length_eliminate. intros k K1 K2. rewrite ER by lia. auto.
  - intros k j K1 K2 K3. destruct (Nat.eq_dec j c) as [->|].
    + rewrite EN by auto. destruct (Nat.eqb_spec k row); [lia|]. field. auto.
    + rewrite ER by lia. apply S5; lia.
Qed.
Lemma state_final M p row : state M p row n -> leading_rows one n M p /\ increasing p.
Proof.
  intros (S1 & S2 & S3 & S4 & S5). split; auto. split; [lia|]. split; [intros i Hi; apply S4; lia|]. intros i j I1 I2 I3. apply S5; auto. lia.
Qed.

Lemma reduce_spec fuel : forall rows M p row col, (Z.of_nat (length M) < 1000000000)%Z -> n * (length M + 1) <= fuel ->
  shaped n M -> rows + row = length M -> col < n -> state M p row col -> Inv M p row ->
  exists R, reduce fuel n rows M row col = Ok R /\ shaped n R /\ length R = length M /\ same_row_space n M R /\ exists p, leading_rows one n R p /\ increasing p.
Proof.
  induction rows as [|rows IH]; intros M p row col Hm Hf SH Hrow Hc ST IV.
  { exists M. split; [reflexivity|]. split; auto. split; auto. split; [apply same_refl|]. exists p. destruct ST as (S1 & S2 & S3 & S4 & S5). split; auto. split; [lia|]. split; [intros i Hi; destruct (S4 i ltac:(lia)) as (A1 & A2); split; auto; lia|]. intros i j I1 I2. lia. }
  cbn [reduce]. unfold read at 1. assert (Hr : row < length M) by lia. rewrite (proj2 (Nat.ltb_lt _ _) Hr), (proj2 (Nat.ltb_lt _ _) Hc). cbn [andb bind]. assert (Lp : length p = row) by apply ST.
  assert (NEXT : forall M1 c, shaped n M1 -> length M1 = length M -> same_row_space n M M1 -> state M1 p row c -> c < n -> one (ent M1 row c) -> Inv (eliminate M1 row c) (p ++ [c]) (S row) ->
    exists R, (let M' := eliminate M1 row c in if isclose_int (S c) n then Ok M' else reduce fuel n rows M' (S row) (S c)) = Ok R /\ shaped n R /\ length R = length M /\ same_row_space n M R /\ exists p, leading_rows one n R p /\ increasing p).
  { intros M1 c SH1 L1 RS ST1 Hc1 N1 IV1. cbv zeta. assert (Hr1 : row < length M1) by lia. pose proof (state_eliminate M1 p row c SH1 ST1 Hr1 Hc1 N1) as ST2. pose proof (shaped_eliminate n M1 row c SH1 Hr1) as SH2. pose proof (same_trans _ _ _ _ RS (same_eliminate n M1 row c SH1 Hr1)) as RS2.
    destruct (isclose_int (S c) n) eqn:E.
    - apply isclose_int_spec in E; [|lia..]. exists (eliminate M1 row c). split; auto. split; auto. split; [now rewrite length_eliminate|]. split; auto. rewrite E in ST2. exists (p ++ [c]). now apply (state_final _ _ (S row)).
    - assert (NE : S c <> n) by (intros K; apply (isclose_int_spec (S c) n) in K; [congruence|lia..]).
      destruct (IH (eliminate M1 row c) (p ++ [c]) (S row) (S c)) as (R & R1 & R2 & R3 & R4 & R5); auto; rewrite ?length_eliminate, ?L1; auto; try lia. exists R. split; auto. split; auto. split; [rewrite R3, length_eliminate; auto|]. split; auto. apply (same_trans _ _ _ _ RS2 R4). }
  destruct (isclose (ent M row col) 1) eqn:E1; cbn [bind snd fst].
  { apply isclose_one in E1. assert (O1 : one (ent M row col)) by (apply (inv_near M p row col); auto). apply NEXT; auto using same_refl. }
  assert (Hf' : (n - col) * (length M + 1 - row) <= fuel + 0) by (apply Nat.le_trans with (n * (length M + 1)); [apply Nat.mul_le_mono; lia|lia]).
  assert (ST5 : forall k j, row <= k -> k < length M -> j < col -> ent M k j = 0%Qc) by apply ST.
  assert (ST6 : forall k, row <= k -> k < row + 0 -> ent M k col = 0%Qc) by (intros; lia).
  destruct (find_pivot_spec n Hn fuel M row col 0 Hm Hr Hc ltac:(lia) Hf' ST5 ST6) as [(M' & F1 & F2 & F3)|(k & c & M' & F1 & F2 & F3 & F4 & F5 & F6 & F7 & F8 & F9 & F10)].
  - rewrite F1. cbn [bind snd fst]. rewrite (proj2 (isclose_int_spec n n ltac:(lia) ltac:(lia)) eq_refl). cbn [bind snd fst]. subst M'. exists M. split; auto. split; auto. split; auto. split; [apply same_refl|]. destruct ST as (S1 & S2 & S3 & S4 & S5). exists p. split; auto. split; [lia|]. split; [intros i Hi; destruct (S4 i ltac:(lia)) as (A1 & A2); split; auto; lia|]. intros i j I1 I2. apply F3; auto. lia.
  - rewrite F1. cbn [bind snd fst]. destruct (isclose_int c n) eqn:E; [apply isclose_int_spec in E; lia|].
    assert (P : shaped n M' /\ length M' = length M /\ same_row_space n M M' /\ state M' p row col /\ Inv M' p row).
    { destruct (Nat.eq_dec k row) as [Ek|Nk]; [rewrite (F8 Ek); auto using same_refl|]. rewrite (F9 Nk). split; [now apply shaped_swap|]. split; [apply length_swap|]. split; [now apply same_swap|]. split; [now apply state_swap|]. apply inv_swap; auto. lia. }
    destruct P as (P1 & P2 & P3 & P4 & P6). unfold read. assert (Hr' : row < length M') by lia. rewrite (proj2 (Nat.ltb_lt _ _) Hr'), (proj2 (Nat.ltb_lt _ _) F6). cbn [andb bind snd fst].
    assert (P5 : state M' p row c). { destruct P4 as (S1 & S2 & S3 & S4 & S5). split; auto. split; auto. split; auto. split; [intros i Hi; destruct (S4 i Hi); split; auto; lia|]. intros r j R1 R2 R3. apply F10; auto. lia. }
    apply NEXT.
    + now apply shaped_divide.
    + now rewrite length_divide.
    + apply (same_trans _ _ _ _ P3). now apply same_divide.
    + now apply state_divide.
    + auto.
    + rewrite ent_divide by auto. rewrite Nat.eqb_refl. replace (ent M' row c / ent M' row c)%Qc with 1%Qc by (field; auto). exact one_1.
    + now apply inv_divide.
Qed.
Lemma state_start M : state M [] 0 0.
Proof. split; [reflexivity|]. split; [lia|]. split; [intros i k H1 H2; cbn in H2; lia|]. split; intros; lia. Qed.
Lemma to_rref_spec fuel M : shaped n M -> (Z.of_nat (length M) < 1000000000)%Z -> 0 < n -> n * (length M + 1) <= fuel -> Inv M [] 0 ->
  exists R, to_rref fuel n M = Ok R /\ shaped n R /\ length R = length M /\ same_row_space n M R /\ exists p, leading_rows one n R p /\ increasing p.
Proof. intros H1 H2 H3 H4 H5. unfold to_rref. apply (reduce_spec fuel (length M) M [] 0 0); auto using state_start; lia. Qed.
End Loop.
Lemma nearly_one_one : nearly_one 1. Proof. split; [reflexivity|split; discriminate]. Qed.
Lemma nearly_one_nz x : nearly_one x -> x <> 0%Qc. Proof. intros (K & _) E. rewrite E in K. discriminate K. Qed.
Lemma to_rref_general n fuel M : (Z.of_nat n < 1000000000)%Z -> shaped n M -> (Z.of_nat (length M) < 1000000000)%Z -> 0 < n -> n * (length M + 1) <= fuel ->
  exists R, to_rref fuel n M = Ok R /\ shaped n R /\ length R = length M /\ same_row_space n M R /\ exists p, leading_rows nearly_one n R p /\ increasing p.
Proof. intros H1 H2 H3 H4 H5. apply (to_rref_spec n H1 nearly_one (fun _ _ _ => True)); auto using nearly_one_one, nearly_one_nz. Qed.

(** *** is_in_rref *)
Lemma scan_row_spec M z row : forall k c, match scan_row M z row (seq c k) with
  | Some true => z = false /\ exists col, c <= col < c + k /\ nearly_one (ent M row col) /\ (forall j, c <= j -> j < col -> ent M row j = 0%Qc) /\ (forall r, r < length M -> r <> row -> ent M r col = 0%Qc)
  | Some false => forall j, c <= j -> j < c + k -> ent M row j = 0%Qc
  | None => exists col, c <= col < c + k /\ ent M row col <> 0%Qc /\ (forall j, c <= j -> j < col -> ent M row j = 0%Qc) /\ (z = true \/ ~ nearly_one (ent M row col) \/ exists r, r < length M /\ r <> row /\ ent M r col <> 0%Qc)
  end.
Proof.
  induction k as [|k IH]; intros c; cbn [seq scan_row]; [intros; lia|]. destruct (isclose (ent M row c) 0) eqn:E0.
  - apply isclose_zero in E0. specialize (IH (S c)). destruct (scan_row M z row (seq (S c) k)) as [[|]|].
    + destruct IH as (I1 & col & I2 & I3 & I4 & I5). split; auto. exists col. split; [lia|]. split; auto. split; auto. intros j J1 J2. destruct (Nat.eq_dec j c) as [->|]; auto. apply I4; lia.
    + intros j J1 J2. destruct (Nat.eq_dec j c) as [->|]; auto. apply IH; lia.
    + destruct IH as (col & I2 & I3 & I4 & I5). exists col. split; [lia|]. split; auto. split; auto. intros j J1 J2. destruct (Nat.eq_dec j c) as [->|]; auto. apply I4; lia.
  - assert (NZ : ent M row c <> 0%Qc) by (intros K; apply isclose_zero in K; congruence). destruct z; [exists c; split; [lia|]; split; auto; split; [intros; lia|auto]|].
    destruct (isclose (ent M row c) 1) eqn:E1.
    + apply isclose_one in E1. destruct (forallb (fun r => Nat.eqb r row || isclose (ent M r c) 0) (seq 0 (length M))) eqn:EF.
      * split; auto. exists c. split; [lia|]. split; auto. split; [intros; lia|]. intros r R1 R2. rewrite forallb_forall in EF. specialize (EF r ltac:(apply in_seq; lia)). apply orb_true_iff in EF as [EF|EF]; [apply Nat.eqb_eq in EF; congruence|now apply isclose_zero].
      * exists c. split; [lia|]. split; auto. split; [intros; lia|]. right. right. assert (EX : exists r, In r (seq 0 (length M)) /\ (Nat.eqb r row || isclose (ent M r c) 0) = false).
        { clear - EF. induction (seq 0 (length M)) as [|a l IHl]; [discriminate EF|]. cbn in EF. apply andb_false_iff in EF as [EF|EF]; [exists a; split; [now left|auto]|]. destruct (IHl EF) as (r & R1 & R2). exists r. split; [now right|auto]. }
        destruct EX as (r & R1 & R2). apply in_seq in R1. apply orb_false_iff in R2 as (R2 & R3). apply Nat.eqb_neq in R2. exists r. split; [lia|]. split; auto. intros K. apply isclose_zero in K. congruence.
    + exists c. split; [lia|]. split; auto. split; [intros; lia|]. right. left. intros K. apply isclose_one in K. congruence.
Qed.
Lemma scan_rows_spec n M : forall k z row, row + k = length M ->
  scan_rows n M z (seq row k) = true <->
  exists p, length p <= k /\ (z = true -> p = []) /\ (forall i, i < length p -> nth i p 0 < n /\ leads nearly_one M (row + i) (nth i p 0)) /\ (forall i j, row + length p <= i -> i < length M -> j < n -> ent M i j = 0%Qc).
Proof.
  induction k as [|k IH]; intros z row HL; cbn [seq scan_rows].
  - split; auto. intros _. exists []. split; [cbn; lia|]. split; auto. split; [cbn; intros; lia|]. cbn [length]. intros. lia.
  - pose proof (scan_row_spec M z row n 0) as SR. destruct (scan_row M z row (seq 0 n)) as [[|]|]; cbn [negb].
    + destruct SR as (-> & col & C1 & C2 & C3 & C4). cbn [orb]. rewrite (IH false (S row)) by lia. assert (LD : leads nearly_one M row col) by (split; auto; split; auto; intros j Hj; apply C3; lia). split.
      * intros (p & P1 & P2 & P3 & P4). exists (col :: p). cbn [length]. split; [lia|]. split; [discriminate|]. split.
        { intros [|i] Hi; cbn [nth]; [rewrite Nat.add_0_r; split; [lia|auto]|]. replace (row + S i) with (S row + i) by lia. apply P3. lia. }
        intros i j I1. apply P4. lia.
      * intros (p & P1 & P2 & P3 & P4). destruct p as [|c0 p].
        { exfalso. cbn [length] in P4. assert (Z0 : ent M row col = 0%Qc) by (apply P4; lia). destruct C2 as (K & _). rewrite Z0 in K. discriminate K. }
        exists p. cbn [length] in *. split; [lia|]. split; [discriminate|]. split; [|intros i j I1; apply P4; lia]. intros i Hi. specialize (P3 (S i) ltac:(lia)). cbn [nth] in P3. now replace (S row + i) with (row + S i) by lia.
    + rewrite orb_true_r. rewrite (IH true (S row)) by lia. split.
      * intros (p & P1 & P2 & P3 & P4). rewrite (P2 eq_refl) in *. exists []. cbn [length] in *. split; [lia|]. split; auto. split; [intros; lia|]. intros i j I1 I2 I3. destruct (Nat.eq_dec i row) as [->|]; [apply SR; lia|]. apply P4; lia.
      * intros (p & P1 & P2 & P3 & P4). destruct p as [|c0 p].
        { exists []. cbn [length] in *. split; [lia|]. split; auto. split; [intros; lia|]. intros i j I1 I2 I3. apply P4; lia. }
        exfalso. destruct (P3 0 ltac:(cbn; lia)) as (Q1 & Q2 & _). cbn [nth] in *. rewrite Nat.add_0_r in Q2. rewrite (SR c0) in Q2 by lia. destruct Q2 as (K & _). discriminate K.
    + split; [discriminate|]. intros (p & P1 & P2 & P3 & P4). exfalso. destruct SR as (col & C1 & C2 & C3 & C4). destruct p as [|c0 p].
      * cbn [length] in P4. apply C2. apply P4; lia.
      * destruct (P3 0 ltac:(cbn; lia)) as (Q1 & Q2 & Q3 & Q4). cbn [nth] in *. rewrite Nat.add_0_r in *. assert (col = c0) as ->.
        { destruct (Nat.lt_trichotomy col c0) as [L|[L|L]]; auto; exfalso; [apply C2; now apply Q3|]. rewrite (C3 c0) in Q2 by lia. destruct Q2 as (K & _). discriminate K. }
        destruct C4 as [C4|[C4|(r & R1 & R2 & R3)]]; [specialize (P2 C4); discriminate P2|contradiction|]. apply R3. now apply Q4.
Qed.
Lemma is_in_rref_spec n M : is_in_rref n M = true <-> exists p, leading_rows nearly_one n M p.
Proof.
  unfold is_in_rref. rewrite (scan_rows_spec n M (length M) false 0) by lia. split; intros (p & P).
  - destruct P as (P1 & _ & P3 & P4). exists p. split; auto.
  - destruct P as (P1 & P3 & P4). exists p. split; auto. split; [discriminate|]. split; auto.
Qed.
