(** C53 and C55: to_rref and is_in_rref. *)
From Coq Require Import List Bool Arith ZArith QArith Qcanon Lia Factorial.
From Verif Require Import Py QcTac QInt QSum MatModel DetTheory MatTheory RrefModel RrefSpec RrefProofs RrefSmall.
Import ListNotations.
Open Scope nat_scope.

Lemma rectangular_shaped m n M : rectangular m n M <-> length M = m /\ shaped n M.
Proof. unfold rectangular. split; intros (H1 & H2); split; auto; [now apply Forall_forall|]. intros r Hr. now apply (proj1 (Forall_forall _ _) H2). Qed.
Lemma same_solutions n M N x : same_row_space n M N -> solves_homogeneous n M x <-> solves_homogeneous n N x.
Proof.
  assert (G : forall M N, same_row_space n M N -> solves_homogeneous n M x -> solves_homogeneous n N x).
  { clear. intros M N HS HM i Hi. destruct (proj2 (HS (ent N i)) (rs_row n N i Hi)) as (w & Hw). transitivity (Sum (length M) (fun k => (w k * Sum n (fun j => ent M k j * x j))%Qc)).
    - rewrite Sum_assoc. apply Sum_ext. intros j Hj. now rewrite Hw.
    - apply Sum_none. intros k Hk. rewrite HM by auto. ring. }
  intros HS. split; apply G; auto. intros v. symmetry. apply HS.
Qed.

(** ** C53 *)
(** for every matrix with at least one column (and fewer than 10^9 rows and columns): a matrix of the
    same shape with the same row space, in reduced row echelon form except that the leading entries
    may differ from 1 by a relative 10^-9 *)
Theorem C53_reduces_partial m n M : rectangular m n M -> 0 < n -> (Z.of_nat m < 10 ^ 9)%Z -> (Z.of_nat n < 10 ^ 9)%Z ->
  exists R, (forall fuel, n * (m + 1) <= fuel -> to_rref fuel n M = Ok R) /\ rectangular m n R /\ same_row_space n M R /\ nearly_rref n R.
Proof.
  intros HM Hn Hm1 Hn1. apply rectangular_shaped in HM as (L & SM). subst m. destruct (to_rref_general n (n * (length M + 1)) M) as (R & R1 & R2 & R3 & R4 & R5); auto. exists R. split.
  - intros fuel Hf. destruct (to_rref_general n fuel M) as (R' & R1' & _); auto. rewrite R1'. f_equal.
    (* more fuel does not change the result *)
    assert (FP : forall f f' M row col i r, find_pivot f n M row col i = Ok r -> f <= f' -> find_pivot f' n M row col i = Ok r).
    { clear. induction f as [|f IH]; intros f' M row col i r E Hf; [discriminate E|]. destruct f' as [|f']; [lia|]. cbn [find_pivot] in *. destruct (read n M row col) as [a| |]; try discriminate E. cbn [bind] in *. destruct (negb (isclose a 0)); auto. destruct (isclose_int (i + row) (length M)).
      - destruct (isclose_int (S col) n); auto. apply IH; auto. lia.
      - destruct (read n M (row + i) col) as [b| |]; try discriminate E. cbn [bind] in *. destruct (negb (isclose b 0)); auto. apply IH; auto. lia. }
    assert (RD : forall f f' k M row col r, reduce f n k M row col = Ok r -> f <= f' -> reduce f' n k M row col = Ok r).
    { intros f f' k. induction k as [|k IH]; intros M0 row col r E Hff; [exact E|]. cbn [reduce] in *. destruct (read n M0 row col) as [a| |]; try discriminate E. cbn [bind] in *. destruct (isclose a 1); cbn [bind snd fst] in *.
      - destruct (isclose_int (S col) n); auto.
      - destruct (find_pivot f n M0 row col 0) as [(M1 & c)| |] eqn:F; try discriminate E. rewrite (FP f f' _ _ _ _ _ F Hff). cbn [bind snd fst] in *. destruct (isclose_int c n); auto. destruct (read n M1 row c) as [num| |]; try discriminate E. cbn [bind snd fst] in *. destruct (isclose_int (S c) n); auto. }
    unfold to_rref in *. apply (RD _ fuel) in R1; auto. congruence.
  - split; [apply rectangular_shaped; auto|]. split; auto.
Qed.
Print Assumptions C53_reduces_partial.
(** the same homogeneous solutions *)
Theorem C53_same_solutions n M R : same_row_space n M R -> forall x, solves_homogeneous n M x <-> solves_homogeneous n R x.
Proof. intros H x. now apply same_solutions. Qed.
Print Assumptions C53_same_solutions.
(** integer matrices with entries at most E, with m! E^m < 10^9: exactly the reduced row echelon form *)
Theorem C53_integers_partial (A : list (list Z)) E m n : length A = m -> (forall r, In r A -> length r = n) -> 0 < n -> (Z.of_nat n < 10 ^ 9)%Z ->
  (1 <= E)%Z -> (forall r z, In r A -> In z r -> (Z.abs z <= E)%Z) -> (Z.of_nat (fact m) * E ^ Z.of_nat m < 10 ^ 9)%Z ->
  exists R, (forall fuel, n * (m + 1) <= fuel -> to_rref fuel n (map (map qz) A) = Ok R) /\ rectangular m n R /\ same_row_space n (map (map qz) A) R /\ rref n R.
Proof.
  intros Lm Ln Hn Hn1 HE HA HB. set (M := map (map qz) A). assert (LM : length M = m) by (unfold M; now rewrite map_length). assert (RM : rectangular m n M). { split; auto. intros r Hr. apply in_map_iff in Hr as (a & <- & Ha). rewrite map_length. auto. }
  assert (Hm : (Z.of_nat m < 10 ^ 9)%Z).
  { apply Z.le_lt_trans with (2 := HB). assert (F : m <= fact m). { clear. induction m as [|k IH]; [cbn; lia|]. cbn [fact]. pose proof (lt_O_fact k). destruct k; [cbn; lia|]. nia. } assert (P : (1 <= E ^ Z.of_nat m)%Z) by (apply Z.lt_pred_le, Z.pow_pos_nonneg; lia). nia. }
  destruct (C53_reduces_partial m n M RM Hn Hm Hn1) as (R & R1 & R2 & R3 & _). exists R. split; auto. split; auto. split; auto. apply rectangular_shaped in RM as (_ & SM).
  destruct (to_rref_exact n (n * (m + 1)) M E) as (R' & Q1 & _ & _ & _ & p & Q2 & Q3); auto; rewrite ?LM; auto.
  - intros i j Hi Hj. unfold ent, M. rewrite (nth_indep _ [] (map qz [])) by (rewrite map_length; lia). rewrite map_nth. unfold at_. rewrite (nth_indep _ 0%Qc (qz 0)) by (rewrite map_length; rewrite Ln; auto; apply nth_In; lia). rewrite map_nth. set (z := nth j (nth i A []) 0%Z).
    assert (Hz : (Z.abs z <= E)%Z). { apply (HA (nth i A [])); [apply nth_In; lia|]. apply nth_In. rewrite Ln; auto. apply nth_In. lia. }
    split; [now exists z|]. apply SmallProofs.qabs_le. rewrite <- qz_opp. rewrite !qz_le. lia.
  - rewrite R1 in Q1 by auto. injection Q1 as <-. exists p. auto.
Qed.
Print Assumptions C53_integers_partial.
(** *** uniqueness of the reduced row echelon form *)
Section Leading.
  Context (one : Qc -> Prop) (one_nz : forall x, one x -> x <> 0%Qc) (n : nat).
  Lemma coefficient M p v w : leading_rows one n M p -> (forall j, j < n -> v j = Sum (length M) (fun i => (w i * ent M i j)%Qc)) -> forall k, k < length p -> v (nth k p 0) = (w k * ent M k (nth k p O))%Qc.
  Proof. intros (L1 & L2 & L3) Hv k Hk. destruct (L2 k Hk) as (A1 & A2 & A3 & A4). rewrite Hv by auto. rewrite (Sum_single _ k); auto; [lia|]. intros i Hi Ni. rewrite A4 by auto. ring. Qed.
  Lemma combination_zero M p v : leading_rows one n M p -> in_row_space n M v -> (forall k, k < length p -> v (nth k p 0) = 0%Qc) -> forall j, j < n -> v j = 0%Qc.
  Proof.
    intros HL (w & Hw) Hz j Hj. pose proof (coefficient M p v w HL Hw) as C. destruct HL as (L1 & L2 & L3). rewrite Hw by auto. apply Sum_none. intros i Hi. destruct (Nat.lt_ge_cases i (length p)) as [K|K]; [|rewrite L3 by auto; ring].
    specialize (C i K). rewrite Hz in C by auto. destruct (L2 i K) as (_ & A2 & _). symmetry in C. apply Qcmult_integral in C as [->|C]; [ring|]. destruct (one_nz _ A2 C).
  Qed.
  (** the leading column of a nonzero combination is a leading column of the matrix *)
  Lemma leading_column M p v c : leading_rows one n M p -> increasing p -> in_row_space n M v -> c < n -> v c <> 0%Qc -> (forall j, j < c -> v j = 0%Qc) -> In c p.
  Proof.
    intros HL HI (w & Hw) Hc Nz Hz. pose proof (coefficient M p v w HL Hw) as C. destruct HL as (L1 & L2 & L3).
    destruct (in_dec Nat.eq_dec c p) as [|NI]; auto. exfalso. apply Nz. rewrite Hw by auto. apply Sum_none. intros i Hi. destruct (Nat.lt_ge_cases i (length p)) as [K|K]; [|rewrite L3 by auto; ring].
    destruct (L2 i K) as (A1 & A2 & A3 & A4). destruct (Nat.lt_trichotomy (nth i p 0) c) as [T|[T|T]].
    - specialize (C i K). rewrite Hz in C by auto. symmetry in C. apply Qcmult_integral in C as [->|C]; [ring|]. destruct (one_nz _ A2 C).
    - destruct NI. rewrite <- T. now apply nth_In.
    - rewrite A3 by auto. ring.
  Qed.
End Leading.
Lemma increasing_nth p i k : increasing p -> i < length p -> k < length p -> nth i p 0 <= nth k p 0 -> i <= k.
Proof. intros H Hi Hk L. destruct (Nat.le_gt_cases i k) as [|G]; auto. pose proof (H k i G Hi). lia. Qed.
Lemma increasing_prefix p q : increasing p -> increasing q -> (forall c, In c p <-> In c q) -> p = q.
Proof.
  intros Hp Hq HE.
  assert (SS : forall l, increasing l -> Sorted.StronglySorted lt l).
  { clear. induction l as [|a l IH]; intros H; constructor.
    - apply IH. intros i k Hik Hk. apply (H (S i) (S k)); cbn [length]; lia.
    - apply Forall_forall. intros x Hx. apply (In_nth _ _ 0) in Hx as (i & Hi & <-). apply (H 0 (S i)); cbn [length]; lia. }
  apply SS in Hp, Hq. revert q Hq HE. induction Hp as [|a p Hp IH Ha]; intros q Hq HE.
  - destruct q as [|b q]; auto. destruct (proj2 (HE b)). now left.
  - destruct Hq as [|b q Hq Hb]; [destruct (proj1 (HE a)); now left|]. rewrite Forall_forall in Ha, Hb. assert (a = b) as ->.
    { destruct (proj1 (HE a) (or_introl eq_refl)) as [E|E]; auto. destruct (proj2 (HE b) (or_introl eq_refl)) as [E'|E']; auto. specialize (Ha b E'). specialize (Hb a E). lia. }
    f_equal. apply IH; auto. intros c. split; intros Hc.
    + destruct (proj1 (HE c) (or_intror Hc)) as [E|E]; auto. subst c. specialize (Ha _ Hc). lia.
    + destruct (proj2 (HE c) (or_intror Hc)) as [E|E]; auto. subst c. specialize (Hb _ Hc). lia.
Qed.
Lemma is_one_nz x : is_one x -> x <> 0%Qc. Proof. intros -> K. discriminate K. Qed.
(** any nearly reduced matrix with the row space of a reduced one has the rows of the reduced one,
    each multiplied by its leading entry *)
Lemma multiples m n R N : rectangular m n R -> rectangular m n N -> nearly_rref n R -> rref n N -> same_row_space n N R ->
  exists a : nat -> Qc, forall i, i < m -> nearly_one (a i) /\ forall j, j < n -> ent R i j = (a i * ent N i j)%Qc.
Proof.
  intros (LR & _) (LN & _) (p & HR & IR) (q & HN & IN) HS. assert (p = q) as ->.
  { apply increasing_prefix; auto. intros c. split; intros Hc; apply (In_nth _ _ 0) in Hc as (k & Hk & <-).
    - destruct HR as (L1 & L2 & L3). destruct (L2 k Hk) as (A1 & A2 & A3 & A4). apply (leading_column is_one is_one_nz n N q (ent R k)); auto; [apply HS; apply rs_row; lia|]. now apply nearly_one_nz.
    - destruct HN as (L1 & L2 & L3). destruct (L2 k Hk) as (A1 & A2 & A3 & A4). apply (leading_column nearly_one nearly_one_nz n R p (ent N k)); auto; [apply HS; apply rs_row; lia|]. now apply is_one_nz. }
  exists (fun i => if Nat.ltb i (length q) then ent R i (nth i q 0) else 1%Qc). intros i Hi. destruct (Nat.ltb_spec i (length q)) as [K|K].
  - pose proof HR as (L1 & L2 & L3). pose proof HN as (M1 & M2 & M3). destruct (L2 i K) as (A1 & A2 & A3 & A4). split; auto. destruct (M2 i K) as (B1 & B2 & B3 & B4). intros j Hj. set (a := ent R i (nth i q 0)) in *.
    assert (Z : (1 * ent R i j + (- a) * ent N i j = 0)%Qc).
    { apply (combination_zero is_one is_one_nz n N q (fun j => (1 * ent R i j + (- a) * ent N i j)%Qc)); auto.
      - apply rs_lin; [apply HS; apply rs_row; lia|apply rs_row; lia].
      - intros k Hk. destruct (L2 k Hk) as (C1 & C2 & C3 & C4). destruct (M2 k Hk) as (D1 & D2 & D3 & D4). destruct (Nat.eq_dec i k) as [<-|Ne]; [fold a; rewrite B2; ring|]. rewrite C4, D4 by lia. ring. }
    clear - Z. replace (ent R i j) with (1 * ent R i j + - a * ent N i j + a * ent N i j)%Qc by ring. rewrite Z. ring.
  - split; [apply nearly_one_one|]. intros j Hj. destruct HR as (_ & _ & L3). destruct HN as (_ & _ & M3). rewrite L3, M3 by (auto; lia). ring.
Qed.
(** the reduced row echelon form is unique *)
Theorem C53_unique m n R N : rectangular m n R -> rectangular m n N -> rref n R -> rref n N -> same_row_space n R N -> R = N.
Proof.
  intros HR HN RR RN HS. assert (NR : nearly_rref n R). { destruct RR as (p & (P1 & P2 & P3) & P4). exists p. split; auto. split; auto. split; auto. intros i Hi. destruct (P2 i Hi) as (A1 & A2 & A3). split; auto. split; auto. rewrite A2. apply nearly_one_one. }
  destruct (multiples m n R N HR HN NR RN) as (a & Ha); [intros v; symmetry; apply HS|]. apply rectangular_shaped in HR as (LR & SR). apply rectangular_shaped in HN as (LN & SN). apply (mat_ext n); auto; [congruence|]. intros i j Hi Hj. rewrite LR in Hi.
  destruct (Ha i Hi) as (A1 & A2). rewrite A2 by auto. destruct (Qc_eq_dec (a i) 1) as [->|NE]; [ring|]. destruct RR as (p & (P1 & P2 & P3) & P4). destruct (Nat.lt_ge_cases i (length p)) as [K|K].
  - exfalso. apply NE. destruct (P2 i K) as (B1 & B2 & B3). unfold is_one in B2. rewrite A2 in B2 by auto. destruct RN as (q & (Q1 & Q2 & Q3) & Q4). destruct (Nat.lt_ge_cases i (length q)) as [K2|K2].
    + destruct (Q2 i K2) as (C1 & C2 & C3 & C4). pose proof (A2 _ C1) as X. rewrite C2 in X. destruct (Nat.lt_trichotomy (nth i p 0) (nth i q 0)) as [T|[T|T]].
      * rewrite C3 in B2 by auto. exfalso. replace (a i * 0)%Qc with 0%Qc in B2 by ring. discriminate B2.
      * rewrite T in B2. rewrite C2 in B2. replace (a i * 1)%Qc with (a i) in B2 by ring. exact B2.
      * destruct B3 as (B3 & _). rewrite B3 in X by auto. exfalso. apply (nearly_one_nz _ A1). rewrite X. ring.
    + rewrite Q3 in B2 by (auto; lia). exfalso. replace (a i * 0)%Qc with 0%Qc in B2 by ring. discriminate B2.
  - assert (Z : (a i * ent N i j = 0)%Qc) by (rewrite <- A2 by auto; apply P3; auto; lia). rewrite Z. apply Qcmult_integral in Z as [Z|Z]; [destruct (nearly_one_nz _ A1 Z)|now symmetry].
Qed.
Print Assumptions C53_unique.
(** for all matrices: the result has the rows of the reduced row echelon form, up to factors within a
    relative 10^-9 of 1 *)
Theorem C53_multiples_partial m n M N R fuel : rectangular m n M -> 0 < n -> (Z.of_nat m < 10 ^ 9)%Z -> (Z.of_nat n < 10 ^ 9)%Z -> n * (m + 1) <= fuel -> to_rref fuel n M = Ok R ->
  rectangular m n N -> rref n N -> same_row_space n M N ->
  exists a : nat -> Qc, forall i, i < m -> nearly_one (a i) /\ forall j, j < n -> ent R i j = (a i * ent N i j)%Qc.
Proof.
  intros HM Hn Hm1 Hn1 Hf E HN RN HS. destruct (C53_reduces_partial m n M HM Hn Hm1 Hn1) as (R' & R1 & R2 & R3 & R4). rewrite R1 in E by auto. injection E as ->. apply multiples; auto. intros v. rewrite <- (HS v). apply R3.
Qed.
Print Assumptions C53_multiples_partial.
(** *** where it fails *)
(** a leading entry within 10^-9 of 1 is not normalised *)
Theorem C53_nearly_one_refuted : exists M, rectangular 1 1 M /\ (forall fuel, to_rref fuel 1 M = Ok M) /\ ~ rref 1 M.
Proof.
  exists [[Q2Qc (10000000001 # 10000000000)]]. split; [split; [reflexivity|intros r [<-|[]]; reflexivity]|]. split.
  - intros fuel. vm_compute. repeat f_equal.
  - intros (p & (P1 & P2 & P3) & _). destruct p as [|c [|? ?]]; cbn in P1; [|destruct (P2 0 ltac:(cbn; lia)) as (A1 & A2 & _); cbn [nth] in *; destruct c; [discriminate A2|lia]|lia].
    specialize (P3 0 0 (le_n _) ltac:(cbn; lia) ltac:(lia)). discriminate P3.
Qed.
Print Assumptions C53_nearly_one_refuted.
(** a matrix with rows and no columns raises *)
Theorem C53_no_columns_refuted : forall fuel M, M <> [] -> to_rref fuel 0 M = Raise IndexError.
Proof. intros fuel [|r M] H; [congruence|reflexivity]. Qed.
Print Assumptions C53_no_columns_refuted.
(** *** non-vacuity *)
Example C53_example : match to_rref 100 4 (map (map qz) [[0; 2; 4; 2]; [1; 1; 1; 1]; [1; 2; 3; 2]]%Z) with Ok R => map (map this) R = [[1; 0; -1; 0]; [0; 1; 2; 1]; [0; 0; 0; 0]]%Q | _ => False end /\
  (Z.of_nat (fact 3) * 4 ^ Z.of_nat 3 < 10 ^ 9)%Z.
Proof. split; [vm_compute; reflexivity|reflexivity]. Qed.
Example C53_rref_example : rref 3 [[1%Qc; 0%Qc; qz 2]; [0%Qc; 1%Qc; qz 3]; [0%Qc; 0%Qc; 0%Qc]].
Proof.
  exists [0; 1]. split; [split; [cbn; lia|split]|].
  - intros [|[|i]] Hi; cbn [length] in Hi; [| |lia]; cbn [nth]; (split; [lia|]); (split; [reflexivity|split]).
    + intros; lia.
    + intros [|[|[|k]]] K1 K2; try reflexivity; try lia. cbn in K1. lia.
    + intros [|j] Hj; [reflexivity|lia].
    + intros [|[|[|k]]] K1 K2; try reflexivity; try lia. cbn in K1. lia.
  - intros [|[|[|i]]] [|[|[|j]]] I1 I2 I3; cbn in I1, I2; try lia; reflexivity.
  - intros [|[|i]] [|[|k]] H1 H2; cbn in H2; try lia. cbn. lia.
Qed.

(** ** C55 *)
(** exactly what is_in_rref decides: rows with a leading entry within 10^-9 of 1, in any order, then
    zero rows *)
Theorem C55_decides n M : is_in_rref n M = true <-> exists p, leading_rows nearly_one n M p.
Proof. apply is_in_rref_spec. Qed.
Print Assumptions C55_decides.
(** every matrix in reduced row echelon form is accepted *)
Theorem C55_rref_accepted n M : rref n M -> is_in_rref n M = true.
Proof.
  intros (p & (P1 & P2 & P3) & _). apply is_in_rref_spec. exists p. split; auto. split; auto. intros i Hi. destruct (P2 i Hi) as (A1 & A2 & A3). split; auto. split; auto. rewrite A2. apply nearly_one_one.
Qed.
Print Assumptions C55_rref_accepted.
(** the results of to_rref are accepted *)
Theorem C55_recognises_results m n M fuel R : rectangular m n M -> 0 < n -> (Z.of_nat m < 10 ^ 9)%Z -> (Z.of_nat n < 10 ^ 9)%Z -> n * (m + 1) <= fuel -> to_rref fuel n M = Ok R -> is_in_rref n R = true.
Proof.
  intros HM Hn Hm1 Hn1 Hf E. destruct (C53_reduces_partial m n M HM Hn Hm1 Hn1) as (R' & R1 & R2 & R3 & (p & R4 & _)). rewrite R1 in E by auto. injection E as ->. apply is_in_rref_spec. eauto.
Qed.
Print Assumptions C55_recognises_results.
(** accepted integer matrices are reduced up to the order of the rows *)
Theorem C55_integers_partial n (A : list (list Z)) : is_in_rref n (map (map qz) A) = true -> exists p, leading_rows is_one n (map (map qz) A) p.
Proof.
  intros H. apply is_in_rref_spec in H as (p & P1 & P2 & P3). exists p. split; auto. split; auto. intros i Hi. destruct (P2 i Hi) as (A1 & (A2 & A2' & A2'') & A3). split; auto. split; auto. unfold is_one.
  assert (I : isint (ent (map (map qz) A) i (nth i p 0))). { apply SmallProofs.ent_int. intros r v Hr Hv. apply in_map_iff in Hr as (a & <- & _). apply in_map_iff in Hv as (z & <- & _). now exists z. }
  set (x := ent (map (map qz) A) i (nth i p 0)) in *. pose proof (isint_pos x I A2) as L. destruct (Qc_eq_dec x 1) as [|NE]; auto. exfalso.
  assert (I2 : isint (x - 1)%Qc) by (apply isint_sub; auto; exists 1%Z; reflexivity). assert (P : (0 < x - 1)%Qc) by (destruct (Qc_dec 0 (x - 1)) as [[K|K]|K]; auto; exfalso; [clear - K L; qclra|apply NE; clear - K; qclra]). pose proof (isint_pos _ I2 P) as L2.
  assert (T : (billionth <= Q2Qc (1 # 4))%Qc) by discriminate. assert (X : (0 <= (Q2Qc (1 # 4) - billionth) * x)%Qc) by (apply qmul_nonneg; [clear - T; qclra|clear - L; qclra]). assert (X2 : ((Q2Qc (1 # 4) - billionth) * x = Q2Qc (1 # 4) * x - x + (1 - billionth) * x)%Qc) by ring. clear - A2'' L2 X X2. set (u := ((1 - billionth) * x)%Qc) in *. set (v := ((Q2Qc (1 # 4) - billionth) * x)%Qc) in *. clearbody u v. qclra.
Qed.
Print Assumptions C55_integers_partial.
(** the order of the leading entries is not checked *)
Theorem C55_order_refuted : exists M, rectangular 2 2 M /\ is_in_rref 2 M = true /\ ~ nearly_rref 2 M.
Proof.
  exists [[0%Qc; 1%Qc]; [1%Qc; 0%Qc]]. split; [split; [reflexivity|intros r [<-|[<-|[]]]; reflexivity]|]. split; [reflexivity|].
  intros (p & (P1 & P2 & P3) & P4). destruct p as [|a [|b p]].
  - specialize (P3 0 1 (le_n _) ltac:(cbn; lia) ltac:(lia)). discriminate P3.
  - specialize (P3 1 0 (le_n _) ltac:(cbn; lia) ltac:(lia)). discriminate P3.
  - destruct (P2 0 ltac:(cbn; lia)) as (A1 & (A2 & _) & _). destruct (P2 1 ltac:(cbn; lia)) as (B1 & (B2 & _) & _). specialize (P4 0 1 ltac:(lia) ltac:(cbn; lia)). cbn [nth] in *. destruct a as [|a]; [discriminate A2|]. lia.
Qed.
Print Assumptions C55_order_refuted.
Theorem C55_nearly_one_refuted : exists M, rectangular 1 1 M /\ is_in_rref 1 M = true /\ ~ rref 1 M.
Proof. destruct C53_nearly_one_refuted as (M & H1 & H2 & H3). exists M. split; auto. split; auto. apply (C55_recognises_results 1 1 M 2); auto; try lia. Qed.
Print Assumptions C55_nearly_one_refuted.
Example C55_examples : is_in_rref 3 [[1%Qc; 0%Qc; qz 2]; [0%Qc; 1%Qc; qz 3]; [0%Qc; 0%Qc; 0%Qc]] = true /\ is_in_rref 2 [[1%Qc; qz 2]; [0%Qc; 1%Qc]] = false /\ is_in_rref 2 [[0%Qc; 0%Qc]; [0%Qc; 1%Qc]] = false /\ is_in_rref 1 [[qz 2]] = false.
Proof. repeat split. Qed.
