(** Integer matrices with small entries: every entry that occurs is a quotient of two determinants. *)
From Coq Require Import List Bool Arith ZArith QArith Qcanon Lia Permutation Factorial.
From Verif Require Import Py QcTac QInt QSum MatModel DetTheory MatTheory SimplexProofs SmallProofs RrefModel RrefSpec RrefProofs.
Import ListNotations.
Open Scope nat_scope.

Lemma solve_entry m b (v x : nat -> Qc) k : det m b <> 0%Qc -> (forall i, i < m -> v i = Sum m (fun l => (b i l * x l)%Qc)) -> k < m ->
  x k = (det m (replace_column b k v) / det m b)%Qc.
Proof.
  intros D E Hk. rewrite <- cramer by auto. transitivity (Sum m (fun i => (inverse m b k i * Sum m (fun l => b i l * x l))%Qc)); [|apply Sum_ext; intros i Hi; now rewrite <- E].
  transitivity (Sum m (fun l => (delta k l * x l)%Qc)); [symmetry; now apply Sum_delta_l|]. transitivity (Sum m (fun l => (Sum m (fun i => inverse m b k i * b i l) * x l)%Qc)); [apply Sum_ext; intros l Hl; now rewrite inverse_left|]. symmetry. apply Sum_assoc.
Qed.
Definition transposition (a c i : nat) : nat := if Nat.eqb i a then c else if Nat.eqb i c then a else i.
Lemma transposition_inv a c i : transposition a c (transposition a c i) = i.
Proof. unfold transposition. destruct (Nat.eqb_spec i a) as [->|]; [|destruct (Nat.eqb_spec i c) as [->|]]; destruct (Nat.eqb_spec c a); subst; rewrite ?Nat.eqb_refl; auto; repeat match goal with |- context [Nat.eqb ?x ?y] => destruct (Nat.eqb_spec x y) end; congruence. Qed.
Lemma transposition_lt a c i m : a < m -> c < m -> i < m -> transposition a c i < m.
Proof. intros. unfold transposition. destruct (Nat.eqb i a); auto. destruct (Nat.eqb i c); auto. Qed.
Lemma Sum_transposition m a c (g : nat -> Qc) : a < m -> c < m -> Sum m (fun k => g (transposition a c k)) = Sum m g.
Proof.
  intros Ha Hc. unfold Sum. rewrite <- (Sigma_map (transposition a c) (seq 0 m) g). apply Sigma_perm. apply NoDup_Permutation.
  - apply FinFun.Injective_map_NoDup; [|apply seq_NoDup]. intros x y E. rewrite <- (transposition_inv a c x), E. apply transposition_inv.
  - apply seq_NoDup.
  - intros x. rewrite in_map_iff, in_seq. split.
    + intros (y & <- & Hy). apply in_seq in Hy. split; [lia|]. apply transposition_lt; auto. lia.
    + intros Hx. exists (transposition a c x). split; [apply transposition_inv|]. apply in_seq. split; [lia|]. apply transposition_lt; auto. lia.
Qed.

Section Small.
  Context (n m : nat) (E : Z) (HE : (1 <= E)%Z) (HB : (Z.of_nat (fact m) * E ^ Z.of_nat m < 1000000000)%Z).
  Definition base (f : nat -> nat -> Qc) (p : list nat) (row i k : nat) : Qc := if Nat.ltb k row then f i (nth k p 0) else delta i k.
  Definition Inv (M : matrix) (p : list nat) (row : nat) : Prop :=
    length M = m /\ (forall k, k < length p -> nth k p 0 < n) /\
    exists f, (forall i j, i < m -> j < n -> isint (f i j) /\ (qabs (f i j) <= qz E)%Qc) /\ det m (base f p row) <> 0%Qc /\
      forall i j, i < m -> j < n -> f i j = Sum m (fun k => (base f p row i k * ent M k j)%Qc).
  Lemma delta_small i k : isint (delta i k) /\ (qabs (delta i k) <= qz E)%Qc.
  Proof. unfold delta. destruct (Nat.eqb i k); (split; [|apply Qcle_trans with (qz 1); [discriminate|apply qz_le; lia]]); [exists 1%Z|exists 0%Z]; reflexivity. Qed.
  Lemma det_small f : (forall i j, i < m -> j < m -> isint (f i j) /\ (qabs (f i j) <= qz E)%Qc) -> isint (det m f) /\ (qabs (det m f) < qz 1000000000)%Qc.
  Proof.
    intros H. split; [apply det_int; intros i j Hi Hj; now apply H|]. apply Qcle_lt_trans with (qz (Z.of_nat (fact m) * E ^ Z.of_nat m)); [apply det_bound; [lia|intros i j Hi Hj; now apply H]|apply qz_lt; exact HB].
  Qed.
  Lemma near_exact u d : isint u -> isint d -> (qabs u < qz 1000000000)%Qc -> (qabs d < qz 1000000000)%Qc -> d <> 0%Qc -> nearly_one (u / d)%Qc -> (u / d = 1)%Qc.
  Proof.
    assert (G : forall u d, isint u -> isint d -> (qabs u < qz 1000000000)%Qc -> (qabs d < qz 1000000000)%Qc -> (0 < d)%Qc -> nearly_one (u / d)%Qc -> (u / d = 1)%Qc).
    { clear u d. intros u d Iu Id Bu Bd Pd (N1 & N2 & N3). assert (Nd : d <> 0%Qc) by (intros K; rewrite K in Pd; discriminate Pd). set (x := (u / d)%Qc) in *. assert (Eu : u = (x * d)%Qc) by (unfold x; field; auto).
      assert (EB : (billionth * qz 1000000000 = 1)%Qc) by (apply Qc_is_canon; reflexivity). set (t := billionth) in *. assert (T1 : (0 < t)%Qc) by reflexivity. clearbody t x. set (B := qz 1000000000) in *. clearbody B.
      assert (Pu : (0 < u)%Qc) by (rewrite Eu; now apply qmul_pos). apply Qclt_le_weak in T1 as T2.
      assert (Ad : qabs d = d) by (destruct (qabs_spec d) as [(_ & ?)|(Z & _)]; auto; exfalso; clear - Z Pd; qclra). assert (Au : qabs u = u) by (destruct (qabs_spec u) as [(_ & ?)|(Z & _)]; auto; exfalso; clear - Z Pu; qclra). rewrite Ad in Bd. rewrite Au in Bu.
      assert (K1 : (0 <= (x - (1 - t)) * d)%Qc) by (apply qmul_nonneg; [clear - N2; qclra|clear - Pd; qclra]). assert (K1' : ((x - (1 - t)) * d = u - d + t * d)%Qc) by (rewrite Eu; ring).
      assert (K2 : (0 <= (1 - (1 - t) * x) * d)%Qc) by (apply qmul_nonneg; [clear - N3; qclra|clear - Pd; qclra]). assert (K2' : ((1 - (1 - t) * x) * d = d - u + t * u)%Qc) by (rewrite Eu; ring).
      assert (K3 : (0 < t * (B - d))%Qc) by (apply qmul_pos; auto; clear - Bd; qclra). assert (K3' : (t * (B - d) = t * B - t * d)%Qc) by ring. assert (K4 : (0 < t * (B - u))%Qc) by (apply qmul_pos; auto; clear - Bu; qclra). assert (K4' : (t * (B - u) = t * B - t * u)%Qc) by ring.
      destruct (Qc_eq_dec (u - d) 0) as [Z|Z].
      - assert (Q : ((x - 1) * d = 0)%Qc) by (replace ((x - 1) * d)%Qc with (x * d - d)%Qc by ring; rewrite <- Eu; exact Z). apply Qcmult_integral in Q as [Q|Q]; [clear - Q; qclra|contradiction].
      - exfalso. destruct (int_nonzero (u - d) ltac:(now apply isint_sub) Z) as [L|L]; set (td := (t * d)%Qc) in *; set (tu := (t * u)%Qc) in *; clearbody td tu; clear - K1 K1' K2 K2' K3 K3' K4 K4' EB L; qclra. }
    intros Iu Id Bu Bd Nd HN. destruct (Qc_dec 0 d) as [[P|P]|P]; [now apply G| |congruence]. assert (X : (u / d = (- u) / (- d))%Qc) by (field; split; auto; intros K; apply Nd; clear - K; qclra). rewrite X in HN |- *. apply G; [now apply isint_opp|now apply isint_opp|rewrite SimplexProofs.qabs_opp; auto|rewrite SimplexProofs.qabs_opp; auto|clear - P; qclra|exact HN].
  Qed.
  Lemma inv_near M p row c : Inv M p row -> shaped n M -> length p = row -> row < length M -> c < n -> nearly_one (ent M row c) -> is_one (ent M row c).
  Proof.
    intros (L & P & f & F1 & F2 & F3) _ Lp Hr Hc HN. rewrite L in Hr. unfold is_one. pose proof (solve_entry m _ (fun i => f i c) (fun k => ent M k c) row F2 (fun i Hi => F3 i c Hi Hc) Hr) as EQ. cbv beta in EQ. rewrite EQ in *.
    assert (SB : forall i j, i < m -> j < m -> isint (base f p row i j) /\ (qabs (base f p row i j) <= qz E)%Qc). { intros i j Hi Hj. unfold base. destruct (Nat.ltb_spec j row); [apply F1; auto; apply P; lia|apply delta_small]. }
    destruct (det_small _ SB) as (D1 & D2). destruct (det_small (replace_column (base f p row) row (fun i => f i c))) as (D3 & D4).
    { intros i j Hi Hj. unfold replace_column. destruct (Nat.eqb j row); auto. }
    apply near_exact; auto.
  Qed.
  Lemma inv_swap M p row k : Inv M p row -> shaped n M -> length p = row -> row < length M -> row < k -> k < length M -> Inv (swap_rows M row k) p row.
  Proof.
    intros (L & P & f & F1 & F2 & F3) _ Lp Hr Hk Hkm. rewrite L in Hr, Hkm. split; [now rewrite length_swap|]. split; auto. set (s := transposition row k). exists (fun i j => f (s i) j).
    assert (S1 : forall i, i < m -> s i < m) by (intros; now apply transposition_lt). assert (S2 : forall i, s (s i) = i) by (intros; apply transposition_inv).
    assert (SF : forall i, i < row -> s i = i) by (intros i Hi; unfold s, transposition; destruct (Nat.eqb_spec i row); [lia|]; destruct (Nat.eqb_spec i k); [lia|auto]).
    assert (SG : forall i, row <= i -> row <= s i) by (intros i Hi; unfold s, transposition; destruct (Nat.eqb_spec i row); [lia|]; destruct (Nat.eqb_spec i k); lia).
    assert (DD : forall i j, delta i j = delta (s i) (s j)). { intros i j. unfold delta. destruct (Nat.eqb_spec i j) as [->|Ne]; [now rewrite Nat.eqb_refl|]. destruct (Nat.eqb_spec (s i) (s j)) as [K|]; auto. exfalso. apply Ne. rewrite <- (S2 i), K. apply S2. }
    assert (BB : forall i l, base (fun i j => f (s i) j) p row i l = base f p row (s i) (s l)). { intros i l. unfold base. destruct (Nat.ltb_spec l row) as [Hl|Hl]; [rewrite (SF l Hl); now rewrite (proj2 (Nat.ltb_lt _ _) Hl)|]. destruct (Nat.ltb_spec (s l) row) as [K|K]; [pose proof (SG l Hl); lia|apply DD]. }
    split; [intros i j Hi Hj; apply F1; auto|]. split.
    - apply (@det_nonzero m _ (fun i l => inverse m (base f p row) (s i) (s l))). intros i j Hi Hj. rewrite (DD i j). rewrite <- (@inverse_left m (base f p row)) by auto.
      rewrite <- (Sum_transposition m row k (fun l => (inverse m (base f p row) (s i) l * base f p row l (s j))%Qc)) by auto. apply Sum_ext. intros l Hl. now rewrite BB.
    - intros i j Hi Hj. rewrite (F3 (s i) j) by auto. rewrite <- (Sum_transposition m row k (fun l => (base f p row (s i) l * ent M l j)%Qc)) by auto. apply Sum_ext. intros l Hl. rewrite BB. rewrite ent_swap by lia. reflexivity.
  Qed.
  Lemma inv_pivot M p row c N : Inv M p row -> length p = row -> row < m -> c < n -> ent M row c <> 0%Qc -> length N = m ->
    (forall r j, r < m -> j < n -> ent N r j = if Nat.eqb r row then (ent M row j / ent M row c)%Qc else (ent M r j - ent M row j * (ent M r c / ent M row c))%Qc) -> Inv N (p ++ [c]) (S row).
  Proof.
    intros (L & P & f & F1 & F2 & F3) Lp Hr Hc Ha LN HN. split; auto. split.
    { intros k Hk. rewrite app_length in Hk. cbn in Hk. destruct (Nat.eq_dec k row) as [->|]; [rewrite app_nth2, Lp, Nat.sub_diag by lia; exact Hc|]. rewrite app_nth1 by lia. apply P. lia. }
    exists f. split; auto. set (a := ent M row c) in *.
    assert (BB : forall i k, base f (p ++ [c]) (S row) i k = replace_column (base f p row) row (fun i => f i c) i k).
    { intros i k. unfold base, replace_column. destruct (Nat.eqb_spec k row) as [->|Ne].
      - rewrite (proj2 (Nat.ltb_lt row (S row))) by lia. rewrite app_nth2, Lp, Nat.sub_diag by lia. reflexivity.
      - destruct (Nat.ltb_spec k (S row)); destruct (Nat.ltb_spec k row); try lia; auto. now rewrite app_nth1 by lia. }
    split.
    - rewrite (@det_ext m _ _ (fun i j _ _ => BB i j)). pose proof (solve_entry m _ (fun i => f i c) (fun k => ent M k c) row F2 (fun i Hi => F3 i c Hi Hc) Hr) as EQ. cbv beta in EQ. fold a in EQ. intros K. rewrite K in EQ. apply Ha. rewrite EQ. unfold Qcdiv. apply Qcmult_0_l.
    - intros i j Hi Hj. set (sc := (ent M row j / a)%Qc). set (h := fun k => (base f p row i k * (ent M k j - sc * ent M k c))%Qc). set (g := fun k => (base f (p ++ [c]) (S row) i k * ent N k j)%Qc).
      assert (Eg : Sum m g = (Sum m h + (g row - h row))%Qc). { apply Sum_change; auto. intros k Hk Nk. unfold g, h. rewrite BB, HN by auto. unfold replace_column. rewrite (proj2 (Nat.eqb_neq _ _) Nk). f_equal. unfold sc. field. auto. }
      assert (Eh : Sum m h = (f i j - sc * f i c)%Qc). { rewrite (F3 i j), (F3 i c) by auto. rewrite <- Sum_scal, <- Sum_sub. apply Sum_ext. intros k _. unfold h. ring. }
      assert (E1 : h row = 0%Qc). { unfold h. fold a. replace (ent M row j - sc * a)%Qc with 0%Qc; [ring|]. unfold sc. field. auto. }
      assert (E2 : g row = (f i c * sc)%Qc). { unfold g. rewrite BB, HN by auto. unfold replace_column. rewrite Nat.eqb_refl. reflexivity. }
      fold g. rewrite Eg, Eh, E1, E2. ring.
  Qed.
  Lemma inv_eliminate M p row c : Inv M p row -> shaped n M -> length p = row -> row < length M -> c < n -> is_one (ent M row c) -> Inv (eliminate M row c) (p ++ [c]) (S row).
  Proof.
    intros I S Lp Hr Hc H1. pose proof (proj1 I) as L. unfold is_one in H1. apply (inv_pivot M); auto; [lia|rewrite H1; discriminate|now rewrite length_eliminate|]. intros r j Hr' Hj. rewrite (ent_eliminate n) by (auto; lia). destruct (Nat.eqb_spec r row) as [->|]; auto. rewrite H1. field. discriminate.
  Qed.
  Lemma inv_divide M p row c : Inv M p row -> shaped n M -> length p = row -> row < length M -> c < n -> ent M row c <> 0%Qc -> Inv (eliminate (divide_row M row (ent M row c)) row c) (p ++ [c]) (S row).
  Proof.
    intros I S Lp Hr Hc H1. pose proof (proj1 I) as L. apply (inv_pivot M); auto; [lia|now rewrite length_eliminate, length_divide|]. intros r j Hr' Hj. rewrite (ent_eliminate n) by (rewrite ?length_divide; auto using shaped_divide; lia). rewrite !ent_divide by lia. rewrite Nat.eqb_refl. destruct (Nat.eqb_spec r row) as [->|]; auto. field. split; [auto|discriminate].
  Qed.
  Lemma inv_start M : length M = m -> (forall i j, i < m -> j < n -> isint (ent M i j) /\ (qabs (ent M i j) <= qz E)%Qc) -> Inv M [] 0.
  Proof.
    intros L HM. split; auto. split; [cbn; intros; lia|]. exists (ent M). split; auto. assert (BB : forall i k, base (ent M) [] 0 i k = delta i k) by reflexivity. split.
    - apply (@det_nonzero m _ delta). intros i j Hi Hj. rewrite Sum_delta_l by auto. apply BB.
    - intros i j Hi Hj. symmetry. rewrite <- (Sum_delta_l m i (fun k => ent M k j)) by auto. reflexivity.
  Qed.
End Small.
Lemma to_rref_exact n fuel M E : (Z.of_nat n < 1000000000)%Z -> shaped n M -> (1 <= E)%Z -> (Z.of_nat (fact (length M)) * E ^ Z.of_nat (length M) < 1000000000)%Z -> 0 < n -> n * (length M + 1) <= fuel ->
  (forall i j, i < length M -> j < n -> isint (ent M i j) /\ (qabs (ent M i j) <= qz E)%Qc) ->
  exists R, to_rref fuel n M = Ok R /\ shaped n R /\ length R = length M /\ same_row_space n M R /\ exists p, leading_rows is_one n R p /\ increasing p.
Proof.
  intros H1 H2 HE HB H3 H4 HM. assert (Hm : (Z.of_nat (length M) < 1000000000)%Z).
  { apply Z.le_lt_trans with (2 := HB). assert (F : length M <= fact (length M)). { clear. induction (length M) as [|k IH]; [cbn; lia|]. cbn [fact]. pose proof (lt_O_fact k). destruct k; [cbn; lia|]. nia. } assert (P : (1 <= E ^ Z.of_nat (length M))%Z) by (apply Z.lt_pred_le, Z.pow_pos_nonneg; lia). nia. }
  apply (to_rref_spec n H1 is_one (Inv n (length M) E)); auto.
  - reflexivity.
  - intros x -> K. discriminate K.
  - intros. eapply inv_near; eauto.
  - intros. eapply inv_swap; eauto.
  - intros. eapply inv_eliminate; eauto.
  - intros. eapply inv_divide; eauto.
  - apply inv_start; auto.
Qed.
