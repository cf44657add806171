(** Bounded integer programs with moderate minors: every relaxation is solved reliably in spite of rounding errors. *)
From Coq Require Import String List Bool Arith ZArith QArith Qcanon Qround Lia Sorted.
From Verif Require Import Py QcTac QSum QInt ComparatorModel ComparatorSpec ComparatorProofs MatModel DetTheory MatTheory LinearModel LinearSpec LinearProofs SefProofs LinearInv DualProofs SimplexProofs SmallProofs TwoPhaseProofs LinearProps SimplexProps TwoPhaseProps IntegerModel IntegerSpec IntegerProofs IntegerSmall RoundedModel RoundedSpec RoundedProofs RoundedSolveModel RoundedSolveSpec RoundedRunModel RoundedRunSpec RoundedRunProps RoundedBranchModel RoundedBranchSpec RoundedBranchProofs.
Import ListNotations.
Open Scope nat_scope.
Open Scope string_scope.
Open Scope list_scope.

(** ** the weight of a relaxation *)
Lemma abs_sum_cons v l : abs_sum (v :: l) = (qabs v + abs_sum l)%Qc. Proof. reflexivity. Qed.
Lemma one_entry (g : nat -> Qc) r : (forall k, (qabs (g k) <= 1)%Qc) -> forall l, NoDup l -> (abs_sum (map (fun k => if Nat.eqb r k then g k else 0%Qc) l) <= 1)%Qc.
Proof.
  intros G. assert (Z : forall l, ~ In r l -> abs_sum (map (fun k => if Nat.eqb r k then g k else 0%Qc) l) = 0%Qc).
  { induction l as [|k l IH]; intros N; [reflexivity|]. cbn [map]. rewrite abs_sum_cons, IH by (intros K; apply N; simpl; auto). destruct (Nat.eqb_spec r k) as [->|]; [destruct N; simpl; auto|]. change (qabs 0) with 0%Qc. ring. }
  induction l as [|k l IH]; intros N; [discriminate|]. inversion N as [|? ? N1 N2]; subst. cbn [map]. rewrite abs_sum_cons. destruct (Nat.eqb_spec r k) as [->|].
  - rewrite Z by auto. specialize (G k). set (a := qabs (g k)) in *. clearbody a. clear - G. qclra.
  - change (qabs 0) with 0%Qc. rewrite Qcplus_0_l. auto.
Qed.
Lemma abs_sum_unit n i : (abs_sum (unit_row n i) <= 1)%Qc.
Proof.
  unfold unit_row. rewrite (map_ext _ (fun k => if Nat.eqb i k then 1%Qc else 0%Qc)) by (intros k; now rewrite Nat.eqb_sym). apply (one_entry (fun _ => 1%Qc)); [intros; discriminate|apply seq_NoDup].
Qed.
Lemma abs_sum_slack ineq ks r : NoDup ks -> (abs_sum (slack_row ineq ks r) <= 1)%Qc.
Proof. intros N. apply (one_entry (fun k => slack_coeff (op_at ineq k))); auto. intros k. unfold slack_coeff. destruct (String.eqb _ ">="); [discriminate|]. destruct (String.eqb _ "<="); discriminate. Qed.
Lemma abs_sum_zeros n : abs_sum (repeat 0%Qc n) = 0%Qc.
Proof. induction n as [|n IH]; [reflexivity|]. cbn [repeat]. rewrite abs_sum_cons, IH. reflexivity. Qed.
Lemma abs_sum_rows A : abs_sum (concat A) = Sum (length A) (fun i => abs_sum (nth i A [])).
Proof. induction A as [|r A IH]; [reflexivity|]. cbn [concat length]. rewrite abs_sum_app, Sum_shift, IH. reflexivity. Qed.
Lemma qz_S n : qz (Z.of_nat (S n)) = (1 + qz (Z.of_nat n))%Qc.
Proof. replace (Z.of_nat (S n)) with (1 + Z.of_nat n)%Z by lia. now rewrite qz_add. Qed.
Lemma abs_sum_units n us : (abs_sum (concat (map (unit_row n) us)) <= qz (Z.of_nat (length us)))%Qc.
Proof.
  induction us as [|u us IH]; [discriminate|]. cbn [map concat length]. rewrite abs_sum_app, qz_S. pose proof (abs_sum_unit n u) as K. set (a := abs_sum (unit_row n u)) in *. set (b := abs_sum (concat _)) in *. set (c := qz _) in *. clearbody a b c. clear - IH K. qclra.
Qed.
Lemma sef_weight q : wf q -> nonnegative_variables q -> (weight (fst (to_sef q)) <= weight q + qz (Z.of_nat (length (lA q))))%Qc.
Proof.
  intros H Hn. assert (R0 : (0 <= qz (Z.of_nat (length (lA q))))%Qc) by (change 0%Qc with (qz 0); apply qz_le; lia). destruct (sef_costs q H Hn) as (n & c' & Ec & Ec'). assert (A : abs_sum c' = abs_sum (lc q)) by (destruct Ec' as [-> | ->]; [reflexivity|apply abs_sum_vopp]).
  destruct (lsef q) eqn:Hs. { rewrite C29_already_sef by auto. cbn [fst]. set (a := weight q). set (b := qz _) in *. clearbody a b. clear - R0. qclra. }
  destruct (to_sef_parts q H Hs) as (P1 & _ & _ & _ & _ & _ & _ & _ & P9 & _ & P11). destruct Hn as (F & N).
  assert (F' : lfree q = []) by (unfold free_variables, to_math_indexing in F; destruct (lfree q); [auto|discriminate F]).
  assert (N' : lneg q = []) by (unfold negative_variables, to_math_indexing in N; destruct (lneg q); [auto|discriminate N]). rewrite F', N' in P11. cbn [fold_left] in P11. unfold rows in *.
  unfold weight. rewrite Ec, P1, abs_sum_app, A, abs_sum_zeros, !abs_sum_rows. change (length (lA (fst (to_sef q))) = length (lA q)) in P9. rewrite P9.
  assert (G : (Sum (length (lA q)) (fun i => abs_sum (nth i (lA (fst (to_sef q))) [])) <= Sum (length (lA q)) (fun i => abs_sum (nth i (lA q) []) + 1))%Qc).
  { apply Sum_le. intros i Hi. rewrite P11 by auto. rewrite abs_sum_app. replace (expand 0 [] (nth i (lA q) [])) with (nth i (lA q) []) by (destruct (nth i (lA q) []); reflexivity).
    match goal with |- (_ + abs_sum (slack_row ?a ?b ?c) <= _)%Qc => pose proof (abs_sum_slack a b c) as K; specialize (K (NoDup_filter _ (seq_NoDup _ _))); set (s := abs_sum (slack_row a b c)) in * end.
    set (a := abs_sum _). clearbody a s. clear - K. qclra. }
  rewrite Sum_add, Sum_const, Qcmult_1_r in G. set (a := Sum (length (lA q)) (fun i => abs_sum (nth i (lA (fst (to_sef q))) []))) in *. set (b := Sum (length (lA q)) (fun i => abs_sum (nth i (lA q) []))) in *. set (c := qz _) in *. set (d := abs_sum (lb q)). set (f := abs_sum (lc q)).
  clearbody a b c d f. clear - G. qclra.
Qed.
Lemma extended_weight p q us ks U : lA q = lA p ++ map (unit_row (length (lc p))) us -> lb q = lb p ++ map qz ks -> lc q = lc p -> (forall k, In k ks -> (0 <= k <= Z.of_nat U)%Z) ->
  (weight q <= weight p + qz (Z.of_nat (length us)) + qz (Z.of_nat (length ks * U)))%Qc.
Proof.
  intros EA Eb Ec Hk. unfold weight. rewrite EA, Eb, Ec, concat_app, !abs_sum_app. pose proof (abs_sum_units (length (lc p)) us) as K1. pose proof (total_bounds ks U Hk) as K2. change (NetSpec.total (map qz ks)) with (abs_sum (map qz ks)) in K2.
  set (a := abs_sum (concat (lA p))). set (b := abs_sum (concat (map _ us))) in *. set (c := abs_sum (lb p)). set (d := abs_sum (map qz ks)) in *. set (f := abs_sum (lc p)). set (g := qz (Z.of_nat (length us))) in *. set (h := qz (Z.of_nat (length ks * U))) in *.
  clearbody a b c d f g h. clear - K1 K2. qclra.
Qed.

(** ** the relaxations *)
Lemma mul_mono a b c d : (0 <= a -> 0 <= c -> a <= b -> c <= d -> a * c <= b * d)%Qc.
Proof. intros A C L1 L2. apply Qcle_trans with (b * c)%Qc; [now apply qmul_le_r|]. rewrite !(Qcmult_comm b). apply qmul_le_r; [exact L2|apply Qcle_trans with a; auto]. Qed.
Section Minors.
  Context (p : lp) (ints : option (list Z)) (e : Qc) (K T : Z) (U : nat).
  Context (HS : bounded_minors p 1 K T U) (Hb : length (lb p) = length (lA p)) (Hmn : cols p < rows p).
  Context (HL : (K * T <= 300)%Z) (He : (0 <= e)%Qc).
  Let M := qz (Z.of_nat (length (lA p) + length (lc p) * U)).
  Let W := (weight p + qz (Z.of_nat (length (lc p) * U)) + qz (Z.of_nat (length (lc p) * U * U)) + qz 3 * M)%Qc.
  Context (HE : (qz 16 * e * W * (1 + M * qz (K * T)) * qz (K * T) < Q2Qc (1 # 10000000000))%Qc).
  Lemma K_pos : (1 <= K)%Z.
  Proof.
    destruct HS as [_ _ _ _ B6 _ _ _]. pose proof (B6 [] [] eq_refl ltac:(intros i []) ltac:(intros i [])) as D. cbn [length] in D.
    assert (D1 : (qz 1 <= qz K)%Qc) by exact D. now apply (proj1 (qz_le _ _)) in D1.
  Qed.
  Lemma inv_solvable q : inv p ints U q -> solvable_with e q.
  Proof.
    intros (I1 & I2 & I3 & I4 & I5 & I6 & I7 & (us & ks & I8 & I9 & IA) & lo & hi & _ & _ & IB). pose proof (reachable_wf q I1) as H. assert (Hrs : reachable (fst (to_sef q))) by now constructor. pose proof (reachable_wf _ Hrs) as Hw.
    assert (Lq : length (lA q) = length (lA p) + length us) by (rewrite I8, app_length, map_length; reflexivity). assert (Lus : length us <= length (lc p) * U) by (unfold rows, cols in *; lia).
    assert (Lks : length ks = length us) by (pose proof (wf_b _ H) as Lb; unfold rows in Lb; rewrite I9, app_length, map_length in Lb; lia).
    pose proof (extended_moderate_same p 1 K T U q us ks H HS ltac:(now rewrite I6) I6 I8 I9 Hb Lus IA) as HM. apply moderate_sef_same in HM; auto.
    assert (EL : length (lA (fst (to_sef q))) = length (lA q)). { destruct (lsef q) eqn:Hs; [now rewrite C29_already_sef by auto|]. now destruct (to_sef_parts q H Hs) as (_ & _ & _ & _ & _ & _ & _ & _ & P & _). }
    pose proof K_pos as K1. pose proof (bm_T _ _ _ _ _ HS) as T1. exists (K * T)%Z. split; [unfold rows, cols in *; lia|]. split; [|split].
    - apply no_equations. intros i Hi. apply I7. apply nth_In. rewrite length_ineq, (wf_b _ H). exact Hi.
    - destruct HM as [[S1 S2 S3 S4 S5 S6 S7] SA0 S8 HW HWb]. rewrite <- EL, product_ones in *. change (qz 1) with 1%Qc in *. constructor; auto; try nia.
      + split; [|split].
        * intros r v Hr Hv. apply (In_nth _ _ []) in Hr. destruct Hr as (i & Hi & <-). apply (In_nth _ _ 0%Qc) in Hv. destruct Hv as (j & Hj & <-). rewrite (shaped_nth (cols (fst (to_sef q)))) in Hj by (auto; apply (wf_A _ Hw)).
          specialize (S4 i j Hi Hj). rewrite nth_ones in S4. change (qz 1) with 1%Qc in S4. now rewrite Qcmult_1_l in S4.
        * intros v Hv. apply (In_nth _ _ 0%Qc) in Hv. destruct Hv as (i & Hi & <-). pose proof (wf_b _ Hw) as Lb. unfold rows in Lb. specialize (S5 i ltac:(lia)). rewrite nth_ones in S5. change (qz 1) with 1%Qc in S5. now rewrite Qcmult_1_l in S5.
        * intros v Hv. apply (In_nth _ _ 0%Qc) in Hv. destruct Hv as (i & Hi & <-). specialize (S6 i Hi). now rewrite Qcmult_1_l in S6.
      + intros s Ls Hs. specialize (HWb s Ls Hs). rewrite Qcmult_1_l in HWb. exact HWb.
      + cbv zeta. rewrite EL. apply Qcle_lt_trans with (2 := HE). set (m := qz (Z.of_nat (length (lA q)))). assert (Mm : (m <= M)%Qc) by (unfold m, M; apply qz_le; lia). assert (m0 : (0 <= m)%Qc) by (unfold m; change 0%Qc with (qz 0); apply qz_le; lia).
        pose proof (weight_ge _ Hw) as (W1 & _). pose proof (sef_weight q H I2) as W2. pose proof (extended_weight p q us ks U I8 I9 I6 IA) as W3. fold m in W2.
        assert (U1 : (qz (Z.of_nat (length us)) <= qz (Z.of_nat (length (lc p) * U)))%Qc) by (apply qz_le; lia). assert (U2 : (qz (Z.of_nat (length ks * U)) <= qz (Z.of_nat (length (lc p) * U * U)))%Qc) by (apply qz_le, inj_le; apply Nat.mul_le_mono_r; lia).
        assert (WW : (weight (fst (to_sef q)) + qz 2 * m <= W)%Qc).
        { unfold W. set (a := weight (fst (to_sef q))) in *. set (b := weight q) in *. set (c := weight p) in *. set (u1 := qz (Z.of_nat (length us))) in *. set (u2 := qz (Z.of_nat (length ks * U))) in *. set (v1 := qz (Z.of_nat (length (lc p) * U))) in *. set (v2 := qz (Z.of_nat (length (lc p) * U * U))) in *.
          clearbody a b c u1 u2 v1 v2 m. clear - W2 W3 U1 U2 Mm m0. unfold qz, inject_Z in *. qclra. }
        assert (k0 : (0 <= qz (K * T))%Qc) by (change 0%Qc with (qz 0); apply qz_le; nia). set (k := qz (K * T)) in *. clearbody k.
        assert (mk0 : (0 <= m * k)%Qc) by now apply qmul_nonneg. assert (mk1 : (m * k <= M * k)%Qc) by now apply qmul_le_r. set (w := weight (fst (to_sef q))) in *. clearbody w.
        assert (w0 : (0 <= w + qz 2 * m)%Qc) by (clear - W1 m0; clearbody m; unfold qz, inject_Z; qclra).
        apply qmul_le_r; auto. assert (n0 : (0 <= 1 + m * k)%Qc) by (set (a := (m * k)%Qc) in *; clearbody a; clear - mk0; qclra). assert (n1 : (1 + m * k <= 1 + M * k)%Qc) by (set (a := (m * k)%Qc) in *; set (b := (M * k)%Qc) in *; clearbody a b; clear - mk1; qclra).
        assert (s0 : (0 <= qz 16 * e)%Qc) by (apply qmul_nonneg; auto; discriminate). apply mul_mono; auto; [now apply qmul_nonneg|]. rewrite !(Qcmult_comm (qz 16 * e)). now apply qmul_le_r.
    - destruct (sef_size q H I2 I7) as (S1 & S2). destruct (lsef q) eqn:Hs; auto. right. left. rewrite S1 by auto. unfold rows, cols in *. lia.
  Qed.
  Lemma inv_relaxation q : inv p ints U p -> relaxation ints p q -> inv p ints U q.
  Proof.
    intros HP HV. induction HV as [|q x i r HV IH O Hi Hq Hf Ec|q x i r HV IH O Hi Hq Hf Ec]; auto.
    - destruct O as (Fx & _). assert (Lx : length x = cols q) by apply Fx. assert (Hi' : i < cols q) by lia. pose proof IH as (I1 & I2 & _ & _ & _ & _ & _ & _ & lo & hi & B1 & B2 & _).
      destruct B1 as (B0 & B1). destruct (B1 x Fx i Hi' Hq) as (X1 & X2). destruct (fraction_between _ _ _ X1 X2) as (F1 & F2 & F3 & F4); [intros Z; apply Hf; now apply isint_near|]. pose proof (B2 i) as (B3 & B4).
      apply (inv_child p ints U _ Hb Hmn (Nat.le_refl _) q i "<=" (floor (nth i x 0%Qc))); auto; [now left|lia|]. intros l h C1 C2. destruct (branch_box ints q i x l h I1 I2 Fx Hi' Hq Hf C1) as (D1 & _). destruct (D1 r Ec) as (D2 & D3).
      exists l, (upd h i (floor (nth i x 0%Qc))). split; auto. split; auto. intros j. destruct (C2 j). split; auto. unfold upd. destruct (Nat.eqb j i); lia.
    - destruct O as (Fx & _). assert (Lx : length x = cols q) by apply Fx. assert (Hi' : i < cols q) by lia. pose proof IH as (I1 & I2 & _ & _ & _ & _ & _ & _ & lo & hi & B1 & B2 & _).
      destruct B1 as (B0 & B1). destruct (B1 x Fx i Hi' Hq) as (X1 & X2). destruct (fraction_between _ _ _ X1 X2) as (F1 & F2 & F3 & F4); [intros Z; apply Hf; now apply isint_near|]. pose proof (B2 i) as (B3 & B4).
      apply (inv_child p ints U _ Hb Hmn (Nat.le_refl _) q i ">=" (ceil (nth i x 0%Qc))); auto; [now right|lia|]. intros l h C1 C2. destruct (branch_box ints q i x l h I1 I2 Fx Hi' Hq Hf C1) as (_ & D1). destruct (D1 r Ec) as (D2 & D3).
      exists (upd l i (ceil (nth i x 0%Qc))), h. split; auto. split; auto. intros j. destruct (C2 j). split; auto. unfold upd. destruct (Nat.eqb j i); lia.
  Qed.
End Minors.
