(** C58-C61: recognising basic solutions and canonical forms, optimal_value, random. *)
From Coq Require Import String List Bool Arith ZArith QArith Qcanon Qround Lia Sorted.
From Verif Require Import Py QcTac QSum QInt ComparatorModel MatModel DetTheory MatTheory LinearModel LinearSpec LinearProofs SefProofs LinearInv DualProofs BasisProofs BlandProofs SimplexProofs SmallProofs LinearProps SimplexProps TwoPhaseProps BasicModel.
Import ListNotations.
Open Scope nat_scope.
Open Scope string_scope.
Open Scope list_scope.

(** * C58 *)
(** within the tolerances of the code: entries off the basis below 10^-10, rows within numpy's
    isclose of the right-hand side *)
Definition nearly_basic (p : lp) (Bz : list Z) (x : list Qc) : Prop :=
  (forall j, j < length x -> ~ In (Z.of_nat (S j)) Bz -> (- Q2Qc (1 # 10000000000) < nth j x 0 < Q2Qc (1 # 10000000000))%Qc) /\
  (forall i, i < length (lA p) ->
     (qabs (inner (nth i (lA p) []) x - nth i (lb p) 0) <= Q2Qc (1 # 100000000) + Q2Qc (1 # 100000) * qabs (nth i (lb p) 0))%Qc).
Lemma qabs_spec x : (0 <= x)%Qc /\ qabs x = x \/ (x < 0)%Qc /\ qabs x = (- x)%Qc.
Proof. unfold qabs. destruct (qlt_spec x 0); [right; auto|left; split; auto]. now apply Qcnot_lt_le. Qed.
Lemma ctz v : is_close_to_zero v = true <-> (- tol_zero < v < tol_zero)%Qc.
Proof.
  unfold is_close_to_zero. pose proof tol_pos as T. set (t := tol_zero) in *. clearbody t.
  destruct (qlt_spec (qabs v) t) as [K|K]; destruct (qabs_spec v) as [(A & B)|(A & B)]; rewrite B in K; clear B; split; intros H; auto; try discriminate; try (split; qclra); exfalso; destruct H as (H & H'); qclra.
Qed.
Lemma allclose_true u v : length u = length v -> (allclose u v = true <-> forall i, i < length u -> (qabs (at_ u i - at_ v i) <= np_atol + np_rtol * qabs (at_ v i))%Qc).
Proof.
  revert v. induction u as [|a u IH]; intros [|b v] L; try discriminate L.
  - split; [intros _ i Hi; inversion Hi|reflexivity].
  - unfold allclose. cbn [combine forallb fst snd]. fold (allclose u v). injection L as L. rewrite andb_true_iff, (IH v L). unfold np_isclose at 1. split.
    + intros (H1 & H2) [|i] Hi; [|apply H2; cbn in Hi; lia]. cbn. revert H1. destruct (qle_spec (qabs (a - b)) (np_atol + np_rtol * qabs b)); auto. discriminate.
    + intros H. split; [|intros i Hi; apply (H (S i)); cbn; lia]. specialize (H 0 ltac:(cbn; lia)). cbn in H. destruct (qle_spec (qabs (a - b)) (np_atol + np_rtol * qabs b)); auto.
Qed.
Theorem C58_basic_solution p x Bz : reachable p ->
  is_basic_solution p x Bz = (if negb (lsef p) then Raise ArithmeticError else if negb (Nat.eqb (length x) (length (lc p))) then Raise ValueError else
    match is_basis p Bz with
    | Ok true => is_basic_solution p x Bz
    | Ok false => Raise ValueError
    | Raise e => Raise e
    | Diverges => Diverges
    end) /\
  (lsef p = true -> length x = length (lc p) -> is_basis p Bz = Ok true ->
     (is_basic_solution p x Bz = Ok true <-> nearly_basic p Bz x) /\
     (is_basic_solution p x Bz = Ok false <-> ~ nearly_basic p Bz x)).
Proof.
  intros Hr. pose proof (reachable_wf p Hr) as H. split.
  - unfold is_basic_solution. destruct (lsef p); auto. cbn [negb]. unfold cols. destruct (Nat.eqb (length x) (length (lc p))); auto. cbn [negb].
    destruct (is_basis p Bz) as [[]| |]; reflexivity.
  - intros Hs L EB. unfold is_basic_solution. rewrite Hs, EB. cbn [negb bind]. unfold cols. rewrite L, Nat.eqb_refl. cbn [negb].
    set (t := forallb _ _ && allclose _ _). assert (K : t = true <-> nearly_basic p Bz x).
    { unfold t. rewrite andb_true_iff, forallb_forall. rewrite allclose_true by (rewrite length_mulmv, (wf_b _ H); reflexivity). rewrite length_mulmv. unfold nearly_basic. rewrite L.
      assert (E2 : forall i, i < length (lA p) -> at_ (mulmv (lA p) x) i = inner (nth i (lA p) []) x).
      { intros i Hi. rewrite (inner_row (cols p)) by (auto; apply (wf_A _ H)). now rewrite (at_mulmv (cols p)) by (auto; apply (wf_A _ H)). }
      split; intros (H1 & H2); split.
      - intros j Hj Hn. assert (J : In j (seq 0 (length (lc p)))) by (apply in_seq; lia). specialize (H1 j J). apply orb_true_iff in H1 as [H1|H1]; [|now apply ctz in H1].
        exfalso. apply Hn. apply (In_array p Bz j EB). now apply inb_In.
      - intros i Hi. specialize (H2 i Hi). rewrite E2 in H2 by auto. exact H2.
      - intros j J. apply in_seq in J. apply orb_true_iff. destruct (inb j (to_array_indexing Bz)) eqn:EJ; [now left|right]. apply ctz. apply H1; [lia|].
        intros K. apply inb_false in EJ. apply EJ. now apply (In_array p Bz j EB).
      - intros i Hi. rewrite E2 by auto. exact (H2 i Hi). }
    rewrite <- K. destruct t; split; split; intros; auto; congruence.
Qed.
Print Assumptions C58_basic_solution.
(** the basic solution itself is accepted *)
Theorem C58_accepts p x Bz : reachable p -> lsef p = true -> is_basis p Bz = Ok true -> satisfies p x -> vanishes_off Bz x ->
  is_basic_solution p x Bz = Ok true.
Proof.
  intros Hr Hs EB (L & Hx) Hv. apply C58_basic_solution; auto. split.
  - intros j Hj Hn. rewrite Hv by auto. split; reflexivity.
  - intros i Hi. rewrite Hx by auto. destruct (qabs_spec (nth i (lb p) 0 - nth i (lb p) 0)%Qc) as [(_ & ->)|(_ & ->)];
      (assert (N : (0 <= Q2Qc (1 # 100000) * qabs (nth i (lb p) 0))%Qc) by (apply qmul_nonneg; [discriminate|destruct (qabs_spec (nth i (lb p) 0%Qc)) as [(A & ->)|(A & ->)]; qclra]);
       set (u := (Q2Qc (1 # 100000) * qabs (nth i (lb p) 0))%Qc) in *; set (v := nth i (lb p) 0%Qc); clearbody u v; assert (T : (0 < Q2Qc (1 # 100000000))%Qc) by reflexivity; qclra).
Qed.
Print Assumptions C58_accepts.
(** so the result of compute_basic_solution is accepted for a sorted basis, and rejected for some
    unsorted one *)
Theorem C58_own_partial p x Bz : reachable p -> lsef p = true -> StronglySorted Z.lt Bz -> compute_basic_solution p Bz = Ok x ->
  is_basic_solution p x Bz = Ok true.
Proof.
  intros Hr Hs HS E. assert (EB : is_basis p Bz = Ok true).
  { unfold compute_basic_solution in E. destruct (is_basis p Bz) as [[]| |]; cbn [bind] in E; try discriminate. reflexivity. }
  destruct (C31_sorted_partial p Bz Hr EB HS) as (x' & E' & S1 & S2 & _). rewrite E in E'. injection E' as <-. now apply C58_accepts.
Qed.
Print Assumptions C58_own_partial.
Theorem C58_own_refuted : exists p x Bz, reachable p /\ compute_basic_solution p Bz = Ok x /\ is_basic_solution p x Bz = Ok false.
Proof.
  destruct small_program as [p| |] eqn:E; try discriminate E. pose proof (small_program_reachable p E) as Hr. injection E as <-.
  eexists. eexists. exists [2; 1]%Z. split; [exact Hr|]. split; reflexivity.
Qed.
Print Assumptions C58_own_refuted.
(** and some vectors that are not the basic solution are accepted *)
Theorem C58_tolerance_refuted : exists p x Bz, reachable p /\ is_basic_solution p x Bz = Ok true /\ ~ satisfies p x.
Proof.
  destruct small_program as [p| |] eqn:E; try discriminate E. pose proof (small_program_reachable p E) as Hr. injection E as <-.
  eexists. exists [Q2Qc (300000001 # 100000000); qz 1; qz 0; qz 0], [1; 2]%Z. split; [exact Hr|]. split; [vm_compute; reflexivity|].
  intros (_ & K). specialize (K 0 ltac:(cbn; lia)). apply Qc_eq_this in K. vm_compute in K. discriminate K.
Qed.
Print Assumptions C58_tolerance_refuted.

(** is_basis_feasible tells, for every order of the basis, whether the basic solution is nonnegative
    up to 10^-10 *)
Theorem C58_basis_feasible p Bz : reachable p -> is_basis p Bz = Ok true ->
  exists x, satisfies p x /\ vanishes_off Bz x /\ (forall x', satisfies p x' -> vanishes_off Bz x' -> x' = x) /\
    exists r, is_basis_feasible p Bz = Ok r /\ (r = true <-> forall j, j < length x -> (- Q2Qc (1 # 10000000000) < nth j x 0)%Qc).
Proof.
  intros Hr E. pose proof (reachable_wf p Hr) as H. pose proof (is_basis_basis p Bz E) as HB. pose proof (is_basis_NoDup p Bz E) as ND.
  set (B := to_array_indexing Bz) in *. assert (LB : length B = rows p) by (rewrite <- length_sort; apply HB).
  assert (HBl : forall j, In j B -> j < cols p) by (intros j Hj; apply (bs_lt _ _ HB), In_sort; auto).
  assert (NDs : NoDup (sort B)) by now apply (bs_NoDup p).
  destruct (canonical_any p Bz H E) as (q & EC & HC). fold B in EC, HC.
  assert (EX : exists X, minv (columns_of B (lA p)) = Ok X /\ lb q = mulmv X (lb p)).
  { unfold canonical, bind in EC. destruct (minv (columns_of B (lA p))) as [X| |]; try discriminate. injection EC as <-. exists X. auto. }
  destruct EX as (X & EX & Eb). set (v := mulmv X (lb p)) in *.
  assert (Lv : length v = rows p) by (rewrite <- Eb; rewrite (wf_b _ (cn_wf _ _ _ HC)); apply HC).
  set (x := scatter (cols p) B v).
  assert (Lx : length x = cols p) by apply length_scatter.
  assert (Hoff : forall j, ~ In j B -> at_ x j = 0%Qc) by (intros j Hj; apply at_scatter_off; auto; congruence).
  assert (Hon : forall k, k < rows p -> at_ x (bk B k) = at_ v k) by (intros k Hk; apply at_scatter; auto; try lia; apply HBl, nth_In; lia).
  assert (Sx : satisfies p x).
  { apply satisfies_solves; auto. split; auto. apply (cn_eq _ _ _ HC). intros i Hi. rewrite (cn_rows _ _ _ HC) in Hi.
    unfold lhs. rewrite (cn_cols _ _ _ HC). unfold x. rewrite <- Eb.
    assert (EV : lb q = mkvec (rows p) (at_ (lb q))) by (apply vec_ext; rewrite ?length_mkvec; [congruence|intros j Hj; rewrite at_mkvec; auto; congruence]).
    rewrite EV. rewrite (scatter_sum p B (at_ (lb q)) (ent (lA q) i)) by auto. rewrite <- EV. rewrite (Sum_single _ i); auto.
    - rewrite (cn_unit _ _ _ HC) by auto. unfold delta. rewrite Nat.eqb_refl. ring.
    - intros k Hk N. rewrite (cn_unit _ _ _ HC) by auto. unfold delta. destruct (Nat.eqb_spec i k); [congruence|ring]. }
  assert (Vx : vanishes_off Bz x) by (intros j Hj Hn; apply Hoff; unfold B; now rewrite (In_array p)).
  exists x. split; auto. split; auto. split.
  - intros x' Hs Hv. destruct (basis_canon p _ H HB) as (q' & _ & HC').
    apply satisfies_solves in Hs; auto. destruct Hs as (L' & Hs). apply satisfies_solves in Sx; auto. destruct Sx as (_ & Sx).
    apply vec_ext; [congruence|]. intros j Hj. apply (bsol_unique p _ q' HB HC'); [split; auto|split; auto|congruence].
    + intros k Hk Hn. apply Hv; [lia|]. rewrite <- (In_array p) by auto. fold B. now rewrite <- In_sort.
    + intros k Hk Hn. apply Hoff. now rewrite <- In_sort.
  - unfold is_basis_feasible, compute_basic_solution. rewrite E. cbn [bind]. fold B. unfold basic_solution. rewrite EX. cbn [bind]. fold v. eexists. split; [reflexivity|].
    set (w := scatter (cols p) (sort B) v). change (Q2Qc (1 # 10000000000)) with tol_zero.
    assert (Lw : length w = cols p) by apply length_scatter.
    assert (Won : forall k, k < rows p -> at_ w (bk (sort B) k) = at_ v k).
    { intros k Hk. apply at_scatter; auto; rewrite ?length_sort; try lia. apply (bs_lt _ _ HB), nth_In. rewrite length_sort. lia. }
    assert (Woff : forall j, ~ In j (sort B) -> at_ w j = 0%Qc) by (intros j Hj; apply at_scatter_off; auto; rewrite length_sort; congruence).
    assert (CV : forallb (fun u => cc_ge u 0) w = true <-> forall k, k < rows p -> (- tol_zero < at_ v k)%Qc).
    { rewrite forallb_forall. split.
      - intros K k Hk. rewrite <- Won by auto. apply ge0_true, K. apply nth_In. rewrite Lw. apply (bs_lt _ _ HB), nth_In. rewrite length_sort. lia.
      - intros K u Hu. apply (In_nth _ _ 0%Qc) in Hu as (j & Hj & <-). apply ge0_true. fold (at_ w j). destruct (in_dec Nat.eq_dec j (sort B)) as [Hi|Hi].
        + apply (In_nth _ _ 0) in Hi as (k & Hk & <-). rewrite length_sort in Hk. fold (bk (sort B) k). rewrite Won by lia. apply K. lia.
        + rewrite Woff by auto. reflexivity. }
    rewrite CV. split.
    + intros K j Hj. fold (at_ x j). destruct (in_dec Nat.eq_dec j B) as [Hi|Hi].
      * apply (In_nth _ _ 0) in Hi as (k & Hk & <-). fold (bk B k). rewrite Hon by lia. apply K. lia.
      * rewrite Hoff by auto. reflexivity.
    + intros K k Hk. rewrite <- Hon by auto. apply K. rewrite Lx. apply HBl, nth_In. lia.
Qed.
Print Assumptions C58_basis_feasible.
Theorem C58_basis_feasible_other p Bz : is_basis p Bz <> Ok true -> is_basis_feasible p Bz = is_basis p Bz.
Proof. intros N. unfold is_basis_feasible. destruct (is_basis p Bz) as [[]| |]; cbn [bind]; auto. congruence. Qed.
Print Assumptions C58_basis_feasible_other.

(** is_feasible_basic_solution raises ValueError for every vector and basis of every program that
    does not have exactly one variable *)
Theorem C58_feasible_basic_refuted p x Bz : length (lc p) <> 1 -> is_feasible_basic_solution p x Bz = Raise ValueError.
Proof. intros N. unfold is_feasible_basic_solution. destruct (lc p) as [|a [|b l]]; try reflexivity. now destruct N. Qed.
Print Assumptions C58_feasible_basic_refuted.
Example C58_nontrivial : exists p, small_program = Ok p /\ reachable p /\ lsef p = true /\ is_basis p [2; 1]%Z = Ok true /\
  is_basis_feasible p [2; 1]%Z = Ok true /\ is_basis_feasible p [1; 4]%Z = Ok true /\ is_basis_feasible p [2; 3]%Z = Ok true /\ is_basis_feasible p [2; 4]%Z = Ok false /\
  is_basic_solution p (map qz [3; 1; 0; 0]%Z) [2; 1]%Z = Ok true /\ is_basic_solution p (map qz [3; 1; 0; 0]%Z) [1; 3]%Z = Ok false /\
  feasible (meaning p) (map qz [3; 1; 0; 0]%Z) /\ is_feasible_basic_solution p (map qz [3; 1; 0; 0]%Z) [1; 2]%Z = Raise ValueError.
Proof.
  destruct small_program as [p| |] eqn:E; try discriminate E. pose proof (small_program_reachable p E) as Hr. injection E as <-.
  eexists. split; [reflexivity|]. split; [exact Hr|]. repeat (split; [vm_compute; reflexivity|]). split; [|reflexivity].
  split; [reflexivity|]. split.
  - intros [|[|i]] Hi; try (cbn in Hi; lia); cbn; apply Qc_is_canon; reflexivity.
  - intros [|[|[|[|j]]]] Hj; try (cbn in Hj; lia); cbn; discriminate.
Qed.

(** * C59 *)
(** is_canonical_form_for is never true *)
Theorem C59_never_true p Bz : is_canonical_form_for p Bz <> Ok true.
Proof.
  unfold is_canonical_form_for, bind. destruct (convert_indices (cols p) Bz) as [B| |] eqn:EB; try discriminate.
  destruct (is_basis p (map Z.of_nat B)) as [b1| |] eqn:E1; try discriminate.
  destruct (in_range (rows p) B) as [[]| |] eqn:E2; try discriminate.
  destruct (allclose_eye _ _ _) as [b2| |]; try discriminate. destruct (in_range (cols p) B) as [[]| |]; try discriminate.
  destruct b1; [|discriminate]. exfalso. pose proof (is_basis_NoDup _ _ E1) as ND. apply is_basis_true in E1 as (L & Pos & K & _).
  rewrite map_length in L. unfold in_range in E2. destruct (forallb (fun i => Nat.ltb i (rows p)) B) eqn:E3; [|discriminate]. rewrite forallb_forall in E3.
  assert (I : incl (to_array_indexing (map Z.of_nat B)) (seq 0 (pred (rows p)))).
  { intros i Hi. unfold to_array_indexing in Hi. rewrite map_map in Hi. apply in_map_iff in Hi as (k & <- & Hk). apply in_seq.
    specialize (E3 k Hk). apply Nat.ltb_lt in E3. specialize (K (Z.of_nat k) (in_map _ _ _ Hk)). lia. }
  pose proof (NoDup_incl_length ND I) as N. rewrite seq_length in N. unfold to_array_indexing in N. rewrite !map_length in N. lia.
Qed.
Print Assumptions C59_never_true.
(** in particular not for the canonical forms that to_canonical_form returns *)
Theorem C59_refuted : exists p q Bz, reachable p /\ to_canonical_form p Bz = Ok q /\ reachable q /\ StronglySorted Z.lt Bz /\
  is_canonical_form_for q Bz <> Ok true.
Proof.
  destruct small_program as [p| |] eqn:E; try discriminate E. pose proof (small_program_reachable p E) as Hr.
  destruct (to_canonical_form p [1; 2]%Z) as [q| |] eqn:EQ; [|injection E as <-; vm_compute in EQ; discriminate EQ..].
  exists p, q, [1; 2]%Z. split; auto. split; auto. split; [now apply (r_canonical p [1; 2]%Z)|]. split; [repeat constructor|apply C59_never_true].
Qed.
Print Assumptions C59_refuted.

(** * C60 *)
Lemma evaluate_value p x : length x = cols p -> evaluate p x = Ok (value (meaning p) x).
Proof. intros L. unfold evaluate. rewrite L, Nat.eqb_refl. rewrite value_Sum, (dot_Sum (cols p)) by reflexivity. reflexivity. Qed.
Theorem C60_value_partial fuel p p' v : reachable p -> moderate_data p -> optimal_value fuel p = (p', Ok (Some v)) ->
  exists x, optimal (meaning p) x /\ v = value (meaning p) x.
Proof.
  intros Hr HE E. unfold optimal_value in E. destruct (solve fuel p) as (p1 & r) eqn:ES. injection E as <- E.
  destruct r as [[x|]| |]; cbn [bind] in E; try discriminate E. pose proof (C41_optimal_partial fuel p p1 x Hr HE ES) as O.
  assert (E1 : p1 = p) by (destruct (C45_unchanged_when_returning_partial fuel p Hr) as (_ & _ & K); rewrite ES in K; cbn [fst snd] in K; eapply K; reflexivity). subst p1.
  exists x. split; auto. rewrite evaluate_value in E by apply O. cbn [bind] in E. now injection E as <-.
Qed.
Print Assumptions C60_value_partial.
Theorem C60_complete_partial p fuel : reachable p -> 0 < length (lA p) -> independent_equations p -> moderate_data p ->
  2 ^ (length (lc (fst (to_sef p))) + length (lA p)) <= fuel ->
  lsef p = true \/ length (lc (fst (to_sef p))) <> 2 * length (lA p) \/
    ((forall i, i < length (lA p) -> nth i (inequalities p) "=" = "<=") /\ (forall i, i < length (lb p) -> (0 <= nth i (lb p) 0)%Qc)) ->
  (exists x, optimal (meaning p) x /\ optimal_value fuel p = (p, Ok (Some (value (meaning p) x)))) \/
  (optimal_value fuel p = (p, Ok None) /\ (infeasible (meaning p) \/ unbounded (meaning p))).
Proof.
  intros Hr Hm HI HE HF HG. unfold optimal_value. destruct (C42_complete_partial p fuel Hr Hm HI HE HF HG) as [(x & -> & O)|(-> & K)].
  - left. exists x. split; auto. cbn [bind]. now rewrite evaluate_value by apply O.
  - right. auto.
Qed.
Print Assumptions C60_complete_partial.
Theorem C60_refuted : exists p x, reachable p /\ optimal (meaning p) x /\ snd (optimal_value 64 p) = Ok None.
Proof.
  destruct C42_refuted as (p & x & Hr & O & E). exists p, x. split; auto. split; auto. unfold optimal_value. destruct (solve 64 p) as (p' & r). cbn [snd] in E. now subst r.
Qed.
Print Assumptions C60_refuted.

(** * C61 *)
Lemma rint_spec x : (qz (rint x) - Q2Qc (1 # 2) <= x <= qz (rint x) + Q2Qc (1 # 2))%Qc.
Proof.
  unfold rint. set (h := (x + Q2Qc (1 # 2))%Qc). pose proof (Qfloor_le (this h)) as F1. pose proof (Qlt_floor (this h)) as F2.
  set (f := Qfloor (this h)) in *. clearbody f.
  assert (G1 : (qz f <= h)%Qc) by (unfold Qcle, qz; cbn [this Q2Qc]; rewrite Qred_correct; exact F1).
  assert (G2 : (h < qz f + 1)%Qc).
  { replace (qz f + 1)%Qc with (qz (f + 1)) by (rewrite qz_add; reflexivity). unfold Qclt, qz. cbn [this Q2Qc]. rewrite Qred_correct. exact F2. }
  destruct (qeq_spec (qz f) h) as [E|E]; cbn [andb].
  - destruct (Z.odd f).
    + replace (f - 1)%Z with (f + - (1))%Z by ring. rewrite qz_add, qz_opp. change (qz 1) with 1%Qc. assert (T : (Q2Qc (1 # 2) + Q2Qc (1 # 2) = 1)%Qc) by (apply Qc_is_canon; reflexivity).
      unfold h in *. set (e := Q2Qc (1 # 2)) in *. clearbody e. split; qclra.
    + assert (T : (Q2Qc (1 # 2) + Q2Qc (1 # 2) = 1)%Qc) by (apply Qc_is_canon; reflexivity). unfold h in *. set (e := Q2Qc (1 # 2)) in *. clearbody e. split; qclra.
  - assert (T : (Q2Qc (1 # 2) + Q2Qc (1 # 2) = 1)%Qc) by (apply Qc_is_canon; reflexivity). unfold h in *. set (e := Q2Qc (1 # 2)) in *. clearbody e. split; qclra.
Qed.
(** a multiple of 1/100 at most 1/200 away *)
Definition rounded (x r : Qc) : Prop := (exists k, r = qz k * Q2Qc (1 # 100))%Qc /\ (r - Q2Qc (1 # 200) <= x <= r + Q2Qc (1 # 200))%Qc.
Lemma round2_spec x : rounded x (round2 x).
Proof.
  unfold rounded, round2. split; [now exists (rint (x * qz 100))|]. pose proof (rint_spec (x * qz 100)) as (H1 & H2). set (k := qz (rint (x * qz 100))) in *. clearbody k.
  assert (T1 : (qz 100 * Q2Qc (1 # 100) = 1)%Qc) by (apply Qc_is_canon; reflexivity). assert (T2 : (Q2Qc (1 # 2) * Q2Qc (1 # 100) = Q2Qc (1 # 200))%Qc) by (apply Qc_is_canon; reflexivity).
  assert (T3 : (0 <= Q2Qc (1 # 100))%Qc) by discriminate. set (e := Q2Qc (1 # 100)) in *. set (g := Q2Qc (1 # 2)) in *. rewrite <- T2. set (hd := qz 100) in *. clearbody e g hd. clear T2.
  assert (E : x = (x * hd * e)%Qc) by (rewrite <- Qcmult_assoc, T1; ring). split.
  - rewrite E. replace (k * e - g * e)%Qc with ((k - g) * e)%Qc by ring. now apply Qcmult_le_compat_r.
  - rewrite E at 1. replace (k * e + g * e)%Qc with ((k + g) * e)%Qc by ring. now apply Qcmult_le_compat_r.
Qed.
Lemma flat_indices P n : forall a, NoDup (flat_map (fun i => if P i : bool then [Z.of_nat (S i)] else []) (seq a n)) /\
  forall k, In k (flat_map (fun i => if P i : bool then [Z.of_nat (S i)] else []) (seq a n)) <-> exists i, a <= i < a + n /\ P i = true /\ k = Z.of_nat (S i).
Proof.
  induction n as [|n IH]; intros a; cbn [seq flat_map].
  - split; [constructor|]. intros k. split; [contradiction|intros (i & Hi & _); lia].
  - destruct (IH (S a)) as (I1 & I2). split.
    + destruct (P a) eqn:E; cbn [app]; auto. constructor; auto. rewrite I2. intros (i & Hi & _ & K). lia.
    + intros k. rewrite in_app_iff, I2. split.
      * intros [K|(i & Hi & Pi & ->)]; [|exists i; split; auto; lia]. destruct (P a) eqn:E; [|contradiction]. destruct K as [<-|[]]. exists a. split; auto. lia.
      * intros (i & Hi & Pi & ->). destruct (Nat.eq_dec i a) as [->|N]; [left; rewrite Pi; now left|right; exists i; split; auto; lia].
Qed.
(** for every outcome of the generators, with a row of A, an entry of b and a symbol for every row,
    and a column of A, an entry of c and a sign choice for every column, the program is built, and
    it is the program that was drawn *)
Theorem C61_random rows columns magnitude uA ub uc uz nz mn symbols choices :
  length uA = rows -> Forall (fun r => length r = columns) uA -> length ub = rows -> length uc = columns -> length symbols = rows -> length choices = columns ->
  exists p, random columns magnitude uA ub uc uz nz mn symbols choices = Ok p /\ reachable p /\
    length (lA p) = rows /\ length (lc p) = columns /\
    (forall i j, i < rows -> j < columns -> rounded (nth j (nth i uA []) 0 * magnitude)%Qc (nth j (nth i (lA p) []) 0%Qc)) /\
    (forall i, i < rows -> rounded (nth i ub 0 * magnitude)%Qc (nth i (lb p) 0%Qc)) /\
    (forall j, j < columns -> rounded (nth j uc 0 * magnitude)%Qc (nth j (lc p) 0%Qc)) /\
    rounded (uz * magnitude * (if nz then - (1) else 1))%Qc (lz p) /\
    lobj p = (if mn then "min" else "max") /\ inequalities p = map symbol_text symbols /\
    (forall j, j < columns -> nth j (signs (meaning p)) Nonnegative =
       match nth j choices 1%Z with (-1)%Z => Unrestricted | 0%Z => Nonpositive | _ => Nonnegative end).
Proof.
  intros L1 FA L2 L3 L4 L5. unfold random.
  set (A := map (map (fun u => round2 (u * magnitude))) uA). set (b := map (fun u => round2 (u * magnitude)) ub). set (c := map (fun u => round2 (u * magnitude)) uc).
  set (z := round2 _). set (free := flat_map _ _). set (neg := flat_map _ _).
  destruct (flat_indices (fun i => Z.eqb (nth i choices 1%Z) (-1)) columns 0) as (F1 & F2). fold free in F1, F2.
  destruct (flat_indices (fun i => Z.eqb (nth i choices 1%Z) 0) columns 0) as (N1 & N2). fold neg in N1, N2.
  assert (SA : Forall (fun r => length r = columns) A).
  { unfold A. rewrite Forall_map. eapply Forall_impl; [|exact FA]. intros r Hr. now rewrite map_length. }
  destruct (C28_accepts_exactly columns A b c (Nd (Mat columns A)) (Nd (Vec b)) (Nd (Vec c)) z (if mn then "min" else "max") (Some (map symbol_text symbols)) (Some free) (Some neg) eq_refl eq_refl eq_refl) as (K & _).
  destruct K as (p & E).
  { unfold arguments_ok. unfold A, b, c. rewrite !map_length. split; [congruence|]. split; auto. split; [destruct mn; auto|]. split; [|split; [|split]].
    - split; [congruence|]. intros s Hs. apply in_map_iff in Hs as ([] & <- & _); cbn; auto.
    - split; auto. intros i Hi. apply F2 in Hi as (k & Hk & _ & ->). lia.
    - split; auto. intros i Hi. apply N2 in Hi as (k & Hk & _ & ->). lia.
    - intros i Hi Hn. apply F2 in Hi as (k & Hk & P1 & ->). apply N2 in Hn as (k' & Hk' & P2 & E). assert (k' = k) by lia. subst k'. apply Z.eqb_eq in P1, P2. congruence. }
  exists p. split; auto. split; [refine (r_new _ _ _ _ _ _ _ _ _ _ E); exact SA|].
  assert (R2 : forall l k, k < length l -> nth k (map (fun u => round2 (u * magnitude)) l) 0%Qc = round2 (nth k l 0 * magnitude)%Qc).
  { intros l k Hk. rewrite (nth_indep _ 0%Qc (round2 (0 * magnitude))) by now rewrite map_length. exact (map_nth (fun u => round2 (u * magnitude)%Qc) l 0%Qc k). }
  destruct (C28_reads_back columns A b c (Nd (Mat columns A)) (Nd (Vec b)) (Nd (Vec c)) _ _ _ _ _ p eq_refl eq_refl eq_refl E) as (E1 & E2 & E3 & E4 & E5 & E6 & (_ & E7) & (_ & E8) & _).
  rewrite E1, E2, E3, E4, E5, E6. unfold A, b, c. rewrite !map_length. split; auto. split; auto. split; [|split; [|split; [|split; [|split; [|split]]]]]; auto.
  - intros i j Hi Hj. assert (Q : nth i (map (map (fun u => round2 (u * magnitude))) uA) [] = map (fun u => round2 (u * magnitude)) (nth i uA [])) by exact (map_nth (map (fun u => round2 (u * magnitude))) uA [] i).
    rewrite Q. rewrite R2; [apply round2_spec|]. rewrite Forall_forall in FA. rewrite FA; auto. apply nth_In. lia.
  - intros i Hi. rewrite R2 by lia. apply round2_spec.
  - intros i Hi. rewrite R2 by lia. apply round2_spec.
  - apply round2_spec.
  - intros j Hj. unfold meaning. cbn [signs]. rewrite E3. unfold c. rewrite map_length, L3. rewrite nth_map_seq by auto. unfold sign_of.
    destruct (existsb (Z.eqb (Z.of_nat (S j))) (free_variables p)) eqn:X1.
    + apply existsb_exists in X1 as (k & Hk & K). apply Z.eqb_eq in K. subst k. apply E7 in Hk. cbn [opt_list] in Hk. apply F2 in Hk as (i & Hi & P1 & E9). assert (i = j) by lia. subst i. apply Z.eqb_eq in P1. now rewrite P1.
    + assert (X1' : nth j choices 1%Z <> (-1)%Z).
      { intros C. assert (Hk : In (Z.of_nat (S j)) (free_variables p)) by (apply E7; cbn [opt_list]; apply F2; exists j; rewrite C; split; auto; lia).
        assert (existsb (Z.eqb (Z.of_nat (S j))) (free_variables p) = true); [|congruence]. apply existsb_exists. exists (Z.of_nat (S j)). split; auto. apply Z.eqb_refl. }
      destruct (existsb (Z.eqb (Z.of_nat (S j))) (negative_variables p)) eqn:X2.
      * apply existsb_exists in X2 as (k & Hk & K). apply Z.eqb_eq in K. subst k. apply E8 in Hk. cbn [opt_list] in Hk. apply N2 in Hk as (i & Hi & P1 & E9). assert (i = j) by lia. subst i. apply Z.eqb_eq in P1. now rewrite P1.
      * assert (X2' : nth j choices 1%Z <> 0%Z).
        { intros C. assert (Hk : In (Z.of_nat (S j)) (negative_variables p)) by (apply E8; cbn [opt_list]; apply N2; exists j; rewrite C; split; auto; lia).
          assert (existsb (Z.eqb (Z.of_nat (S j))) (negative_variables p) = true); [|congruence]. apply existsb_exists. exists (Z.of_nat (S j)). split; auto. apply Z.eqb_refl. }
        destruct (nth j choices 1%Z) as [|q|q]; auto; try congruence. destruct q; auto. congruence.
Qed.
Print Assumptions C61_random.
Example C61_nontrivial : exists p, random 2 (qz 100) [[Q2Qc (1 # 3); Q2Qc (-1 # 7)]] [Q2Qc (1 # 200)] [qz 1; Q2Qc (125 # 1000000)] (Q2Qc (1 # 2)) true true [CGe] [0; (-1)]%Z = Ok p /\
  map (map this) (lA p) = [[3333 # 100; (-1429) # 100]]%Q /\ map this (lc p) = [100; 1 # 100]%Q /\ this (lz p) = (-50)%Q /\
  inequalities p = [">="] /\ free_variables p = [2]%Z /\ negative_variables p = [1]%Z.
Proof. eexists. split; [reflexivity|]. repeat split; vm_compute; reflexivity. Qed.
