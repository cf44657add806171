(** C30-C34: canonical forms, basic solutions, simplex. *)
From Coq Require Import String List Bool Arith ZArith QArith Qcanon Lia Sorted.
From Verif Require Import Py QcTac QSum QInt ComparatorModel MatModel DetTheory MatTheory LinearModel LinearSpec LinearProofs SefProofs LinearInv DualProofs BasisProofs BlandProofs SimplexProofs SmallProofs LinearProps.
Import ListNotations.
Open Scope nat_scope.
Open Scope string_scope.
Open Scope list_scope.

(** the equality system [A x = b] of a program *)
Definition satisfies (p : lp) (x : list Qc) : Prop :=
  length x = length (lc p) /\ forall i, i < length (lA p) -> inner (nth i (lA p) []) x = nth i (lb p) 0%Qc.
Lemma satisfies_solves p x : wf p -> (satisfies p x <-> length x = cols p /\ solves 1 p (at_ x)).
Proof.
  intros H. unfold satisfies, solves, lhs. split; intros (L & E); (split; [exact L|]); intros i Hi; specialize (E i Hi).
  - rewrite (inner_row (cols p)) in E by (auto; apply (wf_A _ H)). rewrite E. unfold at_. ring.
  - rewrite (inner_row (cols p)) by (auto; apply (wf_A _ H)). rewrite E. unfold at_. ring.
Qed.
Lemma obj_inner p x : inner (lc p) x = obj p (at_ x).
Proof. unfold obj. now rewrite (inner_Sum (cols p)). Qed.

(** * C30 *)
Lemma scatter_sum p B (v : nat -> Qc) (g : nat -> Qc) : NoDup B -> length B = rows p -> (forall j, In j B -> j < cols p) ->
  Sum (cols p) (fun j => g j * at_ (scatter (cols p) B (mkvec (rows p) v)) j)%Qc = Sum (rows p) (fun k => g (bk B k) * v k)%Qc.
Proof.
  intros ND L HB. rewrite (Sum_nth B); auto.
  - rewrite L. apply Sum_ext. intros k Hk. fold (bk B k). rewrite at_scatter; rewrite ?length_mkvec; auto; try lia; [now rewrite at_mkvec|].
    apply HB, nth_In. lia.
  - intros j Hj Hn. rewrite at_scatter_off; rewrite ?length_mkvec; auto. ring.
Qed.
Lemma any_order p B : wf p -> NoDup B -> basis p (sort B) -> mdet (columns_of B (lA p)) <> 0%Qc.
Proof.
  intros H ND HB. assert (L : length B = rows p) by (rewrite <- length_sort; apply HB).
  assert (HBl : forall j, In j B -> j < cols p) by (intros j Hj; apply (bs_lt _ _ HB), In_sort; auto).
  destruct (basis_canon p _ H HB) as (q & _ & HC).
  unfold mdet. rewrite length_columns. apply det_kernel. intros v Hv k Hk. fold (rows p) in *.
  set (d := at_ (scatter (cols p) B (mkvec (rows p) v))).
  assert (S0 : solves 0 q d).
  { apply (cn_eq _ _ _ HC). intros i Hi. unfold lhs. unfold d. rewrite (scatter_sum p B v (ent (lA p) i)) by auto.
    replace (0 * at_ (lb p) i)%Qc with 0%Qc by ring. rewrite <- (Hv i Hi). apply Sum_ext. intros j Hj. rewrite ent_columns by (auto; lia). reflexivity. }
  assert (Hoff : forall j, j < cols p -> ~ In j (sort B) -> d j = 0%Qc).
  { intros j Hj Hn. unfold d. apply at_scatter_off; rewrite ?length_mkvec; auto. intros K. apply Hn. now apply In_sort. }
  assert (dk : d (bk B k) = v k).
  { unfold d. rewrite at_scatter; rewrite ?length_mkvec; auto; try lia; [now rewrite at_mkvec|]. apply HBl, nth_In. lia. }
  rewrite <- dk. assert (K : In (bk B k) (sort B)) by (apply In_sort, nth_In; lia). apply (In_bk p) in K; auto. destruct K as (l & Hl & <-).
  specialize (S0 l). rewrite (cn_rows _ _ _ HC) in S0. specialize (S0 Hl). rewrite (lhs_off p (sort B) q) in S0 by auto. rewrite S0. apply Qcmult_0_l.
Qed.
Lemma is_basis_NoDup p Bz : is_basis p Bz = Ok true -> NoDup (to_array_indexing Bz).
Proof.
  intros E. pose proof (is_basis_basis p Bz E) as HB. apply (@NoDup_incl_NoDup _ (sort (to_array_indexing Bz))).
  - apply (bs_NoDup p); auto.
  - now rewrite length_sort.
  - intros x Hx. now apply In_sort.
Qed.
Lemma canonical_any p Bz : wf p -> is_basis p Bz = Ok true -> exists q, canonical p (to_array_indexing Bz) = Ok q /\ canon p (to_array_indexing Bz) q.
Proof.
  intros H E. pose proof (is_basis_basis p Bz E) as HB. apply canonical_ok; auto.
  - rewrite <- length_sort. apply HB.
  - intros j Hj. apply (bs_lt _ _ HB), In_sort. auto.
  - apply any_order; auto. now apply (is_basis_NoDup p).
Qed.
Lemma nth_array Bz k : k < length Bz -> Z.to_nat (nth k Bz 1%Z - 1) = bk (to_array_indexing Bz) k.
Proof.
  intros Hk. unfold bk, to_array_indexing. rewrite (nth_indep _ 0 (Z.to_nat (1 - 1))) by now rewrite map_length.
  now rewrite (map_nth (fun i => Z.to_nat (i - 1))).
Qed.

(** identity columns and zero costs on the basis, in the order in which the basis lists them *)
Theorem C30_canonical_form p Bz q : reachable p -> to_canonical_form p Bz = Ok q ->
  length (lA q) = length (lA p) /\ length (lc q) = length (lc p) /\
  (forall i k, i < length Bz -> k < length Bz ->
     nth (Z.to_nat (nth k Bz 1%Z - 1)) (nth i (lA q) []) 0%Qc = if Nat.eqb i k then 1%Qc else 0%Qc) /\
  (forall k, k < length Bz -> nth (Z.to_nat (nth k Bz 1%Z - 1)) (lc q) 0%Qc = 0%Qc) /\
  (forall x, satisfies q x <-> satisfies p x) /\
  (forall x, feasible (meaning q) x <-> feasible (meaning p) x) /\
  (forall x, satisfies p x -> value (meaning q) x = value (meaning p) x).
Proof.
  intros Hr E. pose proof (reachable_wf p Hr) as H. unfold to_canonical_form in E. destruct (lsef p) eqn:Hs; [|discriminate]. cbn [negb] in E.
  destruct (is_basis p Bz) as [[|]| |] eqn:EB; try discriminate. cbn [bind] in E.
  destruct (canonical_any p Bz H EB) as (q' & Eq & HC). assert (q' = q) by congruence. subst q'.
  assert (L : length Bz = rows p) by now apply is_basis_true in EB. pose proof (cn_wf _ _ _ HC) as Hq.
  assert (Hsq : lsef q = true) by (destruct (cn_frame _ _ _ HC) as (_ & _ & K & _); congruence).
  assert (SS : forall x, satisfies q x <-> satisfies p x).
  { intros x. rewrite !satisfies_solves by auto. rewrite (cn_cols _ _ _ HC), <- (cn_eq _ _ _ HC). tauto. }
  split; [apply HC|]. split; [apply HC|]. split; [|split; [|split; [|split]]]; auto.
  - intros i k Hi Hk. rewrite nth_array by auto. rewrite L in Hi, Hk. apply (cn_unit _ _ _ HC); auto.
  - intros k Hk. rewrite nth_array by auto. apply (cn_cost _ _ _ HC). lia.
  - intros x. rewrite !sfeas_iff by auto. specialize (SS x). unfold satisfies in SS. unfold sfeas.
    assert (G : forall r, wf r -> forall i, i < rows r -> inner (nth i (lA r) []) x = Sum (cols r) (fun j => ent (lA r) i j * at_ x j)%Qc)
      by (intros r Hwr i Hi; apply inner_row; auto; apply (wf_A _ Hwr)).
    split; intros (X1 & X2 & X3).
    + destruct (proj1 SS) as (Y1 & Y2). { split; auto. intros i Hi. rewrite G by auto. now apply X2. }
      split; auto. split; [intros i Hi; rewrite <- G by auto; now apply Y2|]. intros j Hj. apply X3. now rewrite (cn_cols _ _ _ HC).
    + destruct (proj2 SS) as (Y1 & Y2). { split; auto. intros i Hi. rewrite G by auto. now apply X2. }
      split; auto. split; [intros i Hi; rewrite <- G by auto; now apply Y2|]. intros j Hj. apply X3. now rewrite <- (cn_cols _ _ _ HC).
  - intros x Hx. apply satisfies_solves in Hx; auto. destruct Hx as (_ & Hx). pose proof (cn_obj _ _ _ HC _ _ Hx) as K.
    unfold value. change (costs (meaning q)) with (lc q). change (costs (meaning p)) with (lc p). rewrite !obj_inner. cbn [meaning constant]. clear - K. qclra.
Qed.
Print Assumptions C30_canonical_form.

(** every choice of columns, in any order, whose determinant is not below 10^-10 is a basis *)
Theorem C30_accepts p Bz : reachable p -> lsef p = true -> 0 < length (lA p) -> length Bz = length (lA p) ->
  (forall i, In i Bz -> (1 <= i <= Z.of_nat (length (lc p)))%Z) ->
  (Q2Qc (1 # 10000000000) <= qabs (mdet (columns_of (sort (to_array_indexing Bz)) (lA p))))%Qc ->
  exists q, to_canonical_form p Bz = Ok q.
Proof.
  intros Hr Hs Hm L HB HD. pose proof (reachable_wf p Hr) as H.
  assert (EB : is_basis p Bz = Ok true).
  { unfold is_basis. unfold rows at 1. rewrite L, Nat.eqb_refl. cbn [negb]. destruct (Nat.eqb_spec (length (lA p)) 0); [lia|].
    replace (forallb _ Bz) with true; [cbn [negb]|].
    - unfold is_close_to_zero. destruct (qlt_spec (qabs (mdet (columns_of (sort (to_array_indexing Bz)) (lA p)))) tol_zero) as [K|]; auto. exfalso. unfold tol_zero in K. qclra.
    - symmetry. apply forallb_forall. intros i Hi. specialize (HB i Hi). apply andb_true_iff. rewrite !Z.leb_le. exact HB. }
  destruct (canonical_any p Bz H EB) as (q & Eq & _). exists q. unfold to_canonical_form. rewrite Hs, EB. cbn [negb bind]. exact Eq.
Qed.
Print Assumptions C30_accepts.

(** a regular matrix with a small determinant is refused *)
Theorem C30_small_determinant_refuted : exists p Bz, reachable p /\ lsef p = true /\ length Bz = length (lA p) /\
  mdet (columns_of (sort (to_array_indexing Bz)) (lA p)) <> 0%Qc /\ to_canonical_form p Bz = Raise ValueError.
Proof.
  destruct (linear_program (Nd (Mat 1 [[Q2Qc (1 # 100000000000)]])) (vec [1%Z]) (vec [1%Z]) 0%Qc "max" None None None) as [p| |] eqn:E; try discriminate E.
  exists p, [1%Z]. split; [refine (r_new _ _ _ _ _ _ _ _ _ _ E); repeat constructor|]. injection E as <-. split; [reflexivity|]. split; [reflexivity|].
  split; [discriminate|reflexivity].
Qed.
Print Assumptions C30_small_determinant_refuted.

(** a program used in the examples: maximise 3 x1 + 2 x2 + 1 subject to x1 + x2 + x3 = 4, x1 + 3 x2 + x4 = 6 *)
Definition small_program : res lp :=
  linear_program (mat 4 [[1; 1; 1; 0]; [1; 3; 0; 1]]%Z) (vec [4; 6]%Z) (vec [3; 2; 0; 0]%Z) (qz 1) "max" None None None.
Lemma small_program_reachable p : small_program = Ok p -> reachable p.
Proof. intros E. unfold small_program in E. refine (r_new _ _ _ _ _ _ _ _ _ _ E). repeat constructor. Qed.
Example C30_example : exists p q, small_program = Ok p /\ reachable p /\ to_canonical_form p [2; 1]%Z = Ok q /\
  map (map this) (lA q) = [[0; 1; (-1)#2; 1#2]; [1; 0; 3#2; (-1)#2]]%Q /\ map this (lb q) = [1; 3]%Q.
Proof.
  destruct small_program as [p| |] eqn:E; try discriminate E. pose proof (small_program_reachable p E) as Hr. injection E as <-.
  eexists. eexists. split; [reflexivity|]. split; [exact Hr|]. split; [reflexivity|]. split; vm_compute; reflexivity.
Qed.

(** * C31 *)
Definition vanishes_off (Bz : list Z) (x : list Qc) : Prop :=
  forall j, j < length x -> ~ In (Z.of_nat (S j)) Bz -> nth j x 0%Qc = 0%Qc.
Lemma In_array p Bz j : is_basis p Bz = Ok true -> (In j (to_array_indexing Bz) <-> In (Z.of_nat (S j)) Bz).
Proof.
  intros E. apply is_basis_true in E. destruct E as (_ & _ & HB & _). unfold to_array_indexing. rewrite in_map_iff. split.
  - intros (i & <- & Hi). specialize (HB i Hi). now replace (Z.of_nat (S (Z.to_nat (i - 1)))) with i by lia.
  - intros K. exists (Z.of_nat (S j)). split; auto. lia.
Qed.
Lemma array_sorted Bz : StronglySorted Z.lt Bz -> (forall i, In i Bz -> (1 <= i)%Z) -> StronglySorted lt (to_array_indexing Bz).
Proof.
  induction 1 as [|i l Hs IH Hi]; intros HB; cbn; constructor.
  - apply IH. intros; apply HB; simpl; auto.
  - apply Forall_forall. intros x Hx. apply in_map_iff in Hx. destruct Hx as (j & <- & Hj). rewrite Forall_forall in Hi.
    specialize (Hi j Hj). specialize (HB i (or_introl eq_refl)). lia.
Qed.
Theorem C31_sorted_partial p Bz : reachable p -> is_basis p Bz = Ok true -> StronglySorted Z.lt Bz ->
  exists x, compute_basic_solution p Bz = Ok x /\ satisfies p x /\ vanishes_off Bz x /\
    forall x', satisfies p x' -> vanishes_off Bz x' -> x' = x.
Proof.
  intros Hr E Hsort. pose proof (reachable_wf p Hr) as H. pose proof (is_basis_basis p Bz E) as HB.
  assert (ES : sort (to_array_indexing Bz) = to_array_indexing Bz).
  { apply sort_id, array_sorted; auto. intros i Hi. apply is_basis_true in E. destruct E as (_ & _ & K & _). specialize (K i Hi). lia. }
  rewrite ES in HB. destruct (basic_solution_ok p _ H HB) as (x & Ex & Lx & Hx). exists x.
  unfold compute_basic_solution. rewrite E. cbn [bind]. split; [exact Ex|]. split; [apply satisfies_solves; auto; split; auto; apply Hx|].
  split; [intros j Hj Hn; apply (proj2 Hx); [lia|]; now rewrite (In_array p)|].
  intros x' Hs Hv. apply satisfies_solves in Hs; auto. destruct Hs as (L' & Hs). destruct (basis_canon p _ H HB) as (q & _ & HC).
  apply vec_ext; [congruence|]. intros j Hj. apply (bsol_unique p _ q HB HC); [split; auto|exact Hx|congruence].
  intros k Hk Hn. apply Hv; [lia|]. now rewrite <- (In_array p).
Qed.
Print Assumptions C31_sorted_partial.
(** an unsorted basis gives a vector that does not solve the system *)
Theorem C31_unsorted_refuted : exists p x, reachable p /\ is_basis p [2; 1]%Z = Ok true /\
  compute_basic_solution p [2; 1]%Z = Ok x /\ ~ satisfies p x.
Proof.
  destruct small_program as [p| |] eqn:E; try discriminate E. pose proof (small_program_reachable p E) as Hr. injection E as <-.
  eexists. eexists. split; [exact Hr|]. split; [reflexivity|]. split; [reflexivity|].
  intros (_ & K). specialize (K 1 ltac:(cbn; lia)). apply Qc_eq_this in K. vm_compute in K. discriminate K.
Qed.
Print Assumptions C31_unsorted_refuted.
Example C31_example : exists p x, small_program = Ok p /\ reachable p /\ compute_basic_solution p [1; 2]%Z = Ok x /\ map this x = [3; 1; 0; 0]%Q /\
  StronglySorted Z.lt [1; 2]%Z.
Proof.
  destruct small_program as [p| |] eqn:E; try discriminate E. pose proof (small_program_reachable p E) as Hr. injection E as <-.
  eexists. eexists. split; [reflexivity|]. split; [exact Hr|]. split; [reflexivity|]. split; [vm_compute; reflexivity|]. repeat constructor.
Qed.

(** * C32 *)
Lemma scatter_satisfies p B q : wf p -> iterated (negate_rows p) B q -> bsol p B (at_ (scatter (cols p) B (lb q))).
Proof.
  intros H [HB _ HC]. pose proof (bsol_scatter _ _ _ HB HC) as (S1 & S2). split; [now apply solves_neg|exact S2].
Qed.
Lemma optimal_facts fuel p Bz x Bo cert : wf p -> snd (simplex fuel p Bz) = Ok (Some x, Bo, cert) ->
  lsef p = true /\ exists B q y, Bo = Some (to_math_indexing B) /\ cert = CVec y /\ iterated (negate_rows p) B q /\ is_basis p (to_math_indexing B) = Ok true /\
    x = scatter (cols p) B (lb q) /\ bsol p B (at_ x) /\ length y = rows p /\
    (forall j, j < cols p -> Sum (rows p) (fun i => at_ y i * ent (lA p) i j)%Qc = (at_ (lc p) j - at_ (lc q) j)%Qc) /\
    (Sum (rows p) (fun i => at_ y i * at_ (lb p) i) + lz p = lz q)%Qc /\ (obj p (at_ x) + lz p = lz q)%Qc /\
    (forall j, j < cols p -> (at_ (lc q) j < tol_zero)%Qc) /\ (forall j, j < cols p -> (- tol_zero < at_ x j)%Qc).
Proof.
  intros H E. apply simplex_inv in E. destruct E as (Hs & it & EL & ER). split; auto.
  apply loop_inv in EL; [|now apply wf_negate|exact Hs]. destruct EL as (Hf & B & q & HI & HR & HBm). rewrite neg_again in * by auto.
  destruct it as [x' B' q'|x' B' q'|B' q']; [|cbn [simplex_result] in ER; discriminate ER|contradiction]. cbn [result_of] in HR.
  destruct HR as (-> & -> & Ex & Hc & Hx). destruct (optimal_result p B q x' H HI) as (y & Ey & Ly & Y1 & Y2). rewrite Ey in ER. injection ER as E1 E2 E3.
  subst Bo cert. rewrite E1 in Ex, Hx. clear Hf x' E1 Ey. exists B, q, y. rewrite is_basis_neg in HBm by auto. assert (HX : bsol p B (at_ x)) by (rewrite Ex; exact (scatter_satisfies p B q H HI)).
  repeat (split; [solve [auto]|]). split; [|split; auto].
  destruct HI as [HB _ HC]. assert (HX' : bsol (negate_rows p) B (at_ x)) by (split; [apply solves_neg; auto; apply HX|apply HX]).
  exact (obj_bsol _ _ _ HB HC _ HX').
Qed.
(** up to the tolerance 10^-10, from any basis whatever *)
Theorem C32_solution_partial fuel p Bz x Bo cert : reachable p -> snd (simplex fuel p Bz) = Ok (Some x, Bo, cert) ->
  exists basis y, Bo = Some basis /\ cert = CVec y /\
    satisfies p x /\ (forall j, j < length x -> (- Q2Qc (1 # 10000000000) < nth j x 0)%Qc) /\
    is_basis p basis = Ok true /\ compute_basic_solution p basis = Ok x /\
    length y = length (lb p) /\ inner y (lb p) = inner (lc p) x /\
    (forall j, j < length (lc p) -> (nth j (lc p) 0 - Q2Qc (1 # 10000000000) < inner y (column (lA p) j))%Qc) /\
    verify_optimality p y = Ok true /\
    (forall x', feasible (meaning p) x' -> (value (meaning p) x' <= value (meaning p) x + Q2Qc (1 # 10000000000) * total x')%Qc).
Proof.
  intros Hr E. pose proof (reachable_wf p Hr) as H. destruct (optimal_facts fuel p Bz x Bo cert H E) as (Hs & B & q & y & -> & -> & HI & HBm & Ex & HX & Ly & Y1 & Y2 & Ov & Hc & Hx).
  assert (HB : basis p B) by (apply basis_neg; auto; apply HI).
  assert (Lx : length x = cols p) by (rewrite Ex; apply length_scatter).
  exists (to_math_indexing B), y. split; auto. split; auto. split; [apply satisfies_solves; auto; split; auto; apply HX|].
  split; [intros j Hj; apply Hx; lia|]. split; auto. split.
  { unfold compute_basic_solution. rewrite HBm. cbn [bind]. rewrite array_math. destruct (basic_solution_ok p B H HB) as (x' & Ex' & Lx' & HX').
    rewrite Ex'. f_equal. destruct (basis_canon p B H HB) as (q' & _ & HC'). apply vec_ext; [lia|]. intros j Hj. apply (bsol_unique p B q' HB HC'); auto; lia. }
  split; [rewrite (wf_b _ H); auto|]. split.
  { rewrite obj_inner. rewrite (inner_Sum (rows p)) by auto. clear - Y2 Ov. qclra. }
  assert (D1 : forall j, j < cols p -> (nth j (lc p) 0 - tol_zero < inner y (column (lA p) j))%Qc).
  { intros j Hj. rewrite (inner_column (rows p)) by auto. rewrite Y1 by auto. specialize (Hc j Hj). unfold at_ in *. clear - Hc. qclra. }
  split; [exact D1|]. split.
  { unfold verify_optimality. rewrite Hs, Ly, Nat.eqb_refl. cbn [negb]. f_equal. apply forallb_forall. intros v Hv. apply (In_nth _ _ 0%Qc) in Hv.
    destruct Hv as (j & Hj & <-). assert (LL : length (lc p) = length (mulvm (cols p) y (lA p))) by now rewrite length_mulvm.
    rewrite length_vsub in Hj by auto. fold (at_ (vsub (lc p) (mulvm (cols p) y (lA p))) j). rewrite at_vsub, at_mulvm, Ly by auto. apply le0_true.
    rewrite Y1 by auto. specialize (Hc j Hj). clear - Hc. qclra. }
  intros x' Hx'. apply sfeas_iff in Hx'; auto. destruct Hx' as (X1 & X2 & X3). rewrite !value_Sum. fold (obj p (at_ x)) (obj p (at_ x')).
  assert (K : (obj p (at_ x') - Sum (rows p) (fun i => at_ y i * at_ (lb p) i) = Sum (cols p) (fun j => at_ (lc q) j * at_ x' j))%Qc).
  { rewrite (Sum_ext (rows p) _ (fun i => at_ y i * Sum (cols p) (fun j => ent (lA p) i j * at_ x' j))%Qc) by (intros i Hi; now rewrite X2).
    rewrite Sum_assoc. unfold obj. rewrite <- Sum_sub. apply Sum_ext. intros j Hj. rewrite Y1 by auto. ring. }
  assert (K2 : (Sum (cols p) (fun j => at_ (lc q) j * at_ x' j) <= tol_zero * total x')%Qc).
  { rewrite total_Sum, X1, <- Sum_scal. apply Sum_le. intros j Hj. apply qmul_le_r; auto. specialize (Hc j Hj). apply Qclt_le_weak. auto. }
  change (Q2Qc (1 # 10000000000)) with tol_zero. clear - K K2 Y2 Ov. qclra.
Qed.
Print Assumptions C32_solution_partial.

Lemma sep_of_small p : wf p -> small_data p -> separated (negate_rows p).
Proof. intros H HS. apply data_separated; [now apply wf_negate|now apply data_neg]. Qed.
Lemma exact_facts fuel p Bz x Bo cert : wf p -> small_data p -> snd (simplex fuel p Bz) = Ok (Some x, Bo, cert) ->
  lsef p = true /\ exists B q y, Bo = Some (to_math_indexing B) /\ cert = CVec y /\ iterated (negate_rows p) B q /\ is_basis p (to_math_indexing B) = Ok true /\
    length x = cols p /\ bsol p B (at_ x) /\ length y = rows p /\
    (forall j, j < cols p -> Sum (rows p) (fun i => at_ y i * ent (lA p) i j)%Qc = (at_ (lc p) j - at_ (lc q) j)%Qc) /\
    (Sum (rows p) (fun i => at_ y i * at_ (lb p) i) + lz p = lz q)%Qc /\ (obj p (at_ x) + lz p = lz q)%Qc /\
    (forall j, j < cols p -> (at_ (lc q) j <= 0)%Qc) /\ (forall j, j < cols p -> (0 <= at_ x j)%Qc) /\ (forall j, j < cols p -> (0 < at_ x j -> tol_zero <= at_ x j)%Qc).
Proof.
  intros H HS E. destruct (optimal_facts fuel p Bz x Bo cert H E) as (Hs & B & q & y & -> & -> & HI & HBm & Ex & HX & Ly & Y1 & Y2 & Ov & Hc & Hx).
  split; auto. exists B, q, y. pose proof (sep_of_small p H HS B q (it_B _ _ _ HI) (it_q _ _ _ HI)) as SP. pose proof (rows_neg p H) as R.
  assert (Lx : length x = cols p) by (rewrite Ex; apply length_scatter).
  assert (Hc0 : forall j, j < cols p -> (at_ (lc q) j <= 0)%Qc).
  { intros j Hj. apply Qcnot_lt_le. intros K. apply (sp_c _ _ _ SP) in K; auto. specialize (Hc j Hj). clear - K Hc. qclra. }
  assert (HX' : bsol (negate_rows p) B (at_ x)) by (split; [apply solves_neg; auto; apply HX|apply HX]).
  assert (Hx0 : forall j, j < cols p -> (0 <= at_ x j)%Qc).
  { intros j Hj. destruct (in_dec Nat.eq_dec j B) as [Hi|Hi]; [|rewrite (proj2 HX) by auto; discriminate].
    destruct HI as [HB _ HC]. apply (In_bk (negate_rows p)) in Hi; auto. destruct Hi as (i & Hi & <-). specialize (Hx _ Hj).
    rewrite (bsol_at _ _ _ HB HC _ HX' i Hi) in *. apply Qcnot_lt_le. intros K. apply (sp_b _ _ _ SP) in K; auto. clear - K Hx. qclra. }
  assert (Hxt : forall j, j < cols p -> (0 < at_ x j -> tol_zero <= at_ x j)%Qc).
  { intros j Hj. destruct (in_dec Nat.eq_dec j B) as [Hi|Hi]; [|rewrite (proj2 HX) by auto; discriminate].
    destruct HI as [HB _ HC]. apply (In_bk (negate_rows p)) in Hi; auto. destruct Hi as (i & Hi & <-).
    rewrite (bsol_at _ _ _ HB HC _ HX' i Hi) in *. now apply (sp_p _ _ _ SP). }
  repeat (split; [solve [auto]|]). auto.
Qed.
Lemma exact_optimal fuel p Bz x Bo cert : wf p -> small_data p -> snd (simplex fuel p Bz) = Ok (Some x, Bo, cert) ->
  optimal (meaning p) x /\ exists y, cert = CVec y /\ inner y (lb p) = inner (lc p) x /\
    forall j, j < length (lc p) -> (nth j (lc p) 0 <= inner y (column (lA p) j))%Qc.
Proof.
  intros H HS E. destruct (exact_facts fuel p Bz x Bo cert H HS E) as (Hs & B & q & y & -> & -> & HI & HBm & Lx & HX & Ly & Y1 & Y2 & Ov & Hc0 & Hx0 & _).
  assert (F : feasible (meaning p) x).
  { apply sfeas_iff; auto. split; auto. split; auto. intros i Hi. pose proof (proj1 HX i Hi) as K. unfold lhs in K. rewrite K. ring. }
  split.
  - split; auto. intros x' Hx'. unfold as_good. rewrite max_sef by auto. apply sfeas_iff in Hx'; auto. destruct Hx' as (X1 & X2 & X3). rewrite !value_Sum. fold (obj p (at_ x)) (obj p (at_ x')).
    assert (K : (obj p (at_ x') - Sum (rows p) (fun i => at_ y i * at_ (lb p) i) = Sum (cols p) (fun j => at_ (lc q) j * at_ x' j))%Qc).
    { rewrite (Sum_ext (rows p) _ (fun i => at_ y i * Sum (cols p) (fun j => ent (lA p) i j * at_ x' j))%Qc) by (intros i Hi; now rewrite X2).
      rewrite Sum_assoc. unfold obj. rewrite <- Sum_sub. apply Sum_ext. intros j Hj. rewrite Y1 by auto. ring. }
    assert (K2 : (Sum (cols p) (fun j => at_ (lc q) j * at_ x' j) <= 0)%Qc).
    { rewrite <- (Sum_zero (cols p)). apply Sum_le. intros j Hj. specialize (Hc0 j Hj). specialize (X3 j Hj).
      rewrite <- (Qcmult_0_l (at_ x' j)). now apply qmul_le_r. }
    clear - K K2 Y2 Ov. qclra.
  - exists y. split; auto. split; [rewrite obj_inner, (inner_Sum (rows p)) by auto; clear - Y2 Ov; qclra|].
    intros j Hj. rewrite (inner_column (rows p)) by auto. rewrite Y1 by auto. specialize (Hc0 j Hj). unfold at_ in *. clear - Hc0. qclra.
Qed.
(** exactly optimal, with an exact certificate, when the scaled minors are moderate (small_data) *)
Theorem C32_exact_partial fuel p Bz x Bo cert : reachable p -> small_data p -> snd (simplex fuel p Bz) = Ok (Some x, Bo, cert) ->
  optimal (meaning p) x /\ exists y, cert = CVec y /\ inner y (lb p) = inner (lc p) x /\
    forall j, j < length (lc p) -> (nth j (lc p) 0 <= inner y (column (lA p) j))%Qc.
Proof. intros Hr. apply exact_optimal. now apply reachable_wf. Qed.
Print Assumptions C32_exact_partial.

(** a decision procedure for the hypothesis, used in the examples *)
Lemma isint_map (l : list Z) v : In v (map qz l) -> exists z, v = qz z.
Proof. intros H. apply in_map_iff in H. destruct H as (z & <- & _). eauto. Qed.
Definition zmax (l : list Z) : Z := fold_right (fun z m => Z.max (Z.abs z) m) 0%Z l.
Lemma zmax_le l z : In z l -> (Z.abs z <= zmax l)%Z.
Proof. induction l as [|w l IH]; [intros []|]. cbn [zmax fold_right]. intros [->|K]; [lia|]. specialize (IH K). unfold zmax in IH. lia. Qed.
Lemma integers_small p n A b c : wf p -> lA p = map (map qz) A -> lb p = map qz b -> lc p = map qz c -> length (lA p) = n ->
  (Z.of_nat (fact n) * Z.max (zmax (concat A)) (zmax b) ^ Z.of_nat n <= 300)%Z -> small_data p.
Proof.
  intros H EA Eb Ec Hn HM. apply (small_entries_data p (Z.max (zmax (concat A)) (zmax b)) H).
  - assert (0 <= zmax b)%Z; [|lia]. clear. induction b; cbn; lia.
  - constructor.
    + intros r v Hr Hv. rewrite EA in Hr. apply in_map_iff in Hr. destruct Hr as (r' & <- & Hr'). apply in_map_iff in Hv. destruct Hv as (z & <- & Hz).
      exists z. split; auto. assert (Z.abs z <= zmax (concat A))%Z; [|lia]. apply zmax_le. apply in_concat. eauto.
    + intros v Hv. rewrite Eb in Hv. apply in_map_iff in Hv. destruct Hv as (z & <- & Hz). exists z. split; auto.
      assert (Z.abs z <= zmax b)%Z by now apply zmax_le. lia.
    + intros v Hv. rewrite Ec in Hv. now apply isint_map in Hv.
    + now rewrite Hn.
Qed.
Lemma small_program_small p : small_program = Ok p -> small_data p.
Proof.
  intros E. pose proof (reachable_wf p (small_program_reachable p E)) as H. injection E as <-.
  apply (integers_small _ 2 [[1; 1; 1; 0]; [1; 3; 0; 1]]%Z [4; 6]%Z [3; 2; 0; 0]%Z H); try reflexivity. cbn. lia.
Qed.
Example C32_example : exists p, small_program = Ok p /\ reachable p /\ small_data p /\
  match snd (simplex 16 p [4; 3]%Z) with
  | Ok (Some x, Some B, CVec y) => B = [1; 4]%Z /\ map this x = [4; 0; 0; 2]%Q /\ map this y = [3; 0]%Q
  | _ => False
  end.
Proof.
  destruct small_program as [p| |] eqn:E; try discriminate E. pose proof (small_program_reachable p E) as Hr. pose proof (small_program_small p E) as HS. injection E as <-.
  eexists. split; [reflexivity|]. split; [exact Hr|]. split; [exact HS|]. vm_compute. repeat split.
Qed.

Lemma of_this x l : map this x = l -> x = map Q2Qc l.
Proof.
  intros <-. rewrite map_map. rewrite <- (map_id x) at 1. apply map_ext. intros a. apply Qc_is_canon. now rewrite this_Q2Qc.
Qed.
(** beyond the tolerance the claim fails: the reported point has value 0, another feasible one has value 5 *)
Theorem C32_tolerance_refuted : exists p x y B, reachable p /\ snd (simplex 4 p [2]%Z) = Ok (Some x, Some B, CVec y) /\
  exists x', feasible (meaning p) x' /\ (value (meaning p) x + qz 5 <= value (meaning p) x')%Qc.
Proof.
  destruct (linear_program (mat 2 [[1; 1]]%Z) (Nd (Vec [qz 100000000000])) (Nd (Vec [Q2Qc (5 # 100000000000); 0%Qc])) 0%Qc "max" None None None) as [p| |] eqn:E; try discriminate E.
  assert (Hr : reachable p) by (refine (r_new _ _ _ _ _ _ _ _ _ _ E); repeat constructor). injection E as E.
  assert (G : match snd (simplex 4 p [2]%Z) with Ok (Some x, Some B, CVec y) => map this x = [0; 100000000000]%Q | _ => False end) by (rewrite <- E; vm_compute; reflexivity).
  destruct (snd (simplex 4 p [2]%Z)) as [[[[x|] [B|]] [y|? ?]]| |] eqn:ES; try contradiction. apply of_this in G.
  exists p, x, y, B. split; [exact Hr|]. split; [exact ES|]. exists [qz 100000000000; 0%Qc]. subst p x. split.
  - split; [reflexivity|]. split.
    + intros [|i] Hi; [|cbn in Hi; lia]. apply Qc_is_canon. reflexivity.
    + intros [|[|j]] Hj; [| |cbn in Hj; lia]; cbn; discriminate.
  - vm_compute. discriminate.
Qed.
Print Assumptions C32_tolerance_refuted.

(** * C33 *)
Lemma argmax_first c : forall i k, k < length c -> (0 < at_ c k)%Qc -> (forall j, j < k -> (at_ c j <= 0)%Qc) -> argmax_pos i c = i + k.
Proof.
  induction c as [|v c IH]; intros i k Hk Hp Hf; [simpl in Hk; lia|]. cbn [argmax_pos]. destruct k as [|k].
  - unfold at_ in Hp. cbn [nth] in Hp. destruct (qlt_spec 0 v); [lia|contradiction].
  - pose proof (Hf 0 ltac:(lia)) as K. unfold at_ in K. cbn [nth] in K. destruct (qlt_spec 0 v); [exfalso; clear - K q; qclra|].
    rewrite (IH (S i) k); [lia|simpl in Hk; lia|exact Hp|]. intros j Hj. apply (Hf (S j)). lia.
Qed.
Lemma unbounded_result b p B q x : let k := argmax_pos 0 (lc q) in iterated p B q -> k < cols p ->
  exists d, simplex_result b p (Unbounded x B q) = Ok (None, None, CPair x d) /\ length d = cols p /\ forall j, at_ d j = dir p q B k j.
Proof.
  intros k [HB _ HC] Hk. cbn [simplex_result]. fold k. fold (scatter (cols p) B (map (fun r => - at_ r k)%Qc (lA q))).
  eexists. split; [reflexivity|]. split; [now rewrite length_set_at, length_scatter|]. intros j. rewrite at_set_at, length_scatter.
  unfold dir. destruct (Nat.eqb_spec j k) as [->|_]; [destruct (Nat.ltb_spec k (cols p)); auto; lia|]. cbn [andb]. f_equal. f_equal.
  assert (LA : length (lA q) = rows p) by apply HC.
  apply vec_ext; [rewrite map_length, length_mkvec; auto|]. rewrite map_length. intros i Hi. rewrite at_mkvec by lia.
  unfold at_ at 1. rewrite (nth_indep _ _ (- at_ [] k)%Qc) by now rewrite map_length. now rewrite (map_nth (fun r => - at_ r k)%Qc).
Qed.

(** a starting basis whose basic solution is feasible *)
Definition feasible_basis (p : lp) (Bz : list Z) : Prop := exists x, feasible (meaning p) x /\ vanishes_off Bz x.
Lemma feasible_fbasis p Bz : wf p -> lsef p = true -> is_basis p Bz = Ok true -> (feasible_basis p Bz <-> fbasis p (sort (to_array_indexing Bz))).
Proof.
  intros H Hs E. split.
  - intros (x & Fx & Vx). apply sfeas_iff in Fx; auto. destruct Fx as (X1 & X2 & X3). exists (at_ x). split; auto. split.
    + intros i Hi. unfold lhs. rewrite X2 by auto. ring.
    + intros j Hj Hn. apply Vx; [lia|]. rewrite <- (In_array p) by auto. intros K. apply Hn. now apply In_sort.
  - intros (f & (S1 & S2) & Hp). exists (mkvec (cols p) f). split.
    + apply sfeas_iff; auto. split; [apply length_mkvec|]. split; [|intros j Hj; rewrite at_mkvec by auto; now apply Hp].
      intros i Hi. pose proof (S1 i Hi) as K. unfold lhs in K. rewrite Qcmult_1_l in K. rewrite <- K. apply Sum_ext. intros j Hj. now rewrite at_mkvec.
    + intros j Hj Hn. rewrite length_mkvec in Hj. fold (at_ (mkvec (cols p) f) j). rewrite at_mkvec by auto. apply S2; auto.
      intros K. apply (proj1 (In_sort _ _)) in K. apply Hn. now apply (In_array p).
Qed.
Lemma fbasis_neg p B : wf p -> (fbasis (negate_rows p) B <-> fbasis p B).
Proof.
  intros H. unfold fbasis, bsol. split; intros (f & (S1 & S2) & Hp); exists f; split; auto; split; auto; now apply (solves_neg 1 p f H).
Qed.

(** what simplex returns from a feasible basis *)
Lemma simplex_returns p Bz fuel : wf p -> lsef p = true -> small_data p -> is_basis p Bz = Ok true -> feasible_basis p Bz -> 2 ^ cols p <= fuel ->
  (exists x B y, snd (simplex fuel p Bz) = Ok (Some x, Some B, CVec y)) \/
  (exists x d B q k, snd (simplex fuel p Bz) = Ok (None, None, CPair x d) /\ iterated (negate_rows p) B q /\ fbasis p B /\ x = scatter (cols p) B (lb q) /\
     length d = cols p /\ (forall j, at_ d j = dir (negate_rows p) q B k j) /\ k < cols p /\ ~ In k B /\ (0 < at_ (lc q) k)%Qc /\
     forall i, i < rows p -> (ent (lA q) i k <= 0)%Qc).
Proof.
  intros H Hs HS HBz HF Hfuel. pose proof (sep_of_small p H HS) as SP. pose proof (wf_negate p H) as H'. pose proof (rows_neg p H) as R.
  destruct (loop_terminates (negate_rows p) H' Hs (neg_again p H) SP fuel Bz) as (it & B & q & EL & Hfin & HI & HFB & HR & _).
  { now rewrite is_basis_neg. } { apply fbasis_neg; auto. now apply feasible_fbasis. } { exact Hfuel. }
  assert (ES : forall r, simplex_result (lb p) (negate_rows p) it = Ok r -> snd (simplex fuel p Bz) = Ok r).
  { intros r Er. unfold simplex. rewrite Hs. cbn [negb]. rewrite EL. cbn [bind]. now rewrite Er. }
  destruct it as [x B' q'|x B' q'|B' q']; [| |contradiction]; cbn [result_of] in HR.
  - destruct HR as (-> & -> & _). left. destruct (optimal_result p B q x H HI) as (y & Ey & _). exists x, (to_math_indexing B), y. now apply ES.
  - destruct HR as (-> & -> & Ex & k & Hk & HkB & Hck & Hfirst & Hcol). right.
    pose proof (SP B q (it_B _ _ _ HI) (it_q _ _ _ HI)) as SB. pose proof tol_pos as T.
    assert (Hck0 : (0 < at_ (lc q) k)%Qc) by (clear - Hck T; qclra).
    assert (EK : argmax_pos 0 (lc q) = k).
    { rewrite (argmax_first (lc q) 0 k); auto.
      - destruct HI as [_ _ HC]. change (k < cols q). now rewrite (cn_cols _ _ _ HC).
      - intros j Hj. apply Qcnot_lt_le. intros K. apply (sp_c _ _ _ SB) in K; [|lia]. specialize (Hfirst j Hj). clear - K Hfirst. qclra. }
    destruct (unbounded_result (lb p) (negate_rows p) B q x HI) as (d & Ed & Ld & Hd); [now rewrite EK|]. rewrite EK in Hd.
    exists x, d, B, q, k. split; [now apply ES|]. split; auto. split; [now apply fbasis_neg|]. split; auto. split; auto. split; auto. split; auto. split; auto. split; auto.
    intros i Hi. apply Qcnot_lt_le. intros K. apply (sp_a _ _ _ SB) in K; auto; [|lia]. specialize (Hcol i ltac:(lia)). clear - K Hcol. qclra.
Qed.

(** [x] is feasible and [d] is a direction along which one can go for ever, gaining all the time *)
Definition unbounded_certificate (p : lp) (x d : list Qc) : Prop :=
  feasible (meaning p) x /\ length d = length (lc p) /\
  (forall i, i < length (lA p) -> inner (nth i (lA p) []) d = 0%Qc) /\ (forall j, j < length d -> (0 <= nth j d 0)%Qc) /\ (0 < inner (lc p) d)%Qc.
Lemma returns_certificate p Bz fuel r : wf p -> lsef p = true -> small_data p -> is_basis p Bz = Ok true -> feasible_basis p Bz -> 2 ^ cols p <= fuel ->
  snd (simplex fuel p Bz) = Ok r ->
  (exists x B y, r = (Some x, Some B, CVec y)) \/ (exists x d, r = (None, None, CPair x d) /\ unbounded_certificate p x d).
Proof.
  intros H Hs HS HBz HF Hfuel E. destruct (simplex_returns p Bz fuel H Hs HS HBz HF Hfuel) as [(x & B & y & E')|(x & d & B & q & k & E' & HI & HFB & Ex & Ld & Hd & Hk & HkB & Hck & Hcol)].
  - left. exists x, B, y. congruence.
  - right. exists x, d. split; [congruence|]. destruct HFB as (f & Hf & Hfp). pose proof (scatter_satisfies p B q H HI) as HX. rewrite <- Ex in HX.
    assert (HB : basis p B) by (apply basis_neg; auto; apply HI). destruct (basis_canon p B H HB) as (q0 & _ & HC0).
    assert (EX : forall j, j < cols p -> at_ x j = f j) by (intros j Hj; apply (bsol_unique p B q0 HB HC0); auto).
    destruct HI as [HB' _ HC]. pose proof (rows_neg p H) as R.
    split; [|split; [|split; [|split]]]; auto.
    + apply sfeas_iff; auto. split; [rewrite Ex; apply length_scatter|]. split.
      * intros i Hi. pose proof (proj1 HX i Hi) as K. unfold lhs in K. rewrite K. ring.
      * intros j Hj. rewrite EX by auto. now apply Hfp.
    + intros i Hi. rewrite (inner_row (cols p)) by (auto; apply (wf_A _ H)).
      pose proof (dir_solves (negate_rows p) B q k HB' HC Hk HkB) as S0. apply (solves_neg 0 p _ H) in S0. specialize (S0 i Hi). unfold lhs in S0.
      rewrite Qcmult_0_l in S0. rewrite <- S0. apply Sum_ext. intros j Hj. now rewrite Hd.
    + intros j Hj. fold (at_ d j). rewrite Hd. destruct (Nat.eq_dec j k) as [->|Hne]; [rewrite dir_k; discriminate|].
      destruct (in_dec Nat.eq_dec j B) as [Hi|Hi]; [|rewrite (dir_off _ _ _ _ HB'); auto; discriminate].
      apply (In_bk p) in Hi; auto. destruct Hi as (i & Hi & <-). rewrite (dir_B _ _ _ _ HB') by (auto; lia). specialize (Hcol i Hi). clear - Hcol. qclra.
    + rewrite obj_inner. replace (obj p (at_ d)) with (obj (negate_rows p) (dir (negate_rows p) q B k)).
      * now rewrite (dir_obj _ _ _ _ HB' HC).
      * apply Sum_ext. intros j Hj. now rewrite Hd.
Qed.
Theorem C33_ray_partial p Bz fuel c x : reachable p -> small_data p -> is_basis p Bz = Ok true -> feasible_basis p Bz -> 2 ^ length (lc p) <= fuel ->
  snd (simplex fuel p Bz) = Ok (x, None, c) ->
  x = None /\ (exists x0 d, c = CPair x0 d /\ unbounded_certificate p x0 d) /\ unbounded (meaning p).
Proof.
  intros Hr HS HBz HF Hfuel E. pose proof (reachable_wf p Hr) as H. assert (Hs : lsef p = true) by (now apply simplex_inv in E).
  destruct (returns_certificate p Bz fuel _ H Hs HS HBz HF Hfuel E) as [(x1 & B & y & K)|(x1 & d & K & HU)]; [discriminate K|]. injection K as -> ->.
  split; auto. split; [eauto|]. destruct HU as (Fx & Ld & U1 & U2 & U3). apply (ray_unbounded p x1 d); auto. intros j Hj. apply U2. unfold cols in Hj. lia.
Qed.
Print Assumptions C33_ray_partial.

(** maximise x2 - x1 subject to x1 - x2 + x3 = 2, x1 - 2 x2 + x4 = 1 *)
Definition unbounded_program : res lp :=
  linear_program (mat 4 [[1; -1; 1; 0]; [1; -2; 0; 1]]%Z) (vec [2; 1]%Z) (vec [-1; 1; 0; 0]%Z) 0%Qc "max" None None None.
Lemma unbounded_program_reachable p : unbounded_program = Ok p -> reachable p.
Proof. intros E. unfold unbounded_program in E. refine (r_new _ _ _ _ _ _ _ _ _ _ E). repeat constructor. Qed.
Example C33_example : exists p, unbounded_program = Ok p /\ reachable p /\ small_data p /\ is_basis p [3; 4]%Z = Ok true /\ feasible_basis p [3; 4]%Z /\
  match snd (simplex 16 p [3; 4]%Z) with
  | Ok (None, None, CPair x d) => map this x = [0; 0; 2; 1]%Q /\ map this d = [0; 1; 1; 2]%Q
  | _ => False
  end.
Proof.
  destruct unbounded_program as [p| |] eqn:E; try discriminate E. pose proof (unbounded_program_reachable p E) as Hr. pose proof (reachable_wf p Hr) as H. injection E as <-.
  eexists. split; [reflexivity|]. split; [exact Hr|]. split; [|split; [|split]].
  - apply (integers_small _ 2 [[1; -1; 1; 0]; [1; -2; 0; 1]]%Z [2; 1]%Z [-1; 1; 0; 0]%Z H); try reflexivity. cbn. lia.
  - vm_compute. reflexivity.
  - exists [0; 0; qz 2; 1]%Qc. split.
    + split; [reflexivity|]. split.
      * intros [|[|i]] Hi; [| |cbn in Hi; lia]; apply Qc_is_canon; reflexivity.
      * intros [|[|[|[|j]]]] Hj; [| | | |cbn in Hj; lia]; cbn; discriminate.
    + intros [|[|[|[|j]]]] Hj Hn; try reflexivity; [exfalso; apply Hn; simpl; auto|exfalso; apply Hn; simpl; auto|cbn in Hj; lia].
  - vm_compute. repeat split.
Qed.
(** the direction is computed from the first positive coefficient, however small, while the test
    used the first one above the tolerance *)
Theorem C33_tolerance_refuted : exists p x d, reachable p /\ is_basis p [3]%Z = Ok true /\ feasible_basis p [3]%Z /\
  snd (simplex 8 p [3]%Z) = Ok (None, None, CPair x d) /\ ~ unbounded_certificate p x d.
Proof.
  destruct (linear_program (mat 3 [[1; 0; 1]]%Z) (vec [1]%Z) (Nd (Vec [Q2Qc (1 # 100000000000); 1; 0]%Qc)) 0%Qc "max" None None None) as [p| |] eqn:E; try discriminate E.
  assert (Hr : reachable p) by (refine (r_new _ _ _ _ _ _ _ _ _ _ E); repeat constructor). injection E as E.
  assert (G : match snd (simplex 8 p [3]%Z) with Ok (None, None, CPair x d) => map this d = [1; 0; -1]%Q | _ => False end) by (rewrite <- E; vm_compute; reflexivity).
  destruct (snd (simplex 8 p [3]%Z)) as [[[[x0|] [B|]] [y|x d]]| |] eqn:ES; try contradiction. apply of_this in G.
  exists p, x, d. split; [exact Hr|]. split; [subst p; vm_compute; reflexivity|]. split; [|split; [exact ES|]].
  - exists [0; 0; 1]%Qc. subst p. split.
    + split; [reflexivity|]. split.
      * intros [|i] Hi; [|cbn in Hi; lia]. apply Qc_is_canon. reflexivity.
      * intros [|[|[|j]]] Hj; [| | |cbn in Hj; lia]; cbn; discriminate.
    + intros [|[|[|j]]] Hj Hn; try reflexivity; [|cbn in Hj; lia]. exfalso. apply Hn. simpl. auto.
  - intros (_ & _ & _ & K & _). subst d. specialize (K 2 ltac:(cbn; lia)). vm_compute in K. apply K. reflexivity.
Qed.
Print Assumptions C33_tolerance_refuted.

(** * C34 *)
Lemma simplex_terminates p Bz fuel : wf p -> lsef p = true -> small_data p -> is_basis p Bz = Ok true -> feasible_basis p Bz ->
  2 ^ length (lc p) <= fuel -> exists r, simplex fuel p Bz = (p, Ok r) /\
    ((exists x B y, r = (Some x, Some B, CVec y) /\ optimal (meaning p) x) \/ (exists x d, r = (None, None, CPair x d) /\ unbounded_certificate p x d)).
Proof.
  intros H Hs HS HBz HF Hfuel.
  assert (Er : exists r, snd (simplex fuel p Bz) = Ok r).
  { destruct (simplex_returns p Bz fuel H Hs HS HBz HF Hfuel) as [(x & B & y & E)|(x & d & B & q & k & E & _)]; eauto. }
  destruct Er as (r & Er). exists r. split.
  - destruct (simplex_state fuel p Bz H) as [K|(_ & K)]; [|exfalso; eapply K; eauto]. destruct (simplex fuel p Bz) as [p' r']. cbn [fst snd] in *. congruence.
  - destruct (returns_certificate p Bz fuel r H Hs HS HBz HF Hfuel Er) as [(x & B & y & K)|K]; auto. left. exists x, B, y. split; auto. subst r.
    now apply (exact_optimal fuel p Bz x (Some B) (CVec y)) in Er.
Qed.
(** never more iterations than there are sets of columns; no exception; the program is restored *)
Theorem C34_terminates_partial p Bz fuel : reachable p -> lsef p = true -> small_data p -> is_basis p Bz = Ok true -> feasible_basis p Bz ->
  2 ^ length (lc p) <= fuel -> exists r, simplex fuel p Bz = (p, Ok r) /\
    ((exists x B y, r = (Some x, Some B, CVec y) /\ optimal (meaning p) x) \/ (exists x d, r = (None, None, CPair x d) /\ unbounded_certificate p x d)).
Proof. intros Hr. apply simplex_terminates. now apply reachable_wf. Qed.
Print Assumptions C34_terminates_partial.
(** two constraints that differ by less than the tolerance of the ratio test *)
Theorem C34_exception_refuted : exists p, reachable p /\ lsef p = true /\ is_basis p [2; 3]%Z = Ok true /\ feasible_basis p [2; 3]%Z /\
  snd (simplex 8 p [2; 3]%Z) = Raise ArithmeticError.
Proof.
  destruct (linear_program (mat 3 [[1; 1; 0]; [1; 0; 1]]%Z) (Nd (Vec [Q2Qc (200000001 # 200000000); 1%Qc])) (vec [1; 0; 0]%Z) 0%Qc "max" None None None) as [p| |] eqn:E; try discriminate E.
  assert (Hr : reachable p) by (refine (r_new _ _ _ _ _ _ _ _ _ _ E); repeat constructor). injection E as <-.
  eexists. split; [exact Hr|]. split; [reflexivity|]. split; [vm_compute; reflexivity|]. split.
  - exists [0; Q2Qc (200000001 # 200000000); 1]%Qc. split.
    + split; [reflexivity|]. split.
      * intros [|[|i]] Hi; [| |cbn in Hi; lia]; apply Qc_is_canon; reflexivity.
      * intros [|[|[|j]]] Hj; [| | |cbn in Hj; lia]; cbn; discriminate.
    + intros [|[|[|j]]] Hj Hn; try reflexivity; [exfalso; apply Hn; simpl; auto|exfalso; apply Hn; simpl; auto|cbn in Hj; lia].
  - vm_compute. reflexivity.
Qed.
Print Assumptions C34_exception_refuted.
(** Chvatal's and Beale's cycling examples have this shape: degenerate vertices, all ratios tied *)
Definition degenerate_program : res lp :=
  linear_program (mat 5 [[1; -2; 1; 0; 0]; [1; -1; 0; 1; 0]; [0; 1; 0; 0; 1]]%Z) (vec [0; 0; 1]%Z) (vec [2; 1; 0; 0; 0]%Z) 0%Qc "max" None None None.
Example C34_example : exists p, degenerate_program = Ok p /\ reachable p /\ lsef p = true /\ small_data p /\ is_basis p [3; 4; 5]%Z = Ok true /\ feasible_basis p [3; 4; 5]%Z /\
  match snd (simplex 32 p [3; 4; 5]%Z) with Ok (Some x, Some B, CVec y) => map this x = [1; 1; 1; 0; 0]%Q /\ B = [1; 2; 3]%Z | _ => False end.
Proof.
  destruct degenerate_program as [p| |] eqn:E; try discriminate E. unfold degenerate_program in E.
  assert (Hr : reachable p) by (refine (r_new _ _ _ _ _ _ _ _ _ _ E); repeat constructor). pose proof (reachable_wf p Hr) as H. injection E as <-.
  eexists. split; [reflexivity|]. split; [exact Hr|]. split; [reflexivity|]. split; [|split; [|split]].
  - apply (integers_small _ 3 [[1; -2; 1; 0; 0]; [1; -1; 0; 1; 0]; [0; 1; 0; 0; 1]]%Z [0; 0; 1]%Z [2; 1; 0; 0; 0]%Z H); try reflexivity. cbn. lia.
  - vm_compute. reflexivity.
  - exists [0; 0; 0; 0; 1]%Qc. split.
    + split; [reflexivity|]. split.
      * intros [|[|[|i]]] Hi; [| | |cbn in Hi; lia]; apply Qc_is_canon; reflexivity.
      * intros [|[|[|[|[|j]]]]] Hj; [| | | | |cbn in Hj; lia]; cbn; discriminate.
    + intros [|[|[|[|[|j]]]]] Hj Hn; try reflexivity; [|cbn in Hj; lia]. exfalso. apply Hn. simpl. auto.
  - vm_compute. repeat split.
Qed.
