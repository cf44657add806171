(** C42: programs with an optimal solution for which solve returns None, and one for which it never returns *)
From Coq Require Import String List Bool Arith ZArith QArith Qcanon Lia Sorted.
From Verif Require Import Py QcTac QSum QInt ComparatorModel MatModel DetTheory MatTheory LinearModel LinearSpec LinearProofs SefProofs LinearInv DualProofs BasisProofs BlandProofs SimplexProofs SmallProofs LinearProps SimplexProps TwoPhaseProofs TwoPhaseProps.
Import ListNotations.
Open Scope nat_scope. Open Scope string_scope. Open Scope list_scope.

Definition round_program : res lp :=
  linear_program (mat 4 [[0; -2; -2; -3]; [2; 0; -2; 3]; [2; 1; 0; 2]; [-2; -1; -3; -1]]%Z) (vec [-3; -2; 0; -1]%Z) (vec [2; 3; -3; 1]%Z) 0%Qc "max"
    (Some ["<="; "<="; "<="; "<="]) None None.
(** the basis after [n] iterations *)
Fixpoint after (n : nat) (p : lp) (B : list Z) : option (list Z) :=
  match n with
  | 0 => Some B
  | S n' => match simplex_iteration p B with Ok (Next B' _) => after n' p (to_math_indexing B') | _ => None end
  end.
Lemma after_diverges p : forall n B B' fuel, after n p B = Some B' -> (n <= fuel -> simplex_loop (fuel - n) p B' = Diverges) -> simplex_loop fuel p B = Diverges.
Proof.
  induction n as [|n IH]; intros B B' fuel E K; cbn [after] in E.
  - injection E as <-. rewrite Nat.sub_0_r in K. apply K. lia.
  - destruct fuel as [|fuel]; [reflexivity|]. cbn [simplex_loop]. destruct (simplex_iteration p B) as [it| |]; try discriminate E. destruct it as [| |B1 q]; try discriminate E. cbn [bind].
    apply (IH _ B' fuel); auto. intros Hn. apply K. lia.
Qed.
Lemma round_diverges p n B : 0 < n -> after n p B = Some B -> forall fuel, simplex_loop fuel p B = Diverges.
Proof.
  intros Hn E fuel. induction fuel as [fuel IH] using lt_wf_ind. apply (after_diverges p n B B); auto. intros Hf. destruct (Nat.eq_dec n fuel) as [->|].
  - now rewrite Nat.sub_diag.
  - apply IH. lia.
Qed.
Lemma inner_four (a b c d x y z w : Qc) : inner [a; b; c; d] [x; y; z; w] = (a * x + (b * y + (c * z + (d * w + 0))))%Qc.
Proof. reflexivity. Qed.
(** all lists of length [n] with entries below [k] *)
Fixpoint tuples (n k : nat) : list (list nat) := match n with 0 => [[]] | S n' => flat_map (fun j => map (cons j) (tuples n' k)) (seq 0 k) end.
Lemma tuples_all n k : forall s, length s = n -> (forall j, In j s -> j < k) -> In s (tuples n k).
Proof.
  induction n as [|n IH]; intros [|a s] L K; try discriminate L; [now left|]. cbn [tuples]. apply in_flat_map. exists a. split; [apply in_seq; specialize (K a (or_introl eq_refl)); lia|].
  apply in_map. apply IH; [now injection L|]. intros; apply K; now right.
Qed.
Lemma checked_moderate p : wf p -> (forall r v, In r (lA p) -> In v r -> isint v) -> (forall v, In v (lb p) -> isint v) -> (forall v, In v (lc p) -> isint v) ->
  forallb (fun s => qle (qabs (det (length (lA p)) (fun i j => wide p i (nth j s 0)))) (qz 300)) (tuples (length (lA p)) (S (length (lc p) + length (lA p)))) = true -> moderate_data p.
Proof.
  intros H SA Sb Sc F. rewrite forallb_forall in F. pose proof (wf_b _ H) as Lb. unfold rows in Lb.
  assert (W : forall s, length s = length (lA p) -> (forall j, In j s -> j <= length (lc p) + length (lA p)) -> (1 * qabs (det (length (lA p)) (fun i j => wide p i (nth j s 0%nat))) <= qz 300)%Qc).
  { intros s Ls Hs. rewrite Qcmult_1_l. specialize (F s (tuples_all (length (lA p)) (S (length (lc p) + length (lA p))) s Ls ltac:(intros j Hj; specialize (Hs j Hj); lia))). destruct (qle_spec (qabs (det (length (lA p)) (fun i j => wide p i (nth j s 0)))) (qz 300)); [auto|discriminate F]. }
  exists (repeat 1%Z (length (lA p))), 1%Z, 300%Z, 300%Z. constructor; [constructor| | | |]; rewrite ?product_ones; try lia.
  - apply repeat_length.
  - intros k Hk. apply repeat_spec in Hk. subst k. reflexivity.
  - intros i j Hi Hj. rewrite nth_ones. change (qz 1) with 1%Qc. rewrite Qcmult_1_l. now apply ent_int.
  - intros i Hi. rewrite nth_ones. change (qz 1) with 1%Qc. rewrite Qcmult_1_l. now apply at_int.
  - intros j Hj. change (qz 1) with 1%Qc. rewrite Qcmult_1_l. now apply at_int.
  - unfold apart. lia.
  - intros s Ls Hs. apply W; auto. intros j Hj. apply Nat.lt_le_incl. auto.
  - exact W.
Qed.
(** maximise 2 x1 + 3 x2 - 3 x3 + x4: the optimum is (0, 0, 3/2, 0), and solve never returns *)
Theorem C42_never_ends_refuted : exists p x, reachable p /\ 0 < length (lA p) /\ independent_equations p /\ moderate_data p /\ optimal (meaning p) x /\ forall fuel, snd (solve fuel p) = Diverges.
Proof.
  destruct round_program as [p| |] eqn:E; try discriminate E.
  assert (Hr : reachable p) by (unfold round_program in E; refine (r_new _ _ _ _ _ _ _ _ _ _ E); repeat constructor).
  exists p, (map Q2Qc [0; 0; 3 # 2; 0]%Q). split; [exact Hr|]. pose proof (reachable_wf p Hr) as H. injection E as <-. split; [cbn; lia|].
  split; [apply no_equations; intros [|[|[|[|i]]]] Hi; try discriminate; cbn in Hi; lia|]. split; [|split].
  - apply checked_moderate; [exact H| | | |vm_compute; reflexivity].
    + intros r v Hr' Hv. cbn in Hr'. repeat destruct Hr' as [<-|Hr']; try contradiction; cbn in Hv; repeat (destruct Hv as [<-|Hv]; [eexists; reflexivity|]); contradiction.
    + intros v Hv. cbn in Hv. repeat (destruct Hv as [<-|Hv]; [eexists; reflexivity|]). contradiction.
    + intros v Hv. cbn in Hv. repeat (destruct Hv as [<-|Hv]; [eexists; reflexivity|]). contradiction.
  - split.
    + split; [reflexivity|]. split; intros [|[|[|[|i]]]] Hi; try (cbn in Hi; lia); vm_compute; discriminate.
    + intros y (L & HA & HB). destruct y as [|y1 [|y2 [|y3 [|y4 [|]]]]]; try discriminate L.
      pose proof (HA 0 ltac:(cbn; lia)) as A0. pose proof (HA 2 ltac:(cbn; lia)) as A2. pose proof (HB 0 ltac:(cbn; lia)) as B0. pose proof (HB 3 ltac:(cbn; lia)) as B3.
      clear - A0 A2 B0 B3. unfold as_good, value.
      change (inner (map qz [0; -2; -2; -3]%Z) [y1; y2; y3; y4] <= qz (-3))%Qc in A0. change (inner (map qz [2; 1; 0; 2]%Z) [y1; y2; y3; y4] <= qz 0)%Qc in A2. change (0 <= y1)%Qc in B0. change (0 <= y4)%Qc in B3.
      change (inner (map qz [2; 3; -3; 1]%Z) [y1; y2; y3; y4] + 0 <= Q2Qc (-9 # 2))%Qc. cbn [map] in *. rewrite inner_four in *. unfold qz, inject_Z in *. qclra.
  - intros fuel. unfold solve. cbn [lsef]. set (P := mklp _ _ _ _ _ _ _ _ _) in *. destruct (to_sef P) as [sef rv] eqn:T. cbv zeta.
    assert (Q : Nat.leb (rows (fst (to_sef P))) (cols (fst (to_sef P))) = true /\ lsef (fst (to_sef P)) = true /\
      map Z.of_nat (seq (S (rows (fst (to_sef P)))) (cols (fst (to_sef P)) - rows (fst (to_sef P)))) = [5; 6; 7; 8]%Z /\ is_basis (fst (to_sef P)) [5; 6; 7; 8]%Z = Ok true /\
      after 2 (negate_rows (fst (to_sef P))) [5; 6; 7; 8]%Z = Some [1; 2; 5; 8]%Z /\ after 6 (negate_rows (fst (to_sef P))) [1; 2; 5; 8]%Z = Some [1; 2; 5; 8]%Z) by (vm_compute; repeat split; reflexivity).
    rewrite T in Q. cbn [fst] in Q. destruct Q as (-> & Q1 & -> & -> & Q2 & Q3).
    assert (D : simplex_loop fuel (negate_rows sef) [5; 6; 7; 8]%Z = Diverges) by (apply (after_diverges _ 2 _ _ fuel Q2); intros _; apply (round_diverges _ 6); auto; lia).
    unfold simplex. rewrite Q1. cbn [negb]. rewrite D. reflexivity.
Qed.
Print Assumptions C42_never_ends_refuted.

(** ** every diet problem with as many foods as nutrients is answered None *)
Lemma det_delta n : det n delta = 1%Qc.
Proof.
  induction n as [|n IH]; [reflexivity|]. cbn [det]. rewrite (Sum_single _ 0); [|lia|].
  - rewrite delta_eq, Qcmult_1_l. unfold alt. cbn [Nat.even]. rewrite <- IH. apply det_ext. intros i j _ _. unfold delta, skip. reflexivity.
  - intros [|j] Hj Hne; [lia|]. rewrite delta_ne by lia. rewrite Qcmult_0_l. unfold alt. destruct (Nat.even (S j)); ring.
Qed.
Lemma Sum_zeros n f : (forall i, i < n -> f i = 0%Qc) -> Sum n f = 0%Qc.
Proof. intros K. rewrite (Sum_ext n f (fun _ => 0%Qc)) by auto. apply Sum_zero. Qed.
(** a basis of unit columns with cost 0, all costs at most 0 and a wrong sign on the right *)
Lemma wrong_guess r k (s : nat -> Qc) fuel : wf r -> lsef r = true -> 0 < rows r -> cols r = k + rows r -> (forall i, (s i * s i = 1)%Qc) ->
  (forall i j, i < rows r -> j < rows r -> ent (lA r) i (k + j) = (s i * delta i j)%Qc) ->
  (forall j, j < cols r -> (at_ (lc r) j <= 0)%Qc) -> (forall j, j < rows r -> at_ (lc r) (k + j) = 0%Qc) ->
  (exists i, i < rows r /\ (s i * at_ (lb r) i <= - tol_zero)%Qc) -> 0 < fuel ->
  is_basis r (to_math_indexing (seq k (rows r))) = Ok true /\ snd (simplex fuel r (to_math_indexing (seq k (rows r)))) = Raise ArithmeticError.
Proof.
  intros H Hs Hm Hc Hss HA Hle HB (i & Hi & Hbi) Hf. set (B := seq k (rows r)).
  assert (BK : forall j, j < rows r -> bk B j = k + j) by (intros j Hj; unfold bk, B; now rewrite seq_nth).
  assert (HD : qabs (mdet (columns_of B (lA r))) = 1%Qc).
  { unfold mdet. rewrite length_columns. rewrite (@det_ext _ _ (fun i j => s i * delta i j)%Qc).
    - rewrite det_rows, det_delta, Qcmult_1_r. destruct (Prod_one (length (lA r)) s Hss) as [-> | ->]; reflexivity.
    - intros a b Ha Hb. rewrite ent_columns by (auto; unfold B; rewrite seq_length; unfold rows; lia). change (nth b B 0) with (bk B b). rewrite BK by (unfold rows; lia). now apply HA. }
  assert (Bs : basis r B).
  { constructor; [apply seq_length|apply seq_sorted|intros j Hj; apply in_seq in Hj; lia|]. intros E. rewrite E in HD. discriminate HD. }
  assert (IB : is_basis r (to_math_indexing B) = Ok true) by (apply basis_is_basis; auto; rewrite HD; vm_compute; discriminate).
  split; auto. unfold simplex. rewrite Hs. cbn [negb]. pose proof (wf_negate r H) as Hw. set (q := negate_rows r) in *.
  assert (Sq : lsef q = true) by exact Hs. assert (IBq : is_basis q (to_math_indexing B) = Ok true) by (unfold q; now rewrite is_basis_neg).
  destruct fuel as [|fuel]; [lia|]. cbn [simplex_loop]. destruct (iteration_cases q _ Hw Sq IBq) as (Q & IT & CASES). rewrite array_math, (sort_id B) in * by apply Bs.
  replace (negate_rows q) with q in * by (symmetry; now apply neg_again). destruct IT as [I1 I2 I3].
  assert (Rq : rows q = rows r) by now apply rows_neg. assert (Cq : cols q = cols r) by reflexivity.
  destruct (cn_dual _ _ _ I3 (fun _ => 0%Qc)) as (D1 & _).
  { intros j Hj. rewrite Sum_zeros by (intros; ring). rewrite BK by lia. symmetry. apply HB. lia. }
  assert (LC : forall j, j < cols r -> (at_ (lc Q) j <= 0)%Qc).
  { intros j Hj. rewrite D1 by auto. rewrite Sum_zeros by (intros; ring). change (lc q) with (lc r). specialize (Hle j Hj). clear - Hle. qclra. }
  assert (NP : forall j, j < cols q -> (tol_zero <= at_ (lc Q) j)%Qc -> False) by (intros j Hj K; specialize (LC j Hj); pose proof tol_pos; clear - K LC H0; qclra).
  destruct CASES as [(it & E & R)|[(E & _)|(E & j & Hj & (a & Ha & Hb) & RT)]].
  - exfalso. destruct it as [x B' q'|x B' q'|B' q']; cbn [result_of] in R.
    + destruct R as (_ & _ & -> & _ & R). assert (Hki : k + i < cols q) by lia. specialize (R _ Hki). pose proof (bsol_scatter q B Q I1 I3) as (S1 & S2).
      specialize (S1 i ltac:(lia)). unfold lhs in S1. rewrite (Sum_single _ (k + i)) in S1; [|lia|].
      * set (v := at_ (scatter (cols q) B (lb Q)) (k + i)) in *. clearbody v. unfold q in S1. rewrite ent_neg, HA, delta_eq, lb_neg in S1 by (auto; lia).
        assert (EV : v = (s i * at_ (lb r) i)%Qc).
        { transitivity ((sg r i * sg r i) * (s i * s i) * v)%Qc; [rewrite sg_sq, Hss; ring|]. transitivity (s i * sg r i * (sg r i * (s i * 1) * v))%Qc; [ring|]. rewrite S1, Qcmult_1_l. transitivity (s i * (sg r i * sg r i) * at_ (lb r) i)%Qc; [ring|]. rewrite sg_sq. ring. }
        rewrite EV in R. clear - R Hbi. qclra.
      * intros j Hj Hne. destruct (in_dec Nat.eq_dec j B) as [Hi'|Hi'].
        -- apply in_seq in Hi'. replace j with (k + (j - k)) by lia. unfold q at 1. rewrite ent_neg, HA, delta_ne by (auto; lia). ring.
        -- rewrite S2 by auto. ring.
    + destruct R as (_ & _ & _ & j & Hj & _ & K & _). now apply (NP j).
    + destruct R as (_ & j & l & Hj & _ & K & _). now apply (NP j).
  - rewrite E. reflexivity.
  - exfalso. assert (Lb : length (lb Q) = rows q) by now apply (length_lb q B).
    pose proof (ratio_test_none _ _ _ RT a ltac:(lia) ltac:(rewrite map_length; change (length (lA Q)) with (rows Q); rewrite (cn_rows _ _ _ I3); lia)) as K. rewrite SimplexProofs.at_column in K. clear - K Hb. qclra.
Qed.
(** minimise (maximise) nonnegative (nonpositive) costs under inequalities, with as many nonnegative variables as inequalities,
    one of which excludes the origin *)
Record diet (p : lp) : Prop := mkdiet {
  dt_square : length (lA p) = length (lc p) /\ 0 < length (lA p);
  dt_signs : free_variables p = [] /\ negative_variables p = [];
  dt_costs : (lobj p = "min" /\ forall v, In v (lc p) -> (0 <= v)%Qc) \/ (lobj p = "max" /\ forall v, In v (lc p) -> (v <= 0)%Qc);
  dt_rows : forall i, i < length (lA p) -> nth i (inequalities p) "=" <> "=";
  dt_need : exists i, i < length (lA p) /\ ((nth i (inequalities p) "=" = ">=" /\ (tol_zero <= nth i (lb p) 0)%Qc) \/ (nth i (inequalities p) "=" = "<=" /\ (nth i (lb p) 0 <= - tol_zero)%Qc)) }.
Lemma to_math_nil l : to_math_indexing l = [] -> l = [].
Proof. now destruct l. Qed.
Lemma expand_nil k r : expand k [] r = r.
Proof. now destruct r. Qed.
Theorem C42_diet_refuted p fuel : reachable p -> diet p -> 0 < fuel -> solve fuel p = (p, Ok None).
Proof.
  intros Hr [(D1 & D1') (D2 & D3) D4 D5 D6] Hf. pose proof (reachable_wf p Hr) as H. apply to_math_nil in D2, D3.
  assert (Hop : forall i, i < rows p -> nth i (inequalities p) "=" = op_at (lineq p) i) by (intros i Hi; unfold inequalities; rewrite nth_map_seq by (now rewrite (wf_b _ H)); reflexivity).
  assert (Hs : lsef p = false).
  { destruct (lsef p) eqn:Hs; auto. exfalso. rewrite (wf_sef _ H) in Hs. unfold sef_of in Hs. destruct (lineq p) eqn:E; [|discriminate Hs]. apply (D5 0); [lia|]. rewrite Hop by (unfold rows; lia). reflexivity. }
  assert (Hw : wf (fst (to_sef p))) by (apply reachable_wf; now constructor).
  destruct (to_sef_parts p H Hs) as (P1 & _ & _ & _ & P5 & _ & _ & P8 & P9 & P10 & P11). pose proof (sef_cols p H Hs) as HC. set (sef := fst (to_sef p)) in *.
  set (ks := filter (has (lineq p)) (seq 0 (rows p))) in *. rewrite D2, D3 in *. cbn [fold_left length] in *. rewrite expand_nil in P10. setoid_rewrite expand_nil in P11.
  assert (Eks : ks = seq 0 (rows p)).
  { unfold ks. apply filter_all. intros i Hi. apply in_seq in Hi. specialize (D5 i ltac:(unfold rows in Hi; lia)). rewrite Hop in D5 by lia. unfold op_at, has, dmem in *. now destruct (dget Nat.eqb i (lineq p)). }
  rewrite Eks in *. rewrite seq_length in *. change (length (lc p)) with (cols p) in D1. change (length (lA p)) with (rows p) in *.
  set (s := fun i => if String.eqb (op_at (lineq p) i) ">=" then (- (1))%Qc else 1%Qc).
  assert (Es : forall i, i < rows p -> slack_coeff (op_at (lineq p) i) = s i).
  { intros i Hi. specialize (D5 i Hi). rewrite Hop in D5 by auto. unfold slack_coeff, s. destruct (String.eqb_spec (op_at (lineq p) i) ">="); auto. unfold op_at in *. destruct (dget Nat.eqb i (lineq p)) as [o|] eqn:E; [|congruence].
    apply (dget_In _ eqb_reflect) in E. apply (wf_ineq _ H) in E. destruct E as (_ & [->| ->]); [reflexivity|congruence]. }
  assert (Rs : rows sef = rows p) by exact P9. assert (Cs : cols sef = rows p + rows sef) by lia.
  destruct (wrong_guess sef (rows p) s fuel Hw P5) as (IB & SI); auto; try lia.
  - intros i. unfold s. destruct (String.eqb (op_at (lineq p) i) ">="); ring.
  - intros i j Hi Hj. rewrite Rs in *. unfold ent. rewrite P11 by auto. rewrite at_app2; rewrite (shaped_nth (cols p)) by (auto; apply (wf_A _ H)); [|lia].
    replace (rows p + j - cols p) with j by lia. unfold slack_row, at_. rewrite nth_map_seq by auto. cbn [Nat.add]. unfold delta. destruct (Nat.eqb_spec i j) as [<-|Hne]; [rewrite Es by auto; ring|ring].
  - intros j Hj. rewrite P10. destruct (Nat.lt_ge_cases j (cols p)) as [K|K].
    + assert (IN : In (at_ (lc p) j) (lc p)) by now apply nth_In. destruct D4 as [(-> & D4)|(-> & D4)]; cbn [String.eqb Ascii.eqb Bool.eqb]; specialize (D4 _ IN).
      * rewrite at_app1 by now rewrite length_vopp. rewrite at_vopp. clear - D4. qclra.
      * rewrite at_app1 by auto. exact D4.
    + rewrite at_app2, at_repeat0; [apply Qcle_refl|]. destruct (String.eqb (lobj p) "min"); rewrite ?length_vopp; exact K.
  - intros j Hj. rewrite P10. rewrite at_app2, at_repeat0; [reflexivity|]. destruct (String.eqb (lobj p) "min"); rewrite ?length_vopp; fold (cols p); lia.
  - destruct D6 as (i & Hi & K). exists i. split; [lia|]. rewrite P1. rewrite Hop in K by auto. unfold s, at_. destruct K as [(-> & K)|(-> & K)]; cbn [String.eqb Ascii.eqb Bool.eqb]; clear - K; qclra.
  - unfold solve. rewrite Hs. replace (to_sef p) with (sef, snd (to_sef p)) by (unfold sef; now destruct (to_sef p)). cbv zeta.
    replace (map Z.of_nat (seq (S (rows sef)) (cols sef - rows sef))) with (to_math_indexing (seq (rows p) (rows sef))).
    + rewrite IB. destruct (Nat.leb_spec (rows sef) (cols sef)); [|lia]. rewrite SI. reflexivity.
    + unfold to_math_indexing. rewrite <- seq_shift, map_map. replace (cols sef - rows sef) with (rows sef) by lia. rewrite Rs at 2. reflexivity.
Qed.
Print Assumptions C42_diet_refuted.
(** minimise 2 x1 + 3 x2 subject to x1 + x2 >= 4, x1 + 3 x2 >= 6: the optimum is (3, 1) *)
Example C42_diet_example : exists p x, linear_program (mat 2 [[1; 1]; [1; 3]]%Z) (vec [4; 6]%Z) (vec [2; 3]%Z) 0%Qc "min" (Some [">="; ">="]) None None = Ok p /\ reachable p /\ diet p /\ moderate_data p /\ optimal (meaning p) x.
Proof.
  destruct (linear_program (mat 2 [[1; 1]; [1; 3]]%Z) (vec [4; 6]%Z) (vec [2; 3]%Z) 0%Qc "min" (Some [">="; ">="]) None None) as [p| |] eqn:E; try discriminate E.
  assert (Hr : reachable p) by (refine (r_new _ _ _ _ _ _ _ _ _ _ E); repeat constructor). exists p, (map qz [3; 1]%Z). split; auto. split; auto. pose proof (reachable_wf p Hr) as H. injection E as <-. split; [|split].
  - constructor.
    + split; [reflexivity|cbn; lia].
    + split; reflexivity.
    + left. split; [reflexivity|]. intros v Hv. cbn in Hv. repeat (destruct Hv as [<-|Hv]; [vm_compute; discriminate|]). contradiction.
    + intros [|[|i]] Hi; [discriminate|discriminate|cbn in Hi; lia].
    + exists 0. split; [cbn; lia|]. left. split; [reflexivity|]. vm_compute. discriminate.
  - apply checked_moderate; [exact H| | | |vm_compute; reflexivity].
    + intros r v Hr' Hv. cbn in Hr'. repeat destruct Hr' as [<-|Hr']; try contradiction; cbn in Hv; repeat (destruct Hv as [<-|Hv]; [eexists; reflexivity|]); contradiction.
    + intros v Hv. cbn in Hv. repeat (destruct Hv as [<-|Hv]; [eexists; reflexivity|]). contradiction.
    + intros v Hv. cbn in Hv. repeat (destruct Hv as [<-|Hv]; [eexists; reflexivity|]). contradiction.
  - split.
    + split; [reflexivity|]. split; intros [|[|i]] Hi; try (cbn in Hi; lia); vm_compute; discriminate.
    + intros y (L & HA & HB). destruct y as [|y1 [|y2 [|]]]; try discriminate L.
      pose proof (HA 0 ltac:(cbn; lia)) as A0. pose proof (HA 1 ltac:(cbn; lia)) as A1. clear - A0 A1.
      change (qz 4 <= qz 1 * y1 + (qz 1 * y2 + 0))%Qc in A0. change (qz 6 <= qz 1 * y1 + (qz 3 * y2 + 0))%Qc in A1.
      unfold as_good, value. change (Q2Qc (9 # 1) <= (qz 2 * y1 + (qz 3 * y2 + 0)) + 0)%Qc. unfold qz, inject_Z in *. qclra.
Qed.

(** ** from a basis that need not be feasible: no exception other than ArithmeticError *)
Lemma ratio_test_some : forall b a i t o l, ratio_test i b a t o = Some l -> o = Some l \/ exists j, l = i + j /\ j < length b /\ j < length a /\ (tol_zero <= at_ a j)%Qc.
Proof.
  induction b as [|v b IH]; intros [|w a] i t o l E; cbn [ratio_test] in E; auto.
  assert (G : forall t o, ratio_test (S i) b a t o = Some l -> o = Some l \/ exists j, l = i + j /\ j < length (v :: b) /\ j < length (w :: a) /\ (tol_zero <= at_ (w :: a) j)%Qc).
  { intros t' o' E'. apply IH in E'. destruct E' as [E'|(j & -> & H1 & H2 & H3)]; auto. right. exists (S j). split; [lia|]. cbn [length]. split; [lia|]. split; [lia|exact H3]. }
  destruct (is_positive w) eqn:P; [|now apply G in E]. destruct (match t with None => true | Some t => cc_lt (v / w)%Qc t end); [|now apply G in E].
  apply G in E. destruct E as [E|E]; auto. injection E as <-. right. exists 0. split; [lia|]. cbn [length]. split; [lia|]. split; [lia|]. now apply pos_true.
Qed.
Lemma loop_raises p : wf p -> lsef p = true -> negate_rows p = p -> separated p -> forall fuel Bz e,
  is_basis p Bz = Ok true -> simplex_loop fuel p Bz = Raise e -> e = ArithmeticError.
Proof.
  intros H Hs Hn HS. induction fuel as [|fuel IH]; intros Bz e HBz E; [discriminate|]. cbn [simplex_loop] in E. set (B := sort (to_array_indexing Bz)) in *.
  destruct (iteration_cases p Bz H Hs HBz) as (q & HI & HR). fold B in HI, HR. rewrite Hn in HI, HR. destruct HI as [HB _ HC].
  assert (Lb : length (lb q) = rows p) by now apply (length_lb p B). assert (LA : length (lA q) = rows p) by apply HC. pose proof tol_pos as TP.
  destruct HR as [(it & Eit & HR)|[(Eit & _)|(_ & k & Hk & (i & Hi & Hpos) & RT)]].
  - rewrite Eit in E. cbn [bind] in E. destruct it as [x B1 q1|x B1 q1|B' q1]; try discriminate E.
    cbn [result_of] in HR. destruct HR as (-> & k & l & Hk & HkB & _ & _ & _ & RT & EB').
    apply ratio_test_some in RT. destruct RT as [RT|(j & -> & J1 & J2 & J3)]; [discriminate RT|]. rewrite Nat.add_0_l in EB'. rewrite SimplexProofs.at_column in J3. pose proof (bs_NoDup _ _ HB) as ND.
    assert (HB' : basis p B').
    { apply (pivot_basis p B q k j B'); auto; try lia.
      - intros Z. rewrite Z in J3. clear - J3 TP. qclra.
      - rewrite EB'. apply sort_strict. apply NoDup_rev'; [now apply NoDup_remove_first|]. rewrite In_remove_first by auto. tauto.
      - intros a. rewrite EB'. rewrite In_sort, in_app_iff, In_remove_first by auto. cbn [In]. intuition.
      - rewrite EB'. rewrite length_sort, app_length. cbn [length]. pose proof (length_remove_first (bk B j) B (bk_In p B j HB ltac:(lia))) as EL. rewrite (bs_len _ _ HB) in EL. lia. }
    apply (IH (to_math_indexing B') e); auto. apply basis_is_basis; auto. { apply is_basis_true in HBz. lia. }
    destruct (basis_canon p B' H HB') as (q' & Eq' & _). apply (sp_det p B' q'). now apply HS.
  - rewrite Eit in E. now injection E.
  - exfalso. pose proof (ratio_test_none _ _ _ RT i) as K. rewrite SimplexProofs.at_column in K. specialize (K ltac:(lia) ltac:(rewrite map_length; lia)). clear - K Hpos. qclra.
Qed.
Lemma simplex_raises p Bz fuel e : wf p -> lsef p = true -> small_data p -> is_basis p Bz = Ok true -> snd (simplex fuel p Bz) = Raise e -> e = ArithmeticError.
Proof.
  intros H Hs HE HB E. pose proof (wf_negate p H) as Hw. unfold simplex in E. rewrite Hs in E. cbn [negb] in E. set (q := negate_rows p) in *.
  assert (HBq : is_basis q Bz = Ok true) by (unfold q; now rewrite is_basis_neg). assert (NN : negate_rows q = q) by now apply neg_again.
  pose proof (loop_raises q Hw Hs NN (sep_of_small p H HE) fuel Bz) as LR. pose proof (loop_inv q Hw Hs fuel Bz) as LI.
  destruct (simplex_loop fuel q Bz) as [it|e'|]; cbn [bind] in E; [|cbn [snd] in E; injection E as ->; now apply LR|discriminate E].
  destruct (LI it eq_refl) as (F & B & Q & I1 & R & _). rewrite NN in I1, R. destruct it as [x B1 q1|x B1 q1|B' q1]; [| |contradiction].
  - destruct R as (-> & -> & _). destruct (optimal_result p B Q x H I1) as (y & Ey & _). fold q in Ey. rewrite Ey in E. discriminate E.
  - cbn [simplex_result] in E. discriminate E.
Qed.
(** the outcomes of simplex from any basis *)
Theorem C34_outcomes p Bz fuel : reachable p -> lsef p = true -> small_data p -> is_basis p Bz = Ok true ->
  match snd (simplex fuel p Bz) with
  | Ok (Some x, _, _) => optimal (meaning p) x
  | Ok (None, _, _) => True
  | Raise e => e = ArithmeticError
  | Diverges => True
  end.
Proof.
  intros Hr Hs HE HB. pose proof (reachable_wf p Hr) as H. destruct (snd (simplex fuel p Bz)) as [[[[x|] Bo] ce]|e|] eqn:E; auto.
  - now apply (exact_optimal fuel p Bz x Bo ce).
  - now apply (simplex_raises p Bz fuel e).
Qed.
Print Assumptions C34_outcomes.
(** with independent equations solve does not raise: it finds an optimum, returns None (C42_refuted: sometimes wrongly) or
    does not return (C42_never_ends_refuted) *)
Theorem C42_outcomes p fuel : reachable p -> 0 < length (lA p) -> independent_equations p -> moderate_data p ->
  2 ^ (length (lc (fst (to_sef p))) + length (lA p)) <= fuel ->
  (exists x, solve fuel p = (p, Ok (Some x)) /\ optimal (meaning p) x) \/ solve fuel p = (p, Ok None) \/ solve fuel p = (p, Diverges).
Proof.
  intros Hr Hm HI HE Hf. pose proof (reachable_wf p Hr) as H.
  assert (Hrs : reachable (fst (to_sef p))) by now constructor. pose proof (reachable_wf _ Hrs) as Hw.
  assert (G : is_basis (fst (to_sef p)) (first_guess p) = Ok true \/ is_basis (fst (to_sef p)) (first_guess p) <> Ok true) by (destruct (is_basis (fst (to_sef p)) (first_guess p)) as [[|]| |]; auto; right; discriminate).
  destruct G as [G|G]; [|destruct (solve_decides p fuel Hr Hm HI HE Hf (or_intror (or_introl G))) as [K|(K & _)]; auto].
  destruct (lsef p) eqn:Hs; [destruct (solve_decides p fuel Hr Hm HI HE Hf (or_introl Hs)) as [K|(K & _)]; auto|].
  pose proof (fun p' x => C41_optimal_partial fuel p p' x Hr HE) as C41.
  destruct (to_sef_parts p H Hs) as (_ & _ & _ & _ & P5 & _ & _ & _ & P9 & _).
  pose proof (simplex_raises (fst (to_sef p)) (first_guess p) fuel) as SR. specialize (fun e => SR e Hw P5 ltac:(apply moderate_small; auto; now apply moderate_sef) G).
  assert (LE : Nat.leb (rows (fst (to_sef p))) (cols (fst (to_sef p))) = true).
  { apply Nat.leb_le. apply is_basis_true in G. destruct G as (L & _). unfold first_guess in L. rewrite map_length, seq_length in L. change (length (lA (fst (to_sef p)))) with (rows (fst (to_sef p))) in P9. unfold rows in *. lia. }
  unfold solve in *. rewrite Hs in *. unfold first_guess in *. destruct (to_sef p) as [sef rv]. cbn [fst] in *. cbv zeta in *. rewrite LE, G in *.
  destruct (snd (simplex fuel sef (map Z.of_nat (seq (S (rows sef)) (cols sef - rows sef))))) as [[[[x|] Bo] ce]|e|]; auto.
  - destruct rv as [rv|]; left; eexists; (split; [reflexivity|]); eapply C41; reflexivity.
  - rewrite (SR e eq_refl). auto.
Qed.
Print Assumptions C42_outcomes.
