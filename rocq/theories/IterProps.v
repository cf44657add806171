(** C67: the auxiliary program.  C68: a single iteration of the simplex method. *)
From Coq Require Import String List Bool Arith ZArith QArith Qcanon Lia Sorted.
From Verif Require Import Py QcTac QSum QInt ComparatorModel MatModel DetTheory MatTheory LinearModel LinearSpec LinearProofs SefProofs LinearInv DualProofs BasisProofs BlandProofs SimplexProofs SmallProofs LinearProps SimplexProps TwoPhaseProofs BasicProps StepsSpec StepsProps IterModel IterSpec.
From Verif Require SlackProofs.
Import ListNotations.
Open Scope nat_scope.
Open Scope string_scope.
Open Scope list_scope.

(** * The auxiliary program *)
Definition aux0 (p : lp) : lp :=
  mklp (lA (aux p)) (flip_b (lb p)) (repeat 0%Qc (cols p) ++ repeat 1%Qc (rows p)) 0%Qc "min" [] false [] [].
Lemma auxiliary_is p : lsef p = true -> auxiliary p = Ok (aux0 p).
Proof. intros E. unfold auxiliary. now rewrite E. Qed.
Lemma aux0_reachable p : wf p -> reachable (aux0 p).
Proof.
  intros H. pose proof (wf_aux p H) as Ha. pose proof (rows_aux p H) as R. pose proof (cols_aux p) as C.
  apply (r_new (Nd (Mat (cols p + rows p) (lA (aux p)))) (Nd (Vec (flip_b (lb p)))) (Nd (Vec (repeat 0%Qc (cols p) ++ repeat 1%Qc (rows p)))) 0%Qc "min" None None None).
  - cbn. pose proof (wf_A _ Ha) as W. rewrite C in W. exact W.
  - unfold linear_program. cbn [to_ndarray bind]. rewrite app_length, !repeat_length, Nat.eqb_refl. unfold rows in R at 1. rewrite R.
    replace (length (flip_b (lb p))) with (rows p); [rewrite Nat.eqb_refl; reflexivity|].
    change (flip_b (lb p)) with (lb (aux p)). rewrite (wf_b _ Ha). exact (eq_sym R).
Qed.
Lemma magnitude_qabs v : magnitude_of v = qabs v.
Proof. unfold magnitude_of, qabs. destruct (Qclt_le_dec v 0), (qlt_spec v 0); auto; exfalso; qclra. Qed.
Lemma fold_Sum (f : nat -> Qc) n : fold_right (fun i s => (f i + s)%Qc) 0%Qc (seq 0 n) = Sum n f.
Proof. unfold Sum. induction (seq 0 n) as [|i l IH]; [reflexivity|]. rewrite Sigma_cons. cbn [fold_right]. now rewrite IH. Qed.
Lemma total_missing_Sum p x : wf p -> total_missing p x = Sum (rows p) (fun i => qabs (missing p x i)).
Proof. intros H. unfold total_missing. rewrite (fold_Sum (fun i => magnitude_of (missing p x i))), (wf_b _ H). apply Sum_ext. intros i _. apply magnitude_qabs. Qed.
Lemma directed_sg p x i : wf p -> i < rows p -> directed_missing p x i = (sg p i * (at_ (lb p) i - lhs p i (at_ x)))%Qc.
Proof.
  intros H Hi. unfold directed_missing, missing, sg. rewrite (inner_row (cols p)) by (auto; apply (wf_A _ H)). fold (lhs p i (at_ x)).
  change (nth i (lb p) 0%Qc) with (at_ (lb p) i). destruct (Qclt_le_dec (at_ (lb p) i) 0), (qlt_spec (at_ (lb p) i) 0); try ring; exfalso; qclra.
Qed.
Lemma aux0_sfeas p w : wf p -> (feasible (meaning (aux0 p)) w <-> sfeas (aux p) w).
Proof.
  intros H. rewrite (feas_iff (aux0 p)) by (apply reachable_wf, aux0_reachable; auto). unfold feas, sfeas, rel, sgn. cbn [aux0 lineq lfree lneg dget inb existsb related signed].
  unfold cols, rows. cbn [aux0 aux lA lb lc]. rewrite length_vopp. tauto.
Qed.
Lemma aux_feasible p x s : wf p -> length x = cols p -> length s = rows p ->
  (feasible (meaning (aux0 p)) (x ++ s) <->
   (forall j, j < cols p -> (0 <= at_ x j)%Qc) /\ forall i, i < rows p -> (0 <= at_ s i)%Qc /\ at_ s i = directed_missing p x i).
Proof.
  intros H Lx Ls. rewrite aux0_sfeas by auto. pose proof (rows_aux p H) as R. pose proof (cols_aux p) as C.
  assert (A1 : forall j, j < cols p -> at_ (x ++ s) j = at_ x j) by (intros j Hj; apply at_app1; lia).
  assert (A2 : forall i, at_ (x ++ s) (cols p + i) = at_ s i) by (intros i; rewrite at_app2 by lia; f_equal; lia).
  assert (E : forall i, i < rows p -> lhs (aux p) i (at_ (x ++ s)) = (sg p i * lhs p i (at_ x) + at_ s i)%Qc).
  { intros i Hi. rewrite lhs_aux, lhs_neg, A2 by auto. f_equal. f_equal. unfold lhs. apply Sum_ext. intros j Hj. now rewrite A1. }
  unfold sfeas. rewrite R, app_length. split.
  - intros (_ & X2 & X3). split; [intros j Hj; rewrite <- A1 by auto; apply X3; lia|]. intros i Hi. split; [rewrite <- A2; apply X3; lia|].
    specialize (X2 i Hi). fold (lhs (aux p) i (at_ (x ++ s))) in X2. rewrite E in X2 by auto. rewrite lb_aux, lb_neg in X2. rewrite directed_sg by auto. clear - X2. qclra.
  - intros (Y1 & Y2). split; [lia|]. split.
    + intros i Hi. fold (lhs (aux p) i (at_ (x ++ s))). rewrite E by auto. destruct (Y2 i Hi) as (_ & ->). rewrite directed_sg, lb_aux, lb_neg by auto. ring.
    + intros j Hj. destruct (Nat.lt_ge_cases j (cols p)) as [L|L]; [rewrite A1 by auto; auto|]. replace j with (cols p + (j - cols p)) by lia. rewrite A2. apply Y2. lia.
Qed.
Lemma aux_value p x s : length x = cols p -> length s = rows p -> value (meaning (aux0 p)) (x ++ s) = Sum (rows p) (at_ s).
Proof.
  intros Lx Ls. unfold value. cbn [meaning costs constant aux0 lc lz]. rewrite inner_app by (rewrite repeat_length; auto).
  rewrite (inner_Sum (cols p)), (inner_Sum (rows p)) by apply repeat_length. rewrite (Sum_none (cols p)) by (intros j Hj; rewrite at_repeat by auto; ring).
  rewrite (Sum_ext (rows p) _ (at_ s)) by (intros j Hj; rewrite at_repeat by auto; ring). ring.
Qed.
Lemma sg_abs p i v : (0 <= sg p i * v)%Qc -> (sg p i * v)%Qc = qabs v.
Proof. unfold sg, qabs. destruct (qlt (at_ (lb p) i) 0), (qlt_spec v 0); intros K; try ring; qclra. Qed.
Lemma split_point p (w : list Qc) : length w = cols p + rows p -> exists x s, w = x ++ s /\ length x = cols p /\ length s = rows p /\ x = firstn (cols p) w.
Proof.
  intros L. exists (firstn (cols p) w), (skipn (cols p) w). split; [symmetry; apply firstn_skipn|]. rewrite firstn_length, skipn_length. repeat split; lia.
Qed.

(** the auxiliary program minimises the total amount by which the equations are missed: its
    additional variables are these amounts, taken upwards where the right-hand side is nonnegative *)
Theorem C67_auxiliary p : reachable p -> lsef p = true -> exists a, auxiliary p = Ok a /\ reachable a /\
  length (lc a) = length (lc p) + length (lb p) /\ maximise (meaning a) = false /\
  (forall x s, length x = length (lc p) -> length s = length (lb p) ->
     (feasible (meaning a) (x ++ s) <->
      (forall j, j < length x -> (0 <= nth j x 0)%Qc) /\ forall i, i < length s -> (0 <= nth i s 0)%Qc /\ nth i s 0%Qc = directed_missing p x i)) /\
  (forall w, feasible (meaning a) w -> value (meaning a) w = total_missing p (firstn (length (lc p)) w)).
Proof.
  intros Hr Hs. pose proof (reachable_wf p Hr) as H. exists (aux0 p). split; [now apply auxiliary_is|]. split; [now apply aux0_reachable|].
  split; [cbn [aux0 lc]; now rewrite app_length, !repeat_length, (wf_b _ H)|]. split; [reflexivity|]. split.
  - intros x s Lx Ls. rewrite (wf_b _ H) in Ls. rewrite aux_feasible by auto. rewrite Lx, Ls. reflexivity.
  - intros w F. pose proof F as (L & _). cbn [meaning costs aux0 lc] in L. rewrite app_length, !repeat_length in L.
    destruct (split_point p w L) as (x & s & E & Lx & Ls & Ex). change (length (lc p)) with (cols p). rewrite <- Ex. rewrite E in *.
    apply aux_feasible in F; auto. destruct F as (_ & F). rewrite aux_value, total_missing_Sum by auto. apply Sum_ext. intros i Hi. destruct (F i Hi) as (F1 & F2).
    rewrite F2 in *. rewrite directed_sg in * by auto. rewrite (sg_abs p i) by auto. unfold missing. rewrite (inner_row (cols p)) by (auto; apply (wf_A _ H)). reflexivity.
Qed.
Print Assumptions C67_auxiliary.

Lemma Sum_nonneg n f : (forall i, i < n -> (0 <= f i)%Qc) -> (0 <= Sum n f)%Qc.
Proof. intros H. apply Sigma_nonneg. intros i Hi. apply in_seq in Hi. apply H. lia. Qed.
Lemma Sum_pos n f i : (forall i, i < n -> (0 <= f i)%Qc) -> i < n -> (0 < f i)%Qc -> (0 < Sum n f)%Qc.
Proof. intros H Hi P. apply (Sigma_pos _ f i); auto; [intros j Hj; apply in_seq in Hj; apply H; lia|apply in_seq; lia]. Qed.

(** it is feasible, it has an optimal solution, and its optimal value is zero exactly when the
    program is feasible; a solution of value zero contains a feasible solution of the program *)
Theorem C67_phase_one p : reachable p -> lsef p = true -> exists a, auxiliary p = Ok a /\
  (exists w, optimal (meaning a) w) /\
  (forall w, optimal (meaning a) w -> (0 <= value (meaning a) w)%Qc /\ (value (meaning a) w = 0%Qc <-> exists x, feasible (meaning p) x)) /\
  (forall w, feasible (meaning a) w -> value (meaning a) w = 0%Qc -> feasible (meaning p) (firstn (length (lc p)) w)) /\
  (forall x, feasible (meaning p) x -> optimal (meaning a) (x ++ repeat 0%Qc (length (lb p)))).
Proof.
  intros Hr Hs. pose proof (reachable_wf p Hr) as H. exists (aux0 p). split; [now apply auxiliary_is|].
  pose proof (aux0_reachable p H) as Ra. pose proof (reachable_wf _ Ra) as Ha.
  assert (P : forall w, feasible (meaning (aux0 p)) w -> exists x s, w = x ++ s /\ length x = cols p /\ length s = rows p /\ x = firstn (cols p) w).
  { intros w (L & _). cbn [meaning costs aux0 lc] in L. rewrite app_length, !repeat_length in L. now apply split_point. }
  assert (N : forall w, feasible (meaning (aux0 p)) w -> (0 <= value (meaning (aux0 p)) w)%Qc).
  { intros w F. destruct (P w F) as (x & s & -> & Lx & Ls & _). apply aux_feasible in F; auto. rewrite aux_value by auto. apply Sum_nonneg. intros i Hi. now apply F. }
  assert (Z0 : forall w, feasible (meaning (aux0 p)) w -> value (meaning (aux0 p)) w = 0%Qc -> feasible (meaning p) (firstn (cols p) w)).
  { intros w F V. destruct (P w F) as (x & s & -> & Lx & Ls & <-). apply aux_feasible in F; auto. destruct F as (F1 & F2). rewrite aux_value in V by auto.
    apply sfeas_iff; auto. split; auto. split; auto. intros i Hi. destruct (F2 i Hi) as (G1 & G2).
    assert (S0 : at_ s i = 0%Qc).
    { destruct (Qclt_le_dec 0 (at_ s i)) as [K|K]; [|now apply Qcle_antisym]. exfalso. pose proof (Sum_pos (rows p) (at_ s) i (fun j Hj => proj1 (F2 j Hj)) Hi K) as K2. rewrite V in K2. discriminate K2. }
    rewrite S0, directed_sg in G2 by auto. fold (lhs p i (at_ x)).
    assert (G3 : (sg p i * (sg p i * (at_ (lb p) i - lhs p i (at_ x))) = 0)%Qc) by (rewrite <- G2; ring). rewrite Qcmult_assoc, sg_sq in G3. clear - G3. qclra. }
  assert (F0 : forall x, feasible (meaning p) x -> feasible (meaning (aux0 p)) (x ++ repeat 0%Qc (length (lb p))) /\ value (meaning (aux0 p)) (x ++ repeat 0%Qc (length (lb p))) = 0%Qc).
  { intros x F. apply sfeas_iff in F; auto. destruct F as (L & X2 & X3). rewrite (wf_b _ H). split.
    - apply aux_feasible; auto; [apply repeat_length|]. split; auto. intros i Hi. rewrite at_repeat by auto. split; [apply Qcle_refl|]. rewrite directed_sg by auto. specialize (X2 i Hi). unfold lhs. rewrite X2. ring.
    - rewrite aux_value by (auto; apply repeat_length). apply Sum_none. intros i Hi. now rewrite at_repeat. }
  split; [|split; [|split]].
  - destruct (SlackProofs.trichotomy (aux0 p) Ha) as [I|[U|O]]; auto; exfalso.
    + apply (I (repeat 0%Qc (cols p) ++ map (fun i => directed_missing p (repeat 0%Qc (cols p)) i) (seq 0 (rows p)))). apply aux_feasible; auto; [apply repeat_length|now rewrite map_length, seq_length|].
      split; [intros j Hj; rewrite at_repeat by auto; apply Qcle_refl|]. intros i Hi.
      assert (E : at_ (map (fun i => directed_missing p (repeat 0%Qc (cols p)) i) (seq 0 (rows p))) i = directed_missing p (repeat 0%Qc (cols p)) i).
      { unfold at_. rewrite (nth_indep _ _ (directed_missing p (repeat 0%Qc (cols p)) 0)) by now rewrite map_length, seq_length. rewrite (map_nth (fun i => directed_missing p (repeat 0%Qc (cols p)) i)), seq_nth by auto. reflexivity. }
      rewrite E. split; auto. rewrite directed_sg by auto. unfold lhs. rewrite (Sum_none (cols p)) by (intros j Hj; rewrite at_repeat by auto; ring).
      pose proof (lb_neg_nonneg p i) as K. rewrite lb_neg in K. clear - K. replace (sg p i * (at_ (lb p) i - 0))%Qc with (sg p i * at_ (lb p) i)%Qc by ring. exact K.
    + destruct (U (- (1))%Qc) as (w & F & G). unfold as_good in G. cbn [meaning maximise aux0 lobj String.eqb Ascii.eqb Bool.eqb] in G. specialize (N w F). clear - N G. qclra.
  - intros w (F & B). split; [now apply N|]. split; [intros V; exists (firstn (cols p) w); now apply Z0|]. intros (x & Fx). destruct (F0 x Fx) as (F1 & F2).
    specialize (B _ F1). unfold as_good in B. cbn [meaning maximise aux0 lobj String.eqb Ascii.eqb Bool.eqb] in B. rewrite F2 in B. apply Qcle_antisym; auto.
  - exact Z0.
  - intros x Fx. destruct (F0 x Fx) as (F1 & F2). split; auto. intros y Fy. unfold as_good. cbn [meaning maximise aux0 lobj String.eqb Ascii.eqb Bool.eqb]. rewrite F2. now apply N.
Qed.
Print Assumptions C67_phase_one.

(** only programs in standard equality form have one, and it is not in that form itself: the simplex
    methods refuse it *)
Theorem C67_refuses p : (auxiliary p = Raise ArithmeticError <-> lsef p = false) /\
  forall a Bz fuel, auxiliary p = Ok a -> lsef a = false /\ simplex_iteration a Bz = Raise ArithmeticError /\ snd (simplex fuel a Bz) = Raise ArithmeticError /\
    snd (two_phase_simplex fuel a) = Raise ArithmeticError.
Proof.
  unfold auxiliary. destruct (lsef p); cbn [negb]; (split; [split; congruence|]); intros a Bz fuel E; [|discriminate E]. injection E as <-. repeat split.
Qed.
Print Assumptions C67_refuses.

(** max 0 subject to x1 + x2 = 2, - x1 = -3: infeasible, the equations are missed by 1 in total *)
Definition missed_program : res lp := linear_program (mat 2 [[1; 1]; [-1; 0]]%Z) (vec [2; -3]%Z) (vec [0; 0]%Z) 0%Qc "max" None None None.
Example C67_nontrivial : exists p a, missed_program = Ok p /\ reachable p /\ lsef p = true /\ auxiliary p = Ok a /\ infeasible (meaning p) /\
  map (map this) (lA a) = [[1; 1; 1; 0]; [1; 0; 0; 1]]%Q /\ map this (lb a) = [2; 3]%Q /\
  optimal (meaning a) [qz 2; 0; 0; 1]%Qc /\ value (meaning a) [qz 2; 0; 0; 1]%Qc = 1%Qc.
Proof.
  destruct missed_program as [p| |] eqn:E; try discriminate E. unfold missed_program in E.
  assert (Hr : reachable p) by (refine (r_new _ _ _ _ _ _ _ _ _ _ E); repeat constructor). pose proof (reachable_wf p Hr) as H. injection E as E.
  assert (Hs : lsef p = true) by now subst p. exists p, (aux0 p). split; [now subst p|]. split; [exact Hr|]. split; [exact Hs|]. split; [now apply auxiliary_is|].
  assert (D : forall x, (inner (nth 0 (lA p) []) x = at_ x 0 + at_ x 1)%Qc /\ (inner (nth 1 (lA p) []) x = - at_ x 0)%Qc).
  { intros x. rewrite !(inner_Sum 2) by now subst p. unfold Sum. cbn [seq]. rewrite !Sigma_cons, !Sigma_nil. set (u := at_ x 0). set (v := at_ x 1). clearbody u v. subst p.
    cbn [lA nth mat map]. unfold at_. cbn [nth]. change (qz 1) with 1%Qc. change (qz (-1)) with (- (1))%Qc. change (qz 0) with 0%Qc. split; ring. }
  assert (B : at_ (lb p) 0 = (1 + 1)%Qc /\ at_ (lb p) 1 = (- (1 + 1 + 1))%Qc) by (subst p; split; apply Qc_is_canon; reflexivity). destruct B as (B0 & B1).
  split; [|split; [now subst p|split; [now subst p|]]].
  - intros x F. destruct F as (L & F2 & F3). pose proof (F2 0 ltac:(subst p; cbn; lia)) as G0. pose proof (F2 1 ltac:(subst p; cbn; lia)) as G1. pose proof (F3 1 ltac:(subst p; cbn; lia)) as G2.
    destruct (D x) as (D0 & D1). rewrite nth_relations in G0, G1 by (subst p; cbn; lia). unfold rel in G0, G1. replace (lineq p) with (@nil (nat * string)) in G0, G1 by now subst p. cbn [dget related meaning coefficients rhs] in G0, G1.
    rewrite D0 in G0. rewrite D1 in G1. fold (at_ (lb p) 0) in G0. fold (at_ (lb p) 1) in G1. rewrite B0 in G0. rewrite B1 in G1. rewrite nth_signs in G2 by (subst p; cbn; lia). replace (sgn p 1) with Nonnegative in G2 by now subst p. cbn [signed] in G2. fold (at_ x 1) in G2.
    clear - G0 G1 G2. qclra.
  - assert (V : forall w, feasible (meaning (aux0 p)) w -> (1 <= value (meaning (aux0 p)) w)%Qc).
    { intros w F. pose proof F as (L & _). cbn [meaning costs aux0 lc] in L. rewrite app_length, !repeat_length in L. destruct (split_point p w L) as (x & s & -> & Lx & Ls & _).
      apply aux_feasible in F; auto. destruct F as (F1 & F2). rewrite aux_value by auto. replace (rows p) with 2 in * by now subst p. replace (cols p) with 2 in * by now subst p.
      destruct (F2 0 ltac:(lia)) as (P0 & M0). destruct (F2 1 ltac:(lia)) as (P1 & M1). pose proof (F1 1 ltac:(lia)) as N1.
      unfold directed_missing, missing in M0, M1. destruct (D x) as (D0 & D1). rewrite D0 in M0. rewrite D1 in M1. fold (at_ (lb p) 0) in M0. fold (at_ (lb p) 1) in M1. rewrite B0 in M0. rewrite B1 in M1.
      unfold Sum. cbn [seq]. rewrite !Sigma_cons, Sigma_nil. destruct (Qclt_le_dec (1 + 1) 0) as [K|_]; [discriminate K|]. destruct (Qclt_le_dec (- (1 + 1 + 1)) 0) as [_|K]; [|exfalso; apply K; reflexivity].
      clear - P0 P1 M0 M1 N1. qclra. }
    assert (W : feasible (meaning (aux0 p)) [qz 2; 0; 0; 1]%Qc).
    { change [qz 2; 0; 0; 1]%Qc with ([qz 2; 0]%Qc ++ [0; 1]%Qc). apply aux_feasible; try (now subst p). split.
      - intros [|[|j]] Hj; [| |subst p; cbn in Hj; lia]; discriminate.
      - intros [|[|i]] Hi; [| |subst p; cbn in Hi; lia]; (split; [discriminate|]); subst p; apply Qc_is_canon; vm_compute; reflexivity. }
    assert (VV : value (meaning (aux0 p)) [qz 2; 0; 0; 1]%Qc = 1%Qc) by (subst p; apply Qc_is_canon; vm_compute; reflexivity).
    split; auto. split; auto. intros y Fy. unfold as_good. cbn [meaning maximise aux0 lobj String.eqb Ascii.eqb Bool.eqb]. rewrite VV. now apply V.
Qed.

(** * One iteration *)
Lemma iteration_equivalent p B q : wf p -> lsef p = true -> iterated (negate_rows p) B q -> equivalent q p.
Proof.
  intros H Hs [HB _ HC]. apply (equivalent_trans q (negate_rows p) p); [|now apply negate_equivalent]. apply (canon_equivalent (negate_rows p) B); auto. now apply wf_negate.
Qed.
Lemma iteration_program p Bz q : lsef p = true -> is_basis p Bz = Ok true -> iterated (negate_rows p) (sort (to_array_indexing Bz)) q -> simplex_iteration_program p Bz = q.
Proof. intros Hs E HI. unfold simplex_iteration_program. rewrite Hs, E. cbn [negb]. now rewrite (it_q _ _ _ HI). Qed.
Lemma iteration_updated p B q it : result_of p B q it -> snd (iteration_result it) = q.
Proof. destruct it; cbn [result_of iteration_result snd]; tauto. Qed.

(** a program that is not in standard equality form and a list that is not a basis are refused, and
    nothing is changed *)
Theorem C68_refuses p Bz :
  (lsef p = false -> simplex_iteration p Bz = Raise ArithmeticError /\ simplex_iteration_program p Bz = p) /\
  (lsef p = true -> is_basis p Bz = Ok false -> simplex_iteration p Bz = Raise ValueError /\ simplex_iteration_program p Bz = p).
Proof.
  unfold simplex_iteration, simplex_iteration_program. split.
  - intros ->. cbn [negb]. auto.
  - intros -> ->. cbn [negb bind]. auto.
Qed.
Print Assumptions C68_refuses.

(** for every basis the call returns a tuple or raises ArithmeticError, the latter only for a basis
    whose basic solution is not feasible; in place, and also when it raises, the program has been
    replaced by an equivalent one in canonical form for the basis in increasing order *)
Theorem C68_program p Bz : reachable p -> lsef p = true -> is_basis p Bz = Ok true ->
  exists q, simplex_iteration_program p Bz = q /\ equivalent q p /\ in_canonical_form q (to_math_indexing (sort (to_array_indexing Bz))) /\
    ((exists it, simplex_iteration p Bz = Ok it /\ snd (iteration_result it) = q) \/
     (simplex_iteration p Bz = Raise ArithmeticError /\ ~ feasible_basis p Bz)).
Proof.
  intros Hr Hs E. pose proof (reachable_wf p Hr) as H. destruct (iteration_cases p Bz H Hs E) as (q & HI & HR). set (B := sort (to_array_indexing Bz)) in *.
  exists q. split; [now apply iteration_program|]. split; [now apply (iteration_equivalent p B q)|]. pose proof (rows_neg p H) as R.
  pose proof HI as [HB Eq HC]. split.
  - intros k Hk. unfold to_math_indexing in Hk. rewrite map_length, (bs_len _ _ HB) in Hk.
    assert (G : forall k, k < rows (negate_rows p) -> Z.to_nat (nth k (to_math_indexing B) 1%Z - 1) = bk B k).
    { clear k Hk. intros k Hk. rewrite nth_array by (unfold to_math_indexing; rewrite map_length, (bs_len _ _ HB); exact Hk). now rewrite array_math. }
    rewrite (G k Hk). split; [now apply (cn_cost _ _ _ HC)|]. intros i Hi. unfold to_math_indexing in Hi. rewrite map_length, (bs_len _ _ HB) in Hi. exact (cn_unit _ _ _ HC i k Hi Hk).
  - destruct HR as [(it & Eit & HR)|[(Eit & i & Hi & Hneg)|(Eit & k & Hk & (i & Hi & Hpos) & RT)]].
    + left. exists it. split; auto. now apply (iteration_updated (negate_rows p) B).
    + right. split; auto. intros F. apply feasible_fbasis in F; auto. apply fbasis_neg in F; auto. pose proof (fbasis_b _ _ _ HI F i ltac:(lia)) as K. pose proof tol_pos as T. clear - K T Hneg. qclra.
    + exfalso. pose proof (ratio_test_none _ _ _ RT i) as K. rewrite SimplexProofs.at_column in K.
      assert (Lb : length (lb q) = rows p) by (rewrite <- R; now apply (length_lb (negate_rows p) B)).
      assert (LA : length (lA q) = rows p) by (rewrite <- R; apply HC).
      specialize (K ltac:(lia) ltac:(rewrite map_length; lia)). clear - K Hpos. qclra.
Qed.
Print Assumptions C68_program.

Lemma basic_value p B q f : wf p -> iterated (negate_rows p) B q -> bsol p B f -> (obj p f + lz p)%Qc = lz q.
Proof.
  intros H [HB _ HC] (S1 & S2). change (lz p) with (lz (negate_rows p)). change (obj p f) with (obj (negate_rows p) f). apply (obj_bsol _ _ _ HB HC). split; auto. now apply solves_neg.
Qed.
Lemma vanishing_bsol p Bz x : wf p -> lsef p = true -> is_basis p Bz = Ok true -> feasible (meaning p) x -> vanishes_off Bz x -> bsol p (sort (to_array_indexing Bz)) (at_ x).
Proof.
  intros H Hs E F V. apply sfeas_iff in F; auto. destruct F as (L & X2 & X3). split.
  - intros i Hi. unfold lhs. rewrite X2 by auto. ring.
  - intros j Hj Hn. apply V; [lia|]. rewrite <- (In_array p) by auto. intros K. apply Hn. now apply In_sort.
Qed.
Lemma In_math_basis p Bz j : is_basis p Bz = Ok true -> (In j Bz <-> exists i, In i (sort (to_array_indexing Bz)) /\ j = Z.of_nat (S i)).
Proof.
  intros E. pose proof E as E2. apply is_basis_true in E2. destruct E2 as (_ & _ & HB & _). split.
  - intros Hj. specialize (HB j Hj). exists (Z.to_nat (j - 1)). split; [|lia]. apply In_sort. apply in_map_iff. exists j. auto.
  - intros (i & Hi & ->). apply (proj1 (In_sort _ _)) in Hi. now apply (In_array p).
Qed.
Lemma math_sorted B : StronglySorted lt B -> StronglySorted Z.lt (to_math_indexing B).
Proof.
  induction 1 as [|x l Hs IH Hx]; cbn; constructor; auto. rewrite Forall_forall in *. intros y Hy. apply in_map_iff in Hy. destruct Hy as (z & <- & Hz). specialize (Hx z Hz). lia.
Qed.

(** from a feasible basis, on programs with moderate minors (small_data): the basic solution is
    reported when it is optimal, the program is reported unbounded only if it is, and otherwise the
    next basis differs in one column, is feasible, and its basic solution is no worse.  The entering
    column is the first one with a positive coefficient in the new objective. *)
Lemma ratio_le (a b c d : Qc) : (0 < b)%Qc -> (0 < d)%Qc -> (a * d <= c * b)%Qc -> (a / b <= c / d)%Qc.
Proof.
  intros Hb Hd K. apply Qcmult_lt_0_le_reg_r with (z := (b * d)%Qc); [now apply qmul_pos|].
  replace (a / b * (b * d))%Qc with (a * d)%Qc by (field; intros ->; discriminate Hb). replace (c / d * (b * d))%Qc with (c * b)%Qc by (field; intros ->; discriminate Hd). exact K.
Qed.
Lemma ratio_lt (a b c d : Qc) : (0 < b)%Qc -> (0 < d)%Qc -> (a * d < c * b)%Qc -> (a / b < c / d)%Qc.
Proof.
  intros Hb Hd K. apply Qcnot_le_lt. intros L. apply Qclt_not_le in K. apply K.
  replace (a * d)%Qc with (a / b * (b * d))%Qc by (field; intros ->; discriminate Hb). replace (c * b)%Qc with (c / d * (b * d))%Qc by (field; intros ->; discriminate Hd).
  apply Qcmult_le_compat_r; auto. apply Qclt_le_weak. now apply qmul_pos.
Qed.
Theorem C68_step_partial p Bz : reachable p -> lsef p = true -> small_data p -> is_basis p Bz = Ok true -> feasible_basis p Bz ->
  exists it q, simplex_iteration p Bz = Ok it /\ equivalent q p /\
  ((exists x, iteration_result it = (Some x, Some (to_math_indexing (sort (to_array_indexing Bz))), q) /\ optimal (meaning p) x /\ vanishes_off Bz x) \/
   (iteration_result it = (None, None, q) /\ unbounded (meaning p)) \/
   (exists B' l k, iteration_result it = (None, Some B', q) /\ is_basis p B' = Ok true /\ feasible_basis p B' /\ StronglySorted Z.lt B' /\ exchanged Bz B' l k /\
      (forall x y, feasible (meaning p) x -> vanishes_off Bz x -> feasible (meaning p) y -> vanishes_off B' y -> (value (meaning p) x <= value (meaning p) y)%Qc) /\
      enters_by_bland q k /\ leaves_by_bland q (to_math_indexing (sort (to_array_indexing Bz))) l k)).
Proof.
  intros Hr Hs HS E F. pose proof (reachable_wf p Hr) as H. pose proof (wf_negate p H) as H'. pose proof (rows_neg p H) as R.
  destruct (iteration_cases p Bz H Hs E) as (q & HI & HR). set (B := sort (to_array_indexing Bz)) in *.
  pose proof (proj1 (feasible_fbasis p Bz H Hs E) F) as FB. fold B in FB. pose proof (proj2 (fbasis_neg p B H) FB) as FB'. pose proof (fbasis_b _ _ _ HI FB') as Hb.
  pose proof (sep_of_small p H HS B q (it_B _ _ _ HI) (it_q _ _ _ HI)) as SB. pose proof tol_pos as T. pose proof HI as [HB Eq HC].
  assert (HBp : basis p B) by exact (proj1 (basis_neg p B H) HB). pose proof (scatter_satisfies p B q H HI) as HX. pose proof (iteration_equivalent p B q H Hs HI) as EQ.
  set (x := scatter (cols p) B (lb q)) in *. assert (Lx : length x = cols p) by apply length_scatter.
  assert (X0 : forall j, j < cols p -> (0 <= at_ x j)%Qc).
  { intros j Hj. destruct FB' as (f & Hf & Hfp). rewrite (bsol_unique _ B q HB HC (at_ x) f); auto. split; [apply solves_neg; auto; apply HX|apply HX]. }
  assert (Fx : feasible (meaning p) x).
  { apply sfeas_iff; auto. split; auto. split; auto. intros i Hi. pose proof (proj1 HX i Hi) as K. unfold lhs in K. rewrite K. ring. }
  destruct HR as [(it & Eit & HR)|[(Eit & i & Hi & Hneg)|(Eit & k & Hk & (i & Hi & Hpos) & RT)]].
  - exists it, q. split; auto. split; [exact EQ|]. destruct it as [x1 B1 q1|x1 B1 q1|B' q1]; cbn [result_of] in HR.
    + left. destruct HR as (-> & -> & -> & Hc & _). exists x. split; [reflexivity|]. split.
      * split; auto. intros y Fy. unfold as_good. rewrite max_sef by auto. rewrite <- (proj1 (proj2 EQ) y Fy). rewrite !value_Sum. fold (obj p (at_ x)). rewrite (basic_value p B q) by auto.
        rewrite (cn_cols _ _ _ HC). change (cols (negate_rows p)) with (cols p) in *.
        assert (K : (Sum (cols p) (fun j => at_ (lc q) j * at_ y j) <= 0)%Qc).
        { rewrite <- (Sum_zero (cols p)). apply Sum_le. intros j Hj. apply sfeas_iff in Fy; auto. destruct Fy as (_ & _ & Y3).
          rewrite <- (Qcmult_0_l (at_ y j)). apply qmul_le_r; auto. apply Qcnot_lt_le. intros K. apply (sp_c _ _ _ SB) in K; auto. specialize (Hc j Hj). clear - K Hc. qclra. }
        clear - K. qclra.
      * intros j Hj Hn. fold (at_ x j). apply (proj2 HX); [lia|]. intros K. apply Hn. apply (In_math_basis p); eauto.
    + right. left. destruct HR as (-> & -> & _ & k & Hk & HkB & Hck & Hfirst & Hcol). split; [reflexivity|].
      change (cols (negate_rows p)) with (cols p) in *.
      set (d := mkvec (cols p) (dir (negate_rows p) q B k)). assert (Hd : forall j, j < cols p -> at_ d j = dir (negate_rows p) q B k j) by (intros j Hj; now apply at_mkvec).
      apply (ray_unbounded p x d); auto; [apply length_mkvec|..].
      * intros i Hi. rewrite (inner_row (cols p)) by (auto; apply (wf_A _ H)).
        pose proof (dir_solves (negate_rows p) B q k HB HC Hk HkB) as S0. apply (solves_neg 0 p _ H) in S0. specialize (S0 i Hi). unfold lhs in S0.
        rewrite Qcmult_0_l in S0. rewrite <- S0. apply Sum_ext. intros j Hj. now rewrite Hd.
      * intros j Hj. rewrite Hd by auto. destruct (Nat.eq_dec j k) as [->|Hne]; [rewrite dir_k; discriminate|].
        destruct (in_dec Nat.eq_dec j B) as [Hi|Hi]; [|rewrite (dir_off _ _ _ _ HB); auto; discriminate].
        apply (In_bk (negate_rows p)) in Hi; auto. destruct Hi as (i & Hi & <-). rewrite (dir_B _ _ _ _ HB) by auto.
        assert (K : (ent (lA q) i k <= 0)%Qc). { apply Qcnot_lt_le. intros K. apply (sp_a _ _ _ SB) in K; auto. specialize (Hcol i Hi). clear - K Hcol. qclra. }
        clear - K. qclra.
      * rewrite obj_inner. replace (obj p (at_ d)) with (obj (negate_rows p) (dir (negate_rows p) q B k)).
        -- rewrite (dir_obj _ _ _ _ HB HC) by auto. clear - Hck T. qclra.
        -- apply Sum_ext. intros j Hj. now rewrite Hd.
    + right. right. assert (q1 = q) by apply HR. subst q1. destruct (next_step (negate_rows p) B q B' H' HI SB Hb HR) as (k & l & St).
      destruct FB' as (f & Hf & Hfp). destruct (step_sol _ _ _ _ _ _ f H' St Hf Hfp) as (HB' & g & Hg & Hgp & Hle & _).
      assert (HBp' : basis p B') by exact (proj1 (basis_neg p B' H) HB').
      assert (EB' : is_basis p (to_math_indexing B') = Ok true) by (apply (small_is_basis p); auto; apply is_basis_true in E; lia).
      assert (SB' : sort (to_array_indexing (to_math_indexing B')) = B') by (rewrite array_math; apply sort_id, HB').
      destruct St as [_ _ Hk HkB Hck Hfirst Hl Hpiv Hmin Hleast Hsort _ HIn]. change (cols (negate_rows p)) with (cols p) in *.
      exists (to_math_indexing B'), (Z.of_nat (S (bk B l))), (Z.of_nat (S k)). split; [reflexivity|]. split; [exact EB'|]. split; [|split; [|split; [|split; [|split]]]].
      * apply feasible_fbasis; auto. rewrite SB'. apply fbasis_neg; auto. exists g. auto.
      * now apply math_sorted.
      * split; [|split].
        -- apply (In_math_basis p); auto. exists (bk B l). split; auto. now apply (bk_In (negate_rows p)).
        -- rewrite (In_math_basis p) by auto. intros (i & Hi & Ei). assert (i = k) by lia. subst i. contradiction.
        -- intros j. rewrite In_math, (In_math_basis p Bz j) by auto. fold B. split.
           ++ intros (i & Hi & ->). apply HIn in Hi. destruct Hi as [(Hi & Hne)|Hi]; [left|right; lia]. split; [eauto|lia].
           ++ intros [((i & Hi & ->) & Hne)|Ek]; [|exists k; split; [|lia]; apply HIn; auto]. exists i. split; auto. apply (proj2 (HIn i)). left. split; [exact Hi|lia].
      * intros u v Fu Vu Fv Vv. pose proof (vanishing_bsol p Bz u H Hs E Fu Vu) as Bu. fold B in Bu. pose proof (vanishing_bsol p _ v H Hs EB' Fv Vv) as Bv. rewrite SB' in Bv.
        rewrite !value_Sum. fold (obj p (at_ u)) (obj p (at_ v)).
        destruct (basis_canon (negate_rows p) B' H' HB') as (q' & Eq' & HC').
        assert (G : forall w, bsol p B' w -> (obj p w + lz p)%Qc = lz q') by (intros w Hw; apply (basic_value p B'); auto; now constructor).
        assert (Gg : (obj p g + lz p)%Qc = lz q') by (apply G; split; [apply solves_neg; auto; apply Hg|apply Hg]).
        assert (Gf : (obj p f + lz p)%Qc = lz q) by (apply (basic_value p B); auto; split; [apply solves_neg; auto; apply Hf|apply Hf]).
        rewrite (G _ Bv), (basic_value p B q _ H HI Bu). change (obj (negate_rows p) f) with (obj p f) in Hle. change (obj (negate_rows p) g) with (obj p g) in Hle.
        rewrite <- Gg, <- Gf. clear - Hle. qclra.
      * unfold enters_by_bland. replace (Z.to_nat (Z.of_nat (S k) - 1)) with k by lia. split; [|split; [exact Hck|exact Hfirst]].
        change (length (lc q)) with (cols q). rewrite (cn_cols _ _ _ HC). change (cols (negate_rows p)) with (cols p). lia.
      * unfold leaves_by_bland. replace (Z.to_nat (Z.of_nat (S k) - 1)) with k by lia. assert (Lb : length (lb q) = rows p) by (rewrite <- R; now apply (length_lb (negate_rows p) B)).
        change (fun i => nth k (nth i (lA q) []) 0%Qc) with (fun i => ent (lA q) i k). rewrite Lb. exists l. rewrite R in *. split; [exact Hl|]. split; [|split; [exact Hpiv|split]].
        -- unfold to_math_indexing. fold B. rewrite (nth_indep _ 0%Z (Z.of_nat (S 0))) by (rewrite map_length, (bs_len _ _ HB), R; exact Hl). rewrite (map_nth (fun i => Z.of_nat (S i))). reflexivity.
        -- intros i Hi Pi. apply ratio_le; [exact Hpiv|exact Pi|]. exact (Hmin i Hi Pi).
        -- intros i Hi Pi. apply ratio_lt; [exact Hpiv|exact Pi|]. exact (Hleast i Hi Pi).
  - exfalso. specialize (Hb i ltac:(lia)). clear - Hb T Hneg. qclra.
  - exfalso. pose proof (ratio_test_none _ _ _ RT i) as K. rewrite SimplexProofs.at_column in K.
    assert (Lb : length (lb q) = rows p) by (rewrite <- R; now apply (length_lb (negate_rows p) B)).
    assert (LA : length (lA q) = rows p) by (rewrite <- R; apply HC).
    specialize (K ltac:(lia) ltac:(rewrite map_length; lia)). clear - K Hpos. qclra.
Qed.
Print Assumptions C68_step_partial.

(** from an infeasible basis the outcome "unbounded" says nothing: here the program is infeasible *)
Theorem C68_unbounded_refuted : exists p it q, reachable p /\ lsef p = true /\ is_basis p [1]%Z = Ok true /\ infeasible (meaning p) /\
  simplex_iteration p [1]%Z = Ok it /\ iteration_result it = (None, None, q).
Proof.
  destruct (linear_program (mat 2 [[-1; 0]]%Z) (vec [1]%Z) (vec [0; 1]%Z) 0%Qc "max" None None None) as [p| |] eqn:E; try discriminate E.
  assert (Hr : reachable p) by (refine (r_new _ _ _ _ _ _ _ _ _ _ E); repeat constructor). pose proof (reachable_wf p Hr) as H. injection E as E.
  assert (G : match simplex_iteration p [1]%Z with Ok it => match iteration_result it with (None, None, _) => True | _ => False end | _ => False end) by (rewrite <- E; vm_compute; exact I).
  destruct (simplex_iteration p [1]%Z) as [it| |] eqn:Ei; try contradiction. destruct (iteration_result it) as [[[x|] [B|]] q] eqn:Er; try contradiction.
  exists p, it, q. split; auto. split; [now subst p|]. split; [subst p; vm_compute; reflexivity|]. split; [|auto].
  intros x F. apply sfeas_iff in F; [|exact H|now subst p]. destruct F as (_ & F2 & F3). pose proof (F2 0 ltac:(subst p; cbn; lia)) as G0. pose proof (F3 0 ltac:(subst p; cbn; lia)) as G1.
  subst p. vm_compute (cols _) in G0. unfold Sum in G0. cbn [seq] in G0. rewrite !Sigma_cons, Sigma_nil in G0. set (u := at_ x 0) in *. set (v := at_ x 1) in *. clearbody u v.
  unfold ent, at_ in G0. cbn [lA lb mat nth map] in G0. clear - G0 G1. assert (K : (qz (-1) * u + (qz 0 * v + 0) = - u)%Qc) by (change (qz (-1)) with (- (1))%Qc; change (qz 0) with 0%Qc; ring).
  change (qz 1) with 1%Qc in G0. rewrite K in G0. qclra.
Qed.
Print Assumptions C68_unbounded_refuted.

(** and the exception that calls the program infeasible is raised for feasible programs *)
Theorem C68_infeasible_refuted : exists p x, reachable p /\ lsef p = true /\ is_basis p [2]%Z = Ok true /\ optimal (meaning p) x /\ simplex_iteration p [2]%Z = Raise ArithmeticError.
Proof.
  destruct (linear_program (mat 2 [[1; -1]]%Z) (vec [1]%Z) (vec [-1; 0]%Z) 0%Qc "max" None None None) as [p| |] eqn:E; try discriminate E.
  assert (Hr : reachable p) by (refine (r_new _ _ _ _ _ _ _ _ _ _ E); repeat constructor). pose proof (reachable_wf p Hr) as H. injection E as E.
  exists p, [1; 0]%Qc. split; auto. split; [now subst p|]. split; [subst p; vm_compute; reflexivity|]. split; [|subst p; vm_compute; reflexivity].
  assert (Hs : lsef p = true) by now subst p. split.
  - apply sfeas_iff; auto. subst p. split; [reflexivity|]. split; [intros [|i] Hi; [|cbn in Hi; lia]; apply Qc_is_canon; reflexivity|]. intros [|[|j]] Hj; [| |cbn in Hj; lia]; cbn; discriminate.
  - intros y F. unfold as_good. rewrite max_sef by auto. apply sfeas_iff in F; auto. destruct F as (_ & F2 & F3). pose proof (F2 0 ltac:(subst p; cbn; lia)) as G0. pose proof (F3 1 ltac:(subst p; cbn; lia)) as G1.
    rewrite !value_Sum. subst p. vm_compute (cols _) in *. unfold Sum in *. cbn [seq] in *. rewrite !Sigma_cons, !Sigma_nil in *. set (u := at_ y 0) in *. set (v := at_ y 1) in *. clearbody u v.
    unfold ent, at_ in *. cbn [lA lb lc lz mat vec nth map] in *. change (qz (-1)) with (- (1))%Qc in *. change (qz 1) with 1%Qc in *. change (qz 0) with 0%Qc in *. clear - G0 G1. qclra.
Qed.
Print Assumptions C68_infeasible_refuted.

(** a coefficient below 10^-10 counts as zero: the reported solution is not optimal *)
Theorem C68_tolerance_refuted : exists p it x B q x', reachable p /\ lsef p = true /\ is_basis p [2]%Z = Ok true /\ feasible_basis p [2]%Z /\
  simplex_iteration p [2]%Z = Ok it /\ iteration_result it = (Some x, Some B, q) /\ feasible (meaning p) x' /\ (value (meaning p) x + qz 5 <= value (meaning p) x')%Qc.
Proof.
  destruct (linear_program (mat 2 [[1; 1]]%Z) (vec [1000000000000]%Z) (Nd (Vec [Q2Qc (1 # 100000000000); 0]%Qc)) 0%Qc "max" None None None) as [p| |] eqn:E; try discriminate E.
  assert (Hr : reachable p) by (refine (r_new _ _ _ _ _ _ _ _ _ _ E); repeat constructor). injection E as E.
  assert (G : match simplex_iteration p [2]%Z with Ok it => match iteration_result it with (Some x, Some _, _) => map this x = [0; 1000000000000]%Q | _ => False end | _ => False end) by (rewrite <- E; vm_compute; reflexivity).
  destruct (simplex_iteration p [2]%Z) as [it| |] eqn:Ei; try contradiction. destruct (iteration_result it) as [[[x|] [B|]] q] eqn:Er; try contradiction. apply of_this in G.
  assert (Fe : forall x, length x = 2 -> (nth 0 x 0 + nth 1 x 0 = qz 1000000000000)%Qc -> (0 <= nth 0 x 0)%Qc -> (0 <= nth 1 x 0)%Qc -> feasible (meaning p) x).
  { intros [|u [|v [|w y]]] L K U V; try discriminate L. cbn [nth] in *. subst p. split; [reflexivity|]. split.
    - intros [|i] Hi; [|cbn in Hi; lia]. cbn [related meaning relations coefficients rhs inequalities lineq lb lA nth map seq length vec mat dget relation_of String.eqb inner]. change (qz 1) with 1%Qc. rewrite <- K. cbn. ring.
    - intros [|[|j]] Hj; [| |cbn in Hj; lia]; cbn; auto. }
  exists p, it, x, B, q, [qz 1000000000000; 0]%Qc. split; auto. split; [now subst p|]. split; [subst p; vm_compute; reflexivity|]. split; [|split; auto; split; auto; split].
  - exists [0; qz 1000000000000]%Qc. split; [apply Fe; [reflexivity|apply Qc_is_canon; reflexivity|discriminate|discriminate]|]. intros [|[|j]] Hj Hn; [reflexivity| |cbn in Hj; lia]. exfalso. apply Hn. simpl. auto.
  - apply Fe; [reflexivity|apply Qc_is_canon; reflexivity|discriminate|discriminate].
  - subst p x. vm_compute. discriminate.
Qed.
Print Assumptions C68_tolerance_refuted.

Example C68_nontrivial : exists p it, small_program = Ok p /\ reachable p /\ lsef p = true /\ small_data p /\ is_basis p [4; 3]%Z = Ok true /\ feasible_basis p [4; 3]%Z /\
  simplex_iteration p [4; 3]%Z = Ok it /\ snd (fst (iteration_result it)) = Some [1; 4]%Z /\
  exists it', simplex_iteration p [1; 4]%Z = Ok it' /\ match iteration_result it' with (Some x, Some [1; 4]%Z, _) => map this x = [4; 0; 0; 2]%Q | _ => False end.
Proof.
  destruct small_program as [p| |] eqn:E; try discriminate E. pose proof (small_program_reachable p E) as Hr. pose proof (reachable_wf p Hr) as H. injection E as E.
  assert (G1 : match simplex_iteration p [4; 3]%Z with Ok it => snd (fst (iteration_result it)) = Some [1; 4]%Z | _ => False end) by (rewrite <- E; vm_compute; reflexivity).
  assert (G2 : match simplex_iteration p [1; 4]%Z with Ok it => match iteration_result it with (Some x, Some [1; 4]%Z, _) => map this x = [4; 0; 0; 2]%Q | _ => False end | _ => False end) by (rewrite <- E; vm_compute; reflexivity).
  destruct (simplex_iteration p [4; 3]%Z) as [it| |] eqn:E1; try contradiction. destruct (simplex_iteration p [1; 4]%Z) as [it'| |] eqn:E2; try contradiction.
  exists p, it. split; [reflexivity|]. split; [exact Hr|]. split; [now rewrite <- E|]. split; [|split; [|split; [|split; [|split]]]].
  - apply (integers_small _ 2 [[1; 1; 1; 0]; [1; 3; 0; 1]]%Z [4; 6]%Z [3; 2; 0; 0]%Z H); try (rewrite <- E; reflexivity). rewrite <- ?E. cbn. lia.
  - rewrite <- E. vm_compute. reflexivity.
  - exists [0; 0; qz 4; qz 6]%Qc. rewrite <- E. split.
    + split; [reflexivity|]. split.
      * intros [|[|i]] Hi; [| |cbn in Hi; lia]; apply Qc_is_canon; reflexivity.
      * intros [|[|[|[|j]]]] Hj; [| | | |cbn in Hj; lia]; cbn; discriminate.
    + intros [|[|[|[|j]]]] Hj Hn; try reflexivity; [exfalso; apply Hn; simpl; auto|exfalso; apply Hn; simpl; auto|cbn in Hj; lia].
  - exact E1.
  - exact G1.
  - exists it'. split; [exact E2|exact G2].
Qed.
