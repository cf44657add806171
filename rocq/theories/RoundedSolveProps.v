(** C82: two_phase_simplex and solve when numpy's results carry rounding errors. *)
From Coq Require Import String List Bool Arith ZArith QArith Qcanon Lia Sorted.
From Verif Require Import Py QcTac QSum QInt ComparatorModel MatModel DetTheory MatTheory LinearModel LinearSpec LinearProofs SefProofs LinearInv DualProofs BasisProofs BlandProofs SimplexProofs SmallProofs LinearProps SimplexProps TwoPhaseProofs TwoPhaseProps LoopProps RoundedModel RoundedSpec RoundedProofs RoundedExact RoundedProps RoundedSolveModel RoundedSolveSpec RoundedSolveProofs DoubleSpec FloatModel.
Import ListNotations.
Open Scope nat_scope.
Open Scope string_scope.
Open Scope list_scope.

Lemma simplex_none e p Bz Bo cert : r_simplex e p Bz (None, Bo, cert) -> exists x d, Bo = None /\ cert = CPair x d.
Proof. intros (_ & [x B q|x B q|B q] & _ & R); cbn in R; [destruct R as (X & y & _ & _ & K); discriminate K|injection R as -> ->; eauto|contradiction]. Qed.
Lemma two_phase_sef e p r : r_two_phase e p r -> lsef p = true.
Proof. intros (a0 & _ & _ & _ & _ & E & _). unfold auxiliary in E. destruct (lsef p); [reflexivity|discriminate]. Qed.
Lemma simplex_unbounded e K p Bz Bo cert x : reachable p -> accurate e K p -> r_simplex e p Bz (None, Bo, cert) -> feasible (meaning p) x -> unbounded (meaning p).
Proof.
  intros Hr HA R F. pose proof (reachable_wf p Hr) as H. pose proof (simplex_nonneg _ _ _ _ R) as He. destruct (accurate_consts e K p H He HA) as (C1 & _ & C3 & _). destruct HA as [HI HM HK _].
  exact (C81_unbounded_whole e p Bz Bo cert K Hr HI (minors_sub K p H HM) HK C1 C3 R x F).
Qed.

(** the certificate returned by simplex beside a solution: close to an exact proof that the exact basic solution next to the point returned is optimal *)
Theorem C82_certificate e K p Bz x Bo cert : reachable p -> accurate e K p -> r_simplex e p Bz (Some x, Bo, cert) ->
  let m := qz (Z.of_nat (length (lA p))) in
  exists x0 y y0, optimal (meaning p) x0 /\ close_by (qz 8 * e * (1 + m * qz K))%Qc x x0 /\ cert = CVec y /\ proves_optimal p x0 y0 /\ close_by (m * qz K * (weight p * e))%Qc y y0.
Proof. intros Hr HA R. exact (two_phase_optimal e K p Bz x Bo cert (reachable_wf p Hr) HA R). Qed.
Print Assumptions C82_certificate.

(** two_phase_simplex returns a point: it is next to an optimum, and the certificate next to a proof of that *)
Theorem C82_two_phase e K p x Bo cert : reachable p -> accurate e K p -> r_two_phase e p (Some x, Bo, cert) ->
  let m := qz (Z.of_nat (length (lA p))) in
  exists x0 y y0, optimal (meaning p) x0 /\ close_by (qz 8 * e * (1 + m * qz K))%Qc x x0 /\ cert = CVec y /\ proves_optimal p x0 y0 /\ close_by (m * qz K * (weight p * e))%Qc y y0.
Proof.
  intros Hr HA R. pose proof (reachable_wf p Hr) as H. pose proof (two_phase_sef _ _ _ R) as Hs. destruct (two_phase_cases e K p _ H Hs HA R) as [(_ & Bz & R')|(y & y0 & K1 & _)]; [|discriminate K1]. exact (two_phase_optimal e K p Bz x Bo cert H HA R').
Qed.
Print Assumptions C82_two_phase.
(** it returns no point and one vector: the program is infeasible, and the vector is next to a proof of that *)
Theorem C82_infeasible e K p Bo y : reachable p -> accurate e K p -> r_two_phase e p (None, Bo, CVec y) ->
  let m := qz (Z.of_nat (length (lA p))) in
  infeasible (meaning p) /\ exists y0, proves_infeasible p y0 /\ close_by (m * qz K * ((weight p + qz 2 * m) * e))%Qc y y0.
Proof.
  intros Hr HA R m. pose proof (reachable_wf p Hr) as H. pose proof (two_phase_sef _ _ _ R) as Hs. destruct (two_phase_cases e K p _ H Hs HA R) as [(_ & Bz & R')|(y' & y0 & K1 & K2 & K3)].
  - apply simplex_none in R'. destruct R' as (x & d & _ & K'). discriminate K'.
  - injection K1 as -> <-. split; [now apply (certificate_infeasible p y0)|]. exists y0. auto.
Qed.
Print Assumptions C82_infeasible.
(** it returns no point and two vectors: the program is unbounded *)
Theorem C82_unbounded e K p Bo x d : reachable p -> accurate e K p -> r_two_phase e p (None, Bo, CPair x d) -> unbounded (meaning p).
Proof.
  intros Hr HA R. pose proof (reachable_wf p Hr) as H. pose proof (two_phase_sef _ _ _ R) as Hs. destruct (two_phase_cases e K p _ H Hs HA R) as [((x' & F) & Bz & R')|(y' & y0 & K1 & _)]; [|discriminate K1].
  exact (simplex_unbounded e K p Bz Bo _ x' Hr HA R' F).
Qed.
Print Assumptions C82_unbounded.
(** the verdict is right whatever the errors: a point exactly when there is an optimum, one vector exactly when there is no feasible point, two exactly when there is no bound *)
Theorem C82_verdict e K p r : reachable p -> accurate e K p -> r_two_phase e p r ->
  match r with
  | (Some _, _, _) => exists x, optimal (meaning p) x
  | (None, _, CVec _) => infeasible (meaning p)
  | (None, _, CPair _ _) => unbounded (meaning p)
  end.
Proof.
  intros Hr HA R. destruct r as [[[x|] Bo] [y|x' d]].
  - destruct (C82_two_phase e K p x Bo _ Hr HA R) as (x0 & _ & _ & Ho & _). eauto.
  - destruct (C82_two_phase e K p x Bo _ Hr HA R) as (x0 & _ & _ & Ho & _). eauto.
  - now apply (C82_infeasible e K p Bo y).
  - now apply (C82_unbounded e K p Bo x' d).
Qed.
Print Assumptions C82_verdict.

(** solve returns a point: it is next to an optimum of the program as the user gave it.  The accuracy is required of the standard form. *)
Theorem C82_solve e K p x : reachable p -> accurate e K (fst (to_sef p)) -> r_solve e p (Some x) ->
  let m := qz (Z.of_nat (length (lA p))) in
  exists x0, optimal (meaning p) x0 /\ close_by (qz 16 * e * (1 + m * qz K) + e)%Qc x x0.
Proof.
  intros Hr HA R m. pose proof (reachable_wf p Hr) as H. assert (Hrs : reachable (fst (to_sef p))) by now constructor. unfold r_solve in R. destruct (lsef p) eqn:Hs.
  - rewrite (C29_already_sef p Hs) in HA. destruct R as ([[o Bo] cert] & R & E). cbn [fst] in *. subst o.
    destruct (C82_two_phase e K p x Bo cert Hr HA R) as (x0 & y & y0 & Ho & (L & C) & _). fold m in C. exists x0. split; auto. split; auto. intros j Hj. eapply Qcle_trans; [apply (C j Hj)|].
    pose proof (two_phase_nonneg e p _ R) as He. assert (T : (0 <= e * (1 + m * qz K))%Qc). { apply pos_mul; auto. assert (0 <= m * qz K)%Qc by (destruct HA as [_ _ HK _]; apply pos_mul; change 0%Qc with (qz 0); apply qz_le; lia). set (u := (m * qz K)%Qc) in *. clear - H0. clearbody u. qclra. }
    rewrite <- !(Qcmult_assoc _ e). set (t := (e * (1 + m * qz K))%Qc) in *. clear - T He. clearbody t. unfold qz, inject_Z. qclra.
  - destruct (to_sef_parts p H Hs) as (_ & _ & _ & _ & _ & _ & _ & P8 & P9 & _). pose proof (fun x => proj1 (proj2 (proj2 (proj2 (proj2 (C29_to_sef p Hr Hs))))) x) as OD. destruct (to_sef p) as [sef rv] eqn:Et. cbn [fst snd] in *. subst rv.
    destruct R as (o' & R & Eo). destruct o' as [xs|]; [|discriminate Eo]. destruct Eo as (x' & RB & Ex). injection Ex as <-.
    assert (G : (0 <= e)%Qc /\ exists x0, optimal (meaning sef) x0 /\ close_by (qz 8 * e * (1 + m * qz K))%Qc xs x0).
    { assert (Em : m = qz (Z.of_nat (length (lA sef)))) by (unfold m; now rewrite P9). rewrite Em. destruct R as [(_ & _ & [Z|([[o Bo] cert] & R & E)])|([[o Bo] cert] & R & E)]; [discriminate Z|..]; cbn [fst] in E; subst o.
      - split; [apply (simplex_nonneg _ _ _ _ R)|]. destruct (C82_certificate e K sef _ xs Bo cert Hrs HA R) as (x0 & y & y0 & Ho & C & _). eauto.
      - split; [apply (two_phase_nonneg _ _ _ R)|]. destruct (C82_two_phase e K sef xs Bo cert Hrs HA R) as (x0 & y & y0 & Ho & C & _). eauto. }
    destruct G as (He & x0 & Ho & (L & C)). assert (T : (0 <= 1 + m * qz K)%Qc). { assert (0 <= m * qz K)%Qc by (destruct HA as [_ _ HK _]; apply pos_mul; change 0%Qc with (qz 0); apply qz_le; lia). set (u := (m * qz K)%Qc) in *. clear - H0. clearbody u. qclra. }
    exists (down p x0). split; [now apply OD|]. assert (L0 : length x0 = cols sef) by apply Ho.
    assert (Q := r_back_close e p (qz 8 * e * (1 + m * qz K))%Qc xs x0 x H Hs He). rewrite Et in Q. cbn [fst] in Q. replace (qz 16 * e * (1 + m * qz K) + e)%Qc with (qz 2 * (qz 8 * e * (1 + m * qz K)) + e)%Qc.
    + apply Q; auto; [|congruence|intros j Hj; apply C; rewrite L, L0; exact Hj]. apply pos_mul; auto. apply pos_mul; auto. discriminate.
    + replace (qz 16) with (qz 2 * qz 8)%Qc by (apply Qc_is_canon; reflexivity). ring.
Qed.
Print Assumptions C82_solve.
(** solve returns None and the standard form does not have exactly twice as many columns as rows: there is no feasible point or no bound.  With twice as many columns solve starts the simplex method at the second half of them
    and takes a negative entry for infeasibility; C42_diet_refuted shows this on the exact method.  The case missing here is that one. *)
Theorem C82_solve_none_partial e K p : reachable p -> accurate e K (fst (to_sef p)) -> length (lc (fst (to_sef p))) <> 2 * length (lA p) -> r_solve e p None -> infeasible (meaning p) \/ unbounded (meaning p).
Proof.
  intros Hr HA HC R. pose proof (reachable_wf p Hr) as H. assert (Hrs : reachable (fst (to_sef p))) by now constructor.
  assert (G : forall q r, reachable q -> accurate e K q -> r_two_phase e q r -> fst (fst r) = None -> infeasible (meaning q) \/ unbounded (meaning q)).
  { intros q r Hq HAq Rq E. pose proof (C82_verdict e K q r Hq HAq Rq) as V. destruct r as [[[x|] Bo] [y|x' d]]; cbn in E; try discriminate E; auto. }
  unfold r_solve in R. destruct (lsef p) eqn:Hs.
  - rewrite (C29_already_sef p Hs) in HA. destruct R as (r & R & E). eapply (G p r); eauto.
  - destruct (to_sef_parts p H Hs) as (_ & _ & _ & _ & _ & _ & _ & P8 & P9 & _). destruct (C29_to_sef p Hr Hs) as (_ & _ & _ & _ & _ & _ & I1 & I2). destruct (to_sef p) as [sef rv]. cbn [fst snd] in *. subst rv.
    destruct R as (o' & R & Eo). destruct o' as [xs|]; [destruct Eo as (x' & _ & Ex); discriminate Ex|]. destruct R as [(HL & (HB & _) & _)|(r & R & E)].
    + exfalso. rewrite map_length, seq_length in HB. unfold rows, cols in *. lia.
    + destruct (G sef r Hrs HA R) as [I|I]; auto; [left; now apply I1|right; now apply I2].
Qed.
Print Assumptions C82_solve_none_partial.

(** ** the exact results are among the possible ones *)
Lemma complete_chosen fuel p P Z size : forall queue B, complete_basis fuel p P Z size queue = Ok (Some B) ->
  (forall i c, In (i, c) queue -> i < length Z /\ forall v, In v c -> In v Z) ->
  exists c, length c = size /\ (forall v, In v c -> In v Z) /\ B = sort (P ++ c) /\ is_basis p (map Z.of_nat B) = Ok true.
Proof.
  induction fuel as [|fuel IH]; intros queue B E HQ; [discriminate|]. cbn [complete_basis] in E. destruct queue as [|(i & c) queue]; [discriminate|]. destruct (HQ i c (or_introl eq_refl)) as (Hi & Hc).
  destruct (Nat.eqb_spec (length c) size) as [L|].
  - cbv zeta in E. destruct (is_basis p (map Z.of_nat (sort (P ++ c)))) as [[|]| |] eqn:EB; try discriminate; cbn [bind] in E; [injection E as <-; eauto|]. apply (IH queue B E). intros; apply HQ; now right.
  - apply (IH _ B E). intros j c' Hj. apply in_app_or in Hj. destruct Hj as [Hj|Hj]; [|apply HQ; now right]. apply in_rev in Hj. apply in_map_iff in Hj. destruct Hj as (j' & Ej & Hj'). injection Ej as -> <-. apply in_seq in Hj'.
    split; [lia|]. intros v Hv. apply in_app_or in Hv. destruct Hv as [Hv|[<-|[]]]; auto. apply nth_In. lia.
Qed.
Lemma basis_shape p Bz : is_basis p Bz = Ok true -> r_is_basis p Bz.
Proof. intros EB. apply is_basis_true in EB. destruct EB as (L & L0 & R & _). split; auto. split; [lia|auto]. Qed.
Theorem C82_exact e fuel p p' r : reachable p -> (0 <= e)%Qc -> two_phase_simplex fuel p = (p', Ok r) -> r_two_phase e p r.
Proof.
  intros Hr He E. pose proof (reachable_wf p Hr) as H. unfold two_phase_simplex in E. destruct (auxiliary p) as [a0| |] eqn:Ea; try discriminate. cbv zeta in E. set (a := fst (to_sef a0)) in *.
  assert (Ha : wf a). { assert (Hs : lsef p = true) by (unfold auxiliary in Ea; destruct (lsef p); [reflexivity|discriminate]). destruct (auxiliary_aux p Hs) as (a1 & E1 & EA). rewrite Ea in E1. injection E1 as <-. unfold a. rewrite EA. now apply wf_aux. }
  destruct (simplex fuel a (map Z.of_nat (seq (S (cols p)) (rows p)))) as [a' [[[s bz] ce]| |]] eqn:E1; try discriminate.
  assert (EA : a' = a). { destruct (simplex_state fuel a (map Z.of_nat (seq (S (cols p)) (rows p))) Ha) as [K|(_ & K)]; rewrite E1 in K; cbn [fst snd] in K; auto. exfalso. eapply K; reflexivity. }
  subst a'. destruct s as [x|]; [|discriminate]. destruct bz as [bz|]; [|discriminate]. destruct (evaluate a x) as [v| |] eqn:Ev; try discriminate.
  assert (R1 : r_simplex e a (map Z.of_nat (seq (S (cols p)) (rows p))) (Some x, Some bz, ce)) by (apply (C81_exact e fuel); auto; now rewrite E1).
  exists a0, x, bz, ce, v. split; auto. cbv zeta. fold a. split; auto. split.
  { unfold evaluate in Ev. destruct (Nat.eqb_spec (length x) (cols a)) as [L|]; [|discriminate]. cbn [negb] in Ev. injection Ev as <-. split; auto. now apply within_refl. }
  destruct (is_close_to_zero v).
  - assert (S2 : forall B, snd (simplex fuel p B) = Ok r -> r_simplex e p B r) by (intros B EB; now apply (C81_exact e fuel)).
    destruct (is_basis p bz) as [[|]| |] eqn:EB; try discriminate.
    + exists bz. split; [left; split; auto; now apply basis_shape|]. apply S2. now rewrite E.
    + set (P := map S (filter (fun i => negb (is_close_to_zero (at_ x i))) (seq 0 (cols p)))) in *. set (Z := map S (filter (fun i => is_close_to_zero (at_ x i)) (seq 0 (cols p)))) in *.
      destruct (Nat.leb_spec (rows p) (length P)) as [|Hlt]; [discriminate|]. destruct (complete_basis fuel p P Z (rows p - length P) _) as [[B|]| |] eqn:EC; try discriminate.
      * exists (map Z.of_nat B). split; [|apply S2; now rewrite E]. right. cbv zeta. fold P Z. split; auto. left. apply complete_chosen in EC.
        -- destruct EC as (c & L & Hc & -> & EB'). exists c. split; auto. split; auto. split; auto. now apply basis_shape.
        -- intros i c Hi. apply in_rev in Hi. apply in_map_iff in Hi. destruct Hi as (j & Ej & Hj). injection Ej as -> <-. apply in_seq in Hj. split; [lia|]. intros w [<-|[]]. apply nth_In. lia.
      * exists (map Z.of_nat P). split; [|apply S2; now rewrite E]. right. cbv zeta. fold P Z. split; auto.
  - destruct (minv (transpose (rows p) (columns_of (to_array_indexing bz) (lA a)))) as [X| |] eqn:EX; try discriminate. injection E as <- <-. exists X, (mulmv X (take (to_array_indexing bz) (lc a))). split; [now apply inv_exact|]. split; [now apply mulmv_exact|reflexivity].
Qed.
Print Assumptions C82_exact.
Lemma merge_exact e : (0 <= e)%Qc -> forall l i x, r_merge e i l x (merge_free i l x).
Proof. intros He. induction l as [|f l IH]; intros i x; [reflexivity|]. cbn [r_merge merge_free]. exists (at_ x (f - i) - at_ x (S (f - i)))%Qc. split; [now apply within_refl|]. apply IH. Qed.
Theorem C82_exact_solve e fuel p p' o : reachable p -> (0 <= e)%Qc -> solve fuel p = (p', Ok o) -> r_solve e p o.
Proof.
  intros Hr He E. unfold solve, r_solve in *. destruct (lsef p) eqn:Hs.
  - destruct (two_phase_simplex fuel p) as [q [r| |]] eqn:ET; cbn [rmap] in E; try discriminate. injection E as -> <-. exists r. split; auto. now apply (C82_exact e fuel p p').
  - assert (Hrs : reachable (fst (to_sef p))) by now constructor. destruct (to_sef p) as [sef rev]. cbn [fst] in Hrs. cbv zeta in E. set (cand := map Z.of_nat _) in *.
    set (back := fun o : option (list Qc) => match o with Some x => match rev with Some r => Some (from_sef r x) | None => o end | None => o end) in *.
    assert (HB : forall o', match o', rev with Some x, Some rv => exists x', r_back e rv x x' /\ back o' = Some x' | _, _ => back o' = o' end).
    { intros [x|]; [|reflexivity]. destruct rev as [rv|]; [|reflexivity]. exists (from_sef rv x). split; [|reflexivity]. unfold r_back, from_sef. cbv zeta. eexists. split; [now apply merge_exact|reflexivity]. }
    assert (HT : forall o, (p, rmap (fun o : outcome => back (fst (fst o))) (snd (two_phase_simplex fuel sef))) = (p', Ok o) -> exists r, r_two_phase e sef r /\ o = back (fst (fst r))).
    { intros o' E'. destruct (two_phase_simplex fuel sef) as [q [r| |]] eqn:ET; cbn [rmap snd] in E'; try discriminate. injection E' as _ <-. exists r. split; auto. now apply (C82_exact e fuel sef q). }
    assert (Fin : forall o', o = back o' -> ((rows sef <= cols sef /\ r_is_basis sef cand /\ (o' = None \/ exists r, r_simplex e sef cand r /\ o' = fst (fst r))) \/ (exists r, r_two_phase e sef r /\ o' = fst (fst r))) ->
      exists o', ((rows sef <= cols sef /\ r_is_basis sef cand /\ (o' = None \/ exists r, r_simplex e sef cand r /\ o' = fst (fst r))) \/ (exists r, r_two_phase e sef r /\ o' = fst (fst r))) /\
        match o', rev with Some x, Some rv => exists x', r_back e rv x x' /\ o = Some x' | _, _ => o = o' end).
    { intros o' -> K. exists o'. split; auto. apply HB. }
    destruct (Nat.leb_spec (rows sef) (cols sef)) as [HL|HL].
    + destruct (is_basis sef cand) as [[|]| |] eqn:EB; try discriminate E.
      * apply basis_shape in EB. destruct (snd (simplex fuel sef cand)) as [[[o' B] ce]|[]|] eqn:ES; try discriminate E; injection E as _ <-.
        -- apply (Fin o'); auto. left. split; auto. split; auto. right. exists (o', B, ce). split; auto. now apply (C81_exact e fuel).
        -- apply (Fin None); auto.
      * apply HT in E. destruct E as (r & R & ->). apply (Fin (fst (fst r))); auto. right. eauto.
    + apply HT in E. destruct E as (r & R & ->). apply (Fin (fst (fst r))); auto. right. eauto.
Qed.
Print Assumptions C82_exact_solve.

(** ** examples *)
Definition whole (v : Qc) : bool := Pos.eqb (Qden v) 1.
Lemma whole_int v : whole v = true -> isint v.
Proof.
  unfold whole. intros E. apply Pos.eqb_eq in E. exists (Qnum v). apply Qc_is_canon. destruct v as [[n d] C]. cbn in E |- *. subst d. change (n # 1 == Qred (n # 1)). symmetry. apply Qred_correct.
Qed.
Lemma checked_accurate e K p : forallb (forallb whole) (lA p) = true -> forallb whole (lb p) = true -> forallb whole (lc p) = true ->
  forallb (fun s => qle (qabs (det (length (lA p)) (fun i j => bordered p i (nth j s 0)))) (qz K)) (tuples (length (lA p)) (S (length (lc p) + length (lA p)))) = true ->
  (1 <= K <= 10 ^ 9)%Z -> qlt (qz 8 * e * (weight p + qz 2 * qz (Z.of_nat (length (lA p)))) * (1 + qz (Z.of_nat (length (lA p))) * qz K)) (Q2Qc (1 # 10000000000)) = true -> accurate e K p.
Proof.
  intros I1 I2 I3 HD HK HE. constructor; auto.
  - rewrite forallb_forall in I1, I2, I3. split; [|split]; [|intros v Hv; now apply whole_int, I2|intros v Hv; now apply whole_int, I3]. intros r v H1 H2. specialize (I1 r H1). rewrite forallb_forall in I1. now apply whole_int, I1.
  - intros s L Hs. rewrite forallb_forall in HD. specialize (HD s). destruct (qle_spec (qabs (det (length (lA p)) (fun i j => bordered p i (nth j s 0)))) (qz K)); auto. exfalso. cut (false = true); [discriminate|]. apply HD. apply tuples_all; auto. intros j Hj. specialize (Hs j Hj). lia.
  - cbv zeta. destruct (qlt_spec (qz 8 * e * (weight p + qz 2 * qz (Z.of_nat (length (lA p)))) * (1 + qz (Z.of_nat (length (lA p))) * qz K)) (Q2Qc (1 # 10000000000))); auto. discriminate.
Qed.
(** maximise x1 + x2 + 2 x3 subject to x1 + 2 x2 <= 8, x1 - x2 + x3 = 1, x2 free, x3 <= 0: the errors are those of double arithmetic *)
Definition two_rows : res lp := linear_program (mat 3 [[1; 2; 0]; [1; -1; 1]]%Z) (vec [8; 1]%Z) (vec [1; 1; 2]%Z) 0%Qc "max" (Some ["<="; "="]) (Some [2]%Z) (Some [3]%Z).
Example C82_solve_example : exists p x, two_rows = Ok p /\ reachable p /\ accurate (pow2 (-50)) 16 (fst (to_sef p)) /\ length (lc (fst (to_sef p))) <> 2 * length (lA p) /\ r_solve (pow2 (-50)) p (Some x).
Proof.
  destruct two_rows as [p| |] eqn:E; try discriminate E. assert (Hr : reachable p) by (unfold two_rows in E; refine (r_new _ _ _ _ _ _ _ _ _ _ E); repeat constructor).
  destruct (solve 32 p) as [p' [[x|]| |]] eqn:Es; [|injection E as <-; vm_compute in Es; discriminate Es ..].
  exists p, x. split; auto. split; auto. assert (HA : accurate (pow2 (-50)) 16 (fst (to_sef p))).
  { injection E as <-. apply checked_accurate; [vm_compute; reflexivity ..|lia|vm_compute; reflexivity]. }
  split; auto. split; [injection E as <-; vm_compute; discriminate|]. apply (C82_exact_solve _ 32 p p'); auto; discriminate.
Qed.

(** x1 + x2 = -1 has no nonnegative solution *)
Definition no_point : res lp := linear_program (mat 3 [[1; 1; 0]; [1; 2; 3]]%Z) (vec [-1; 4]%Z) (vec [1; 0; 2]%Z) 0%Qc "max" None None None.
Example C82_infeasible_example : exists p Bo y, no_point = Ok p /\ reachable p /\ accurate (pow2 (-50)) 16 p /\ r_two_phase (pow2 (-50)) p (None, Bo, CVec y) /\ infeasible (meaning p).
Proof.
  destruct no_point as [p| |] eqn:E; try discriminate E. assert (Hr : reachable p) by (unfold no_point in E; refine (r_new _ _ _ _ _ _ _ _ _ _ E); repeat constructor).
  destruct (two_phase_simplex 32 p) as [p' [[[[x|] Bo] [y|x' d]]| |]] eqn:Es; try (injection E as <-; vm_compute in Es; discriminate Es).
  exists p, Bo, y. split; auto. split; auto. assert (HA : accurate (pow2 (-50)) 16 p) by (injection E as <-; apply checked_accurate; [vm_compute; reflexivity ..|lia|vm_compute; reflexivity]).
  assert (R : r_two_phase (pow2 (-50)) p (None, Bo, CVec y)) by (apply (C82_exact _ 32 p p'); auto; discriminate). split; auto. split; auto. now apply (C82_infeasible (pow2 (-50)) 16 p Bo y).
Qed.
(** maximise x3 subject to x1 - x2 = 1, x1 + x2 - x3 = 2 *)
Definition no_bound : res lp := linear_program (mat 3 [[1; -1; 0]; [1; 1; -1]]%Z) (vec [1; 2]%Z) (vec [0; 0; 1]%Z) 0%Qc "max" None None None.
Example C82_unbounded_example : exists p Bo x d, no_bound = Ok p /\ reachable p /\ accurate (pow2 (-50)) 16 p /\ r_two_phase (pow2 (-50)) p (None, Bo, CPair x d) /\ unbounded (meaning p).
Proof.
  destruct no_bound as [p| |] eqn:E; try discriminate E. assert (Hr : reachable p) by (unfold no_bound in E; refine (r_new _ _ _ _ _ _ _ _ _ _ E); repeat constructor).
  destruct (two_phase_simplex 32 p) as [p' [[[[x|] Bo] [y|x' d]]| |]] eqn:Es; try (injection E as <-; vm_compute in Es; discriminate Es).
  exists p, Bo, x', d. split; auto. split; auto. assert (HA : accurate (pow2 (-50)) 16 p) by (injection E as <-; apply checked_accurate; [vm_compute; reflexivity ..|lia|vm_compute; reflexivity]).
  assert (R : r_two_phase (pow2 (-50)) p (None, Bo, CPair x' d)) by (apply (C82_exact _ 32 p p'); auto; discriminate). split; auto. split; auto. now apply (C82_unbounded (pow2 (-50)) 16 p Bo x' d).
Qed.
(** solve on them: None, and the number of columns is not twice that of the rows *)
Example C82_none_example : exists p, no_point = Ok p /\ reachable p /\ accurate (pow2 (-50)) 16 (fst (to_sef p)) /\ length (lc (fst (to_sef p))) <> 2 * length (lA p) /\ r_solve (pow2 (-50)) p None.
Proof.
  destruct C82_infeasible_example as (p & Bo & y & E & Hr & HA & R & _). exists p. split; auto. split; auto. assert (Hs : lsef p = true) by (injection E as <-; reflexivity). rewrite (C29_already_sef p Hs). split; auto. split; [injection E as <-; vm_compute; discriminate|].
  unfold r_solve. rewrite Hs. exists (None, Bo, CVec y). auto.
Qed.
(** the run of C81_example in double arithmetic: 49 * (1 / 49) is not 1 there, and the certificate is not exactly 1 / 49 *)
Example C82_certificate_example : exists p x y, forty_nine' = Ok p /\ reachable p /\ accurate (pow2 (-50)) 49 p /\ r_simplex (pow2 (-50)) p [1]%Z (Some x, Some [1]%Z, CVec [y]) /\ y <> (1 / qz 49)%Qc.
Proof.
  destruct C81_example as (p & E & Hr & _ & _ & _ & _ & _ & R). cbv zeta in R. eexists p, _, _. split; auto. split; auto. split; [|split; [exact R|vm_compute; discriminate]].
  injection E as <-. apply checked_accurate; [vm_compute; reflexivity ..|lia|vm_compute; reflexivity].
Qed.
(** with twice as many columns None is wrong even without errors: minimise 2 x1 + 3 x2 subject to x1 + x2 >= 4, x1 + 3 x2 >= 6 *)
Theorem C82_solve_none_refuted : exists p x, reachable p /\ accurate (pow2 (-50)) 32 (fst (to_sef p)) /\ r_solve (pow2 (-50)) p None /\ optimal (meaning p) x.
Proof.
  destruct C42_diet_example as (p & x & E & Hr & D & _ & Ho). exists p, x. split; auto. split.
  - clear D Ho. injection E as <-. apply checked_accurate; [vm_compute; reflexivity ..|lia|vm_compute; reflexivity].
  - split; auto. apply (C82_exact_solve _ 1 p p); auto; [discriminate|]. apply C42_diet_refuted; auto.
Qed.
Print Assumptions C82_solve_none_refuted.
