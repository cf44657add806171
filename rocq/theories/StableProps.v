(** C16: formulate_max_stable_set. *)
From Coq Require Import String List Bool Arith ZArith QArith Qcanon Lia.
From Verif Require Import Py QcTac QSum QInt ComparatorModel MatModel MatTheory LinearModel LinearSpec LinearProofs LinearProps SefProofs
  IntegerModel IntegerSpec IntegerProofs IntegerProps RrefProofs UndirectedModel UndirectedSpec UndirectedProofs UndirectedProps
  StableModel StableSpec StableProofs StableMinors.
Import ListNotations.
Open Scope nat_scope.
Open Scope string_scope.
Open Scope list_scope.

Lemma key_edge g u v : In (u, v) (dkeys (ug_edges g)) -> is_edge (ug_edges g) u v.
Proof. intros H. apply in_map_iff in H as ([e w] & E & H). cbn in E. subst e. left. now exists w. Qed.
Lemma edge_key g u v : is_edge (ug_edges g) u v -> In (u, v) (dkeys (ug_edges g)) \/ In (v, u) (dkeys (ug_edges g)).
Proof. intros [(w & H)|(w & H)]; [left|right]; apply in_map_iff; eexists; (split; [|exact H]); reflexivity. Qed.
Lemma numbered g v : inv g -> In v (dkeys (ug_vertices g)) ->
  In (v, ix (numbering (ug_vertices g)) v) (numbering (ug_vertices g)) /\ ix (numbering (ug_vertices g)) v < length (ug_vertices g).
Proof.
  intros I H. pose proof (i_nd3 _ I) as N. apply In_nth_error in H as (i & H). pose proof (proj2 (in_numbering _ _ _ N) H) as K.
  rewrite (lookup_ix _ _ i) by (apply lookup_in; [now rewrite keys_numbering|auto]). split; auto.
  replace (length (ug_vertices g)) with (length (dkeys (ug_vertices g))) by (unfold dkeys; now rewrite map_length).
  apply nth_error_Some. congruence.
Qed.
Lemma numbered_inv g v i : inv g -> In (v, i) (numbering (ug_vertices g)) ->
  In v (dkeys (ug_vertices g)) /\ i = ix (numbering (ug_vertices g)) v /\ i < length (ug_vertices g).
Proof.
  intros I H. pose proof (i_nd3 _ I) as N. pose proof (proj1 (in_numbering _ _ _ N) H) as K. apply nth_error_In in K as KI.
  split; auto. assert (i = ix (numbering (ug_vertices g)) v).
  { symmetry. apply lookup_ix. apply lookup_in; [now rewrite keys_numbering|auto]. }
  split; auto. subst i. now apply numbered.
Qed.
Lemma vertex_at g i : inv g -> i < length (ug_vertices g) -> exists v, In (v, i) (numbering (ug_vertices g)).
Proof.
  intros I H. pose proof (i_nd3 _ I) as N.
  replace (length (ug_vertices g)) with (length (dkeys (ug_vertices g))) in H by (unfold dkeys; now rewrite map_length).
  apply nth_error_Some in H. destruct (nth_error (dkeys (ug_vertices g)) i) as [v|] eqn:E; [|congruence]. exists v. now apply in_numbering.
Qed.

Lemma weight_inner vs : forall a x T,
  (forall i, i < length vs -> nth (a + i) x 0%Qc = if member (nth i (map fst vs) "") T then 1%Qc else 0%Qc) -> length x = a + length vs ->
  inner (map snd vs) (skipn a x) = weight vs T.
Proof.
  induction vs as [|[v w] vs IH]; intros a x T H L; [reflexivity|]. cbn [map snd weight]. cbn [length] in L.
  destruct (skipn a x) as [|y r] eqn:E.
  - apply (f_equal (@length Qc)) in E. rewrite skipn_length in E. cbn in E. lia.
  - cbn [inner]. assert (Ey : y = nth a x 0%Qc) by (rewrite <- (firstn_skipn a x), E, app_nth2; rewrite firstn_length_le by lia; [now rewrite Nat.sub_diag|lia]).
    assert (Er : r = skipn (S a) x).
    { clear - E. revert x E. induction a as [|a IHa]; intros [|z x] E; cbn in E; try discriminate; [cbn; congruence|]. cbn [skipn]. now apply IHa. }
    rewrite Er, IH with (T := T).
    + rewrite Ey. specialize (H 0 ltac:(cbn; lia)). cbn [map fst nth] in H. rewrite Nat.add_0_r in H. rewrite H. destruct (member v T); ring.
    + intros i Hi. specialize (H (S i) ltac:(cbn; lia)). cbn [map fst nth] in H. rewrite <- H. f_equal. lia.
    + lia.
Qed.

(** Whenever an edge is recorded, the program returned has exactly the 0/1 vectors of stable sets as
    its integral points, under the returned numbering, with the total weight as objective. *)
Theorem C16_stable_sets : forall junk g, api_state g -> ug_edges g <> [] ->
  exists p mapping, formulate_max_stable_set junk g = Ok (Some (p, mapping)) /\
    let P := meaning (program_of p) in
    numbers mapping (ug_vertices g) /\ maximise P = true /\
    (forall x, feasible P x -> integral_point (integral_variables p) x ->
       exists T, stable_set (is_edge (ug_edges g)) (ug_vertices g) T /\ indicates mapping x T) /\
    (forall x T, stable_set (is_edge (ug_edges g)) (ug_vertices g) T -> indicates mapping x T ->
       feasible P x /\ integral_point (integral_variables p) x) /\
    (forall T, exists x, indicates mapping x T) /\
    (forall x T, indicates mapping x T -> value P x = weight (ug_vertices g) T).
Proof.
  intros junk g R NE. pose proof (reach_inv g R) as I. pose proof (i_nd3 _ I) as N.
  destruct (formulate_ok junk g I NE) as (p & E & SP & _). exists (mkip p None), (numbering (ug_vertices g)). split; auto.
  cbn [program_of integral_variables]. pose proof (length_numbering _ N) as LM.
  pose proof (fun x => feasible_points g p x I SP) as FP. cbv zeta in FP.
  set (m := numbering (ug_vertices g)) in *. set (n := length (ug_vertices g)) in *.
  cbv zeta. split; [now apply numbers_numbering|]. split; [|split; [|split; [|split]]].
  - destruct SP as (_ & _ & _ & _ & Ho & _). cbn. now rewrite Ho.
  - intros x F Z. apply FP in F as (L & F1 & F2). exists (set_of m x). split; [split|split].
    + intros v Hv. apply in_set_of in Hv as (i & Hi & _). apply numbered_inv in Hi as (Hi & _); auto.
      apply in_map_iff in Hi as ([a w] & <- & Hw). now exists w.
    + intros u v Hu Hv J. apply in_set_of in Hu as (i & Hi & Ei). apply in_set_of in Hv as (j & Hj & Ej).
      apply numbered_inv in Hi as (_ & Qi & _); auto. apply numbered_inv in Hj as (_ & Qj & _); auto. fold m in Qi, Qj. subst i j.
      apply edge_key in J as [J|J]; apply F1 in J; rewrite Ei, Ej in J; now apply J.
    + congruence.
    + intros v i H. pose proof (numbered_inv _ _ _ I H) as (_ & Qi & Hi). fold m in Qi. fold n in Hi.
      destruct (zero_or_one (nth i x 0%Qc)) as [K|K]; try apply F2; auto.
      * apply Z; [lia|exact Coq.Init.Logic.I].
      * rewrite K. destruct (member v (set_of m x)) eqn:EM; auto. apply member_spec in EM. apply in_set_of in EM as (j & Hj & Ej).
        apply numbered_inv in Hj as (_ & Qj & _); auto. fold m in Qj. congruence.
      * rewrite K. destruct (member v (set_of m x)) eqn:EM; auto. rewrite <- Bool.not_true_iff_false, member_spec in EM. exfalso. apply EM.
        apply in_set_of. now exists i.
  - intros x T (S1 & S2) (L & D).
    assert (D' : forall j, j < n -> nth j x 0%Qc = 0%Qc \/ nth j x 0%Qc = 1%Qc).
    { intros j Hj. destruct (vertex_at g j I Hj) as (v & Hv). rewrite (D v j Hv). destruct (member v T); auto. }
    split.
    + apply FP. split; [congruence|]. split.
      * intros u v H. destruct (i_edge _ I u v H) as (_ & _ & _ & Hu & Hv). destruct (numbered g u I Hu) as (Nu & _). destruct (numbered g v I Hv) as (Nv & _).
        fold m in Nu, Nv. rewrite (D _ _ Nu), (D _ _ Nv). destruct (member u T) eqn:Mu, (member v T) eqn:Mv; try discriminate.
        exfalso. apply member_spec in Mu. apply member_spec in Mv. apply (S2 u v Mu Mv). now apply key_edge.
      * intros j Hj. destruct (D' j Hj) as [-> | ->]; split; discriminate.
    + intros j Hj _. destruct (D' j ltac:(lia)) as [-> | ->]; [exists 0%Z|exists 1%Z]; reflexivity.
  - intros T. exists (map (fun v => if member v T then 1%Qc else 0%Qc) (dkeys (ug_vertices g))). split.
    + unfold dkeys. rewrite !map_length. symmetry. exact LM.
    + intros v i H. apply in_numbering in H; auto. apply nth_error_nth. now apply (map_nth_error (fun v => if member v T then 1%Qc else 0%Qc)).
  - intros x T (L & D). destruct SP as (_ & _ & Hc & Hz & _). unfold value. cbn [meaning costs constant]. rewrite Hc, Hz.
    rewrite <- (weight_inner (ug_vertices g) 0 x T); [cbn [skipn]; ring| |now rewrite L].
    intros i Hi. destruct (vertex_at g i I Hi) as (v & Hv). cbn [Nat.add]. rewrite (D v i Hv). apply in_numbering in Hv; auto.
    unfold dkeys in Hv. now rewrite (nth_error_nth _ _ "" Hv).
Qed.
Print Assumptions C16_stable_sets.

(** Hence a best integral point describes a stable set of largest weight, and conversely. *)
Theorem C16_largest : forall junk g p mapping, api_state g -> ug_edges g <> [] ->
  formulate_max_stable_set junk g = Ok (Some (p, mapping)) ->
  let P := meaning (program_of p) in
  forall x T, indicates mapping x T -> (forall v, In v T -> exists w, In (v, w) (ug_vertices g)) ->
  ((feasible P x /\ integral_point (integral_variables p) x /\
    forall y, feasible P y -> integral_point (integral_variables p) y -> (value P y <= value P x)%Qc) <->
   (stable_set (is_edge (ug_edges g)) (ug_vertices g) T /\
    forall T', stable_set (is_edge (ug_edges g)) (ug_vertices g) T' -> (weight (ug_vertices g) T' <= weight (ug_vertices g) T)%Qc)).
Proof.
  intros junk g p m R NE E P x T HX HT. destruct (C16_stable_sets junk g R NE) as (p' & m' & E' & K). rewrite E in E'. injection E' as <- <-.
  cbv zeta in K. fold P in K. destruct K as ((N1 & N2 & N3 & N4) & _ & K1 & K2 & K3 & K4). split.
  - intros (F & Z & B). split; [split; auto|].
    + destruct (K1 x F Z) as (T' & (S1 & S2) & (L' & D')). destruct HX as (L & D).
      assert (Q : forall v, In v T -> In v T').
      { intros v Hv. pose proof (proj2 (N3 v) (HT v Hv)) as H. apply in_map_iff in H as ([a i] & Ea & H). cbn in Ea. subst a.
        specialize (D v i H). specialize (D' v i H). rewrite (proj2 (member_spec v T) Hv) in D. rewrite D in D'.
        destruct (member v T') eqn:EM; [now apply member_spec|discriminate]. }
      intros u v Hu Hv. apply S2; auto.
    + intros T' HT'. destruct (K3 T') as (y & Hy). destruct (K2 y T' HT' Hy) as (F' & Z'). rewrite <- (K4 y T' Hy), <- (K4 x T HX). now apply B.
  - intros (ST & B). destruct (K2 x T ST HX) as (F & Z). split; auto. split; auto. intros y Fy Zy. destruct (K1 y Fy Zy) as (T' & ST' & HY).
    rewrite (K4 y T' HY), (K4 x T HX). now apply B.
Qed.
Print Assumptions C16_largest.

Lemma inner_bound c : forall x, (forall j, j < length c -> (0 <= nth j x 0 <= 1)%Qc) -> (inner c x <= fold_right (fun a r => qabs a + r) 0 c)%Qc.
Proof.
  induction c as [|a c IH]; intros [|y x] H; cbn [inner fold_right]; try (apply Qcle_refl).
  - specialize (IH [] ltac:(intros j Hj; specialize (H (S j) ltac:(cbn; lia)); destruct j; exact H)). rewrite inner_nil_r in IH. pose proof (qabs_nonneg a) as Q. clear H. qclra.
  - specialize (IH x ltac:(intros j Hj; apply (H (S j)); cbn; lia)). pose proof (H 0 ltac:(cbn; lia)) as (Y1 & Y2). cbn [nth] in Y1, Y2.
    assert (K : (a * y <= qabs a)%Qc).
    { destruct (qabs_spec a) as [(A & ->)|(A & ->)].
      - pose proof (qmul_nonneg a (1 - y) A ltac:(clear - Y2; qclra)) as Q. replace (a * (1 - y))%Qc with (a - a * y)%Qc in Q by ring.
        clear - Q. set (ay := (a * y)%Qc) in *. clearbody ay. qclra.
      - pose proof (qmul_nonneg (- a) y ltac:(clear - A; qclra) Y1) as Q. replace (- a * y)%Qc with (- (a * y))%Qc in Q by ring.
        clear - Q A. set (ay := (a * y)%Qc) in *. clearbody ay. qclra. }
    clear H. set (ay := (a * y)%Qc) in *. clearbody ay. qclra.
Qed.

(** Solving the program by branch and bound, when the relaxations are solved correctly: the search
    ends and the vertices rounded to 1 form a stable set; no stable set weighs more than the value
    found.  Missing: that [solve] is right about the relaxations, see C46. *)
Theorem C16_solved_partial : forall junk g p mapping q fuel depth, api_state g -> ug_edges g <> [] ->
  formulate_max_stable_set junk g = Ok (Some (p, mapping)) -> relax (program_of p) = Ok q ->
  (forall q', visited fuel (integral_variables p) q q' -> answers fuel q' /\ right_answer fuel q') ->
  length (ug_vertices g) < depth ->
  exists x T, branch_and_bound depth fuel p = Ok (Some x) /\
    stable_set (is_edge (ug_edges g)) (ug_vertices g) T /\
    (forall v i, In (v, i) mapping -> In v T -> (1 - Q2Qc (1 # 1000) <= nth i x 0)%Qc) /\
    (forall v i, In (v, i) mapping -> ~ In v T -> (nth i x 0 <= Q2Qc (1 # 1000))%Qc) /\
    forall T', stable_set (is_edge (ug_edges g)) (ug_vertices g) T' ->
      (weight (ug_vertices g) T' <= value (meaning (program_of p)) x)%Qc.
Proof.
  intros junk g p0 m q fuel depth R NE E Eq HV Hd. pose proof (reach_inv g R) as I. pose proof (i_nd3 _ I) as N.
  destruct (C16_stable_sets junk g R NE) as (p' & m' & E' & K). rewrite E in E'. injection E' as <- <-. cbv zeta in K.
  destruct K as (_ & _ & _ & K2 & K3 & K4).
  destruct (formulate_ok junk g I NE) as (p & E' & SP & Hr). rewrite E in E'. injection E' as -> ->. cbn [program_of integral_variables] in *.
  pose proof (fun x => feasible_points g p x I SP) as FP. cbv zeta in FP.

  assert (Ho : lobj p = "max") by apply SP. assert (Hn : nonnegative_variables p) by (split; apply SP).
  assert (Lc : length (lc p) = length (ug_vertices g)) by (destruct SP as (_ & _ & -> & _); apply map_length).
  assert (T0 : stable_set (is_edge (ug_edges g)) (ug_vertices g) []) by (split; [intros v []|intros u v []]).
  destruct (C46_terminates fuel p None 1 q Hr Hn) with (depth := depth) as (r & Er); auto.
  { intros y i F Hi _. apply FP in F as (L & _ & F). apply F. lia. }
  { rewrite Lc. lia. }
  assert (O := C46_optimal_partial depth fuel p None r q Hr Ho Hn Eq (fun q' Hq' => proj2 (HV q' Hq')) Er).
  destruct r as [x|].
  2:{ exfalso. destruct O as [O|O].
      - destruct (K3 []) as (y & Hy). destruct (K2 y [] T0 Hy) as (F & Z). exact (O y F Z).
      - destruct (O (fold_right (fun a r => qabs a + r) 0 (lc p) + lz p + 1)%Qc) as (y & F & G). unfold as_good in G. cbn [meaning maximise] in G.
        rewrite Ho in G. cbn in G. apply FP in F as (_ & _ & F). pose proof (inner_bound (lc p) y ltac:(intros j Hj; apply F; lia)) as B.
        unfold value in G. cbn [meaning costs constant] in G. clear - B G. set (a := inner (lc p) y) in *. clearbody a. set (b := fold_right _ _ _) in *. clearbody b.
        set (z := lz p) in *. clearbody z. qclra. }
  destruct O as (F & Z & B). pose proof F as F0. apply FP in F as (L & F1 & F2).
  set (m := numbering (ug_vertices g)) in *. set (n := length (ug_vertices g)) in *.
  assert (NR : forall i, i < n -> (nth i x 0 <= Q2Qc (1 # 1000))%Qc \/ (1 - Q2Qc (1 # 1000) <= nth i x 0)%Qc).
  { intros i Hi. destruct (Z i ltac:(lia) Coq.Init.Logic.I) as (k & K1' & K2'). change (Q2Qc (inject_Z k)) with (qz k) in *. destruct (F2 i Hi) as (G1 & G2).
    unfold ComparatorSpec.eps10 in *. set (y := nth i x 0%Qc) in *. clearbody y. clear - K1' K2' G1 G2.
    assert (A : (-1 < k)%Z) by (apply qz_lt; change (qz (-1)) with (- (1))%Qc; qclra).
    assert (B : (k < 2)%Z) by (apply qz_lt; change (qz 2) with (Q2Qc (2 # 1)); qclra).
    assert (k = 0 \/ k = 1)%Z as [-> | ->] by lia; [left|right]; [change (qz 0) with 0%Qc in *|change (qz 1) with 1%Qc in *]; qclra. }
  exists x, (map fst (filter (fun e => qle (1 - Q2Qc (1 # 1000)) (nth (snd e) x 0%Qc)) m)).
  assert (IN : forall v, In v (map fst (filter (fun e => qle (1 - Q2Qc (1 # 1000)) (nth (snd e) x 0%Qc)) m)) <->
     exists i, In (v, i) m /\ (1 - Q2Qc (1 # 1000) <= nth i x 0)%Qc).
  { intros v. rewrite in_map_iff. split.
    - intros ([a i] & <- & H). apply filter_In in H as (H & G). exists i. split; auto. cbn [snd] in G. destruct (qle_spec (1 - Q2Qc (1 # 1000)) (nth i x 0%Qc)); [auto|discriminate].
    - intros (i & H & G). exists (v, i). split; auto. apply filter_In. split; auto. cbn [snd]. now destruct (qle_spec (1 - Q2Qc (1 # 1000)) (nth i x 0%Qc)). }
  split; auto. split; [split|split; [|split]].
  - intros v Hv. apply IN in Hv as (i & Hi & _). apply numbered_inv in Hi as (Hi & _); auto.
    apply in_map_iff in Hi as ([a w] & <- & Hw). now exists w.
  - intros u v Hu Hv J. apply IN in Hu as (i & Hi & Gi). apply IN in Hv as (j & Hj & Gj).
    apply numbered_inv in Hi as (_ & Qi & _); auto. apply numbered_inv in Hj as (_ & Qj & _); auto. fold m in Qi, Qj. subst i j.
    assert (Q : (nth (ix m u) x 0 + nth (ix m v) x 0 <= 1)%Qc) by (apply edge_key in J as [J|J]; apply F1 in J; auto; now rewrite Qcplus_comm).
    clear - Q Gi Gj. set (a := nth _ _ _) in *. set (b := nth (ix m v) _ _) in *. clearbody a b. qclra.
  - intros v i Hi Hv. apply IN in Hv as (j & Hj & G). apply numbered_inv in Hi as (_ & Qi & _); auto. apply numbered_inv in Hj as (_ & Qj & _); auto. congruence.
  - intros v i Hi Hv. pose proof (numbered_inv _ _ _ I Hi) as (_ & _ & Q). destruct (NR i Q) as [G|G]; auto. exfalso. apply Hv. apply IN. now exists i.
  - intros T' HT'. destruct (K3 T') as (y & Hy). destruct (K2 y T' HT' Hy) as (Fy & Zy). rewrite <- (K4 y T' Hy). now apply B.
Qed.
Print Assumptions C16_solved_partial.

(** On every graph whose weights are multiples of 1/e, as long as the graph is small, or has two
    sides and is of moderate size, the solver of the integer program finds a largest stable set:
    no assumption on what the relaxations answer is left. *)
Theorem C16_found_partial : forall junk g p mapping e fuel depth, api_state g -> ug_edges g <> [] ->
  formulate_max_stable_set junk g = Ok (Some (p, mapping)) ->
  let n := length (ug_vertices g) in let m := length (ug_edges g) in
  (0 < e)%Z -> (forall v w, In (v, w) (ug_vertices g) -> isint (qz e * w)%Qc) ->
  ((2 ^ Z.of_nat (n / 3) * e <= 10 ^ 10)%Z /\ (4 ^ Z.of_nat (n / 3) * (1 + 1000 * Z.of_nat (m + 2 * n)) < 10 ^ 8)%Z \/
   (exists side, two_sided (is_edge (ug_edges g)) side) /\ (e <= 10 ^ 10)%Z /\ (Z.of_nat (m + 2 * n) < 10 ^ 5)%Z) ->
  2 ^ (n + 2 * (m + 2 * n)) <= fuel -> n < depth ->
  exists x T, branch_and_bound depth fuel p = Ok (Some x) /\
    stable_set (is_edge (ug_edges g)) (ug_vertices g) T /\ indicates mapping x T /\
    forall T', stable_set (is_edge (ug_edges g)) (ug_vertices g) T' ->
      (weight (ug_vertices g) T' <= weight (ug_vertices g) T)%Qc.
Proof.
  intros junk g p0 mp e fuel depth R NE E n m He Hw HK Hfuel Hd. pose proof (reach_inv g R) as I. pose proof (i_nd3 _ I) as N.
  destruct (C16_stable_sets junk g R NE) as (p' & m' & E' & K). rewrite E in E'. injection E' as <- <-. cbv zeta in K.
  destruct K as (_ & _ & K1 & K2 & K3 & K4).
  destruct (formulate_ok junk g I NE) as (p & E' & SP & Hr). rewrite E in E'. injection E' as -> ->. cbn [program_of integral_variables] in *.
  pose proof (fun x => feasible_points g p x I SP) as FP. cbv zeta in FP.
  assert (Ho : lobj p = "max") by apply SP. assert (Hn : nonnegative_variables p) by (split; apply SP).
  assert (Lc : length (lc p) = n) by (destruct SP as (_ & _ & -> & _); apply map_length).
  assert (LA : length (lA p) = m + n) by apply (stable_rows g p I SP).
  assert (NM : 1 <= m) by (unfold m; destruct (ug_edges g); [congruence|cbn; lia]).
  assert (HB : exists K, bounded_minors p e K (Z.of_nat (m + 2 * n)) 1).
  { destruct HK as [(A & B)|((side & HS) & A & B)].
    - exists (2 ^ Z.of_nat (n / 3))%Z. apply stable_bounded; auto.
      + apply MinorProofs.two_ones_minors. now apply stable_two_ones.
      + fold n m. rewrite <- Z.pow_mul_l. exact B.
    - exists 1%Z. apply stable_bounded; auto; [lia|change (qz 1) with 1%Qc; exact (MinorProofs.across_minors _ _ _ _ (stable_across g p side I SP HS))|]. fold n m. lia. }
  destruct HB as (KK & HB).
  assert (T0 : stable_set (is_edge (ug_edges g)) (ug_vertices g) []) by (split; [intros v []|intros u v []]).
  destruct (C46_minors_partial p None e KK (Z.of_nat (m + 2 * n)) 1 fuel depth Hr Ho Hn) as [(x & Ex & F & Z & B)|(_ & B)].
  - destruct SP as (_ & _ & _ & _ & _ & Hi & _). intros s Hs. rewrite Hi in Hs. apply repeat_spec in Hs. now left.
  - lia.
  - intros y i F Hi _. apply FP in F as (L & _ & F). apply F. lia.
  - exact HB.
  - rewrite LA, Lc. eapply Nat.le_trans; [|exact Hfuel]. apply Nat.pow_le_mono_r; lia.
  - lia.
  - destruct (K1 x F Z) as (T & ST & HT). exists x, T. split; auto. split; auto. split; auto. intros T' HT'. destruct (K3 T') as (y & Hy). destruct (K2 y T' HT' Hy) as (Fy & Zy).
    rewrite <- (K4 y T' Hy), <- (K4 x T HT). now apply B.
  - exfalso. destruct B as [O|O].
    + destruct (K3 []) as (y & Hy). destruct (K2 y [] T0 Hy) as (F & Z). exact (O y F Z).
    + destruct (O (fold_right (fun a r => qabs a + r) 0 (lc p) + lz p + 1)%Qc) as (y & F & G). unfold as_good in G. cbn [meaning maximise] in G.
      rewrite Ho in G. cbn in G. apply FP in F as (_ & _ & F). pose proof (inner_bound (lc p) y ltac:(intros j Hj; apply F; lia)) as B.
      unfold value in G. cbn [meaning costs constant] in G. clear - B G. set (a := inner (lc p) y) in *. clearbody a. set (b := fold_right _ _ _) in *. clearbody b.
      set (z := lz p) in *. clearbody z. qclra.
Qed.
Print Assumptions C16_found_partial.

(** Where it fails.  Without a recorded edge the call raises, although every set is stable then. *)
Theorem C16_no_edges_refuted : forall junk g, api_state g -> ug_edges g = [] -> ug_vertices g <> [] ->
  formulate_max_stable_set junk g = Raise ValueError.
Proof.
  intros junk g R NE NV. pose proof (i_nd3 _ (reach_inv g R)) as N. unfold formulate_max_stable_set.
  assert (E0 : is_empty g = false) by (unfold is_empty; destruct (ug_vertices g); congruence). rewrite E0, length_numbering, NE by auto.
  cbn [dkeys map stack_edges bind drop_first]. rewrite costs_ok by now apply reach_inv. cbn [bind].
  destruct (ug_vertices g) as [|a l]; [congruence|]. cbn [length seq stack_units map tl]. unfold vstack.
  rewrite length_set_at, repeat_length, map_length, seq_length.
  destruct (Nat.eqb_spec (length l) (S (length l))); [lia|reflexivity].
Qed.
Print Assumptions C16_no_edges_refuted.
Theorem C16_empty : forall junk g, ug_vertices g = [] -> formulate_max_stable_set junk g = Ok None.
Proof. intros junk g H. unfold formulate_max_stable_set, is_empty. now rewrite H. Qed.
Print Assumptions C16_empty.

(** An edge taken out by remove_edge still counts: both of its ends are stable in the graph
    [graph] that the traversals use, but the program excludes them. *)
Theorem C16_removed_edge_refuted : exists g T, api_state g /\ stable_set (adjacent (ug_graph g)) (ug_vertices g) T /\
  forall junk p mapping x, formulate_max_stable_set junk g = Ok (Some (p, mapping)) -> indicates mapping x T ->
    ~ feasible (meaning (program_of p)) x.
Proof.
  destruct (construct [] [(("a", "b"), 1%Qc)] []) as [g0| |] eqn:E; try discriminate E.
  exists (urun g0 [RemoveEdge ("a", "b")]), ["a"; "b"].
  assert (R : api_state (urun g0 [RemoveEdge ("a", "b")])) by (exists [], [(("a", "b"), 1%Qc)], [], g0, [RemoveEdge ("a", "b")]; auto).
  split; auto. injection E as <-. split.
  - split.
    + intros v [<-|[<-|[]]]; cbn; eexists; [left|right; left]; reflexivity.
    + intros u v _ _ (s & [H|[H|[]]] & K); injection H as _ <-; exact K.
  - intros junk p m x E HX F. destruct (C16_stable_sets junk _ R) as (p' & m' & E' & K); [discriminate|]. rewrite E in E'. injection E' as <- <-.
    cbv zeta in K. destruct K as ((_ & _ & N3 & N4) & _ & K1 & _). destruct (K1 x F) as (T & (_ & ST) & HT).
    { intros i Hi _. destruct HX as (L & D). rewrite L in Hi.
      assert (Q : exists v, In (v, i) m).
      { assert (Hm : In i (map snd m)); [|apply in_map_iff in Hm as ([v j] & <- & Hm); now exists v].
        apply N4. cbn in E. injection E as _ <-. exact Hi. }
      destruct Q as (v & Hv). rewrite (D v i Hv). destruct (member v _); [exists 1%Z|exists 0%Z]; reflexivity. }
    assert (Q : forall v, v = "a" \/ v = "b" -> In v T).
    { intros v Hv. assert (H : In v (map fst m)) by (apply N3; destruct Hv as [-> | ->]; cbn; eexists; [left|right; left]; reflexivity).
      apply in_map_iff in H as ([a i] & Ea & H). cbn in Ea. subst a. destruct HX as (_ & D). destruct HT as (_ & D'). specialize (D v i H). specialize (D' v i H).
      rewrite D in D'. apply member_spec. destruct (member v T); auto. destruct Hv as [-> | ->]; cbn in D'; discriminate. }
    apply (ST "a" "b"); auto. left. cbn. eexists. left. reflexivity.
Qed.
Print Assumptions C16_removed_edge_refuted.

(** non-vacuity: a reachable graph with four edges, and the program made from it *)
Example C16_example : api_state demo /\ ug_edges demo <> [] /\
  (exists p m, formulate_max_stable_set (fun _ => qz 7) demo = Ok (Some (p, m)) /\
     length (lA (program_of p)) = 8 /\ length (lc (program_of p)) = 4 /\ map fst m = ["a"; "b"; "s"; "c"]) /\
  stable_set (is_edge (ug_edges demo)) (ug_vertices demo) ["a"; "c"].
Proof.
  split; [apply demo_is_reachable|]. split; [discriminate|]. split.
  - destruct (C16_stable_sets (fun _ => qz 7) demo (proj1 demo_is_reachable)) as (p & m & E & _); [discriminate|].
    exists p, m. split; auto. vm_compute in E. injection E as <- <-. repeat split.
  - split.
    + intros v [<-|[<-|[]]]; cbn; eexists; tauto.
    + intros u v [<-|[<-|[]]] [<-|[<-|[]]] [(w & H)|(w & H)]; cbn in H; decompose [or] H; try discriminate; auto.
Qed.
Example C16_no_edges_example : exists g, api_state g /\ ug_edges g = [] /\ ug_vertices g <> [].
Proof.
  destruct (construct [] [] [("a", 1%Qc)]) as [g| |] eqn:E; try discriminate E. exists g. split; [|injection E as <-; split; [reflexivity|discriminate]].
  exists [], [], [("a", 1%Qc)], g, []. auto.
Qed.
(** the conditions of C16_found_partial: a weighted circle of five vertices, whose relaxation is
    not integral, and a weighted path, whose vertices have two sides *)
Definition circle : ugraph :=
  match construct [] [(("a", "b"), 1%Qc); (("b", "c"), 1%Qc); (("c", "d"), 1%Qc); (("d", "e"), 1%Qc); (("e", "a"), 1%Qc)]
    [("a", 1%Qc); ("b", 1%Qc); ("c", Q2Qc (3 # 2)); ("d", 1%Qc); ("e", 1%Qc)] with
  | Ok g => g | _ => empty_graph end.
Example C16_found_example : api_state circle /\ ug_edges circle <> [] /\ (forall v w, In (v, w) (ug_vertices circle) -> isint (qz 2 * w)%Qc) /\
  (2 ^ Z.of_nat (length (ug_vertices circle) / 3) * 2 <= 10 ^ 10)%Z /\
  (4 ^ Z.of_nat (length (ug_vertices circle) / 3) * (1 + 1000 * Z.of_nat (length (ug_edges circle) + 2 * length (ug_vertices circle))) < 10 ^ 8)%Z.
Proof.
  split.
  { exists [], [(("a", "b"), 1%Qc); (("b", "c"), 1%Qc); (("c", "d"), 1%Qc); (("d", "e"), 1%Qc); (("e", "a"), 1%Qc)], [("a", 1%Qc); ("b", 1%Qc); ("c", Q2Qc (3 # 2)); ("d", 1%Qc); ("e", 1%Qc)], circle, [].
    split; vm_compute; reflexivity. }
  split; [intros H; apply (f_equal (@length _)) in H; vm_compute in H; discriminate|]. split; [|split; vm_compute; congruence].
  assert (EV : ug_vertices circle = [("a", 1%Qc); ("b", 1%Qc); ("c", Q2Qc (3 # 2)); ("d", 1%Qc); ("e", 1%Qc)]) by (vm_compute; reflexivity). rewrite EV. clear EV. cbn [In]. intros v w H. decompose [or] H; try contradiction; match goal with K : (_, _) = (_, _) |- _ => injection K as _ <- end; ((exists 2%Z; apply Qc_is_canon; reflexivity) || (exists 3%Z; apply Qc_is_canon; reflexivity)).
Qed.
Definition path : ugraph :=
  match construct [] [(("a", "b"), 1%Qc); (("b", "c"), 1%Qc); (("c", "d"), 1%Qc)] [("a", 1%Qc); ("b", qz 3); ("c", qz 2); ("d", 1%Qc)] with
  | Ok g => g | _ => empty_graph end.
Example C16_two_sided_example : api_state path /\ ug_edges path <> [] /\ (forall v w, In (v, w) (ug_vertices path) -> isint (qz 1 * w)%Qc) /\
  two_sided (is_edge (ug_edges path)) (fun v => orb (v =? "a") (v =? "c")).
Proof.
  split.
  { exists [], [(("a", "b"), 1%Qc); (("b", "c"), 1%Qc); (("c", "d"), 1%Qc)], [("a", 1%Qc); ("b", qz 3); ("c", qz 2); ("d", 1%Qc)], path, []. split; vm_compute; reflexivity. }
  split; [intros H; apply (f_equal (@length _)) in H; vm_compute in H; discriminate|]. split.
  - cbn. intros v w H. decompose [or] H; try contradiction; match goal with K : (_, _) = (_, _) |- _ => injection K as _ <- end; eexists; rewrite Qcmult_1_l; reflexivity.
  - intros u v [(w & H)|(w & H)]; cbn in H; decompose [or] H; try contradiction; match goal with K : (_, _) = (_, _) |- _ => injection K as <- <- _ end; discriminate.
Qed.
