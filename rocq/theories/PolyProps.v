(** C62: graph_polyhedron. *)
From Coq Require Import String List Bool Arith ZArith QArith Qcanon Lia Permutation Sorted.
From Verif Require Import Py QcTac QSum QInt ComparatorModel MatModel MatTheory LinearModel LinearSpec LinearProofs LinearInv DualProofs LinearProps PolyModel PolySpec PolyProofs PolyOrder.
Import ListNotations.
Open Scope nat_scope.
Open Scope string_scope.
Open Scope list_scope.

Lemma one_sided_iff p : wf p -> (one_sided p <-> two_sided p).
Proof.
  intros W. unfold one_sided, two_sided. change (length (lc p)) with (cols p). rewrite (wf_b _ W).
  split; intros (A & B); (split; [exact A|]); (destruct B as [B|B]; [left|right]); intros i Hi; specialize (B i Hi); (rewrite nth_relations in * by (rewrite (wf_b _ W); auto)); auto.
Qed.
(** what happens after the checks *)
Lemma run p L : wf p -> two_sided p -> graph_polyhedron p L =
  let set d := mklp (lA p) (lb p) (lc p) (lz p) (lobj p) d (lsef p) (lfree p) (lneg p) in
  let ls := boundary_lines p (qabs L) in
  let d := with_bounds (lineq p) in
  match intersections (pairs ls) with
  | Raise e => (set d, Fails e)
  | Diverges => (set d, Fails ValueError)
  | Ok candidates =>
    match filter (valid_point d ls) candidates with
    | [] => (set d, Exits)
    | pt :: pts => (p, Drawn (closed (sort_angle (centroid (pt :: pts)) (pt :: pts))))
    end
  end.
Proof.
  intros W T. pose proof (proj2 (checks p W) T) as (C1 & C2 & C3). unfold graph_polyhedron. rewrite C1, C2, C3. cbv zeta.
  destruct (intersections _) as [cs|e|]; auto. destruct (filter _ _) as [|pt pts]; auto. rewrite without_bounds_eq by (apply keys_lt; auto; now apply two_sided_length). destruct p. reflexivity.
Qed.
Lemma rejected p L : wf p -> ~ two_sided p -> graph_polyhedron p L = (p, Fails ArithmeticError).
Proof.
  intros W T. unfold graph_polyhedron. destruct (negb (Nat.eqb (cols p) 2)) eqn:C1; auto. destruct (negb (Nat.eqb (length (lineq p)) (length (lb p)))) eqn:C2; auto.
  destruct (negb _ && negb _)%bool eqn:C3; auto. exfalso. apply T. apply (checks p W). auto.
Qed.
Lemma drawn_two_sided p L q pts : wf p -> graph_polyhedron p L = (q, Drawn pts) -> two_sided p.
Proof.
  intros W E. pose proof (checks p W) as C. unfold graph_polyhedron in E.
  destruct (negb (Nat.eqb (cols p) 2)) eqn:C1; [discriminate|]. destruct (negb (Nat.eqb (length (lineq p)) (length (lb p)))) eqn:C2; [discriminate|].
  destruct (negb _ && negb _)%bool eqn:C3; [discriminate|]. apply C. auto.
Qed.

(** the object is the same after a drawing, for every program and every limit *)
Theorem C62_unchanged p limit q pts : reachable p -> graph_polyhedron p limit = (q, Drawn pts) -> q = p.
Proof.
  intros H E. pose proof (reachable_wf _ H) as W. rewrite run in E by (auto; eapply drawn_two_sided; eauto). cbv zeta in E.
  destruct (intersections _) as [cs|e|]; try discriminate. destruct (filter _ _) as [|pt pts']; [discriminate|]. injection E as <- _. reflexivity.
Qed.
Print Assumptions C62_unchanged.
(** everything else is refused *)
Theorem C62_refuses p limit : reachable p -> ~ one_sided p -> graph_polyhedron p limit = (p, Fails ArithmeticError).
Proof. intros H N. pose proof (reachable_wf _ H) as W. apply rejected; auto. now rewrite <- one_sided_iff. Qed.
Print Assumptions C62_refuses.

Lemma whole_abs z : qabs (qz z) = qz (Z.abs z).
Proof. apply qabs_qz. Qed.
Section Whole.
  Variables (p : lp) (K R z : Z).
  Hypothesis (H : reachable p) (HK : (1 <= K)%Z) (HW : whole_numbers p K R) (Hz : (- R <= z <= R)%Z) (HB : (4 * K * K * R < 1000000000)%Z).
  Hypothesis T : one_sided p.
  Let L := qz (Z.abs z).
  Let ls := boundary_lines p L.
  Let W : wf p := reachable_wf _ H.
  Let T2 : two_sided p := proj1 (one_sided_iff p W) T.
  Lemma whole_ls m : In m ls -> whole K R m.
  Proof. apply whole_lines; auto; [apply T2|lia]. Qed.
  Lemma alive cs : intersections (pairs ls) = Ok cs -> forall v, In v (filter (valid_point (with_bounds (lineq p)) ls) cs) <-> extreme (region p L) v.
  Proof.
    intros E v. rewrite (survivors K R ls _ (le_of p) cs whole_ls HB); auto.
    - apply extreme_ext. intros u. symmetry. apply region_inside; auto.
    - intros i Hi. unfold ls in Hi. rewrite boundary_length in Hi by exact W. apply directions; auto.
  Qed.
  Lemma box u : inside (sides ls (le_of p)) u -> (- L <= fst u <= L)%Qc /\ (- L <= snd u <= L)%Qc.
  Proof. intros I. apply region_inside in I; auto. destruct I as (_ & A). exact A. Qed.
  Lemma nonempty_vertex u : region p L u -> exists v, extreme (region p L) v.
  Proof.
    intros I. apply region_inside in I; auto. destruct (vertex_exists (sides ls (le_of p)) L u) as (v & X).
    - intros w Iw. apply box in Iw. split; apply Iw.
    - exact I.
    - exists v. revert X. apply extreme_ext. intros w. apply region_inside; auto.
  Qed.
  Lemma raises_iff : (exists e, intersections (pairs ls) = Raise e) -> exists i j, i < j < rows p /\ parallel p i j /\ (oblique p i \/ oblique p j).
  Proof.
    intros (e & E). apply intersections_raise in E as (l & k & I & E). apply In_pairs in I as (i & j & Hij & -> & ->).
    assert (Hl : length ls = rows p + 4) by (apply boundary_length; exact W). apply (intersection_raise K R) in E as (_ & Z & NA); [|apply whole_ls, nth_In; lia ..].
    unfold ldir, cross, axis_parallel in *. cbn [fst snd] in *.
    assert (B : forall i, rows p <= i -> i < rows p + 4 -> (snd (fst (nth i ls nol)) = 0%Qc /\ fst (fst (nth i ls nol)) = 1%Qc) \/ (fst (fst (nth i ls nol)) = 0%Qc /\ snd (fst (nth i ls nol)) = 1%Qc)).
    { intros k A1 A2. assert (Kk : exists k', k = rows p + k' /\ k' < 4) by (exists (k - rows p); lia). destruct Kk as (k' & -> & Hk'). unfold ls. rewrite boundary_nth4 by exact W. destruct k' as [|[|[|[|]]]]; [| | | |lia]; cbn [nth fst snd]; auto. }
    destruct (Nat.lt_ge_cases j (rows p)) as [Hj|Hj].
    - exists i, j. split; [lia|]. unfold ls in *. rewrite !boundary_nth in Z, NA by (exact W || lia). unfold parallel, oblique, ent, at_ in *. cbn [fst snd] in *.
      set (a1 := nth 0 (nth i (lA p) []) 0%Qc) in *. set (a2 := nth 1 (nth i (lA p) []) 0%Qc) in *. set (c1 := nth 0 (nth j (lA p) []) 0%Qc) in *. set (c2 := nth 1 (nth j (lA p) []) 0%Qc) in *.
      assert (E : (a1 * c2 = a2 * c1)%Qc) by (transitivity (a1 * c2 - a2 * c1 + a2 * c1)%Qc; [ring|rewrite Z; ring]). split; auto. clearbody a1 a2 c1 c2.
      destruct (Qc_eq_dec a1 0) as [Z1|N1].
      + destruct (Qc_eq_dec c1 0) as [Z3|N3]; [exfalso; auto|]. destruct (Qc_eq_dec c2 0) as [Z4|N4]; [|auto]. exfalso.
        assert (E1 : (a2 * c1 = 0)%Qc) by (rewrite <- E, Z1; ring). apply Qcmult_integral in E1 as [E1|E1]; auto.
      + destruct (Qc_eq_dec a2 0) as [Z2|N2]; [|auto]. destruct (Qc_eq_dec c2 0) as [Z4|N4]; [exfalso; auto|]. destruct (Qc_eq_dec c1 0) as [Z3|N3]; [|auto]. exfalso.
        assert (E1 : (a1 * c2 = 0)%Qc) by (rewrite E, Z2; ring). apply Qcmult_integral in E1 as [E1|E1]; auto.
    - exfalso. destruct (B j Hj ltac:(lia)) as [(B1 & B2)|(B1 & B2)]; rewrite B1, B2 in *.
      + apply NA. right. split; auto. transitivity (- (fst (fst (nth i ls nol)) * 0 - snd (fst (nth i ls nol)) * 1))%Qc; [ring|rewrite Z; ring].
      + apply NA. left. split; auto. transitivity (fst (fst (nth i ls nol)) * 1 - snd (fst (nth i ls nol)) * 0)%Qc; [ring|exact Z].
  Qed.
  Lemma raises i j : i < j < rows p -> parallel p i j -> oblique p i \/ oblique p j -> intersections (pairs ls) = Raise LinAlgError.
  Proof.
    intros Hij P O. assert (Hl : length ls = rows p + 4) by (apply boundary_length; exact W).
    assert (E : intersection (nth i ls nol) (nth j ls nol) = Some (Raise LinAlgError)).
    { apply (intersection_raise K R); [apply whole_ls, nth_In; lia ..|]. split; auto. unfold ls, ldir, cross, axis_parallel. rewrite !boundary_nth by (exact W || lia). cbn [fst snd]. unfold parallel, oblique, ent, at_ in *.
      set (a1 := nth 0 (nth i (lA p) []) 0%Qc) in *. set (a2 := nth 1 (nth i (lA p) []) 0%Qc) in *. set (c1 := nth 0 (nth j (lA p) []) 0%Qc) in *. set (c2 := nth 1 (nth j (lA p) []) 0%Qc) in *.
      split; [rewrite P; ring|]. intros [(A & B)|(A & B)]; destruct O as [(O1 & O2)|(O1 & O2)]; contradiction. }
    assert (I : In (nth i ls nol, nth j ls nol) (pairs ls)) by (apply In_pairs; exists i, j; split; auto; lia).
    destruct (intersections (pairs ls)) as [cs|e|] eqn:X.
    - destruct (intersections_ok _ _ X) as (_ & NR). exfalso. exact (NR _ _ _ I E).
    - apply intersections_raise in X as (l & k & Ik & Ek). apply In_pairs in Ik as (i' & j' & H' & -> & ->). apply (intersection_raise K R) in Ek as (-> & _); auto; apply whole_ls, nth_In; lia.
    - now apply intersections_diverges in X.
  Qed.
End Whole.

(** whole numbers that are not too large: the points drawn are the vertices of the region *)
Theorem C62_points_partial p K R z q pts : reachable p -> (1 <= K)%Z -> whole_numbers p K R -> (- R <= z <= R)%Z -> (4 * K * K * R < 1000000000)%Z ->
  graph_polyhedron p (qz z) = (q, Drawn pts) -> forall v, In v pts <-> extreme (region p (qz (Z.abs z))) v.
Proof.
  intros H HK HW Hz HB E v. pose proof (reachable_wf _ H) as W. assert (T2 : two_sided p) by (eapply drawn_two_sided; eauto). assert (T : one_sided p) by now apply one_sided_iff.
  rewrite run in E by auto. cbv zeta in E. rewrite whole_abs in E. destruct (intersections _) as [cs|e|] eqn:X; try discriminate. pose proof (alive p K R z H HK HW Hz HB T cs X v) as A.
  destruct (filter _ cs) as [|pt pts']; [discriminate|]. set (V := pt :: pts') in *. apply (f_equal (fun r => match snd r with Drawn l => l | _ => [] end)) in E. cbn [snd] in E. subst pts. rewrite <- A. pose proof (sort_perm (centroid V) V) as P. set (l := sort_angle (centroid V) V) in *. clearbody l. unfold closed. split.
  - intros I. apply in_app_or in I as [I|I]; [now apply (Permutation_in _ P) in I|]. apply (Permutation_in _ P). destruct l; [destruct I|]. destruct I as [<-|[]]. now left.
  - intros I. apply in_or_app. left. now apply (Permutation_in _ (Permutation_sym P)).
Qed.
Print Assumptions C62_points_partial.
(** joined in the order drawn they run around the region: it lies to the left of every edge, and nothing else does *)
Theorem C62_polygon_partial p K R z q pts : reachable p -> (1 <= K)%Z -> whole_numbers p K R -> (- R <= z <= R)%Z -> (4 * K * K * R < 1000000000)%Z ->
  graph_polyhedron p (qz z) = (q, Drawn pts) ->
  (exists v rest, pts = v :: rest /\ nth (length rest) pts v = v) /\
  (forall x, region p (qz (Z.abs z)) x -> forall u v, consecutive pts u v -> left_of u v x) /\
  (forall a b d, region p (qz (Z.abs z)) a -> region p (qz (Z.abs z)) b -> region p (qz (Z.abs z)) d -> ~ collinear a b d ->
     forall x, (forall u v, consecutive pts u v -> left_of u v x) -> region p (qz (Z.abs z)) x).
Proof.
  intros H HK HW Hz HB E. pose proof (reachable_wf _ H) as W. assert (T2 : two_sided p) by (eapply drawn_two_sided; eauto). assert (T : one_sided p) by now apply one_sided_iff.
  rewrite run in E by auto. cbv zeta in E. rewrite whole_abs in E. destruct (intersections _) as [cs|e|] eqn:X; try discriminate. pose proof (alive p K R z H HK HW Hz HB T cs X) as A.
  destruct (filter _ cs) as [|pt pts']; [discriminate|]. set (V := pt :: pts') in *. apply (f_equal (fun r => match snd r with Drawn l => l | _ => [] end)) in E. cbn [snd] in E. subst pts.
  assert (N : V <> []) by discriminate. set (S := sides (boundary_lines p (qz (Z.abs z))) (le_of p)). assert (RI : forall v, region p (qz (Z.abs z)) v <-> inside S v) by (intros v; apply region_inside; auto).
  assert (XV : forall v, In v V <-> extreme (inside S) v) by (intros v; rewrite A; apply extreme_ext; auto). assert (XV' : forall v, In v V -> extreme (inside S) v) by (intros v; apply XV).
  assert (Bx : forall u, inside S u -> (- qz (Z.abs z) <= fst u <= qz (Z.abs z))%Qc /\ (- qz (Z.abs z) <= snd u <= qz (Z.abs z))%Qc) by (intros u Iu; apply RI in Iu; apply Iu).
  set (c := centroid V). set (l := sort_angle c V). assert (P : Permutation l V) by apply sort_perm. assert (Sl := sort_sorted c V). fold l in Sl.
  assert (Nl : l <> []) by (intros Z; rewrite Z in P; apply Permutation_nil in P; contradiction).
  split; [|split].
  - destruct l as [|v l']; [contradiction|]. exists v, (l' ++ [v]). split; [reflexivity|]. unfold closed. cbn [firstn]. change ((v :: l') ++ [v]) with (v :: l' ++ [v]). rewrite app_length. cbn [length]. rewrite Nat.add_1_r. cbn [nth]. rewrite app_nth2 by lia. now rewrite Nat.sub_diag.
  - intros x Ix u v Ce. destruct (consecutive_follows c l u v Sl Ce) as (Hu & Hv & F).
    apply (left_all S (qz (Z.abs z)) V); auto; [|now apply RI]. intros w Hw. apply (edge_left S V N XV' u v w); auto; try (now apply (Permutation_in _ P)). intros w' Hw'. apply F. now apply (Permutation_in _ (Permutation_sym P)).
  - intros a b d Ia Ib Id NC x Hx. apply RI. apply (inside_cone S V (qz (Z.abs z)) N XV Bx a b d) with (l := l); auto; now apply RI.
Qed.
Print Assumptions C62_polygon_partial.
(** what happens: two parallel oblique lines - LinAlgError, else an empty region ends the process, else a drawing *)
Theorem C62_outcomes_partial p K R z : reachable p -> one_sided p -> (1 <= K)%Z -> whole_numbers p K R -> (- R <= z <= R)%Z -> (4 * K * K * R < 1000000000)%Z ->
  let clash := exists i j, i < j < length (lA p) /\ parallel p i j /\ (oblique p i \/ oblique p j) in
  (snd (graph_polyhedron p (qz z)) = Fails LinAlgError <-> clash) /\
  (snd (graph_polyhedron p (qz z)) = Exits <-> ~ clash /\ forall v, ~ region p (qz (Z.abs z)) v) /\
  ((exists pts, snd (graph_polyhedron p (qz z)) = Drawn pts) <-> ~ clash /\ exists v, region p (qz (Z.abs z)) v).
Proof.
  intros H T HK HW Hz HB clash. pose proof (reachable_wf _ H) as W. assert (T2 : two_sided p) by now apply one_sided_iff. rewrite run by auto. cbv zeta. rewrite whole_abs.
  pose proof (raises_iff p K R z H HK HW Hz T) as R1. pose proof (raises p K R z H HK HW Hz T) as R2. pose proof (alive p K R z H HK HW Hz HB T) as A. pose proof (nonempty_vertex p z H T) as NV.
  change (rows p) with (length (lA p)) in R1, R2. fold clash in R1.
  destruct (intersections (pairs (boundary_lines p (qz (Z.abs z))))) as [cs|e|] eqn:X.
  - assert (NC : ~ clash) by (intros (i & j & C1 & C2 & C3); specialize (R2 i j C1 C2 C3); congruence). specialize (A cs eq_refl).
    destruct (filter _ cs) as [|pt pts] eqn:F.
    + assert (NR : forall v, ~ region p (qz (Z.abs z)) v) by (intros v Rv; destruct (NV v Rv) as (u & Xu); apply A in Xu; destruct Xu). cbn [snd]. split; [|split].
      * split; [discriminate|contradiction].
      * split; auto.
      * split; [intros (? & ?); discriminate|intros (_ & v & Rv); destruct (NR v Rv)].
    + cbn [snd]. destruct (proj1 (A pt) (or_introl eq_refl)) as (Rp & _). split; [|split].
      * split; [discriminate|contradiction].
      * split; [discriminate|intros (_ & NR); destruct (NR pt Rp)].
      * split; [intros _; split; eauto|intros _; eauto].
  - assert (C : clash) by (apply R1; eauto). cbn [snd]. destruct C as (i & j & C1 & C2 & C3) eqn:EC. specialize (R2 i j C1 C2 C3). injection R2 as ->. split; [|split].
    + split; auto.
    + split; [discriminate|intros (NC & _); contradiction].
    + split; [intros (? & ?); discriminate|intros (NC & _); contradiction].
  - now apply intersections_diverges in X.
Qed.
Print Assumptions C62_outcomes_partial.
(** with free variables the region is the feasible set within the square *)
Theorem C62_feasible_set p L x y : reachable p -> length (lc p) = 2 -> (forall j, j < 2 -> nth j (signs (meaning p)) Nonnegative = Unrestricted) ->
  (region p L (x, y) <-> feasible (meaning p) [x; y] /\ (- L <= x <= L)%Qc /\ (- L <= y <= L)%Qc).
Proof.
  intros H C F. unfold region, feasible. change (length (costs (meaning p))) with (length (lc p)). rewrite C. cbn [fst snd length]. split; intros G.
  - destruct G as (A & B). split; auto. split; auto. split; auto. intros j Hj. rewrite (F j Hj). exact I.
  - destruct G as ((_ & A & _) & B). split; auto.
Qed.
Print Assumptions C62_feasible_set.

(** two variables without sign restriction, x + y <= 4 and x + 3 y <= 6, drawn within 10 *)
Definition poly_sample : res lp := linear_program (mat 2 [[1; 1]; [1; 3]]%Z) (vec [4; 6]%Z) (vec [3; 2]%Z) 0%Qc "max" (Some ["<="; "<="]) (Some [1; 2]%Z) None.
Example C62_nontrivial : exists p pts, poly_sample = Ok p /\ reachable p /\ one_sided p /\ whole_numbers p 3 10 /\ (forall j, j < 2 -> nth j (signs (meaning p)) Nonnegative = Unrestricted) /\
  graph_polyhedron p (qz 10) = (p, Drawn pts) /\ map (fun v => (this (fst v), this (snd v))) pts = [(-10, -10); (10, -10); (10, -6); (3, 1); (-10, 16 # 3); (-10, -10)]%Q /\
  region p (qz 10) (qz 0, qz 0) /\ region p (qz 10) (qz 1, qz 0) /\ region p (qz 10) (qz 0, qz 1) /\ ~ collinear (qz 0, qz 0) (qz 1, qz 0) (qz 0, qz 1).
Proof.
  destruct poly_sample as [p| |] eqn:E; [|vm_compute in E; discriminate E ..]. pose proof E as E0. unfold poly_sample in E.
  assert (Hr : reachable p) by (refine (r_new _ _ _ _ _ _ _ _ _ _ E); repeat constructor). vm_compute in E0. injection E0 as <-. eexists _, _. split; [reflexivity|]. split; [exact Hr|].
  split. { split; [reflexivity|]. left. intros i Hi. cbn in Hi. destruct i as [|[|i]]; [reflexivity|reflexivity|lia]. }
  split.
  { split.
    - intros i j Hi Hj. cbn in Hi, Hj. destruct i as [|[|i]], j as [|[|j]]; try lia; [exists 1%Z|exists 1%Z|exists 1%Z|exists 3%Z]; (split; [vm_compute; reflexivity|lia]).
    - intros i Hi. cbn in Hi. destruct i as [|[|i]]; try lia; [exists 4%Z|exists 6%Z]; (split; [vm_compute; reflexivity|lia]). }
  split. { intros j Hj. destruct j as [|[|j]]; [reflexivity|reflexivity|lia]. }
  split; [vm_compute; reflexivity|]. split; [vm_compute; reflexivity|].
  assert (G : forall x y, qle (- qz 10) x && qle x (qz 10) && qle (- qz 10) y && qle y (qz 10) && qle (x + y) (qz 4) && qle (x + qz 3 * y) (qz 6) = true -> region
    {| lA := [[qz 1; qz 1]; [qz 1; qz 3]]; lb := [qz 4; qz 6]; lc := [qz 3; qz 2]; lz := 0%Qc; lobj := "max"; lineq := [(0, "<="); (1, "<=")]; lsef := false; lfree := [0; 1]; lneg := [] |} (qz 10) (x, y)).
  { intros x y B. rewrite !andb_true_iff in B. destruct B as (((((B1 & B2) & B3) & B4) & B5) & B6). repeat match goal with H : qle ?a ?b = true |- _ => destruct (qle_spec a b); [clear H|discriminate H] end.
    split; [|cbn [fst snd]; auto]. intros i Hi. cbn in Hi. destruct i as [|[|i]]; [| |lia]; cbn -[Qcmult Qcplus Qcle qz]; replace (qz 1) with 1%Qc by reflexivity; qclra. }
  repeat match goal with |- _ /\ _ => split end; try (apply G; vm_compute; reflexivity). intros C. vm_compute in C. discriminate C.
Qed.
(** two parallel oblique lines: LinAlgError for a program with a nonempty region, and the object is damaged: it now has six
    inequalities for two rows, so that an equation added later is stored as an inequality *)
Theorem C62_parallel_refuted : exists p, reachable p /\ one_sided p /\ region p (qz 10) (qz 0, qz 0) /\
  let '(q, out) := graph_polyhedron p (qz 10) in
  out = Fails LinAlgError /\ inequalities p = ["<="; "<="] /\ q <> p /\
  inequalities (fst (add_constraint p (vec [1; 0]%Z) "=" (qz 3))) = ["<="; "<="; "="] /\
  inequalities (fst (add_constraint q (vec [1; 0]%Z) "=" (qz 3))) = ["<="; "<="; "<="].
Proof.
  destruct (linear_program (mat 2 [[1; 1]; [2; 2]]%Z) (vec [4; 6]%Z) (vec [3; 2]%Z) 0%Qc "max" (Some ["<="; "<="]) (Some [1; 2]%Z) None) as [p| |] eqn:E; [|vm_compute in E; discriminate E ..].
  assert (Hr : reachable p) by (refine (r_new _ _ _ _ _ _ _ _ _ _ E); repeat constructor). vm_compute in E. injection E as <-. eexists. split; [exact Hr|]. split.
  { split; [reflexivity|]. left. intros i Hi. cbn in Hi. destruct i as [|[|i]]; [reflexivity|reflexivity|lia]. }
  split. { split; [|split; split; vm_compute; discriminate]. intros i Hi. cbn in Hi. destruct i as [|[|i]]; [| |lia]; vm_compute; discriminate. }
  vm_compute. repeat split; try discriminate.
Qed.
Print Assumptions C62_parallel_refuted.
(** an empty region ends the process; the object keeps the four extra inequalities *)
Theorem C62_exit_refuted : exists p, reachable p /\ one_sided p /\ let '(q, out) := graph_polyhedron p (qz 10) in out = Exits /\ q <> p.
Proof.
  destruct (linear_program (mat 2 [[1; 1]; [-1; 0]; [0; -1]]%Z) (vec [1; -1; -1]%Z) (vec [3; 2]%Z) 0%Qc "max" (Some ["<="; "<="; "<="]) (Some [1; 2]%Z) None) as [p| |] eqn:E; [|vm_compute in E; discriminate E ..].
  assert (Hr : reachable p) by (refine (r_new _ _ _ _ _ _ _ _ _ _ E); repeat constructor). vm_compute in E. injection E as <-. eexists. split; [exact Hr|]. split.
  { split; [reflexivity|]. left. intros i Hi. cbn in Hi. destruct i as [|[|[|i]]]; [reflexivity|reflexivity|reflexivity|lia]. }
  vm_compute. split; [reflexivity|discriminate].
Qed.
Print Assumptions C62_exit_refuted.
(** fractions are cut off: x/2 + y <= 4 is drawn with a point of the region outside of the line *)
Theorem C62_fractions_refuted : exists p q pts u v, reachable p /\ one_sided p /\ graph_polyhedron p (qz 10) = (q, Drawn pts) /\
  consecutive pts u v /\ region p (qz 10) (qz 10, (- qz 1)%Qc) /\ ~ left_of u v (qz 10, (- qz 1)%Qc).
Proof.
  destruct (linear_program (Nd (Mat 2 [[Q2Qc (1 # 2); 1%Qc]])) (vec [4]%Z) (vec [3; 2]%Z) 0%Qc "max" (Some ["<="]) (Some [1; 2]%Z) None) as [p| |] eqn:E; [|vm_compute in E; discriminate E ..].
  assert (Hr : reachable p) by (refine (r_new _ _ _ _ _ _ _ _ _ _ E); repeat constructor). vm_compute in E. injection E as <-. eexists _, _, _, (qz 10, (- qz 10)%Qc), ((- qz 10)%Qc, qz 4). split; [exact Hr|]. split.
  { split; [reflexivity|]. left. intros i Hi. cbn in Hi. destruct i as [|i]; [reflexivity|lia]. }
  split; [vm_compute; reflexivity|]. split; [eexists [_], [_]; vm_compute; reflexivity|].
  split. { split; [|split; split; vm_compute; discriminate]. intros i Hi. cbn in Hi. destruct i as [|i]; [|lia]; vm_compute; discriminate. }
  intros C. vm_compute in C. apply C. reflexivity.
Qed.
Print Assumptions C62_fractions_refuted.
(** sign restrictions are ignored: a point drawn is not feasible *)
Theorem C62_signs_refuted : exists p q pts v, reachable p /\ one_sided p /\ graph_polyhedron p (qz 10) = (q, Drawn pts) /\ In v pts /\ ~ feasible (meaning p) [fst v; snd v].
Proof.
  destruct (linear_program (mat 2 [[1; 1]; [1; 3]]%Z) (vec [4; 6]%Z) (vec [3; 2]%Z) 0%Qc "max" (Some ["<="; "<="]) None None) as [p| |] eqn:E; [|vm_compute in E; discriminate E ..].
  assert (Hr : reachable p) by (refine (r_new _ _ _ _ _ _ _ _ _ _ E); repeat constructor). vm_compute in E. injection E as <-. eexists _, _, _, ((- qz 10)%Qc, (- qz 10)%Qc). split; [exact Hr|]. split.
  { split; [reflexivity|]. left. intros i Hi. cbn in Hi. destruct i as [|[|i]]; [reflexivity|reflexivity|lia]. }
  split; [vm_compute; reflexivity|]. split; [left; vm_compute; reflexivity|]. intros (_ & _ & C). specialize (C 0 ltac:(cbn; lia)). vm_compute in C. apply C. reflexivity.
Qed.
Print Assumptions C62_signs_refuted.
