(** Every LinearProgram object satisfies the invariant [wf]. *)
From Coq Require Import String List Bool Arith ZArith QArith Qcanon Lia Sorted.
From Verif Require Import Py QcTac QSum QInt ComparatorModel MatModel DetTheory MatTheory LinearModel LinearSpec LinearProofs SefProofs.
Import ListNotations.
Open Scope nat_scope.
Open Scope string_scope.
Open Scope list_scope.

(** ** the constructor *)
Lemma items_mat_shaped n l m : items_mat n l = Some m -> shaped n m.
Proof.
  revert m. induction l as [|[q|r|] l IH]; simpl; intros m H; try discriminate.
  - injection H as <-. constructor.
  - destruct (Nat.eqb_spec (length r) n) as [E|]; [|discriminate]. destruct (all_num r) as [v|] eqn:Ev; [|discriminate].
    destruct (items_mat n l) as [m'|]; [|discriminate]. injection H as <-. constructor; [|now apply IH].
    rewrite <- E. clear - Ev. revert v Ev. induction r as [|[q| |] r IH]; simpl; intros v Ev; try discriminate.
    + now injection Ev as <-.
    + destruct (all_num r) as [v'|]; [|discriminate]. injection Ev as <-. simpl. f_equal. now apply IH.
Qed.
Lemma to_ndarray_shaped s n m : source_ok s -> to_ndarray s = Ok (Mat n m) -> shaped n m.
Proof.
  intros Hs H. destruct s as [a|l|]; simpl in H; [injection H as ->; exact Hs| |discriminate].
  destruct (items_vec l) as [v|]; [discriminate|]. destruct l as [|[q|r|] l]; try discriminate.
  destruct (items_mat (length r) (IRow r :: l)) as [m'|] eqn:E; [|discriminate]. injection H as <- <-.
  now apply (items_mat_shaped _ (IRow r :: l)).
Qed.
Lemma nodupbz_NoDup l : nodupbz l = true <-> NoDup l.
Proof.
  induction l as [|x l IH]; simpl; [split; auto; constructor|]. rewrite andb_true_iff, IH, negb_true_iff. split.
  - intros (H1 & H2). constructor; auto. intros Hi. assert (existsb (Z.eqb x) l = true); [|congruence].
    apply existsb_exists. exists x. split; auto. apply Z.eqb_refl.
  - intros H. inversion H; subst. split; auto. destruct (existsb (Z.eqb x) l) eqn:E; auto.
    apply existsb_exists in E. destruct E as (y & Hy & Ey). apply Z.eqb_eq in Ey. now subst.
Qed.
Lemma check_indices_spec n l : check_indices n l = true <-> NoDup l /\ forall i, In i l -> (1 <= i <= Z.of_nat n)%Z.
Proof.
  unfold check_indices. rewrite andb_true_iff, nodupbz_NoDup, forallb_forall. split; intros (H1 & H2); split; auto; intros i Hi.
  - specialize (H2 i Hi). apply andb_true_iff in H2. rewrite !Z.leb_le in H2. lia.
  - apply andb_true_iff. rewrite !Z.leb_le. specialize (H2 i Hi). lia.
Qed.
Lemma array_indexing_NoDup l : NoDup l -> (forall i, In i l -> (1 <= i)%Z) -> NoDup (to_array_indexing l).
Proof.
  induction 1 as [|x l Hx H IH]; intros Hl; simpl; constructor.
  - intros Hi. apply in_map_iff in Hi. destruct Hi as (y & E & Hy). apply Hx.
    replace x with y; auto. pose proof (Hl x (or_introl eq_refl)). pose proof (Hl y (or_intror Hy)). lia.
  - apply IH. intros. apply Hl. simpl; auto.
Qed.
Lemma read_inequalities_spec l : forall i d, read_inequalities i l = Ok d ->
  NoDup (dkeys d) /\
  (forall k s, In (k, s) d -> i <= k < i + length l /\ (s = "<=" \/ s = ">=")) /\
  (forall j, j < length l -> nth j l "=" = match dget Nat.eqb (i + j) d with Some s => s | None => "=" end).
Proof.
  induction l as [|s l IH]; simpl; intros i d H.
  - injection H as <-. repeat split; try constructor; try contradiction. intros; lia.
  - destruct (String.eqb s ">=" || String.eqb s "<=") eqn:E.
    + destruct (read_inequalities (S i) l) as [d'| |] eqn:R; simpl in H; try discriminate. injection H as <-.
      destruct (IH _ _ R) as (H1 & H2 & H3). repeat split.
      * cbn [dkeys map fst]. constructor; auto. intros Hi. apply in_map_iff in Hi. destruct Hi as ((k & s') & Ek & Hk).
        simpl in Ek. subst. apply H2 in Hk. lia.
      * destruct H as [H|H]; [injection H as <- <-|apply H2 in H]; lia.
      * destruct H as [H|H]; [injection H as <- <-|apply H2 in H]; lia.
      * destruct H as [H|H]; [injection H as <- <-|apply H2 in H; tauto].
        apply orb_true_iff in E. rewrite !String.eqb_eq in E. tauto.
      * intros [|j] Hj; cbn [nth dget].
        -- now rewrite Nat.add_0_r, Nat.eqb_refl.
        -- destruct (Nat.eqb_spec (i + S j) i); [lia|]. rewrite H3 by lia. now replace (S i + j) with (i + S j) by lia.
    + destruct (String.eqb_spec s "=") as [->|]; [|discriminate].
      destruct (IH _ _ H) as (H1 & H2 & H3). repeat split; auto.
      * apply H2 in H0. lia.
      * apply H2 in H0. lia.
      * apply H2 in H0. tauto.
      * intros [|j] Hj; cbn [nth].
        -- rewrite Nat.add_0_r. destruct (dget Nat.eqb i d) as [s|] eqn:E2; auto. apply (dget_In _ eqb_reflect) in E2. apply H2 in E2. lia.
        -- rewrite H3 by lia. now replace (S i + j) with (i + S j) by lia.
Qed.

(** what the constructor checks and stores *)
Lemma linear_program_spec A b c z objective ineq free neg p : linear_program A b c z objective ineq free neg = Ok p ->
  exists n MA vb vc d,
    to_ndarray A = Ok (Mat n MA) /\ to_ndarray b = Ok (Vec vb) /\ to_ndarray c = Ok (Vec vc) /\
    length vb = length MA /\ length vc = n /\
    check_indices n (opt_list free) = true /\ check_indices n (opt_list neg) = true /\
    (forall i, In i (opt_list free) -> In i (opt_list neg) -> False) /\
    match ineq with None => d = [] | Some l => length l = length vb /\ read_inequalities 0 l = Ok d end /\
    (objective = "min" \/ objective = "max") /\
    p = mklp MA vb vc z objective d
          (sef_of d (sort (to_array_indexing (opt_list free))) (sort (to_array_indexing (opt_list neg))) objective)
          (sort (to_array_indexing (opt_list free))) (sort (to_array_indexing (opt_list neg))).
Proof.
  unfold linear_program, bind. intros H.
  destruct (to_ndarray A) as [[|n MA]| |] eqn:EA; try discriminate;
  destruct (to_ndarray b) as [[vb|]| |] eqn:Eb; try discriminate;
  destruct (to_ndarray c) as [[vc|]| |] eqn:Ec; try discriminate.
  destruct (Nat.eqb_spec (length vb) (length MA)) as [L1|]; [|discriminate].
  destruct (Nat.eqb_spec (length vc) n) as [L2|]; [|discriminate]. cbn [negb orb] in H.
  destruct (check_indices n (opt_list free)) eqn:C1; [|discriminate].
  destruct (check_indices n (opt_list neg)) eqn:C2; [|discriminate]. cbn [negb] in H.
  destruct (existsb _ (opt_list free)) eqn:C3; [discriminate|].
  assert (HD : forall i, In i (opt_list free) -> In i (opt_list neg) -> False).
  { intros i Hi1 Hi2. assert (existsb (fun i => existsb (Z.eqb i) (opt_list neg)) (opt_list free) = true); [|congruence].
    apply existsb_exists. exists i. split; auto. apply existsb_exists. exists i. split; auto. apply Z.eqb_refl. }
  destruct (match ineq with None => _ | Some _ => _ end) as [d| |] eqn:ED; try discriminate.
  destruct (String.eqb objective "min" || String.eqb objective "max") eqn:EO; [|discriminate]. injection H as <-.
  exists n, MA, vb, vc, d. repeat split; auto.
  - destruct ineq as [l|]; [|congruence]. destruct (Nat.eqb_spec (length l) (length vb)); [auto|discriminate].
  - apply orb_true_iff in EO. rewrite !String.eqb_eq in EO. auto.
Qed.
Lemma wf_new A b c z objective ineq free neg p : source_ok A -> linear_program A b c z objective ineq free neg = Ok p -> wf p.
Proof.
  intros Hs H. apply linear_program_spec in H.
  destruct H as (n & MA & vb & vc & d & H1 & H2 & H3 & H4 & H5 & H6 & H7 & H8 & H9 & H10 & ->).
  apply check_indices_spec in H6, H7. destruct H6 as (F1 & F2), H7 as (G1 & G2).
  assert (HD : NoDup (dkeys d) /\ forall k s, In (k, s) d -> k < length MA /\ (s = "<=" \/ s = ">=")).
  { destruct ineq as [l|]; [|subst; split; [constructor|contradiction]]. destruct H9 as (L & R).
    apply read_inequalities_spec in R. destruct R as (R1 & R2 & _). split; auto. intros k s Hk. apply R2 in Hk. split; [lia|tauto]. }
  constructor; unfold rows, cols; cbn [lA lb lc lz lobj lineq lsef lfree lneg]; auto; try tauto.
  - rewrite H5. now apply (to_ndarray_shaped A).
  - apply sort_strict, array_indexing_NoDup; auto. intros i Hi. apply F2 in Hi. lia.
  - intros j Hj. apply In_sort, in_map_iff in Hj. destruct Hj as (i & <- & Hi). apply F2 in Hi. lia.
  - apply sort_strict, array_indexing_NoDup; auto. intros i Hi. apply G2 in Hi. lia.
  - intros j Hj. apply In_sort, in_map_iff in Hj. destruct Hj as (i & <- & Hi). apply G2 in Hi. lia.
  - intros j Hj Hj'. apply In_sort, in_map_iff in Hj, Hj'. destruct Hj as (i & E & Hi), Hj' as (i' & E' & Hi').
    apply (H8 i); auto. replace i with i'; auto. apply F2 in Hi. apply G2 in Hi'. lia.
Qed.

(** ** in-place changes *)
Lemma wf_constraint p a op v : wf p -> wf (fst (add_constraint p a op v)).
Proof.
  intros H. unfold add_constraint. destruct (to_ndarray a) as [[l|]| |]; cbn [fst]; auto.
  destruct (Nat.eqb_spec (length l) (cols p)) as [L|]; cbn [negb]; [|auto].
  destruct (existsb (String.eqb op) ["="; ">="; "<="]) eqn:E; cbn [negb fst]; [|auto].
  set (strict := String.eqb op ">=" || String.eqb op "<=").
  constructor; unfold rows, cols in *; cbn [lA lb lc lz lobj lineq lsef lfree lneg]; try (apply H; fail).
  - rewrite !app_length, (wf_b _ H). reflexivity.
  - apply Forall_app. split; [apply (wf_A _ H)|constructor; auto].
  - destruct strict; [|apply (wf_keys _ H)]. apply (NoDup_dset _ eqb_reflect), (wf_keys _ H).
  - intros i s Hi. rewrite app_length. simpl length. destruct strict eqn:Es; [|apply (wf_ineq _ H) in Hi; unfold rows in Hi; split; [lia|tauto]].
    assert (K : i = length (lA p) /\ s = op \/ In (i, s) (lineq p)).
    { revert Hi. generalize (lineq p). clear. intros d. induction d as [|(k & w) d IH]; cbn [dset].
      - intros [E|[]]. injection E as <- <-. auto.
      - destruct (Nat.eqb_spec (length (lA p)) k) as [Ek|].
        + subst k. intros [E|E]; [injection E as <- <-; auto|simpl; auto].
        + intros [E|E]; [simpl; auto|]. destruct (IH E); simpl; auto. }
    destruct K as [(-> & ->)|K].
    + split; [lia|]. unfold strict in Es. apply orb_true_iff in Es. rewrite !String.eqb_eq in Es. tauto.
    + apply (wf_ineq _ H) in K. unfold rows in K. split; [lia|tauto].
  - destruct strict.
    + unfold sef_of. replace (length (dset Nat.eqb (length (lA p)) op (lineq p)) + length (lfree p) + length (lneg p)) with
        (S (pred (length (dset Nat.eqb (length (lA p)) op (lineq p))) + length (lfree p) + length (lneg p))); [reflexivity|].
      assert (0 < length (dset Nat.eqb (length (lA p)) op (lineq p))); [|lia].
      destruct (lineq p) as [|(k & w) d]; simpl; [lia|]. destruct (Nat.eqb (length (lA p)) k); simpl; lia.
    + apply (wf_sef _ H).
Qed.
Lemma nth_append_column M col i : length M = length col -> i < length M ->
  nth i (append_column M col) [] = nth i M [] ++ [at_ col i].
Proof.
  intros HL Hi. unfold append_column. set (g := fun rv : list Qc * Qc => fst rv ++ [snd rv]).
  rewrite (nth_indep _ _ (g ([], 0%Qc))) by (rewrite map_length, combine_length; lia).
  rewrite (map_nth g), combine_nth by auto. reflexivity.
Qed.
Lemma length_append_column M col : length M = length col -> length (append_column M col) = length M.
Proof. intros H. unfold append_column. rewrite map_length, combine_length. lia. Qed.
Lemma wf_variable p c column free neg p' : wf p -> add_variable p c column free neg = (p', Ok tt) -> wf p'.
Proof.
  intros H E. unfold add_variable in E. destruct (free && neg) eqn:Ef; [discriminate|].
  set (col := match column with Some v => v | None => _ end) in E.
  destruct (Nat.eqb_spec (length col) (rows p)) as [L|]; [|discriminate]. injection E as <-.
  constructor; unfold rows, cols in *; cbn [lA lb lc lz lobj lineq lsef lfree lneg].
  - rewrite length_append_column by auto. apply (wf_b _ H).
  - rewrite app_length. simpl length. apply Forall_forall. intros r Hr. apply (In_nth _ _ []) in Hr. destruct Hr as (i & Hi & <-).
    rewrite length_append_column in Hi by auto. rewrite nth_append_column, app_length by auto. simpl length.
    rewrite (shaped_nth (cols p)); auto. apply (wf_A _ H).
  - apply (wf_obj _ H).
  - apply (wf_keys _ H).
  - rewrite length_append_column by auto. apply (wf_ineq _ H).
  - destruct free; [|apply (wf_free _ H)]. apply strict_app_last; [apply (wf_free _ H)|apply (wf_free_lt _ H)].
  - rewrite app_length. simpl length. intros j Hj. destruct free; [apply in_app_or in Hj; destruct Hj as [Hj|[<-|[]]]; [|lia]|];
    apply (wf_free_lt _ H) in Hj; unfold cols in Hj; lia.
  - destruct free; [apply (wf_neg _ H)|]. destruct neg; [|apply (wf_neg _ H)].
    apply strict_app_last; [apply (wf_neg _ H)|apply (wf_neg_lt _ H)].
  - rewrite app_length. simpl length. intros j Hj. destruct free; [apply (wf_neg_lt _ H) in Hj; unfold cols in Hj; lia|].
    destruct neg; [apply in_app_or in Hj; destruct Hj as [Hj|[<-|[]]]; [|lia]|]; apply (wf_neg_lt _ H) in Hj; unfold cols in Hj; lia.
  - intros j Hj Hj'. destruct free.
    + apply in_app_or in Hj. destruct Hj as [Hj|[<-|[]]]; [now apply (wf_disj _ H j)|]. apply (wf_neg_lt _ H) in Hj'. unfold cols in Hj'. lia.
    + destruct neg; [|now apply (wf_disj _ H j)].
      apply in_app_or in Hj'. destruct Hj' as [Hj'|[<-|[]]]; [now apply (wf_disj _ H j)|]. apply (wf_free_lt _ H) in Hj. unfold cols in Hj. lia.
  - rewrite (wf_sef _ H). unfold sef_of. destruct free; [|destruct neg]; cbn [orb]; auto;
    rewrite app_length; simpl length; rewrite ?Nat.add_succ_r, ?Nat.add_0_r; try reflexivity; auto.
Qed.
Lemma wf_to_sef p : wf p -> wf (fst (to_sef p)).
Proof. intros H. destruct (lsef p) eqn:E; [unfold to_sef; now rewrite E|]. now apply sef_wf. Qed.

Lemma is_basis_true p B : is_basis p B = Ok true -> length B = rows p /\ 0 < rows p /\
  (forall i, In i B -> (1 <= i <= Z.of_nat (cols p))%Z) /\
  mdet (columns_of (sort (to_array_indexing B)) (lA p)) <> 0%Qc.
Proof.
  unfold is_basis. destruct (Nat.eqb_spec (rows p) (length B)) as [L|]; [|discriminate]. cbn [negb].
  destruct (Nat.eqb_spec (length B) 0) as [|L0]; [discriminate|].
  destruct (forallb _ B) eqn:F; [|discriminate]. cbn [negb]. intros H. rewrite forallb_forall in F.
  split; [auto|]. split; [lia|]. split.
  - intros i Hi. apply F, andb_true_iff in Hi. rewrite !Z.leb_le in Hi. lia.
  - intros E. rewrite E in H. discriminate H.
Qed.
Lemma length_array_indexing l : length (to_array_indexing l) = length l. Proof. apply map_length. Qed.

Lemma wf_canonical p B q : wf p -> length B = rows p -> canonical p B = Ok q -> wf q.
Proof.
  intros H L. unfold canonical, bind. destruct (minv (columns_of B (lA p))) as [X| |] eqn:E; try discriminate.
  intros Hq. injection Hq as <-. destruct (minv_ok (columns_of B (lA p)) (rows p)) as (X' & E' & LX & SX & _).
  { apply length_columns. } { now apply (minv_inv _ X). } rewrite E in E'. injection E' as <-.
  assert (LV : length (vsub (lc p) (mulvm (cols p) (mulmv (transpose (rows p) X) (take B (lc p))) (lA p))) = cols p).
  { rewrite length_vsub; auto. now rewrite length_mulvm. }
  constructor; unfold rows in *; cbn [lA lb lc lz lobj lineq lsef lfree lneg];
    try (unfold cols at 1; cbn [lA lb lc lz lobj lineq lsef lfree lneg]; rewrite LV); try (apply H; fail).
  - now rewrite length_mulmv, length_mulmm.
  - apply shaped_mulmm.
  - rewrite length_mulmm, LX. apply (wf_ineq _ H).
Qed.

Lemma length_flip_A b A : length b = length A -> length (flip_A b A) = length A.
Proof. intros H. unfold flip_A. rewrite map_length, combine_length. lia. Qed.
Lemma length_flip_b b : length (flip_b b) = length b. Proof. apply map_length. Qed.
Lemma nth_flip_A b A i : length b = length A -> i < length A ->
  nth i (flip_A b A) [] = if qlt (at_ b i) 0 then vopp (nth i A []) else nth i A [].
Proof.
  intros HL Hi. unfold flip_A. set (g := fun rv : list Qc * Qc => if qlt (snd rv) 0 then vopp (fst rv) else fst rv).
  rewrite (nth_indep _ _ (g ([], 0%Qc))) by (rewrite map_length, combine_length; lia).
  rewrite (map_nth g), combine_nth by auto. reflexivity.
Qed.
Lemma shaped_flip_A n b A : length b = length A -> shaped n A -> shaped n (flip_A b A).
Proof.
  intros HL H. apply Forall_forall. intros r Hr. apply (In_nth _ _ []) in Hr. destruct Hr as (i & Hi & <-).
  rewrite length_flip_A in Hi by auto. rewrite nth_flip_A by auto. destruct (qlt (at_ b i) 0); rewrite ?length_vopp; now apply shaped_nth.
Qed.
Lemma wf_negate p : wf p -> wf (negate_rows p).
Proof.
  intros H. pose proof (wf_b _ H) as L. unfold rows in L.
  constructor; unfold rows, cols in *; cbn [negate_rows lA lb lc lz lobj lineq lsef lfree lneg]; try (apply H; fail).
  - now rewrite length_flip_b, length_flip_A.
  - apply shaped_flip_A; auto. apply (wf_A _ H).
  - rewrite length_flip_A by auto. apply (wf_ineq _ H).
Qed.
Lemma negate_nonneg p : wf p -> (forall v, In v (lb p) -> (0 <= v)%Qc) -> negate_rows p = p.
Proof.
  intros H Hb. destruct p as [A b c z o d s f g]. unfold negate_rows. cbn [lA lb lc lz lobj lineq lsef lfree lneg] in *.
  pose proof (wf_b _ H) as L. unfold rows in L. cbn [lA lb] in L.
  assert (Q : forall v, In v b -> qlt v 0 = false) by (intros v Hv; specialize (Hb v Hv); destruct (qlt_spec v 0); auto; exfalso; qclra).
  f_equal.
  - clear - L Q. revert b L Q. induction A as [|r A IH]; intros [|v b] L Q; simpl in L; try lia; auto.
    unfold flip_A. cbn [combine map fst snd]. rewrite (Q v) by (simpl; auto). f_equal. apply IH; [lia|]. intros; apply Q; simpl; auto.
  - clear - Q. unfold flip_b. induction b as [|v b IH]; auto. cbn [map]. rewrite (Q v) by (simpl; auto). f_equal. apply IH. intros; apply Q; simpl; auto.
Qed.
(** negating the rows back *)
Definition restore (p q : lp) : lp :=
  mklp (map (fun rv => if qlt (snd rv) 0 then vopp (fst rv) else fst rv) (combine (lA q) (lb p)))
       (map (fun vv => if qlt (snd vv) 0 then (- fst vv)%Qc else fst vv) (combine (lb q) (lb p)))
       (lc q) (lz q) (lobj q) (lineq q) (lsef q) (lfree q) (lneg q).
Lemma vopp_vopp v : vopp (vopp v) = v.
Proof. unfold vopp. rewrite map_map. rewrite <- (map_id v) at 2. apply map_ext. intros; ring. Qed.
Lemma restore_negate p : wf p -> restore p (negate_rows p) = p.
Proof.
  intros H. pose proof (wf_b _ H) as L. unfold rows in L. destruct p as [A b c z o d s f g].
  unfold restore, negate_rows, flip_A, flip_b. cbn [lA lb lc lz lobj lineq lsef lfree lneg] in *. f_equal.
  - clear - L. revert b L. induction A as [|r A IH]; intros [|v b] L; simpl in L; try lia; auto. cbn [combine map fst snd].
    rewrite IH by lia. destruct (qlt v 0); now rewrite ?vopp_vopp.
  - clear. induction b as [|v b IH]; auto. cbn [combine map fst snd]. rewrite IH. destruct (qlt v 0); auto. f_equal. ring.
Qed.
Lemma simplex_state fuel p B : wf p -> fst (simplex fuel p B) = p \/
  fst (simplex fuel p B) = negate_rows p /\ (forall r, snd (simplex fuel p B) <> Ok r).
Proof.
  intros H. unfold simplex. destruct (lsef p); cbn [negb]; auto. fold (restore p (negate_rows p)).
  destruct (bind _ _); cbn [fst snd]; [left; now apply restore_negate|right; split; auto; discriminate|right; split; auto; discriminate].
Qed.
Lemma wf_iteration p B : wf p -> wf (simplex_iteration_program p B).
Proof.
  intros H. unfold simplex_iteration_program. destruct (lsef p); auto. cbn [negb]. destruct (is_basis p B) as [[]| |] eqn:E; auto.
  pose proof (wf_negate p H) as Hn. destruct (canonical (negate_rows p) _) as [q| |] eqn:Eq; auto. apply (wf_canonical (negate_rows p) (sort (to_array_indexing B))); auto.
  apply is_basis_true in E. rewrite length_sort, length_array_indexing. unfold rows. cbn [negate_rows lA]. rewrite length_flip_A by apply (wf_b _ H). tauto.
Qed.
Lemma wf_simplex fuel p B : wf p -> wf (fst (simplex fuel p B)).
Proof. intros H. destruct (simplex_state fuel p B H) as [->|(-> & _)]; auto. now apply wf_negate. Qed.
Lemma two_phase_state fuel p : fst (two_phase_simplex fuel p) = p \/ exists B, two_phase_simplex fuel p = simplex fuel p B.
Proof.
  unfold two_phase_simplex.
  repeat match goal with
  | |- context [match ?x with _ => _ end] => destruct x; cbn [fst]; auto
  | |- _ \/ (exists B, simplex ?f ?p ?B0 = _) => right; now exists B0
  end; try (right; eexists; reflexivity).
Qed.
Lemma wf_two_phase fuel p : wf p -> wf (fst (two_phase_simplex fuel p)).
Proof. intros H. destruct (two_phase_state fuel p) as [->|(B & ->)]; auto. now apply wf_simplex. Qed.
