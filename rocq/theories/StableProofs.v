From Coq Require Import String List Bool Arith ZArith QArith Qcanon Lia.
From Verif Require Import Py QcTac QSum QInt ComparatorModel MatModel DetTheory MatTheory LinearModel LinearSpec LinearProofs LinearProps
  SefProofs IntegerModel IntegerSpec IntegerProofs UndirectedModel UndirectedSpec UndirectedProofs StableModel StableSpec.
Import ListNotations.
Open Scope nat_scope.
Open Scope string_scope.
Open Scope list_scope.

(** ** the numbering *)
Lemma fold_dset_nodup (l : list (string * nat)) : forall d, NoDup (map fst (d ++ l)) ->
  fold_left (fun d p => dset String.eqb (fst p) (snd p) d) l d = d ++ l.
Proof.
  induction l as [|[k v] l IH]; intros d H; cbn [fold_left fst snd].
  - now rewrite app_nil_r.
  - assert (E : dset String.eqb k v d = d ++ [(k, v)]).
    { assert (N : ~ In k (map fst d)).
      { rewrite map_app in H. cbn [map fst] in H. apply NoDup_remove_2 in H. rewrite in_app_iff in H. tauto. }
      clear - N. induction d as [|[k' v'] d IH]; [reflexivity|]. cbn [dset]. cbn [map fst] in N.
      destruct (String.eqb_spec k k') as [->|]; [exfalso; apply N; now left|]. cbn [app]. rewrite IH; auto.
      intros K. apply N. now right. }
    rewrite E, IH; [now rewrite <- app_assoc|]. now rewrite <- app_assoc.
Qed.
Lemma map_fst_combine {A B} (l : list A) (m : list B) : length l = length m -> map fst (combine l m) = l.
Proof. revert m. induction l as [|x l IH]; intros [|y m] H; try discriminate; [reflexivity|]. cbn. f_equal. apply IH. now injection H. Qed.
Lemma map_snd_combine {A B} (l : list A) (m : list B) : length l = length m -> map snd (combine l m) = m.
Proof. revert m. induction l as [|x l IH]; intros [|y m] H; try discriminate; [reflexivity|]. cbn. f_equal. apply IH. now injection H. Qed.

Lemma numbering_eq vs : NoDup (dkeys vs) -> numbering vs = combine (dkeys vs) (seq 0 (length vs)).
Proof.
  intros H. unfold numbering. rewrite fold_dset_nodup; [reflexivity|]. cbn [app].
  rewrite map_fst_combine; auto. unfold dkeys. now rewrite map_length, seq_length.
Qed.
Lemma in_combine_seq (l : list string) : forall a v i, In (v, i) (combine l (seq a (length l))) <-> a <= i /\ nth_error l (i - a) = Some v.
Proof.
  induction l as [|x l IH]; intros a v i; cbn [length seq combine].
  - split; [contradiction|]. intros (_ & H). now rewrite nth_error_nil in H || destruct (i - a).
  - cbn [In]. rewrite IH. split.
    + intros [H|(H1 & H2)].
      * injection H as -> ->. split; [lia|]. now rewrite Nat.sub_diag.
      * split; [lia|]. now replace (i - a) with (S (i - S a)) by lia.
    + intros (H1 & H2). destruct (Nat.eq_dec i a) as [->|N].
      * rewrite Nat.sub_diag in H2. injection H2 as ->. now left.
      * right. split; [lia|]. now replace (i - a) with (S (i - S a)) in H2 by lia.
Qed.
Lemma in_numbering vs v i : NoDup (dkeys vs) -> In (v, i) (numbering vs) <-> nth_error (dkeys vs) i = Some v.
Proof.
  intros H. rewrite numbering_eq by auto. replace (length vs) with (length (dkeys vs)) by (unfold dkeys; now rewrite map_length).
  rewrite in_combine_seq, Nat.sub_0_r. split; [tauto|]. intros; split; [lia|auto].
Qed.
Lemma length_numbering vs : NoDup (dkeys vs) -> length (numbering vs) = length vs.
Proof. intros H. rewrite numbering_eq by auto. rewrite combine_length, seq_length. unfold dkeys. rewrite map_length. lia. Qed.
Lemma keys_numbering vs : NoDup (dkeys vs) -> map fst (numbering vs) = dkeys vs.
Proof. intros H. rewrite numbering_eq by auto. apply map_fst_combine. unfold dkeys. now rewrite map_length, seq_length. Qed.
Lemma numbers_numbering vs : NoDup (dkeys vs) -> numbers (numbering vs) vs.
Proof.
  intros H. assert (L : length (dkeys vs) = length (seq 0 (length vs))) by (unfold dkeys; now rewrite map_length, seq_length).
  split; [|split; [|split]].
  - now rewrite keys_numbering.
  - rewrite numbering_eq, map_snd_combine by auto. apply seq_NoDup.
  - intros v. rewrite keys_numbering by auto. unfold dkeys. rewrite in_map_iff. split.
    + intros ([a w] & <- & K). now exists w.
    + intros (w & K). now exists (v, w).
  - intros i. rewrite numbering_eq, map_snd_combine by auto. rewrite in_seq. lia.
Qed.
Lemma lookup_in {V} (d : list (string * V)) k v : NoDup (map fst d) -> In (k, v) d -> lookup k d = Ok v.
Proof.
  intros H K. unfold lookup. induction d as [|[k' v'] d IH]; [contradiction|]. cbn [dget].
  cbn [map fst] in H. apply NoDup_cons_iff in H as (H1 & H2). destruct K as [K|K].
  - injection K as -> ->. now rewrite String.eqb_refl.
  - destruct (String.eqb_spec k k') as [->|]; [|auto]. exfalso. apply H1. apply in_map_iff. now exists (k', v).
Qed.

(** ** rows *)
Lemma length_set_at v : forall i x, length (set_at v i x) = length v.
Proof. induction v as [|y v IH]; intros [|i] x; cbn; auto. Qed.
Lemma nth_set_at v : forall i x j, i < length v -> nth j (set_at v i x) 0%Qc = if Nat.eqb j i then x else nth j v 0%Qc.
Proof. induction v as [|y v IH]; intros [|i] x [|j] H; cbn in *; auto; try lia. apply IH. lia. Qed.
Lemma nth_repeat0 n j : nth j (repeat 0%Qc n) 0%Qc = 0%Qc.
Proof. revert j. induction n as [|n IH]; intros [|j]; cbn; auto. Qed.
Lemma unit_set n i : i < n -> set_at (repeat 0%Qc n) i 1%Qc = unit_row n i.
Proof.
  intros H. apply (nth_ext _ _ 0%Qc 0%Qc).
  - rewrite length_set_at, repeat_length. unfold unit_row. now rewrite map_length, seq_length.
  - intros j Hj. rewrite length_set_at, repeat_length in Hj. rewrite nth_set_at by (now rewrite repeat_length).
    unfold unit_row. rewrite nth_map_seq by auto. rewrite nth_repeat0. reflexivity.
Qed.
Definition pair_row (n i j : nat) : list Qc := set_at (set_at (repeat 0%Qc n) i 1%Qc) j 1%Qc.
Lemma length_pair_row n i j : length (pair_row n i j) = n.
Proof. unfold pair_row. now rewrite !length_set_at, repeat_length. Qed.
Lemma inner_pair n i j x : i < n -> j < n -> i <> j -> inner (pair_row n i j) x = (nth i x 0 + nth j x 0)%Qc.
Proof.
  intros Hi Hj N. rewrite (inner_Sum n) by apply length_pair_row.
  rewrite (Sum_change n j (fun k => (at_ (unit_row n i) k * at_ x k)%Qc) _); auto.
  - assert (E : Sum n (fun k => (at_ (unit_row n i) k * at_ x k)%Qc) = nth i x 0%Qc).
    { rewrite (Sum_single n i); auto.
      - unfold unit_row, at_. rewrite nth_map_seq by auto. rewrite Nat.eqb_refl. ring.
      - intros k Hk Nk. unfold unit_row, at_. rewrite nth_map_seq by auto. apply Nat.eqb_neq in Nk. rewrite Nk. ring. }
    rewrite E. unfold at_, pair_row. rewrite nth_set_at by (rewrite length_set_at, repeat_length; auto). rewrite Nat.eqb_refl.
    unfold unit_row. rewrite nth_map_seq by auto. apply not_eq_sym in N. apply Nat.eqb_neq in N. rewrite N. ring.
  - intros k Hk Nk. unfold at_, pair_row. rewrite nth_set_at by (rewrite length_set_at, repeat_length; auto).
    apply Nat.eqb_neq in Nk. rewrite Nk. now rewrite unit_set.
Qed.

(** ** the matrix *)
Definition ix (m : list (string * nat)) (v : string) : nat := match dget String.eqb v m with Some i => i | None => 0 end.
Lemma lookup_ix m v i : lookup v m = Ok i -> ix m v = i.
Proof. unfold lookup, ix. destruct (dget String.eqb v m); [now injection 1|discriminate]. Qed.
Definition row_of (n : nat) (m : list (string * nat)) (e : edge) : list Qc := pair_row n (ix m (fst e)) (ix m (snd e)).
Definition known (m : list (string * nat)) (v : string) : Prop := exists i, lookup v m = Ok i.
Lemma edge_row_ok n m e : known m (fst e) -> known m (snd e) -> edge_row n m e = Ok (row_of n m e).
Proof.
  intros (i & Hi) (j & Hj). unfold edge_row, bind, row_of. rewrite Hi, Hj.
  rewrite (lookup_ix _ _ _ Hi), (lookup_ix _ _ _ Hj). reflexivity.
Qed.
Lemma stack_edges_mat n m es : (forall e, In e es -> known m (fst e) /\ known m (snd e)) ->
  forall M, stack_edges n m es (Mat n M) = Ok (Mat n (M ++ map (row_of n m) es)).
Proof.
  induction es as [|e es IH]; intros K M; cbn [stack_edges map].
  - now rewrite app_nil_r.
  - destruct (K e (or_introl eq_refl)) as (K1 & K2). rewrite edge_row_ok by auto. cbn [bind vstack].
    unfold row_of at 1. rewrite length_pair_row, Nat.eqb_refl. cbn [bind]. rewrite IH by (intros; apply K; now right).
    now rewrite <- app_assoc.
Qed.
Lemma stack_edges_ok n m e es junk : (forall e', In e' (e :: es) -> known m (fst e') /\ known m (snd e')) -> length junk = n ->
  stack_edges n m (e :: es) (Vec junk) = Ok (Mat n (junk :: map (row_of n m) (e :: es))).
Proof.
  intros K L. cbn [stack_edges]. destruct (K e (or_introl eq_refl)) as (K1 & K2). rewrite edge_row_ok by auto. cbn [bind vstack].
  unfold row_of at 1. rewrite length_pair_row, L, Nat.eqb_refl. cbn [bind].
  replace (length (row_of n m e)) with n by (unfold row_of; now rewrite length_pair_row).
  rewrite stack_edges_mat by (intros; apply K; now right). reflexivity.
Qed.
Lemma stack_units_ok n is : (forall i, In i is -> i < n) -> forall M b,
  stack_units n is (Mat n M) b = Ok (Mat n (M ++ map (unit_row n) is), b ++ repeat 1%Qc (length is)).
Proof.
  induction is as [|i is IH]; intros H M b; cbn [stack_units map length repeat].
  - now rewrite !app_nil_r.
  - cbn [vstack]. rewrite length_set_at, repeat_length, Nat.eqb_refl. cbn [bind]. rewrite IH by (intros; apply H; now right).
    rewrite unit_set by (apply H; now left). now rewrite <- !app_assoc.
Qed.
Lemma firstn_S_app {A} (l : list A) (x : A) r : firstn (S (length l)) (l ++ x :: r) = l ++ [x].
Proof. induction l as [|y l IH]; [reflexivity|]. cbn [length app]. rewrite firstn_cons. now rewrite IH. Qed.
Lemma set_at_app l x y r : set_at (l ++ x :: r) (length l) y = l ++ y :: r.
Proof. induction l as [|z l IH]; [reflexivity|]. cbn. now rewrite IH. Qed.
Lemma set_costs_ok m items : forall pre c, (forall k, k < length items -> lookup (nth k (map fst items) "") m = Ok (length pre + k)) ->
  length c = length items -> set_costs m items (pre ++ c) = Ok (pre ++ map snd items).
Proof.
  induction items as [|[v w] items IH]; intros pre c H L; cbn [set_costs map snd].
  - destruct c; [reflexivity|discriminate].
  - destruct c as [|x c]; [discriminate|]. pose proof (H 0 ltac:(cbn; lia)) as H0. cbn in H0. rewrite H0. cbn [bind].
    rewrite Nat.add_0_r, set_at_app. replace (pre ++ w :: c) with ((pre ++ [w]) ++ c) by (now rewrite <- app_assoc).
    rewrite (IH (pre ++ [w])).
    + now rewrite <- app_assoc.
    + intros k Hk. rewrite app_length. cbn [length]. specialize (H (S k) ltac:(cbn; lia)). cbn [map fst nth] in H. rewrite H. f_equal. lia.
    + now injection L.
Qed.

(** ** the program *)
Definition stable_program (g : ugraph) (p : lp) : Prop :=
  let m := numbering (ug_vertices g) in let n := length (ug_vertices g) in
  lA p = map (row_of n m) (dkeys (ug_edges g)) ++ map (unit_row n) (seq 0 n) /\
  lb p = repeat 1%Qc (length (ug_edges g) + n) /\ lc p = map snd (ug_vertices g) /\ lz p = 0%Qc /\ lobj p = "max" /\
  inequalities p = repeat "<=" (length (ug_edges g) + n) /\ free_variables p = [] /\ negative_variables p = [].
Lemma no_members {A} (l : list A) : (forall i, In i l <-> In i []) -> l = [].
Proof. destruct l as [|x l]; auto. intros H. destruct (proj1 (H x) (or_introl eq_refl)). Qed.
Lemma known_vertex g v : inv g -> In v (dkeys (ug_vertices g)) -> known (numbering (ug_vertices g)) v.
Proof.
  intros I H. pose proof (i_nd3 _ I) as N. apply In_nth_error in H as (i & H). exists i.
  apply lookup_in; [now rewrite keys_numbering|]. now apply in_numbering.
Qed.
Lemma known_edges g e : inv g -> In e (dkeys (ug_edges g)) -> known (numbering (ug_vertices g)) (fst e) /\ known (numbering (ug_vertices g)) (snd e).
Proof. intros I H. destruct e as [u v]. destruct (i_edge _ I u v H) as (_ & _ & _ & H1 & H2). split; now apply known_vertex. Qed.
Lemma costs_ok g : inv g -> set_costs (numbering (ug_vertices g)) (ug_vertices g) (repeat 0%Qc (length (ug_vertices g))) = Ok (map snd (ug_vertices g)).
Proof.
  intros I. pose proof (i_nd3 _ I) as N. apply (set_costs_ok _ _ []).
  - intros k Hk. apply lookup_in; [now rewrite keys_numbering|]. apply in_numbering; auto. cbn [length Nat.add].
    unfold dkeys. apply nth_error_nth'. now rewrite map_length.
  - apply repeat_length.
Qed.
Lemma formulate_ok junk g : inv g -> ug_edges g <> [] ->
  exists p, formulate_max_stable_set junk g = Ok (Some (mkip p None, numbering (ug_vertices g))) /\ stable_program g p /\ reachable p.
Proof.
  intros I NE. pose proof (i_nd3 _ I) as N. unfold formulate_max_stable_set.
  set (m := numbering (ug_vertices g)). set (n := length (ug_vertices g)).
  assert (Lm : length m = n) by now apply length_numbering.
  assert (E0 : is_empty g = false).
  { unfold is_empty. destruct (ug_vertices g) as [|a l] eqn:EV; auto. exfalso. destruct (ug_edges g) as [|[[u v] w] es] eqn:EE; [congruence|].
    destruct (i_edge _ I u v) as (_ & _ & _ & H & _); [rewrite EE; now left|]. rewrite EV in H. exact H. }
  rewrite E0. rewrite Lm.
  assert (E1 : stack_edges n m (dkeys (ug_edges g)) (Vec (map junk (seq 0 n))) =
     Ok (Mat n (map junk (seq 0 n) :: map (row_of n m) (dkeys (ug_edges g))))).
  { pose proof (known_edges g) as K. destruct (dkeys (ug_edges g)) as [|e es] eqn:EE.
    - destruct (ug_edges g); [congruence|discriminate].
    - apply stack_edges_ok; [intros; now apply K|]. now rewrite map_length, seq_length. }
  rewrite E1. cbn [bind drop_first tl]. 
  assert (E2 : set_costs m (ug_vertices g) (repeat 0%Qc n) = Ok (map snd (ug_vertices g))) by now apply costs_ok.
  rewrite E2. cbn [bind].
  rewrite stack_units_ok by (intros i Hi; apply in_seq in Hi; lia). cbn [bind fst snd]. rewrite seq_length, <- repeat_app.
  unfold integer_program.
  pose proof (C28_accepts_exactly n (map (row_of n m) (dkeys (ug_edges g)) ++ map (unit_row n) (seq 0 n))
    (repeat 1%Qc (length (ug_edges g) + n)) (map snd (ug_vertices g)) (Nd (Mat n _)) (Nd (Vec _)) (Nd (Vec _)) 0%Qc "max" (Some (repeat "<=" (length (ug_edges g) + n))) None None eq_refl eq_refl eq_refl) as HH.
  destruct HH as [Acc _]. destruct Acc as (p & Ep).
  { assert (L : length (map (row_of n m) (dkeys (ug_edges g)) ++ map (unit_row n) (seq 0 n)) = length (ug_edges g) + n)
      by (unfold dkeys; rewrite app_length, !map_length, seq_length; reflexivity).
    split; [rewrite repeat_length; auto|]. split; [apply map_length|]. split; [auto|].
    split; [split; [rewrite repeat_length; auto|intros s Hs; apply repeat_spec in Hs; auto]|].
    split; [split; [constructor|intros i []]|]. split; [split; [constructor|intros i []]|intros i []]. }
  rewrite Ep. cbn [bind]. exists p. split; [reflexivity|].
  pose proof (C28_reads_back n (map (row_of n m) (dkeys (ug_edges g)) ++ map (unit_row n) (seq 0 n))
    (repeat 1%Qc (length (ug_edges g) + n)) (map snd (ug_vertices g)) (Nd (Mat n _)) (Nd (Vec _)) (Nd (Vec _)) 0%Qc "max" (Some (repeat "<=" (length (ug_edges g) + n))) None None p eq_refl eq_refl eq_refl Ep) as HH.
  destruct HH as (R1 & R2 & R3 & R4 & R5 & R6 & (_ & R7) & (_ & R8) & _).
  split; [unfold stable_program; fold m n; repeat split; auto; now apply no_members|].
  refine (r_new _ _ _ _ _ _ _ _ _ _ Ep). cbn [source_ok]. apply Forall_app. split; apply Forall_forall; intros r Hr; apply in_map_iff in Hr as (e & <- & _).
  - apply length_pair_row.
  - unfold unit_row. now rewrite map_length, seq_length.
Qed.

(** ** its points *)
Lemma compare_irrefl s : String.compare s s <> Lt.
Proof. rewrite compare_refl. discriminate. Qed.
Lemma feasible_points g p x : inv g -> stable_program g p ->
  let m := numbering (ug_vertices g) in let n := length (ug_vertices g) in
  feasible (meaning p) x <->
  length x = n /\ (forall u v, In (u, v) (dkeys (ug_edges g)) -> (nth (ix m u) x 0 + nth (ix m v) x 0 <= 1)%Qc) /\
  (forall j, j < n -> (0 <= nth j x 0 <= 1)%Qc).
Proof.
  intros I (HA & Hb & Hc & Hz & Ho & Hi & Hf & Hn) m n. pose proof (i_nd3 _ I) as N. fold m n in HA, Hb, Hi.
  unfold feasible. cbn [meaning costs rhs relations coefficients signs]. rewrite HA, Hb, Hc, Hi, Hf, Hn, map_length, repeat_length. fold n.
  assert (B : forall u v, In (u, v) (dkeys (ug_edges g)) -> ix m u < n /\ ix m v < n /\ ix m u <> ix m v).
  { intros u v H. destruct (i_edge _ I u v H) as (Lt1 & _ & _ & H1 & H2).
    assert (Q : forall a, In a (dkeys (ug_vertices g)) -> nth_error (dkeys (ug_vertices g)) (ix m a) = Some a).
    { intros a Ha. apply In_nth_error in Ha as (i & Ha). assert (E : lookup a m = Ok i).
      { apply lookup_in; [unfold m; now rewrite keys_numbering|]. now apply in_numbering. }
      now rewrite (lookup_ix _ _ _ E). }
    assert (L : length (dkeys (ug_vertices g)) = n) by (unfold dkeys; now rewrite map_length).
    pose proof (Q u H1) as Q1. pose proof (Q v H2) as Q2. repeat split.
    - rewrite <- L. apply nth_error_Some. congruence.
    - rewrite <- L. apply nth_error_Some. congruence.
    - intros E. rewrite E, Q2 in Q1. injection Q1 as ->. now apply compare_irrefl in Lt1. }
  assert (LE : length (map (row_of n m) (dkeys (ug_edges g))) = length (ug_edges g)) by (unfold dkeys; now rewrite !map_length).
  assert (RR : forall i, i < length (ug_edges g) + n -> nth i (map relation_of (repeat "<=" (length (ug_edges g) + n))) Equal = AtMost).
  { intros i Hlt. replace Equal with (relation_of "=") by reflexivity. rewrite map_nth.
    assert (E : nth i (repeat "<=" (length (ug_edges g) + n)) "=" = "<="); [|now rewrite E].
    eapply repeat_spec. apply nth_In. rewrite repeat_length. exact Hlt. }
  assert (RB : forall i, i < length (ug_edges g) + n -> nth i (repeat 1%Qc (length (ug_edges g) + n)) 0%Qc = 1%Qc).
  { intros i Hlt. eapply repeat_spec. apply nth_In. rewrite repeat_length. exact Hlt. }
  assert (RS : forall j, j < n -> nth j (map (sign_of [] []) (seq 0 n)) Nonnegative = Nonnegative).
  { intros j Hj. rewrite nth_map_seq by auto. reflexivity. }
  split.
  - intros (L & R & G). split; auto. split.
    + intros u v H. destruct (B u v H) as (B1 & B2 & B3). apply (In_nth _ _ ("", "")) in H as (k & Hk & Ek).
      unfold dkeys in Hk. rewrite map_length in Hk. specialize (R k ltac:(lia)). rewrite RR, RB in R by lia. cbn [related] in R.
      rewrite app_nth1 in R by lia. rewrite (nth_indep _ [] (row_of n m ("", ""))) in R by lia. rewrite map_nth in R.
      change (@nth edge k (dkeys (ug_edges g)) ("", "") = (u, v)) in Ek. rewrite Ek in R.
      unfold row_of in R. cbn [fst snd] in R. rewrite inner_pair in R by auto. exact R.
    + intros j Hj. split.
      * specialize (G j Hj). rewrite RS in G by auto. exact G.
      * specialize (R (length (ug_edges g) + j) ltac:(lia)). rewrite RR, RB in R by lia. cbn [related] in R.
        rewrite app_nth2 in R by lia. rewrite LE in R. replace (length (ug_edges g) + j - length (ug_edges g)) with j in R by lia.
        rewrite nth_map_seq in R by auto. rewrite inner_unit in R by auto. exact R.
  - intros (L & R & G). split; auto. split.
    + intros i Hlt. rewrite RR, RB by auto. cbn [related]. destruct (Nat.lt_ge_cases i (length (ug_edges g))) as [K|K].
      * rewrite app_nth1 by lia. rewrite (nth_indep _ [] (row_of n m ("", ""))) by lia. rewrite map_nth.
        destruct (nth i (dkeys (ug_edges g)) ("", "")) as [u v] eqn:E.
        assert (H : In (u, v) (dkeys (ug_edges g))) by (rewrite <- E; apply nth_In; unfold dkeys; now rewrite map_length).
        destruct (B u v H) as (B1 & B2 & B3). unfold row_of. cbn [fst snd]. rewrite inner_pair by auto. now apply R.
      * rewrite app_nth2 by lia. rewrite LE. rewrite nth_map_seq by lia. rewrite inner_unit by lia. apply G. lia.
    + intros j Hj. rewrite RS by auto. apply G. exact Hj.
Qed.

Lemma zero_or_one q : isint q -> (0 <= q)%Qc -> (q <= 1)%Qc -> q = 0%Qc \/ q = 1%Qc.
Proof.
  intros (k & ->) H1 H2. rewrite <- qz_0 in H1. rewrite <- qz_1 in H2. apply -> qz_le in H1. apply -> qz_le in H2.
  assert (k = 0 \/ k = 1)%Z as [->| ->] by lia; auto.
Qed.
Lemma member_spec v T : member v T = true <-> In v T.
Proof.
  unfold member. rewrite existsb_exists. split.
  - intros (x & H & E). apply String.eqb_eq in E. now subst.
  - intros H. exists v. split; auto. apply String.eqb_refl.
Qed.
(** the set a vector describes *)
Definition set_of (m : list (string * nat)) (x : list Qc) : list string :=
  map fst (filter (fun p => qeq (nth (snd p) x 0%Qc) 1%Qc) m).
Lemma in_set_of m x v : In v (set_of m x) <-> exists i, In (v, i) m /\ nth i x 0%Qc = 1%Qc.
Proof.
  unfold set_of. rewrite in_map_iff. split.
  - intros ([a i] & <- & H). apply filter_In in H as (H & E). exists i. split; auto. cbn [snd] in E. destruct (qeq_spec (nth i x 0%Qc) 1%Qc); [auto|discriminate].
  - intros (i & H & E). exists (v, i). split; auto. apply filter_In. split; auto. cbn [snd]. rewrite E. now destruct (qeq_spec 1%Qc 1%Qc).
Qed.
