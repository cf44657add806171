(** Lemmas for C65 and C66. *)
From Coq Require Import String Ascii List Bool Arith NArith QArith Qcanon Lia Permutation Sorted.
From Verif Require Import Py QcTac UndirectedModel GraphSpec UndirectedSpec UndirectedProofs GraphTheory
  TraverseProofs TreeProofs UndirectedFinal EqualModel EqualSpec.
Import ListNotations.
Open Scope nat_scope.
Open Scope string_scope.
Open Scope list_scope.

(** * The order of names *)
Lemma ascii_compare_trans a b c : Ascii.compare a b = Lt -> Ascii.compare b c = Lt -> Ascii.compare a c = Lt.
Proof. unfold Ascii.compare. rewrite !N.compare_lt_iff. lia. Qed.
Lemma ascii_compare_eq a b : Ascii.compare a b = Eq -> a = b.
Proof. apply Ascii.compare_eq_iff. Qed.
Lemma ascii_compare_refl a : Ascii.compare a a = Eq.
Proof. unfold Ascii.compare. apply N.compare_refl. Qed.
Lemma compare_trans a : forall b c, String.compare a b = Lt -> String.compare b c = Lt -> String.compare a c = Lt.
Proof.
  induction a as [|x a IH]; intros [|y b] [|z c]; cbn; try discriminate; try reflexivity.
  destruct (Ascii.compare x y) eqn:E1, (Ascii.compare y z) eqn:E2; try discriminate; intros H1 H2.
  - apply ascii_compare_eq in E1, E2. subst. rewrite ascii_compare_refl. now apply (IH b).
  - apply ascii_compare_eq in E1. subst. now rewrite E2.
  - apply ascii_compare_eq in E2. subst. now rewrite E1.
  - now rewrite (ascii_compare_trans x y z E1 E2).
Qed.
Lemma leb_spec a b : String.leb a b = true <-> String.compare a b = Lt \/ a = b.
Proof.
  unfold String.leb. destruct (String.compare a b) eqn:E; split; auto; try discriminate.
  - intros _. right. now apply String.compare_eq_iff.
  - intros [K|K]; [discriminate|]. subst. rewrite compare_refl in E. discriminate.
Qed.
Lemma leb_trans a b c : String.leb a b = true -> String.leb b c = true -> String.leb a c = true.
Proof.
  rewrite !leb_spec. intros [H1| ->] [H2| ->]; auto. left. now apply (compare_trans a b).
Qed.
Definition sle (a b : string) : Prop := String.leb a b = true.
Lemma insert_sorted x l : StronglySorted sle l -> StronglySorted sle (insert x l).
Proof.
  induction 1 as [|y l Hl IH Hy]; cbn [insert]; [repeat constructor|]. destruct (String.leb x y) eqn:E.
  - constructor; [now constructor|]. constructor; auto. eapply Forall_impl; [|exact Hy]. intros z Hz. now apply (leb_trans x y).
  - constructor; auto. rewrite Forall_forall in *. intros z Hz. apply (Permutation_in _ (insert_perm x l)) in Hz. destruct Hz as [<-|Hz]; [|now apply Hy].
    destruct (String.leb_total x y) as [K|K]; congruence.
Qed.
Lemma sorted_sorted l : StronglySorted sle (sorted l).
Proof. induction l as [|x l IH]; cbn; [constructor|]. now apply insert_sorted. Qed.
Lemma sorted_unique l : forall m, StronglySorted sle l -> StronglySorted sle m -> Permutation l m -> l = m.
Proof.
  induction l as [|x l IH]; intros m Hl Hm P; [apply Permutation_nil in P; now subst|].
  destruct m as [|y m]; [apply Permutation_sym, Permutation_nil in P; discriminate|].
  inversion Hl as [|? ? Hl1 Hl2]; subst. inversion Hm as [|? ? Hm1 Hm2]; subst.
  assert (E : x = y).
  { assert (Kx : In x (y :: m)) by (apply (Permutation_in _ P); now left). assert (Ky : In y (x :: l)) by (apply (Permutation_in _ (Permutation_sym P)); now left).
    destruct Kx as [->|Kx]; auto. destruct Ky as [->|Ky]; auto. rewrite Forall_forall in Hl2, Hm2. apply String.leb_antisym; [now apply Hl2|now apply Hm2]. }
  subst. f_equal. apply IH; auto. now apply Permutation_cons_inv in P.
Qed.
Lemma sorted_same l m : NoDup l -> NoDup m -> (forall x, In x l <-> In x m) -> sorted l = sorted m.
Proof.
  intros Hl Hm H. apply sorted_unique; try apply sorted_sorted. rewrite sorted_perm, (sorted_perm m). now apply NoDup_Permutation.
Qed.
Lemma In_sorted x l : In x (sorted l) <-> In x l.
Proof. split; apply Permutation_in; [|symmetry]; apply sorted_perm. Qed.

(** * Dictionaries that compare equal *)
Section DictEq.
  Context {K V : Type} (eqk : K -> K -> bool) (eqk_spec : forall a b, reflect (a = b) (eqk a b)).
  Context (eqv : V -> V -> bool).
  Definition related (o1 o2 : option V) : Prop :=
    match o1, o2 with Some v, Some w => eqv v w = true | None, None => True | _, _ => False end.
  Lemma dict_eqb_spec (a b : list (K * V)) : NoDup (dkeys a) -> NoDup (dkeys b) ->
    (dict_eqb eqk eqv a b = true <-> forall k, related (dget eqk k a) (dget eqk k b)).
  Proof.
    intros Ha Hb. unfold dict_eqb. rewrite andb_true_iff, Nat.eqb_eq, forallb_forall. split.
    - intros [L F] k.
      assert (Sub : incl (dkeys a) (dkeys b)).
      { intros x Hx. apply (key_In (V := V)) in Hx. destruct Hx as (v & Hv). specialize (F _ Hv). cbn in F. destruct (dget eqk x b) eqn:E; [|discriminate]. now apply (get_key eqk eqk_spec) in E. }
      assert (Sup : incl (dkeys b) (dkeys a)) by (apply NoDup_length_incl; auto; unfold dkeys; rewrite !map_length; lia).
      destruct (dget eqk k a) as [v|] eqn:E.
      + apply (dget_In _ eqk_spec) in E. specialize (F _ E). cbn in F. destruct (dget eqk k b); [exact F|discriminate].
      + destruct (dget eqk k b) as [w|] eqn:E2; [|exact I]. apply (get_key eqk eqk_spec) in E2. apply Sup in E2. apply (dget_None _ eqk_spec) in E. contradiction.
    - intros R. assert (Sub : incl (dkeys a) (dkeys b) /\ incl (dkeys b) (dkeys a)).
      { split; intros x Hx; destruct (key_get eqk eqk_spec _ _ Hx) as (v & Ev); specialize (R x); rewrite Ev in R; unfold related in R.
        - destruct (dget eqk x b) eqn:E; [now apply (get_key eqk eqk_spec) in E|contradiction].
        - destruct (dget eqk x a) eqn:E; [now apply (get_key eqk eqk_spec) in E|contradiction]. }
      destruct Sub as [S1 S2]. split.
      + pose proof (NoDup_incl_length Ha S1) as L1. pose proof (NoDup_incl_length Hb S2) as L2. unfold dkeys in L1, L2. rewrite !map_length in L1, L2. lia.
      + intros [k v] Hin. cbn. apply (In_dget _ eqk_spec) in Hin; auto. specialize (R k). rewrite Hin in R. cbn in R. destruct (dget eqk k b); [exact R|contradiction].
  Qed.
End DictEq.

Lemma set_eqb_spec a b : set_eqb a b = true <-> forall x, In x a <-> In x b.
Proof.
  unfold set_eqb. rewrite andb_true_iff, !forallb_forall. split.
  - intros [H1 H2] x. split; intros Hx; [specialize (H1 _ Hx); destruct (mem_spec x b)|specialize (H2 _ Hx); destruct (mem_spec x a)]; auto; discriminate.
  - intros H. split; intros x Hx; [destruct (mem_spec x b)|destruct (mem_spec x a)]; auto; apply H in Hx; contradiction.
Qed.

(** the three dictionaries agree *)
Record alike (g1 g2 : ugraph) : Prop := {
  al_v : forall v, sget v (ug_vertices g1) = sget v (ug_vertices g2);
  al_e : forall e, dget eqe e (ug_edges g1) = dget eqe e (ug_edges g2);
  al_g : forall u, match sget u (ug_graph g1), sget u (ug_graph g2) with
                   | Some s, Some t => forall x, In x s <-> In x t | None, None => True | _, _ => False end }.
Lemma related_qeq (o1 o2 : option Qc) : related qeq o1 o2 <-> o1 = o2.
Proof.
  destruct o1 as [a|], o2 as [b|]; cbn; split; intros H; try discriminate; try contradiction; auto.
  - destruct (qeq_spec a b); [congruence|discriminate]. - injection H as ->. destruct (qeq_spec b b); congruence.
Qed.
Lemma eq_alike g1 g2 : inv g1 -> inv g2 -> (ugraph_eq g1 g2 = true <-> alike g1 g2).
Proof.
  intros I1 I2. unfold ugraph_eq. rewrite !andb_true_iff.
  rewrite (dict_eqb_spec _ eqs _ _ _ (i_nd1 _ I2) (i_nd1 _ I1)), (dict_eqb_spec _ eqe_spec _ _ _ (i_nd2 _ I2) (i_nd2 _ I1)), (dict_eqb_spec _ eqs _ _ _ (i_nd3 _ I2) (i_nd3 _ I1)).
  split.
  - intros [[A B] C]. constructor.
    + intros v. symmetry. apply related_qeq, C. + intros e. symmetry. apply related_qeq, B.
    + intros u. specialize (A u). unfold related in A. destruct (sget u (ug_graph g2)), (sget u (ug_graph g1)); auto. rewrite set_eqb_spec in A. intros x. symmetry. apply A.
  - intros [A B C]. split; [split|].
    + intros u. specialize (C u). unfold related. destruct (sget u (ug_graph g2)), (sget u (ug_graph g1)); auto. apply set_eqb_spec. intros x. symmetry. apply C.
    + intros e. apply related_qeq. symmetry. apply B. + intros v. apply related_qeq. symmetry. apply A.
Qed.
Lemma alike_sym g1 g2 : alike g1 g2 -> alike g2 g1.
Proof. intros [A B C]. constructor; auto. intros u. specialize (C u). destruct (sget u (ug_graph g1)), (sget u (ug_graph g2)); auto. intros x. symmetry. apply C. Qed.
Lemma alike_trans g1 g2 g3 : alike g1 g2 -> alike g2 g3 -> alike g1 g3.
Proof.
  intros [A B C] [A' B' C']. constructor; [intros v; now rewrite A|intros e; now rewrite B|].
  intros u. specialize (C u). specialize (C' u). destruct (sget u (ug_graph g1)), (sget u (ug_graph g2)), (sget u (ug_graph g3)); auto; try contradiction. intros x. now rewrite C.
Qed.
Lemma alike_has_edge g1 g2 e : alike g1 g2 -> has_edge g1 e = has_edge g2 e.
Proof. intros A. unfold has_edge, dmem. now rewrite (al_e _ _ A). Qed.
Lemma alike_has_vertex g1 g2 v : alike g1 g2 -> has_vertex g1 v = has_vertex g2 v.
Proof. intros A. unfold has_vertex, dmem. now rewrite (al_v _ _ A). Qed.
Lemma alike_adjg g1 g2 u v : alike g1 g2 -> (adjg (ug_graph g1) u v <-> adjg (ug_graph g2) u v).
Proof.
  intros A. pose proof (al_g _ _ A u) as G. unfold adjg. destruct (sget u (ug_graph g1)) as [s|], (sget u (ug_graph g2)) as [t|]; try contradiction.
  - split; intros (x & E & Hx); injection E as <-; eexists; (split; [reflexivity|]); now apply G.
  - split; intros (x & E & _); discriminate E.
Qed.

Lemma alike_same g1 g2 : inv g1 -> inv g2 -> (alike g1 g2 <-> same_graph g1 g2).
Proof.
  intros I1 I2. split.
  - intros A. split; [|split].
    + intros v. unfold get_vertex_weight. now rewrite (alike_has_vertex _ _ _ A), (al_v _ _ A).
    + intros e. unfold get_edge_weight. now rewrite (alike_has_edge _ _ _ A), (al_e _ _ A).
    + intros u v. rewrite <- (adjg_adjacent _ _ _ (i_nd1 _ I1)), <- (adjg_adjacent _ _ _ (i_nd1 _ I2)). now apply alike_adjg.
  - intros (A & B & C).
    assert (Av : forall v, sget v (ug_vertices g1) = sget v (ug_vertices g2)).
    { intros v. specialize (A v). unfold get_vertex_weight, has_vertex, dmem in A. destruct (sget v (ug_vertices g1)), (sget v (ug_vertices g2)); cbn in A; congruence. }
    constructor; auto.
    + intros e. assert (NS : forall g, inv g -> sorted2 e <> e -> dget eqe e (ug_edges g) = None).
      { intros g I Hn. apply (dget_None _ eqe_spec). intros K. destruct e as [a b]. apply (i_edge _ I) in K. apply Hn. now apply sorted2_lt. }
      assert (D : sorted2 e = e \/ sorted2 e <> e) by (destruct (eqe_spec (sorted2 e) e); auto).
      destruct D as [D|D]; [|now rewrite !NS by auto]. specialize (B e). unfold get_edge_weight, has_edge, dmem in B. rewrite D in B.
      destruct (dget eqe e (ug_edges g1)), (dget eqe e (ug_edges g2)); cbn in B; congruence.
    + intros u. assert (Dom : forall g, inv g -> (sget u (ug_graph g) = None <-> sget u (ug_vertices g) = None)).
      { intros g I. rewrite !(dget_None _ eqs). now rewrite (i_dom _ I). }
      pose proof (Dom g1 I1) as D1. pose proof (Dom g2 I2) as D2. rewrite Av in D1.
      destruct (sget u (ug_graph g1)) as [s|] eqn:E1, (sget u (ug_graph g2)) as [t|] eqn:E2; auto.
      * intros x. specialize (C u x). rewrite <- (adjg_adjacent _ _ _ (i_nd1 _ I1)), <- (adjg_adjacent _ _ _ (i_nd1 _ I2)) in C. unfold adjg in C. rewrite E1, E2 in C.
        split; intros Hx; [destruct C as [C _]|destruct C as [_ C]]; (destruct C as (y & Ey & Hy); [eexists; split; [reflexivity|exact Hx]|injection Ey as <-; exact Hy]).
      * destruct D2 as [D2 _]. specialize (D2 eq_refl). apply D1 in D2. discriminate D2.
      * destruct D1 as [D1 _]. specialize (D1 eq_refl). apply D2 in D1. discriminate D1.
Qed.

(** * Calls on graphs that compare equal *)
Lemma adj_add_alike u v d1 d2 :
  (forall w, match sget w d1, sget w d2 with Some s, Some t => forall x, In x s <-> In x t | None, None => True | _, _ => False end) ->
  (forall w, match sget w (adj_add u v d1), sget w (adj_add u v d2) with Some s, Some t => forall x, In x s <-> In x t | None, None => True | _, _ => False end).
Proof.
  intros H w. unfold adj_add. rewrite !(dget_dset _ eqs). destruct (eqs w u) as [->|]; [|apply H].
  intros x. rewrite !set_add_In. specialize (H u). destruct (sget u d1), (sget u d2); try contradiction; [now rewrite H|reflexivity].
Qed.
Lemma adj_remove_alike u v g1 g2 : alike g1 g2 -> snd (adj_remove u v g1) = snd (adj_remove u v g2) /\ alike (fst (adj_remove u v g1)) (fst (adj_remove u v g2)).
Proof.
  intros A. unfold adj_remove. pose proof (al_g _ _ A u) as G. destruct (sget u (ug_graph g1)) as [s|], (sget u (ug_graph g2)) as [t|]; try contradiction; [|split; auto].
  assert (M : mem v s = mem v t) by (destruct (mem_spec v s) as [K|K], (mem_spec v t) as [K'|K']; auto; apply G in K || apply G in K'; contradiction).
  unfold set_remove. rewrite <- M. destruct (mem v s); [|split; auto]. split; [reflexivity|]. destruct A as [A B C]. constructor; cbn; auto.
  intros w. rewrite !(dget_dset _ eqs). destruct (eqs w u); [|apply C]. intros x. rewrite !filter_In, G. reflexivity.
Qed.
Lemma step_alike o g1 g2 : alike g1 g2 -> snd (ustep g1 o) = snd (ustep g2 o) /\ alike (fst (ustep g1 o)) (fst (ustep g2 o)).
Proof.
  intros A. destruct o as [e w|e|v w|e w|v w]; cbn [ustep].
  - unfold add_edge. rewrite (alike_has_edge _ _ _ A). destruct (qlt w 0), (String.eqb (fst e) (snd e)), (String.eqb (fst e) "" || String.eqb (snd e) ""), (has_edge g2 (sorted2 e)); try (split; auto; fail).
    split; [reflexivity|]. destruct A as [A B C]. constructor; cbn.
    + intros v. rewrite !(dget_dsetdefault _ eqs). now rewrite A.
    + intros e'. rewrite !(dget_dsetdefault _ eqe_spec). now rewrite B.
    + now apply adj_add_alike, adj_add_alike.
  - unfold remove_edge. rewrite (alike_has_edge _ _ _ A). destruct (has_edge g2 e); cbn [negb]; [|split; auto].
    destruct (adj_remove_alike (fst e) (snd e) _ _ A) as [E1 A1]. destruct (adj_remove (fst e) (snd e) g1) as [g1' r1], (adj_remove (fst e) (snd e) g2) as [g2' r2]. cbn [fst snd] in *. subst r2.
    destruct r1 as [u|x|]; [now apply adj_remove_alike|split; auto|split; auto].
  - unfold add_vertex. rewrite (alike_has_vertex _ _ _ A). destruct (qlt w 0), (has_vertex g2 v); try (split; auto; fail).
    split; [reflexivity|]. destruct A as [A B C]. constructor; cbn; auto.
    + intros v'. rewrite !(dget_dsetdefault _ eqs). now rewrite A.
    + intros u. rewrite !(dget_dsetdefault _ eqs). specialize (C u). destruct (sget u (ug_graph g1)), (sget u (ug_graph g2)); try contradiction; auto. destruct (String.eqb u v); [reflexivity|exact I].
  - unfold set_edge_weight. rewrite (alike_has_edge _ _ _ A). destruct (has_edge g2 e); cbn [negb]; [|split; auto].
    split; [reflexivity|]. destruct A as [A B C]. constructor; cbn; auto. intros e'. rewrite !(dget_dset _ eqe_spec). now rewrite B.
  - unfold set_vertex_weight. rewrite (alike_has_vertex _ _ _ A). destruct (has_vertex g2 v); cbn [negb]; [|split; auto].
    split; [reflexivity|]. destruct A as [A B C]. constructor; cbn; auto. intros e'. rewrite !(dget_dset _ eqs). now rewrite A.
Qed.
Lemma run_alike h : forall g1 g2, alike g1 g2 -> answers g1 h = answers g2 h /\ alike (urun g1 h) (urun g2 h).
Proof.
  induction h as [|o h IH]; intros g1 g2 A; [split; auto|]. destruct (step_alike o _ _ A) as [E A']. cbn [answers urun]. destruct (IH _ _ A') as [E' A'']. split; [congruence|exact A''].
Qed.

(** * Traversals of graphs that compare equal *)
Lemma traverse_more srt g fuel : forall k q vis out, traverse_loop fuel srt g q vis = Ok out -> traverse_loop (k + fuel) srt g q vis = Ok out.
Proof.
  induction fuel as [|fuel IH]; intros k q vis out E; [discriminate E|]. rewrite Nat.add_succ_r. cbn [traverse_loop] in *. destruct q as [|c q]; [exact E|].
  destruct (mem c vis); [now apply IH|]. destruct (sget c (ug_graph g)); [now apply IH|discriminate E].
Qed.
Lemma traverse_alike g1 g2 fuel : inv g1 -> inv g2 -> alike g1 g2 -> forall q vis, traverse_loop fuel sorted g1 q vis = traverse_loop fuel sorted g2 q vis.
Proof.
  intros I1 I2 A. induction fuel as [|fuel IH]; intros q vis; [reflexivity|]. cbn [traverse_loop]. destruct q as [|c q]; [reflexivity|]. destruct (mem c vis); [apply IH|].
  pose proof (al_g _ _ A c) as G. destruct (sget c (ug_graph g1)) as [s|] eqn:E1, (sget c (ug_graph g2)) as [t|] eqn:E2; try contradiction; [|reflexivity].
  rewrite (sorted_same s t); [apply IH|now apply (i_sets _ I1 c)|now apply (i_sets _ I2 c)|exact G].
Qed.
Lemma bfs_alike g1 g2 v : inv g1 -> inv g2 -> alike g1 g2 -> bfs g1 v = bfs g2 v.
Proof.
  intros I1 I2 A. unfold bfs, traverse. rewrite (alike_has_vertex _ _ _ A). destruct (has_vertex_spec g2 v) as [H2|H2]; [|reflexivity]. cbn [negb String.eqb].
  assert (H1 : In v (dkeys (ug_vertices g1))).
  { destruct (has_vertex_spec g1 v) as [K|K]; auto. exfalso. pose proof (alike_has_vertex _ _ v A) as E. destruct (has_vertex_spec g1 v), (has_vertex_spec g2 v); congruence. }
  destruct (bfs_spec g1 v I1 H1) as (o1 & _ & E1 & _). destruct (bfs_spec g2 v I2 H2) as (o2 & _ & E2 & _).
  unfold bfs, traverse in E1, E2. destruct (has_vertex_spec g1 v) in E1; [|contradiction]. destruct (has_vertex_spec g2 v) in E2; [|contradiction]. cbn [negb String.eqb] in E1, E2.
  change (String.eqb "bfs" "rng") with false in *. cbv iota in *. rewrite E1, E2.
  apply (traverse_more _ _ _ (traverse_fuel g2)) in E1. apply (traverse_more _ _ _ (traverse_fuel g1)) in E2.
  rewrite (traverse_alike g1 g2) in E1 by auto. rewrite Nat.add_comm in E1. congruence.
Qed.

(** * Other queries *)
Lemma alike_keys g1 g2 : alike g1 g2 -> forall v, In v (dkeys (ug_vertices g1)) <-> In v (dkeys (ug_vertices g2)).
Proof.
  intros A v. pose proof (alike_has_vertex _ _ v A) as E. destruct (has_vertex_spec g1 v), (has_vertex_spec g2 v); try discriminate; tauto.
Qed.
Lemma connected_same adj vs vs' : (forall v, In v vs <-> In v vs') -> connected adj vs -> connected adj vs'.
Proof. intros H C u v Hu Hv. apply C; now apply H. Qed.
Lemma alike_nil g1 g2 : alike g1 g2 -> dkeys (ug_vertices g1) <> [] -> dkeys (ug_vertices g2) <> [].
Proof.
  intros A N E. destruct (dkeys (ug_vertices g1)) as [|v l] eqn:Ev; [congruence|]. assert (K : In v (dkeys (ug_vertices g2))) by (apply (alike_keys _ _ A); rewrite Ev; now left). now rewrite E in K.
Qed.
Lemma eq_bool (b1 b2 : bool) (P1 P2 : Prop) : (b1 = true <-> P1) -> (b2 = true <-> P2) -> (P1 <-> P2) -> b1 = b2.
Proof. destruct b1, b2; intros; intuition congruence. Qed.
Lemma connected_alike g1 g2 : inv g1 -> inv g2 -> alike g1 g2 -> is_connected g1 = is_connected g2.
Proof.
  intros I1 I2 A. destruct (is_connected_spec g1 I1) as (b1 & -> & H1). destruct (is_connected_spec g2 I2) as (b2 & -> & H2). f_equal.
  apply (eq_bool _ _ _ _ H1 H2). pose proof (alike_sym _ _ A) as A'. split; intros [N C].
  - split; [now apply (alike_nil g1)|]. apply (connected_same _ _ _ (alike_keys _ _ A)). apply (connected_iff _ _ (fun u v => alike_adjg g1 g2 u v A)). exact C.
  - split; [now apply (alike_nil g2)|]. apply (connected_same _ _ _ (alike_keys _ _ A')). apply (connected_iff _ _ (fun u v => alike_adjg g2 g1 u v A')). exact C.
Qed.
Lemma tree_alike g1 g2 e1 e2 : inv g1 -> inv g2 -> alike g1 g2 -> (forall k l, Permutation (e1 k l) l) -> (forall k l, Permutation (e2 k l) l) ->
  is_tree e1 g1 = is_tree e2 g2.
Proof.
  intros I1 I2 A P1 P2. destruct (is_tree_spec g1 e1 I1 P1) as (b1 & -> & H1). destruct (is_tree_spec g2 e2 I2 P2) as (b2 & -> & H2). f_equal.
  apply (eq_bool _ _ _ _ H1 H2). pose proof (alike_sym _ _ A) as A'. split; intros (N & C & Y); (split; [|split]).
  - now apply (alike_nil g1).
  - apply (connected_same _ _ _ (alike_keys _ _ A)). apply (connected_iff _ _ (fun u v => alike_adjg g1 g2 u v A)). exact C.
  - apply (acyclic_iff _ _ (fun u v => alike_adjg g1 g2 u v A)). exact Y.
  - now apply (alike_nil g2).
  - apply (connected_same _ _ _ (alike_keys _ _ A')). apply (connected_iff _ _ (fun u v => alike_adjg g2 g1 u v A')). exact C.
  - apply (acyclic_iff _ _ (fun u v => alike_adjg g2 g1 u v A')). exact Y.
Qed.
Lemma cyclic_alike g1 g2 e1 e2 : inv g1 -> inv g2 -> alike g1 g2 -> (forall k l, Permutation (e1 k l) l) -> (forall k l, Permutation (e2 k l) l) ->
  is_cyclic e1 g1 = is_cyclic e2 g2.
Proof.
  intros I1 I2 A P1 P2. destruct (is_cyclic_spec g1 I1 e1 P1) as (b1 & -> & H1). destruct (is_cyclic_spec g2 I2 e2 P2) as (b2 & -> & H2). f_equal.
  apply (eq_bool _ _ _ _ H1 H2). split; intros (u & v & H); exists u, v; now apply (alike_adjg g1 g2 u v A).
Qed.
Lemma cut_alike g1 g2 s : inv g1 -> inv g2 -> alike g1 g2 -> Permutation (cut_set g1 s) (cut_set g2 s).
Proof.
  intros I1 I2 A. apply NoDup_Permutation; try now apply cut_set_NoDup. intros e. rewrite !cut_set_spec.
  assert (K : In e (dkeys (ug_edges g1)) <-> In e (dkeys (ug_edges g2))).
  { pose proof (al_e _ _ A e) as E. pose proof (dget_None eqe eqe_spec e (ug_edges g1)) as N1. pose proof (dget_None eqe eqe_spec e (ug_edges g2)) as N2. rewrite E in N1. rewrite N1 in N2.
    split; intros K; destruct (in_dec (fun x y => reflect_dec _ _ (eqe_spec x y)) e (dkeys (ug_edges g2))); destruct (in_dec (fun x y => reflect_dec _ _ (eqe_spec x y)) e (dkeys (ug_edges g1))); tauto. }
  now rewrite K.
Qed.
Lemma length_alike g1 g2 : inv g1 -> inv g2 -> alike g1 g2 -> Permutation (map fst (ug_vertices g1)) (map fst (ug_vertices g2)).
Proof. intros I1 I2 A. apply NoDup_Permutation; [apply (i_nd3 _ I1)|apply (i_nd3 _ I2)|apply (alike_keys _ _ A)]. Qed.
