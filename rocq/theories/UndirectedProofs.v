From Coq Require Import String List Bool Arith QArith Qcanon Lia Permutation.
From Verif Require Import Py QcTac UndirectedModel UndirectedSpec.
Import ListNotations.
Open Scope nat_scope.
Open Scope string_scope.
Open Scope list_scope.

Notation eqs := String.eqb_spec.
Notation sget := (dget String.eqb).

Lemma eqe_spec a b : reflect (a = b) (eqe a b).
Proof.
  destruct a as [a1 a2], b as [b1 b2]. unfold eqe; simpl.
  destruct (eqs a1 b1), (eqs a2 b2); simpl; constructor; congruence.
Qed.

Lemma mem_spec x s : reflect (In x s) (mem x s).
Proof.
  apply iff_reflect. unfold mem. rewrite existsb_exists. split.
  - intros H. exists x. split; auto. apply String.eqb_refl.
  - intros (y & Hy & E). apply String.eqb_eq in E. now subst.
Qed.

Lemma set_add_In x y s : In y (set_add x s) <-> y = x \/ In y s.
Proof.
  unfold set_add. destruct (mem_spec x s).
  - intuition. now subst.
  - rewrite in_app_iff. simpl. intuition.
Qed.
Lemma set_add_NoDup x s : NoDup s -> NoDup (set_add x s).
Proof. unfold set_add. destruct (mem_spec x s); auto. intros. now apply NoDup_snoc. Qed.

Lemma compare_refl s : String.compare s s = Eq.
Proof. 
  pose proof (String.compare_antisym s s). destruct (String.compare s s); simpl in *; congruence.
Qed.
Lemma compare_ne a b : a <> b -> String.compare a b = Lt \/ String.compare b a = Lt.
Proof.
  intros H. rewrite (String.compare_antisym b a). destruct (String.compare a b) eqn:E; auto.
  apply String.compare_eq_iff in E. congruence.
Qed.
Lemma sorted2_swap a b : sorted2 (a, b) = sorted2 (b, a).
Proof.
  unfold sorted2; simpl. rewrite (String.compare_antisym b a).
  destruct (String.compare a b) eqn:E; simpl; auto.
  apply String.compare_eq_iff in E. now subst.
Qed.
Lemma sorted2_cases e : sorted2 e = e \/ sorted2 e = (snd e, fst e).
Proof. unfold sorted2. destruct (String.compare (fst e) (snd e)); auto. Qed.
Lemma sorted2_lt a b : String.compare a b = Lt -> sorted2 (a, b) = (a, b).
Proof. unfold sorted2; simpl. now intros ->. Qed.
Lemma sorted2_is_lt e : fst e <> snd e -> String.compare (fst (sorted2 e)) (snd (sorted2 e)) = Lt.
Proof.
  intros H. unfold sorted2. destruct (String.compare (fst e) (snd e)) eqn:E; simpl; auto.
  - apply String.compare_eq_iff in E. congruence.
  - rewrite String.compare_antisym, E. reflexivity.
Qed.
Lemma sorted2_idem e : sorted2 (sorted2 e) = sorted2 e.
Proof.
  destruct e as [a b]. destruct (sorted2_cases (a, b)) as [H|H]; rewrite H; auto.
  simpl. rewrite <- sorted2_swap. exact H.
Qed.

(** dictionary membership, both ways *)
Section D.
  Context {K V : Type} (eqk : K -> K -> bool) (eqk_spec : forall a b, reflect (a = b) (eqk a b)).
  Lemma key_get (d : list (K * V)) k : In k (dkeys d) -> exists v, dget eqk k d = Some v.
  Proof. intros H. apply (dget_keys _ eqk_spec) in H. destruct (dget eqk k d); eauto; congruence. Qed.
  Lemma get_key (d : list (K * V)) k v : dget eqk k d = Some v -> In k (dkeys d).
  Proof. intros H. apply (dget_keys _ eqk_spec). congruence. Qed.
  Lemma key_In (d : list (K * V)) k : In k (dkeys d) <-> exists v, In (k, v) d.
  Proof.
    unfold dkeys. rewrite in_map_iff. split.
    - intros ([k' v] & <- & H). eauto.
    - intros [v H]. exists (k, v). auto.
  Qed.
End D.

(** adjacency read through [dget] *)
Definition adjg (d : list (string * list string)) (u v : string) : Prop :=
  exists s, sget u d = Some s /\ In v s.

Lemma adjg_adjacent d u v : NoDup (dkeys d) -> (adjg d u v <-> adjacent d u v).
Proof.
  intros H. unfold adjg, adjacent. split; intros (s & H1 & H2); exists s; split; auto.
  - now apply (dget_In _ eqs).
  - now apply (In_dget _ eqs).
Qed.

Lemma adjg_add d u v x y : adjg (adj_add u v d) x y <-> adjg d x y \/ (x = u /\ y = v).
Proof.
  unfold adjg, adj_add. rewrite (dget_dset _ eqs). destruct (eqs x u) as [->|Hne].
  - split.
    + intros (s & E & Hy). inversion E; subst. apply set_add_In in Hy.
      destruct Hy as [->|Hy]; auto. destruct (sget u d); eauto. destruct Hy.
    + intros H. eexists. split; [reflexivity|]. apply set_add_In.
      destruct H as [(s & E & Hy)|[_ ->]]; auto. rewrite E. auto.
  - intuition congruence.
Qed.

Lemma adj_add_keys d u v x : In x (dkeys (adj_add u v d)) <-> x = u \/ In x (dkeys d).
Proof.
  unfold adj_add. rewrite (dkeys_dset _ eqs).
  destruct (dmem String.eqb u d) eqn:E.
  - apply (dmem_keys _ eqs) in E. intuition. now subst.
  - rewrite in_app_iff. simpl. intuition.
Qed.

Record inv (g : ugraph) : Prop := {
  i_nd1 : NoDup (dkeys (ug_graph g));
  i_nd2 : NoDup (dkeys (ug_edges g));
  i_nd3 : NoDup (dkeys (ug_vertices g));
  i_sets : forall u s, sget u (ug_graph g) = Some s -> NoDup s;
  i_sym : forall u v, adjg (ug_graph g) u v -> adjg (ug_graph g) v u;
  i_rec : forall u v, adjg (ug_graph g) u v -> In (sorted2 (u, v)) (dkeys (ug_edges g));
  i_edge : forall u v, In (u, v) (dkeys (ug_edges g)) ->
     String.compare u v = Lt /\ u <> "" /\ v <> "" /\
     In u (dkeys (ug_vertices g)) /\ In v (dkeys (ug_vertices g));
  i_dom : forall v, In v (dkeys (ug_graph g)) <-> In v (dkeys (ug_vertices g)) }.

Definition full (g : ugraph) : Prop :=
  forall u v, In (u, v) (dkeys (ug_edges g)) -> adjg (ug_graph g) u v.

Lemma inv_empty : inv empty_graph.
Proof.
  constructor; simpl; try constructor; try (intros; tauto); try (intros; discriminate).
  - intros u v (s & H & _). discriminate.
  - intros u v (s & H & _). discriminate.
Qed.
Lemma full_empty : full empty_graph.
Proof. intros u v []. Qed.

Lemma has_edge_spec g e : reflect (In (sorted2 e) (dkeys (ug_edges g))) (has_edge g e).
Proof. apply iff_reflect. unfold has_edge. now rewrite (dmem_keys _ eqe_spec). Qed.
Lemma has_vertex_spec g v : reflect (In v (dkeys (ug_vertices g))) (has_vertex g v).
Proof. apply iff_reflect. unfold has_vertex. now rewrite (dmem_keys _ eqs). Qed.

Lemma dsetdefault_keys {K V} eqk (Hs : forall a b : K, reflect (a = b) (eqk a b)) (d : list (K * V)) k v x :
  In x (dkeys (dsetdefault eqk k v d)) <-> x = k \/ In x (dkeys d).
Proof.
  rewrite (dkeys_dsetdefault eqk). destruct (dmem eqk k d) eqn:E.
  - apply (dmem_keys _ Hs) in E. intuition. now subst.
  - rewrite in_app_iff. simpl. intuition.
Qed.
Lemma dset_keys {K V} eqk (Hs : forall a b : K, reflect (a = b) (eqk a b)) (d : list (K * V)) k v x :
  In x (dkeys (dset eqk k v d)) <-> x = k \/ In x (dkeys d).
Proof.
  rewrite (dkeys_dset _ Hs). destruct (dmem eqk k d) eqn:E.
  - apply (dmem_keys _ Hs) in E. intuition. now subst.
  - rewrite in_app_iff. simpl. intuition.
Qed.

Lemma adj_add_sets d u v : (forall x s, sget x d = Some s -> NoDup s) ->
  forall x s, sget x (adj_add u v d) = Some s -> NoDup s.
Proof.
  intros H x s. unfold adj_add. rewrite (dget_dset _ eqs). destruct (String.eqb x u); [|apply H].
  intros E; inversion E; subst. apply set_add_NoDup. destruct (sget u d) eqn:Eu; [eauto|constructor].
Qed.

Lemma add_edge_raise g e w : snd (add_edge g e w) <> Ok tt -> fst (add_edge g e w) = g.
Proof.
  unfold add_edge. destruct (qlt w 0); auto. destruct (String.eqb _ _); auto.
  destruct (_ || _); auto. destruct (has_edge g _); auto. simpl. congruence.
Qed.

Lemma add_edge_inv g e w : inv g -> inv (fst (add_edge g e w)) /\ (full g -> full (fst (add_edge g e w))).
Proof.
  intros I. unfold add_edge. destruct (qlt w 0); [auto|].
  destruct (eqs (fst e) (snd e)) as [|Hne]; [auto|].
  destruct (eqs (fst e) "") as [|He1]; [auto|]. destruct (eqs (snd e) "") as [|He2]; [auto|]. simpl orb.
  destruct (has_edge_spec g (sorted2 e)) as [|Hnew]; [auto|].
  rewrite sorted2_idem in Hnew.
  pose proof (sorted2_is_lt e Hne) as Hlt.
  assert (Hn1 : fst (sorted2 e) <> "") by (destruct (sorted2_cases e) as [->| ->]; auto).
  assert (Hn2 : snd (sorted2 e) <> "") by (destruct (sorted2_cases e) as [->| ->]; auto).
  destruct (sorted2 e) as [a b]. simpl in *.
  cbn [fst snd ug_graph ug_edges ug_vertices].
  split.
  - constructor; cbn [fst snd ug_graph ug_edges ug_vertices].
    + unfold adj_add. apply (NoDup_dset _ eqs). apply (NoDup_dset _ eqs). apply I.
    + apply (NoDup_dsetdefault _ eqe_spec). apply I.
    + apply (NoDup_dsetdefault _ eqs). apply (NoDup_dsetdefault _ eqs). apply I.
    + apply adj_add_sets, adj_add_sets, I.
    + intros u v. rewrite !adjg_add. intros [[H|[-> ->]]|[-> ->]]; auto.
      left; left; now apply (i_sym _ I).
    + intros u v. rewrite !adjg_add, (dsetdefault_keys _ eqe_spec).
      intros [[H|[-> ->]]|[-> ->]].
      * right. now apply (i_rec _ I).
      * left. now apply sorted2_lt.
      * left. rewrite sorted2_swap. now apply sorted2_lt.
    + intros u v. rewrite (dsetdefault_keys _ eqe_spec), !(dsetdefault_keys _ eqs).
      intros [E|H].
      * inversion E; subst. auto 10.
      * apply (i_edge _ I) in H. intuition.
    + intros v. rewrite !adj_add_keys, !(dsetdefault_keys _ eqs), (i_dom _ I). tauto.
  - intros F u v. cbn [fst snd ug_graph ug_edges ug_vertices].
    rewrite (dsetdefault_keys _ eqe_spec), !adjg_add.
    intros [E|H]; [inversion E; subst; auto|]. left; left; now apply F.
Qed.

Lemma set_remove_spec x s s' : set_remove x s = Ok s' -> In x s /\ (forall y, In y s' <-> In y s /\ y <> x) /\ (NoDup s -> NoDup s').
Proof.
  unfold set_remove. destruct (mem_spec x s); [|discriminate]. intros E; inversion E; subst.
  split; auto. split.
  - intros y. rewrite filter_In. destruct (eqs x y); simpl; intuition congruence.
  - apply NoDup_filter.
Qed.

Lemma adj_remove_ok g u v g' : adj_remove u v g = (g', Ok tt) ->
  adjg (ug_graph g) u v /\
  (forall x y, adjg (ug_graph g') x y <-> adjg (ug_graph g) x y /\ ~ (x = u /\ y = v)) /\
  dkeys (ug_graph g') = dkeys (ug_graph g) /\
  ug_edges g' = ug_edges g /\ ug_vertices g' = ug_vertices g /\
  ((forall x s, sget x (ug_graph g) = Some s -> NoDup s) -> forall x s, sget x (ug_graph g') = Some s -> NoDup s).
Proof.
  unfold adj_remove. destruct (sget u (ug_graph g)) as [s|] eqn:Eu; [|discriminate].
  destruct (set_remove v s) as [s'|x|] eqn:Er; try discriminate.
  intros E; inversion E; subst; clear E. simpl.
  destruct (set_remove_spec _ _ _ Er) as (H1 & H2 & H3).
  split; [exists s; auto|]. split.
  - intros x y. unfold adjg. rewrite (dget_dset _ eqs). destruct (eqs x u) as [->|Hne].
    + split.
      * intros (t & Et & Hy). inversion Et; subst. apply H2 in Hy. split; [exists s; tauto|intuition].
      * intros [(t & Et & Hy) Hn]. exists s'. split; auto. apply H2. rewrite Eu in Et.
        inversion Et; subst. split; auto.
    + split; [intros H; split; [exact H|intuition congruence]|tauto].
  - split.
    + rewrite (dkeys_dset _ eqs). assert (dmem String.eqb u (ug_graph g) = true) as ->; auto.
      unfold dmem. now rewrite Eu.
    + repeat split; auto. intros Hs x t. rewrite (dget_dset _ eqs). destruct (eqs x u) as [->|].
      * intros Et; inversion Et; subst. apply H3. eauto.
      * apply Hs.
Qed.

Lemma adj_remove_can g u v : adjg (ug_graph g) u v -> exists g', adj_remove u v g = (g', Ok tt).
Proof.
  intros (s & E & H). unfold adj_remove. rewrite E. unfold set_remove.
  destruct (mem_spec v s); [|tauto]. eauto.
Qed.

Lemma adj_remove_cases g u v : (exists g', adj_remove u v g = (g', Ok tt)) \/ 
  (exists x, adj_remove u v g = (g, Raise x) /\ x = KeyError).
Proof.
  unfold adj_remove, set_remove. destruct (sget u (ug_graph g)); [|eauto].
  destruct (mem v l); eauto.
Qed.

(** what a remove_edge call does *)
Lemma remove_edge_cases g e : inv g ->
  (~ In (sorted2 e) (dkeys (ug_edges g)) /\ remove_edge g e = (g, Raise ValueError)) \/
  (In (sorted2 e) (dkeys (ug_edges g)) /\ ~ adjg (ug_graph g) (fst e) (snd e) /\ remove_edge g e = (g, Raise KeyError)) \/
  (In (sorted2 e) (dkeys (ug_edges g)) /\ adjg (ug_graph g) (fst e) (snd e) /\
   exists g', remove_edge g e = (g', Ok tt) /\
     (forall x y, adjg (ug_graph g') x y <->
        adjg (ug_graph g) x y /\ ~ (x = fst e /\ y = snd e) /\ ~ (x = snd e /\ y = fst e)) /\
     dkeys (ug_graph g') = dkeys (ug_graph g) /\
     ug_edges g' = ug_edges g /\ ug_vertices g' = ug_vertices g /\
     (forall x s, sget x (ug_graph g') = Some s -> NoDup s)).
Proof.
  intros I. unfold remove_edge. destruct (has_edge_spec g e) as [He|He]; simpl; [right|left; auto].
  destruct (adj_remove_cases g (fst e) (snd e)) as [[g1 E1]|[x [E1 Hx]]]; rewrite E1.
  - right. split; auto.
    destruct (adj_remove_ok _ _ _ _ E1) as (A1 & A2 & A3 & A4 & A5 & A6). split; auto.
    assert (Hne : fst e <> snd e).
    { intros Heq. destruct e as [a b]. simpl in *. subst b.
      assert (Hs : sorted2 (a, a) = (a, a)) by (unfold sorted2; simpl; now rewrite compare_refl).
      rewrite Hs in He. apply (i_edge _ I) in He. rewrite compare_refl in He. intuition discriminate. }
    assert (Hadj : adjg (ug_graph g1) (snd e) (fst e)).
    { apply A2. split; [now apply (i_sym _ I)|]. intros [? ?]. congruence. }
    destruct (adj_remove_can _ _ _ Hadj) as [g2 E2]. rewrite E2. exists g2. split; auto.
    destruct (adj_remove_ok _ _ _ _ E2) as (B1 & B2 & B3 & B4 & B5 & B6).
    split; [|split; [congruence|split; [congruence|split; [congruence|]]]].
    + intros x y. rewrite B2, A2. tauto.
    + apply B6, A6, I.
  - left. split; auto. split; [|now subst].
    intros Ha. destruct (adj_remove_can _ _ _ Ha) as [g' E']. congruence.
Qed.

Lemma remove_edge_inv g e : inv g -> inv (fst (remove_edge g e)).
Proof.
  intros I. destruct (remove_edge_cases g e I) as [[_ ->]|[(_ & _ & ->)|(He & Ha & g' & -> & B1 & B2 & B3 & B4 & B5)]]; auto.
  simpl. destruct I. constructor; rewrite ?B2, ?B3, ?B4; auto.
  - intros u v. rewrite !B1. intros (H1 & H2 & H3). split; [auto|]. tauto.
  - intros u v. rewrite B1. intros [H _]. auto.
Qed.

Lemma remove_edge_raise g e : inv g -> snd (remove_edge g e) <> Ok tt -> fst (remove_edge g e) = g.
Proof.
  intros I. destruct (remove_edge_cases g e I) as [[_ ->]|[(_ & _ & ->)|(He & Ha & g' & -> & _)]]; auto.
  simpl. congruence.
Qed.

Lemma add_vertex_inv g v w : inv g -> inv (fst (add_vertex g v w)) /\ (full g -> full (fst (add_vertex g v w))).
Proof.
  intros I. unfold add_vertex. destruct (qlt w 0); auto. destruct (has_vertex_spec g v) as [|Hv]; auto.
  cbn [fst]. 
  assert (Hadj : forall x y, adjg (dsetdefault String.eqb v [] (ug_graph g)) x y <-> adjg (ug_graph g) x y).
  { intros x y. unfold adjg. rewrite (dget_dsetdefault _ eqs).
    destruct (sget x (ug_graph g)) eqn:E; [tauto|].
    destruct (eqs x v); split; intros (s & Es & Hy); inversion Es; subst; destruct Hy. }
  split.
  - constructor; cbn [fst snd ug_graph ug_edges ug_vertices].
    + apply (NoDup_dsetdefault _ eqs), I.
    + apply I.
    + apply (NoDup_dsetdefault _ eqs), I.
    + intros u s. rewrite (dget_dsetdefault _ eqs). destruct (sget u (ug_graph g)) eqn:E.
      * intros E'; inversion E'; subst. eapply i_sets; eauto.
      * destruct (String.eqb u v); intros E'; inversion E'; constructor.
    + intros x y. rewrite !Hadj. apply I.
    + intros x y. rewrite !Hadj. apply I.
    + intros x y H. apply (i_edge _ I) in H. rewrite !(dsetdefault_keys _ eqs). intuition.
    + intros x. rewrite !(dsetdefault_keys _ eqs), (i_dom _ I). tauto.
  - intros F x y. cbn [fst snd ug_graph ug_edges ug_vertices]. rewrite Hadj. apply F.
Qed.
Lemma add_vertex_raise g v w : snd (add_vertex g v w) <> Ok tt -> fst (add_vertex g v w) = g.
Proof.
  unfold add_vertex. destruct (qlt w 0); auto. destruct (has_vertex g v); auto. simpl; congruence.
Qed.

Lemma dset_same_keys {K V} eqk (Hs : forall a b : K, reflect (a = b) (eqk a b)) (d : list (K * V)) k v :
  In k (dkeys d) -> dkeys (dset eqk k v d) = dkeys d.
Proof. intros H. rewrite (dkeys_dset _ Hs). apply (dmem_keys _ Hs) in H. now rewrite H. Qed.

Lemma set_edge_weight_inv g e w : inv g ->
  inv (fst (set_edge_weight g e w)) /\ (full g -> full (fst (set_edge_weight g e w))).
Proof.
  intros I. unfold set_edge_weight. destruct (has_edge_spec g e) as [He|]; simpl; auto.
  pose proof (dset_same_keys eqe eqe_spec _ _ w He) as Hk.
  split.
  - destruct I. constructor; cbn [ug_graph ug_edges ug_vertices]; rewrite ?Hk; auto.
  - unfold full. cbn [ug_graph ug_edges ug_vertices]. now rewrite Hk.
Qed.
Lemma set_edge_weight_raise g e w : snd (set_edge_weight g e w) <> Ok tt -> fst (set_edge_weight g e w) = g.
Proof. unfold set_edge_weight. destruct (has_edge g e); simpl; congruence. Qed.

Lemma set_vertex_weight_inv g e w : inv g ->
  inv (fst (set_vertex_weight g e w)) /\ (full g -> full (fst (set_vertex_weight g e w))).
Proof.
  intros I. unfold set_vertex_weight. destruct (has_vertex_spec g e) as [He|]; simpl; auto.
  pose proof (dset_same_keys String.eqb eqs _ _ w He) as Hk.
  split.
  - destruct I. constructor; cbn [ug_graph ug_edges ug_vertices]; rewrite ?Hk; auto.
  - unfold full. auto.
Qed.
Lemma set_vertex_weight_raise g e w : snd (set_vertex_weight g e w) <> Ok tt -> fst (set_vertex_weight g e w) = g.
Proof. unfold set_vertex_weight. destruct (has_vertex g e); simpl; congruence. Qed.

Lemma ustep_inv g o : inv g -> inv (fst (ustep g o)).
Proof.
  intros I. destruct o; simpl.
  - now apply add_edge_inv.
  - now apply remove_edge_inv.
  - now apply add_vertex_inv.
  - now apply set_edge_weight_inv.
  - now apply set_vertex_weight_inv.
Qed.
Lemma ustep_raise g o : inv g -> snd (ustep g o) <> Ok tt -> fst (ustep g o) = g.
Proof.
  intros I. destruct o; simpl.
  - now apply add_edge_raise.
  - now apply remove_edge_raise.
  - now apply add_vertex_raise.
  - now apply set_edge_weight_raise.
  - now apply set_vertex_weight_raise.
Qed.
Definition no_removal (h : list uop) : Prop := forall e, ~ In (RemoveEdge e) h.
Lemma ustep_full g o : inv g -> full g -> (forall e, o <> RemoveEdge e) -> full (fst (ustep g o)).
Proof.
  intros I F Hn. destruct o; simpl.
  - now apply add_edge_inv.
  - now contradiction (Hn e).
  - now apply add_vertex_inv.
  - now apply set_edge_weight_inv.
  - now apply set_vertex_weight_inv.
Qed.
Lemma urun_inv h : forall g, inv g -> inv (urun g h).
Proof. induction h as [|o h IH]; simpl; auto. intros g I. apply IH. now apply ustep_inv. Qed.
Lemma urun_full h : forall g, inv g -> full g -> no_removal h -> full (urun g h).
Proof.
  induction h as [|o h IH]; simpl; auto. intros g I F Hn. apply IH.
  - now apply ustep_inv.
  - apply ustep_full; auto. intros e ->. apply (Hn e). now left.
  - intros e He. apply (Hn e). now right.
Qed.

(** the constructor *)
Definition goodr (r : res ugraph) : Prop := match r with Ok g => inv g /\ full g | _ => True end.
Lemma call_good f r : goodr r -> (forall g, inv g -> full g -> inv (fst (f g)) /\ full (fst (f g))) -> goodr (call f r).
Proof.
  intros H Hf. destruct r as [g| |]; simpl in *; auto. destruct H as [I F].
  destruct (f g) as [g' [[]| |]] eqn:E; simpl; auto. specialize (Hf g I F). now rewrite E in Hf.
Qed.
Lemma fold_good {A} (step : res ugraph -> A -> res ugraph) (l : list A) :
  (forall r a, goodr r -> goodr (step r a)) -> forall r, goodr r -> goodr (fold_left step l r).
Proof. intros H. induction l as [|a l IH]; simpl; auto. Qed.

Lemma construct_good gr es vs : goodr (construct gr es vs).
Proof.
  unfold construct, init_vertices, init_edges, init_graph.
  repeat (apply fold_good; [intros|]).
  - repeat apply call_good; auto; intros g I F.
    + destruct (has_vertex g (fst a)); auto. split; [now apply add_vertex_inv|now apply add_vertex_inv].
    + split; now apply set_vertex_weight_inv.
  - repeat apply call_good; auto; intros g I F.
    + destruct (has_edge g (fst a)); auto. split; now apply add_edge_inv.
    + split; now apply set_edge_weight_inv.
  - destruct (snd a) as [|c cs] eqn:Ea.
    + apply call_good; auto. intros g I F.
      destruct (has_vertex g (fst a)); auto. split; now apply add_vertex_inv.
    + apply fold_good; auto. intros r' c' H'. apply call_good; auto. intros g I F.
      destruct (has_edge g _); auto. split; now apply add_edge_inv.
  - split; [apply inv_empty|apply full_empty].
Qed.

Definition reach (g : ugraph) : Prop :=
  exists gr es vs g0 h, construct gr es vs = Ok g0 /\ g = urun g0 h.

Lemma reach_inv g : reach g -> inv g.
Proof.
  intros (gr & es & vs & g0 & h & H & ->). apply urun_inv.
  pose proof (construct_good gr es vs) as G. rewrite H in G. apply G.
Qed.
Lemma construct_full gr es vs g0 h : construct gr es vs = Ok g0 -> no_removal h -> full (urun g0 h).
Proof.
  intros H Hn. pose proof (construct_good gr es vs) as G. rewrite H in G.
  apply urun_full; auto; apply G.
Qed.

(** to the specification vocabulary *)
Lemma is_edge_keys g u v : inv g ->
  (is_edge (ug_edges g) u v <-> In (sorted2 (u, v)) (dkeys (ug_edges g))).
Proof.
  intros I. unfold is_edge. rewrite <- !key_In. split.
  - intros [H|H].
    + now rewrite (sorted2_lt u v) by apply (i_edge _ I _ _ H).
    + rewrite sorted2_swap. now rewrite (sorted2_lt v u) by apply (i_edge _ I _ _ H).
  - intros H. destruct (sorted2_cases (u, v)) as [E|E]; rewrite E in H; auto.
Qed.

Lemma inv_weak g : inv g -> weakly_consistent (ug_graph g) (ug_edges g) (ug_vertices g).
Proof.
  intros I.
  assert (Hadj : forall u v, adjacent (ug_graph g) u v <-> adjg (ug_graph g) u v).
  { intros. symmetry. apply adjg_adjacent, I. }
  assert (He : forall u v w, In ((u, v), w) (ug_edges g) -> In (u, v) (dkeys (ug_edges g))).
  { intros. apply key_In. eauto. }
  constructor.
  - repeat split; apply I.
  - intros u s H. apply (i_sets _ I u). apply (In_dget _ eqs); auto. apply I.
  - intros u v. rewrite !Hadj. apply I.
  - intros u v. rewrite Hadj, (is_edge_keys _ _ _ I). apply I.
  - intros u v w H. apply He in H. now apply (i_edge _ I) in H.
  - intros u v w H. apply He in H. apply (i_edge _ I) in H. tauto.
  - intros u v w H. apply He in H. apply (i_edge _ I) in H. unfold is_vertex. rewrite <- !key_In. tauto.
  - intros v. unfold is_vertex. rewrite <- key_In. apply I.
Qed.

Lemma full_consistent g : inv g -> full g -> consistent (ug_graph g) (ug_edges g) (ug_vertices g).
Proof.
  intros I F. split; [now apply inv_weak|]. intros u v. unfold is_edge. rewrite <- !key_In.
  rewrite <- adjg_adjacent by apply I. intros [H|H]; [now apply F|]. apply (i_sym _ I). now apply F.
Qed.

(** C10 *)
Lemma edge_order g u v w :
  has_edge g (u, v) = has_edge g (v, u) /\ get_edge_weight g (u, v) = get_edge_weight g (v, u) /\
  set_edge_weight g (u, v) w = set_edge_weight g (v, u) w.
Proof.
  unfold has_edge, get_edge_weight, set_edge_weight, has_edge. now rewrite (sorted2_swap u v).
Qed.

Definition reads_edge g e := get_edge_weight g e.
Lemma set_edge_frame g e w g' : set_edge_weight g e w = (g', Ok tt) ->
  get_edge_weight g' e = Ok w /\
  (forall e', sorted2 e' <> sorted2 e -> get_edge_weight g' e' = get_edge_weight g e') /\
  (forall e', has_edge g' e' = has_edge g e') /\
  (forall v, get_vertex_weight g' v = get_vertex_weight g v) /\
  ug_graph g' = ug_graph g.
Proof.
  unfold set_edge_weight. destruct (has_edge_spec g e) as [He|]; simpl; [|discriminate].
  intros E; inversion E; subst; clear E.
  assert (Hh : forall e', has_edge (mkug (ug_graph g) (dset eqe (sorted2 e) w (ug_edges g)) (ug_vertices g)) e' = has_edge g e').
  { intros e'. unfold has_edge, dmem. simpl. rewrite (dget_dset _ eqe_spec).
    destruct (eqe_spec (sorted2 e') (sorted2 e)) as [->|]; auto.
    apply (dget_keys _ eqe_spec) in He. destruct (dget eqe (sorted2 e) (ug_edges g)); congruence. }
  split; [|split; [|split; [exact Hh|split; auto]]].
  - unfold get_edge_weight. rewrite Hh. destruct (has_edge_spec g e); [|tauto]. simpl.
    now rewrite (dget_dset_eq _ eqe_spec).
  - intros e' Hne. unfold get_edge_weight. rewrite Hh. simpl. now rewrite (dget_dset_ne _ eqe_spec).
Qed.

Lemma add_edge_frame g e w g' : inv g -> add_edge g e w = (g', Ok tt) ->
  get_edge_weight g e = Raise ValueError /\
  get_edge_weight g' e = Ok w /\
  (forall e', sorted2 e' <> sorted2 e -> get_edge_weight g' e' = get_edge_weight g e') /\
  (forall v x, get_vertex_weight g v = Ok x -> get_vertex_weight g' v = Ok x) /\
  (forall v, has_vertex g' v = true <-> has_vertex g v = true \/ v = fst e \/ v = snd e) /\
  (forall v, has_vertex g v = false -> v = fst e \/ v = snd e -> get_vertex_weight g' v = Ok 0%Qc).
Proof.
  intros I. unfold add_edge. destruct (qlt w 0); [discriminate|].
  destruct (eqs (fst e) (snd e)) as [|Hne]; [discriminate|].
  destruct (eqs (fst e) ""); [discriminate|]. destruct (eqs (snd e) ""); [discriminate|]. simpl orb.
  cbv iota. destruct (has_edge_spec g (sorted2 e)) as [|Hnew]; [discriminate|].
  rewrite sorted2_idem in Hnew. 
  assert (Hse : forall v, v = fst e \/ v = snd e <-> v = fst (sorted2 e) \/ v = snd (sorted2 e)).
  { intros v. destruct (sorted2_cases e) as [->| ->]; simpl; tauto. }
  assert (Hidem := sorted2_idem e).
  assert (Hge : get_edge_weight g e = Raise ValueError).
  { unfold get_edge_weight. destruct (has_edge_spec g e); [tauto|auto]. }
  set (se := sorted2 e) in *. intros E; inversion E; subst g'; clear E.
  set (g' := mkug _ _ _).
  assert (Hk : forall e', In e' (dkeys (ug_edges g')) <-> e' = se \/ In e' (dkeys (ug_edges g))).
  { intros e'. apply (dsetdefault_keys _ eqe_spec). }
  assert (Hkv : forall v, In v (dkeys (ug_vertices g')) <-> v = snd se \/ v = fst se \/ In v (dkeys (ug_vertices g))).
  { intros v. unfold g'; cbn [ug_vertices]. now rewrite !(dsetdefault_keys _ eqs). }
  split; [auto|]. split.
  - unfold get_edge_weight. destruct (has_edge_spec g' e) as [|Hx]; [|exfalso; apply Hx, Hk; now left].
    unfold g'; simpl. rewrite (dget_dsetdefault _ eqe_spec).
    apply (dget_None _ eqe_spec) in Hnew. fold se. rewrite Hnew. destruct (eqe_spec se se); congruence.
  - split; [|split; [|split]].
    + intros e' Hne'. unfold get_edge_weight.
      destruct (has_edge_spec g' e') as [H1|H1], (has_edge_spec g e') as [H2|H2]; auto.
      * unfold g'; simpl. rewrite (dget_dsetdefault _ eqe_spec).
        destruct (dget eqe (sorted2 e') (ug_edges g)); auto.
        destruct (eqe_spec (sorted2 e') se); congruence.
      * apply Hk in H1. tauto.
      * exfalso. apply H1, Hk. now right.
    + intros v x. unfold get_vertex_weight. destruct (has_vertex_spec g v) as [Hv|]; [|discriminate].
      destruct (has_vertex_spec g' v) as [Hv'|Hv']; [|exfalso; apply Hv', Hkv; auto].
      unfold g'; simpl. rewrite !(dget_dsetdefault _ eqs). destruct (sget v (ug_vertices g)); auto. discriminate.
    + intros v. destruct (has_vertex_spec g' v) as [H1|H1], (has_vertex_spec g v) as [H2|H2];
        rewrite Hkv in H1; rewrite Hse; intuition discriminate.
    + intros v Hv Hv'. apply Hse in Hv'. unfold get_vertex_weight.
      destruct (has_vertex_spec g' v) as [H1|H1]; [|rewrite Hkv in H1; tauto]. simpl.
      destruct (has_vertex_spec g v) as [|Hn]; [discriminate|]. apply (dget_None _ eqs) in Hn.
      rewrite !(dget_dsetdefault _ eqs). rewrite Hn.
      destruct (eqs v (fst se)); auto. destruct (eqs v (snd se)); auto. tauto.
Qed.

Lemma vertex_frame g v w g' : 
  (set_vertex_weight g v w = (g', Ok tt) \/ add_vertex g v w = (g', Ok tt)) ->
  get_vertex_weight g' v = Ok w /\
  (forall v', v' <> v -> get_vertex_weight g' v' = get_vertex_weight g v') /\
  (forall e, has_edge g' e = has_edge g e /\ get_edge_weight g' e = get_edge_weight g e).
Proof.
  intros [H|H].
  - unfold set_vertex_weight in H. destruct (has_vertex_spec g v) as [Hv|]; simpl in H; [|discriminate].
    inversion H; subst; clear H. split; [|split; auto].
    + unfold get_vertex_weight, has_vertex, dmem; simpl. now rewrite (dget_dset_eq _ eqs).
    + intros v' Hne. unfold get_vertex_weight, has_vertex, dmem; simpl. now rewrite (dget_dset_ne _ eqs).
  - unfold add_vertex in H. destruct (qlt w 0); [discriminate|].
    destruct (has_vertex_spec g v) as [|Hv]; [discriminate|]. inversion H; subst; clear H.
    apply (dget_None _ eqs) in Hv.
    split; [|split; auto].
    + unfold get_vertex_weight, has_vertex, dmem; simpl. rewrite (dget_dsetdefault _ eqs), Hv, String.eqb_refl. auto.
    + intros v' Hne. unfold get_vertex_weight, has_vertex, dmem; simpl. rewrite (dget_dsetdefault _ eqs).
      destruct (sget v' (ug_vertices g)); auto. destruct (eqs v' v); congruence.
Qed.

(** C11 *)
Lemma cut_set_spec g S e : In e (cut_set g S) <->
  In e (dkeys (ug_edges g)) /\ ((In (fst e) S /\ ~ In (snd e) S) \/ (In (snd e) S /\ ~ In (fst e) S)).
Proof.
  unfold cut_set. rewrite filter_In.
  destruct (mem_spec (fst e) S), (mem_spec (snd e) S); simpl; intuition discriminate.
Qed.
Lemma cut_set_NoDup g S : inv g -> NoDup (cut_set g S).
Proof. intros I. apply NoDup_filter, I. Qed.
Lemma cut_complement g S S' : inv g ->
  (forall v, In v (dkeys (ug_vertices g)) -> (In v S' <-> ~ In v S)) -> cut_set g S = cut_set g S'.
Proof.
  intros I H. unfold cut_set. apply filter_ext_in. intros [a b] He.
  apply (i_edge _ I) in He. destruct He as (_ & _ & _ & Ha & Hb). simpl.
  apply H in Ha, Hb.
  destruct (mem_spec a S), (mem_spec b S), (mem_spec a S'), (mem_spec b S'); simpl; auto; tauto.
Qed.
Lemma chars_single c : chars (String c "") = [String c ""].
Proof. reflexivity. Qed.
