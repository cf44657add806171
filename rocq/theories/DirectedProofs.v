From Coq Require Import String List Bool Arith QArith Qcanon Lia Permutation.
From Verif Require Import Py QcTac UndirectedModel UndirectedSpec UndirectedProofs DirectedModel DirectedSpec.
Import ListNotations.
Open Scope nat_scope.
Open Scope string_scope.
Open Scope list_scope.

Record dinv (g : digraph) : Prop := {
  d_nd1 : NoDup (dkeys (dg_graph g));
  d_nd2 : NoDup (dkeys (dg_arcs g));
  d_nd3 : NoDup (dkeys (dg_nodes g));
  d_sets : forall u s, sget u (dg_graph g) = Some s -> NoDup s;
  d_adj : forall u v, adjg (dg_graph g) u v <-> In (u, v) (dkeys (dg_arcs g));
  d_arc : forall u v, In (u, v) (dkeys (dg_arcs g)) ->
     u <> v /\ In u (dkeys (dg_nodes g)) /\ In v (dkeys (dg_nodes g));
  d_dom : forall v, In v (dkeys (dg_graph g)) <-> In v (dkeys (dg_nodes g)) }.

Lemma dinv_empty : dinv empty_digraph.
Proof.
  constructor; simpl; try constructor; try (intros; tauto); try (intros; discriminate).
  intros (s & H & _). discriminate.
Qed.
Lemma has_arc_spec g a : reflect (In a (dkeys (dg_arcs g))) (has_arc g a).
Proof. apply iff_reflect. unfold has_arc. now rewrite (dmem_keys _ eqe_spec). Qed.
Lemma has_node_spec g v : reflect (In v (dkeys (dg_nodes g))) (has_node g v).
Proof. apply iff_reflect. unfold has_node. now rewrite (dmem_keys _ eqs). Qed.

Lemma chars_short v : short v -> chars v = [v].
Proof.
  destruct v as [|c [|c' v]]; unfold short; simpl; intros H; try discriminate. reflexivity.
Qed.

(** the digraph with the arc recorded but its nodes not yet *)
Definition half (g : digraph) (a : arc) (w : Qc) : digraph :=
  mkdg (adj_add (fst a) (snd a) (dg_graph g)) (dsetdefault eqe a w (dg_arcs g)) (dg_nodes g).
Definition put_node (g : digraph) (v : string) (x : Qc) : digraph :=
  mkdg (dsetdefault String.eqb v [] (dg_graph g)) (dg_arcs g) (dsetdefault String.eqb v x (dg_nodes g)).

(** adding an arc and its endpoints keeps the invariant *)
Lemma adjg_setdefault d v x y : adjg (dsetdefault String.eqb v [] d) x y <-> adjg d x y.
Proof.
  unfold adjg. rewrite (dget_dsetdefault _ eqs). destruct (sget x d) as [s|]; [tauto|].
  destruct (String.eqb x v); split; intros (s & E & H); try discriminate. inversion E; subst. destruct H.
Qed.

Lemma put_full g a w x y : dinv g -> fst a <> snd a ->
  dinv (put_node (put_node (half g a w) (fst a) x) (snd a) y).
Proof.
  intros I Hne. destruct a as [u v]. simpl in Hne. constructor; cbn [put_node half dg_graph dg_arcs dg_nodes fst snd].
  - repeat apply (NoDup_dsetdefault _ eqs). apply (NoDup_dset _ eqs). apply I.
  - apply (NoDup_dsetdefault _ eqe_spec). apply I.
  - repeat apply (NoDup_dsetdefault _ eqs). apply I.
  - intros z s. rewrite !(dget_dsetdefault _ eqs).
    destruct (sget z (adj_add u v (dg_graph g))) as [s'|] eqn:E.
    + intros E'; inversion E'; subst. eapply adj_add_sets; eauto. apply I.
    + destruct (String.eqb z u); [intros E'; inversion E'; constructor|].
      destruct (String.eqb z v); intros E'; inversion E'; constructor.
  - intros p q. rewrite !adjg_setdefault, adjg_add, (dsetdefault_keys _ eqe_spec), (d_adj _ I).
    split; intros [H|H]; auto.
    + destruct H; subst; auto.
    + inversion H; auto.
  - intros p q. rewrite (dsetdefault_keys _ eqe_spec), !(dsetdefault_keys _ eqs).
    intros [E|H]; [inversion E; subst; auto 10|]. apply (d_arc _ I) in H. tauto.
  - intros z. rewrite !(dsetdefault_keys _ eqs), adj_add_keys, (d_dom _ I). tauto.
Qed.

Lemma put_node_old g v x : In v (dkeys (dg_nodes g)) -> In v (dkeys (dg_graph g)) -> put_node g v x = g.
Proof.
  intros H1 H2. unfold put_node, dsetdefault.
  apply (dmem_keys _ eqs) in H1. apply (dmem_keys _ eqs) in H2. rewrite H1, H2. now destruct g.
Qed.

(** demands accepted by the implementation whatever the state *)
Definition good_demands (d : demands) : Prop := match d with DNum x => x = 0%Qc | _ => True end.
Lemma good_at d i : good_demands d -> exists x, demand_at d i = Ok x.
Proof.
  unfold demand_at, truthy. destruct d as [|x|x y]; simpl; eauto.
  intros ->. exists 0%Qc. reflexivity.
Qed.
Lemma bad_at d i : ~ good_demands d -> demand_at d i = Raise TypeError /\ truthy d = true.
Proof.
  unfold demand_at, truthy. destruct d as [|x|x y]; simpl; try tauto.
  intros H. destruct (qeq_spec x 0); simpl; auto. contradiction.
Qed.

Lemma add_arc_good g a w d : dinv g -> good_demands d ->
  (In a (dkeys (dg_arcs g)) \/ fst a = snd a) /\ add_arc g a w d = (g, Raise ValueError) \/
  (~ In a (dkeys (dg_arcs g)) /\ fst a <> snd a /\
   exists x y, add_arc g a w d = (put_node (put_node (half g a w) (fst a) x) (snd a) y, Ok tt)).
Proof.
  intros I Hd. unfold add_arc. destruct (has_arc_spec g a) as [Ha|Ha]; [left; auto|].
  destruct (eqs (fst a) (snd a)) as [He|He]; [left; auto|]. right. split; [auto|]. split; [auto|].
  fold (half g a w). set (g1 := half g a w).
  destruct (good_at d false Hd) as [x Hx]. destruct (good_at d true Hd) as [y Hy].
  unfold add_node_demand. rewrite Hx, Hy.
  assert (Hn1 : has_node g1 (fst a) = has_node g (fst a)) by reflexivity.
  assert (Hn2 : has_node g1 (snd a) = has_node g (snd a)) by reflexivity.
  assert (Hg : forall z, In z (dkeys (dg_nodes g)) -> In z (dkeys (dg_graph g1))).
  { intros z Hz. unfold g1, half. simpl. rewrite adj_add_keys. right. now apply (d_dom _ I). }
  rewrite Hn1, Hn2. destruct (has_node_spec g (fst a)) as [H1|H1]; simpl.
  - destruct (has_node_spec g (snd a)) as [H2|H2]; simpl; exists x, y; rewrite (put_node_old g1 (fst a) x); auto.
    + rewrite put_node_old; auto.
    + unfold add_node. rewrite Hn2. destruct (has_node_spec g (snd a)); [contradiction|]. reflexivity.
  - destruct (has_node_spec g (snd a)) as [H2|H2]; simpl.
    + exists x, y. unfold add_node. rewrite Hn1. destruct (has_node_spec g (fst a)); [contradiction|].
      fold (put_node g1 (fst a) x). rewrite (put_node_old (put_node g1 (fst a) x)); [reflexivity| |];
        cbn [put_node dg_nodes dg_graph]; rewrite (dsetdefault_keys _ eqs); right; auto.
    + assert (Et : truthy d && match d with DPair _ _ => false | _ => true end = false).
      { destruct d as [|z|]; simpl in *; auto. subst z. reflexivity. }
      rewrite Et. exists x, y. unfold add_node at 1. rewrite Hn1. destruct (has_node_spec g (fst a)); [contradiction|].
      fold (put_node g1 (fst a) x). unfold add_node.
      destruct (has_node_spec (put_node g1 (fst a) x) (snd a)) as [H3|H3]; auto.
      simpl in H3. rewrite (dsetdefault_keys _ eqs) in H3. destruct H3; [congruence|contradiction].
Qed.

Lemma add_node_inv g v x : dinv g -> dinv (fst (add_node g v x)).
Proof.
  intros I. unfold add_node. destruct (has_node_spec g v) as [|Hv]; [auto|]. simpl. fold (put_node g v x).
  constructor; cbn [put_node dg_graph dg_arcs dg_nodes].
  - apply (NoDup_dsetdefault _ eqs), I.
  - apply I.
  - apply (NoDup_dsetdefault _ eqs), I.
  - intros z s. rewrite (dget_dsetdefault _ eqs). destruct (sget z (dg_graph g)) as [s'|] eqn:E.
    + intros E'; inversion E'; subst. eapply (d_sets _ I); eauto.
    + destruct (String.eqb z v); intros E'; inversion E'; constructor.
  - intros p q. rewrite adjg_setdefault. apply (d_adj _ I).
  - intros p q H. rewrite !(dsetdefault_keys _ eqs). apply (d_arc _ I) in H. tauto.
  - intros z. rewrite !(dsetdefault_keys _ eqs), (d_dom _ I). tauto.
Qed.
Lemma set_arc_weight_inv g a w : dinv g -> dinv (fst (set_arc_weight g a w)).
Proof.
  intros I. unfold set_arc_weight. destruct (has_arc_spec g a) as [Ha|Ha]; simpl; [|auto].
  assert (E : dkeys (dset eqe a w (dg_arcs g)) = dkeys (dg_arcs g)) by now apply (dset_same_keys eqe eqe_spec).
  destruct I as [I1 I2 I3 I4 I5 I6 I7].
  constructor; cbn [dg_graph dg_arcs dg_nodes]; try (rewrite ?E; assumption).
Qed.
Lemma set_node_weight_inv g v w : dinv g -> dinv (fst (set_node_weight g v w)).
Proof.
  intros I. unfold set_node_weight. destruct (has_node_spec g v) as [Ha|Ha]; simpl; [|auto].
  assert (E : dkeys (dset String.eqb v w (dg_nodes g)) = dkeys (dg_nodes g)) by now apply (dset_same_keys String.eqb eqs).
  destruct I as [I1 I2 I3 I4 I5 I6 I7].
  constructor; cbn [dg_graph dg_arcs dg_nodes]; try (rewrite ?E; assumption).
Qed.

Lemma ddel_keys {K V} eqk (Hs : forall a b : K, reflect (a = b) (eqk a b)) (d : list (K * V)) k x :
  NoDup (dkeys d) -> (In x (dkeys (ddel eqk k d)) <-> In x (dkeys d) /\ x <> k).
Proof.
  intros H. rewrite <- !(dget_keys _ Hs), (dget_ddel _ Hs _ _ _ H). destruct (Hs x k); intuition.
Qed.

(** the first half of remove_arc *)
Definition cut_arc (g : digraph) (a : arc) (s' : list string) : digraph :=
  mkdg (dset String.eqb (fst a) s' (dg_graph g)) (ddel eqe a (dg_arcs g)) (dg_nodes g).

Lemma remove_first g a b : dinv g -> In a (dkeys (dg_arcs g)) ->
  exists s', remove_arc g a b =
    (if b then
       match (if Nat.eqb (connections (cut_arc g a s') (Name (fst a))) 0 then del_node (cut_arc g a s') (fst a) else (cut_arc g a s', Ok tt)) with
       | (g3, Ok _) => if Nat.eqb (connections g3 (Name (snd a))) 0 then del_node g3 (snd a) else (g3, Ok tt)
       | r => r
       end
     else (cut_arc g a s', Ok tt)) /\ dinv (cut_arc g a s').
Proof.
  intros I Ha. destruct a as [u v].
  assert (Hadj : adjg (dg_graph g) u v) by now apply (d_adj _ I).
  destruct Hadj as (s & Es & Hv). unfold remove_arc. destruct (has_arc_spec g (u, v)); [|contradiction]. simpl negb. cbv iota.
  cbn [dg_graph dg_arcs dg_nodes fst snd]. rewrite Es.
  destruct (set_remove v s) as [s'|x|] eqn:Er.
  2,3: exfalso; unfold set_remove in Er; destruct (mem_spec v s); [discriminate|contradiction].
  exists s'. split; [reflexivity|].
  destruct (set_remove_spec _ _ _ Er) as (H1 & H2 & H3).
  assert (Ek : dkeys (dset String.eqb u s' (dg_graph g)) = dkeys (dg_graph g)).
  { apply (dset_same_keys String.eqb eqs). eapply (get_key _ eqs); eauto. }
  constructor; cbn [cut_arc dg_graph dg_arcs dg_nodes fst snd]; rewrite ?Ek; try apply I.
  - apply NoDup_ddel, I.
  - intros z t. rewrite (dget_dset _ eqs). destruct (eqs z u) as [->|].
    + intros E; inversion E; subst. apply H3. eapply (d_sets _ I); eauto.
    + apply (d_sets _ I).
  - intros p q. rewrite (ddel_keys _ eqe_spec) by apply I. rewrite <- (d_adj _ I).
    unfold adjg at 1. rewrite (dget_dset _ eqs). destruct (eqs p u) as [->|Hp].
    + split.
      * intros (t & E & Hq). inversion E; subst. apply H2 in Hq. split; [exists s; tauto|].
        intros E2; inversion E2; subst. tauto.
      * intros [(t & E & Hq) Hn]. exists s'. split; auto. rewrite Es in E; inversion E; subst.
        apply H2. split; auto. congruence.
    + split; [intros H; split; [exact H|congruence]|intros [H _]; exact H].
  - intros p q H. apply (ddel_keys _ eqe_spec) in H; [|apply I]. apply (d_arc _ I). tauto.
Qed.

Lemma filter_nil {A} (p : A -> bool) l : length (filter p l) = 0 -> forall x, In x l -> p x = false.
Proof.
  intros H x Hx. destruct (p x) eqn:E; auto. assert (In x (filter p l)) by now apply filter_In.
  destruct (filter p l); [contradiction|discriminate].
Qed.

Lemma no_connections g v : dinv g -> short v -> connections g (Name v) = 0 ->
  forall p q, In (p, q) (dkeys (dg_arcs g)) -> p <> v /\ q <> v.
Proof.
  intros I Hv H p q Hin. unfold connections, indegree, outdegree, cut, ncut in H. simpl node_set in H.
  rewrite (chars_short v Hv) in H.
  apply Nat.eq_add_0 in H. destruct H as [H1 H2].
  pose proof (filter_nil _ _ H1 (p, q) Hin) as F1. pose proof (filter_nil _ _ H2 (p, q) Hin) as F2.
  cbn [fst snd] in F1, F2. destruct (d_arc _ I _ _ Hin) as [Hne _].
  destruct (mem_spec p [v]) as [Ep|Ep], (mem_spec q [v]) as [Eq|Eq]; try discriminate.
  - exfalso. destruct Ep as [->|[]], Eq as [->|[]]; congruence.
  - split; intros ->; [apply Ep|apply Eq]; now left.
Qed.

Lemma del_node_inv g v : dinv g -> In v (dkeys (dg_nodes g)) ->
  (forall p q, In (p, q) (dkeys (dg_arcs g)) -> p <> v /\ q <> v) ->
  exists g', del_node g v = (g', Ok tt) /\ dinv g' /\ dg_arcs g' = dg_arcs g /\
    (forall z, In z (dkeys (dg_nodes g')) <-> In z (dkeys (dg_nodes g)) /\ z <> v).
Proof.
  intros I Hv Hno. unfold del_node.
  assert (Hg : In v (dkeys (dg_graph g))) by now apply (d_dom _ I).
  rewrite (proj2 (dmem_keys _ eqs _ _) Hv), (proj2 (dmem_keys _ eqs _ _) Hg). simpl.
  eexists. split; [reflexivity|]. split; [|split; [reflexivity|]].
  - constructor; cbn [dg_graph dg_arcs dg_nodes].
    + apply NoDup_ddel, I.
    + apply I.
    + apply NoDup_ddel, I.
    + intros z s. rewrite (dget_ddel _ eqs) by apply I. destruct (String.eqb z v); [discriminate|]. apply (d_sets _ I).
    + intros p q. unfold adjg. rewrite (dget_ddel _ eqs) by apply I. rewrite <- (d_adj _ I). destruct (eqs p v) as [->|].
      * split; [intros (s & E & _); discriminate|]. intros H. exfalso. apply (d_adj _ I) in H. apply Hno in H. tauto.
      * reflexivity.
    + intros p q H. rewrite !(ddel_keys _ eqs) by apply I. pose proof (d_arc _ I _ _ H). pose proof (Hno _ _ H). tauto.
    + intros z. rewrite !(ddel_keys _ eqs) by apply I. rewrite (d_dom _ I). tauto.
  - intros z. simpl. apply (ddel_keys _ eqs). apply I.
Qed.

Lemma remove_arc_good g a b : dinv g -> (b = true -> short (fst a) /\ short (snd a)) ->
  (~ In a (dkeys (dg_arcs g)) /\ remove_arc g a b = (g, Raise ValueError)) \/
  (In a (dkeys (dg_arcs g)) /\ exists g', remove_arc g a b = (g', Ok tt) /\ dinv g' /\
     dg_arcs g' = ddel eqe a (dg_arcs g) /\
     (b = false -> dg_nodes g' = dg_nodes g) /\
     (forall z, In z (dkeys (dg_nodes g')) <->
        In z (dkeys (dg_nodes g)) /\
        ~ (b = true /\ (z = fst a \/ z = snd a) /\
           forall p q, In (p, q) (dkeys (dg_arcs g)) -> (p, q) <> a -> p <> z /\ q <> z))).
Proof.
  intros I Hs. destruct (has_arc_spec g a) as [Ha|Ha].
  2:{ left. split; auto. unfold remove_arc. destruct (has_arc_spec g a); [contradiction|reflexivity]. }
  right. split; auto. destruct (remove_first g a b I Ha) as (s' & E & I2). rewrite E. clear E.
  set (g2 := cut_arc g a s') in *. assert (Earcs : dg_arcs g2 = ddel eqe a (dg_arcs g)) by reflexivity.
  assert (Enodes : dg_nodes g2 = dg_nodes g) by reflexivity.
  destruct b.
  2:{ exists g2. split; [auto|]. split; [auto|]. split; [auto|]. split; [auto|].
      intros z. rewrite Enodes. split; [intros H; split; [exact H|]; intros [X _]; discriminate|tauto]. }
  destruct (Hs eq_refl) as [S1 S2]. clear Hs. destruct a as [u v]. simpl in S1, S2. cbn [fst snd].
  destruct (d_arc _ I _ _ Ha) as (Hne & Hu & Hv).
  assert (A2 : forall p q, In (p, q) (dkeys (dg_arcs g2)) <-> In (p, q) (dkeys (dg_arcs g)) /\ (p, q) <> (u, v)).
  { intros p q. rewrite Earcs. apply (ddel_keys _ eqe_spec). apply I. }
  (* u *)
  assert (Step1 : exists g3, (if Nat.eqb (connections g2 (Name u)) 0 then del_node g2 u else (g2, Ok tt)) = (g3, Ok tt) /\
     dinv g3 /\ dg_arcs g3 = dg_arcs g2 /\
     (forall z, In z (dkeys (dg_nodes g3)) <-> In z (dkeys (dg_nodes g2)) /\
        ~ (z = u /\ forall p q, In (p, q) (dkeys (dg_arcs g2)) -> p <> z /\ q <> z))).
  { destruct (Nat.eqb_spec (connections g2 (Name u)) 0) as [E0|E0].
    - pose proof (no_connections g2 u I2 S1 E0) as Hno.
      destruct (del_node_inv g2 u I2) as (g3 & E3 & I3 & Ea & Hn); [rewrite Enodes; auto|auto|].
      exists g3. split; [auto|]. split; [auto|]. split; [auto|]. intros z. rewrite Hn. split.
      + intros [H1 H2]. split; auto. tauto.
      + intros [H1 H2]. split; auto. intros ->. apply H2. split; auto.
    - exists g2. split; [auto|]. split; [auto|]. split; [auto|]. intros z. split; [|tauto].
      intros H. split; auto. intros [-> Hno]. apply E0. unfold connections, indegree, outdegree, cut, ncut.
      simpl node_set. rewrite (chars_short u S1).
      assert (F : forall l f, (forall x, In x l -> f x = false) -> @filter (arc) f l = []).
      { induction l as [|x l IH]; simpl; intros f Hf; auto. rewrite Hf by auto. apply IH. auto. }
      rewrite !F; auto; intros [p q] Hx; cbn [fst snd]; destruct (Hno p q Hx);
        destruct (mem_spec p [u]) as [Ep|Ep]; destruct (mem_spec q [u]) as [Eq|Eq]; simpl; auto; simpl in *; intuition congruence. }
  destruct Step1 as (g3 & E3 & I3 & Ea3 & N3). rewrite E3.
  assert (Hv3 : In v (dkeys (dg_nodes g3))).
  { apply N3. rewrite Enodes. split; auto. intros [E _]. congruence. }
  assert (Step2 : exists g4, (if Nat.eqb (connections g3 (Name v)) 0 then del_node g3 v else (g3, Ok tt)) = (g4, Ok tt) /\
     dinv g4 /\ dg_arcs g4 = dg_arcs g3 /\
     (forall z, In z (dkeys (dg_nodes g4)) <-> In z (dkeys (dg_nodes g3)) /\
        ~ (z = v /\ forall p q, In (p, q) (dkeys (dg_arcs g3)) -> p <> z /\ q <> z))).
  { destruct (Nat.eqb_spec (connections g3 (Name v)) 0) as [E0|E0].
    - pose proof (no_connections g3 v I3 S2 E0) as Hno.
      destruct (del_node_inv g3 v I3 Hv3 Hno) as (g4 & E4 & I4 & Ea & Hn).
      exists g4. split; [auto|]. split; [auto|]. split; [auto|]. intros z. rewrite Hn. split.
      + intros [H1 H2]. split; auto. tauto.
      + intros [H1 H2]. split; auto. intros ->. apply H2. split; auto.
    - exists g3. split; [auto|]. split; [auto|]. split; [auto|]. intros z. split; [|tauto].
      intros H. split; auto. intros [-> Hno]. apply E0. unfold connections, indegree, outdegree, cut, ncut.
      simpl node_set. rewrite (chars_short v S2).
      assert (F : forall l f, (forall x, In x l -> f x = false) -> @filter (arc) f l = []).
      { induction l as [|x l IH]; simpl; intros f Hf; auto. rewrite Hf by auto. apply IH. auto. }
      rewrite !F; auto; intros [p q] Hx; cbn [fst snd]; destruct (Hno p q Hx);
        destruct (mem_spec p [v]) as [Ep|Ep]; destruct (mem_spec q [v]) as [Eq|Eq]; simpl; auto; simpl in *; intuition congruence. }
  destruct Step2 as (g4 & E4 & I4 & Ea4 & N4). exists g4.
  split; [auto|]. split; [auto|]. split; [congruence|]. split; [discriminate|].
  intros z. rewrite N4, N3, Enodes, Ea3.
  assert (Q : (forall p q, In (p, q) (dkeys (dg_arcs g2)) -> p <> z /\ q <> z) <->
              (forall p q, In (p, q) (dkeys (dg_arcs g)) -> (p, q) <> (u, v) -> p <> z /\ q <> z)).
  { split; intros H p q; [intros H1 H2; apply H, A2; auto|]. intros H1. apply A2 in H1. destruct H1. now apply H. }
  rewrite Q. tauto.
Qed.

(** operations outside the two defects *)
Definition good_op (o : dop) : Prop :=
  match o with
  | AddArc a w d => good_demands d
  | RemoveArc a b => b = true -> short (fst a) /\ short (snd a)
  | _ => True
  end.

Lemma dstep_good g o : dinv g -> good_op o ->
  dinv (fst (dstep g o)) /\ (snd (dstep g o) = Ok tt \/ (exists x, snd (dstep g o) = Raise x /\ fst (dstep g o) = g)).
Proof.
  intros I Ho. destruct o as [a w d|v w|a b|a w|v w]; simpl in *.
  - destruct (add_arc_good g a w d I Ho) as [[_ E]|(Hn & Hne & x & y & E)]; rewrite E; simpl; eauto.
    split; auto. now apply put_full.
  - split; [now apply add_node_inv|]. unfold add_node. destruct (has_node g v); simpl; eauto.
  - destruct (remove_arc_good g a b I Ho) as [[_ E]|(_ & g' & E & I' & _)]; rewrite E; simpl; eauto.
  - split; [now apply set_arc_weight_inv|]. unfold set_arc_weight. destruct (has_arc g a); simpl; eauto.
  - split; [now apply set_node_weight_inv|]. unfold set_node_weight. destruct (has_node g v); simpl; eauto.
Qed.

Lemma drun_good h : forall g, dinv g -> Forall good_op h -> dinv (drun g h).
Proof.
  induction h as [|o h IH]; simpl; auto. intros g I H. inversion H; subst. apply IH; auto. now apply dstep_good.
Qed.

Definition dgoodr (r : res digraph) : Prop := match r with Ok g => dinv g | _ => True end.
Lemma dcall_good f r : dgoodr r -> (forall g, dinv g -> dinv (fst (f g))) -> dgoodr (dcall f r).
Proof.
  intros H Hf. destruct r as [g| |]; simpl in *; auto.
  destruct (f g) as [g' [[]| |]] eqn:E; simpl; auto. specialize (Hf g H). now rewrite E in Hf.
Qed.
Lemma dfold_good {A} (step : res digraph -> A -> res digraph) (l : list A) :
  (forall r a, dgoodr r -> dgoodr (step r a)) -> forall r, dgoodr r -> dgoodr (fold_left step l r).
Proof. intros H. induction l as [|a l IH]; simpl; auto. Qed.

Lemma dconstruct_good gr es vs : dgoodr (dconstruct gr es vs).
Proof.
  unfold dconstruct, dinit_nodes, dinit_arcs, dinit_graph.
  assert (AA : forall g a w, dinv g -> dinv (fst (add_arc g a w DNone))).
  { intros g a w I. apply (dstep_good g (AddArc a w DNone)); simpl; auto. }
  repeat (apply dfold_good; [intros|]).
  - repeat apply dcall_good; auto; intros g I.
    + destruct (has_node g (fst a)); auto. now apply add_node_inv.
    + now apply set_node_weight_inv.
  - repeat apply dcall_good; auto; intros g I.
    + destruct (has_arc g (fst a)); auto.
    + now apply set_arc_weight_inv.
  - destruct (snd a) as [|c cs] eqn:Ea.
    + apply dcall_good; auto. intros g I.
      destruct (has_node g (fst a)); auto. now apply add_node_inv.
    + apply dfold_good; auto. intros r' c' H'. apply dcall_good; auto. intros g I.
      destruct (has_arc g _); auto.
  - apply dinv_empty.
Qed.

Lemma dinv_consistent g : dinv g -> dconsistent (dg_graph g) (dg_arcs g) (dg_nodes g).
Proof.
  intros I.
  assert (Ha : forall u v, is_arc (dg_arcs g) u v <-> In (u, v) (dkeys (dg_arcs g))).
  { intros u v. unfold is_arc. now rewrite key_In. }
  assert (Hn : forall v, is_node (dg_nodes g) v <-> In v (dkeys (dg_nodes g))).
  { intros v. unfold is_node. now rewrite key_In. }
  constructor.
  - split; [|split]; apply I.
  - intros u s H. apply (In_dget _ eqs) in H; [|apply I]. eapply (d_sets _ I); eauto.
  - intros u v. rewrite Ha, <- (d_adj _ I). unfold points_to. symmetry. apply adjg_adjacent. apply I.
  - intros u v. rewrite Ha. intros H. now apply (d_arc _ I) in H.
  - intros u v. rewrite Ha, !Hn. intros H. apply (d_arc _ I) in H. tauto.
  - intros v. rewrite Hn. apply (d_dom _ I).
Qed.
