(** Restating the undirected-graph lemmas over the specification's own adjacency relation. *)
From Coq Require Import String List Bool Arith QArith Qcanon Lia Permutation Sorted.
From Verif Require Import Py QcTac UndirectedModel GraphSpec UndirectedSpec UndirectedProofs GraphTheory
  TraverseProofs TreeProofs UndirectedHeap UndirectedHeapProofs.
Import ListNotations.
Open Scope nat_scope.
Open Scope string_scope.
Open Scope list_scope.

Section Ext.
  Variables adj adj' : string -> string -> Prop.
  Hypothesis E : forall u v, adj u v <-> adj' u v.
  Lemma walk_ext n u v : walk adj n u v -> walk adj' n u v.
  Proof. induction 1; econstructor; eauto. now apply E. Qed.
End Ext.

Section Ext2.
  Variables adj adj' : string -> string -> Prop.
  Hypothesis E : forall u v, adj u v <-> adj' u v.
  Let E' : forall u v, adj' u v <-> adj u v. Proof. intros; symmetry; apply E. Qed.
  Lemma walk_iff n u v : walk adj n u v <-> walk adj' n u v.
  Proof. split; apply walk_ext; auto. Qed.
  Lemma reachable_iff u v : reachable adj u v <-> reachable adj' u v.
  Proof. unfold reachable. split; intros [n H]; exists n; now apply walk_iff. Qed.
  Lemma distance_iff u v n : distance adj u v n <-> distance adj' u v n.
  Proof.
    unfold distance. rewrite walk_iff. split; intros [H1 H2]; split; auto; intros m Hm; apply H2; now apply walk_iff.
  Qed.
  Lemma connected_iff vs : connected adj vs <-> connected adj' vs.
  Proof. unfold connected. split; intros H u v Hu Hv; apply reachable_iff; auto. Qed.
  Lemma chain_iff l : chain adj l <-> chain adj' l.
  Proof. induction l as [|a [|b l] IH]; simpl in *; try tauto. now rewrite E, IH. Qed.
  Lemma cycle_iff a l : cycle adj a l <-> cycle adj' a l.
  Proof. unfold cycle. now rewrite chain_iff, E. Qed.
  Lemma acyclic_iff : acyclic adj <-> acyclic adj'.
  Proof. unfold acyclic. split; intros H a l Hc; apply (H a l); now apply cycle_iff. Qed.
End Ext2.

Lemma adj_iff g : inv g -> forall u v, adjg (ug_graph g) u v <-> adjacent (ug_graph g) u v.
Proof. intros I u v. apply adjg_adjacent, I. Qed.

Lemma distance_unique adj u v m n : distance adj u v m -> distance adj u v n -> m = n.
Proof. intros [A B] [C D]. apply Nat.le_antisymm; auto. Qed.

Lemma sorted_nth l : StronglySorted le l -> forall i j a b, i <= j ->
  nth_error l i = Some a -> nth_error l j = Some b -> a <= b.
Proof.
  induction 1 as [|x l HS IH HF]; intros i j a b Hij Ha Hb; [destruct i; discriminate|].
  destruct i as [|i], j as [|j]; simpl in *; try lia.
  - inversion Ha; inversion Hb; subst; lia.
  - inversion Ha; subst. rewrite Forall_forall in HF. apply HF. eapply nth_error_In; eauto.
  - eapply IH; [|eauto|eauto]. lia.
Qed.

Section R.
  Variable g : ugraph.
  Hypothesis R : reach g.
  Let I : inv g := reach_inv g R.
  Let A := adjacent (ug_graph g).
  Let V := map fst (ug_vertices g).

  Lemma traverse_final start method srt :
    In start V -> method <> "rng" -> (forall l, Permutation (srt l) l) ->
    exists out, traverse g start method srt = Ok out /\ NoDup out /\ hd_error out = Some start /\
      (forall v, In v out <-> reachable A start v) /\
      (forall i j u v m n, i <= j -> nth_error out i = Some u -> nth_error out j = Some v ->
         distance A start u m -> distance A start v n -> m <= n).
  Proof.
    intros Hs Hm Hp. unfold traverse. destruct (has_vertex_spec g start) as [Hv|]; [|tauto]. simpl.
    destruct (eqs method "rng") as [|_]; [tauto|].
    destruct (traverse_spec g I srt Hp start Hv) as (out & lv & E & Hnd & Hh & Hin & Hlen & Hd & Hsrt).
    exists out. split; [exact E|]. split; [exact Hnd|]. split; [exact Hh|]. split.
    - intros v. rewrite Hin. apply reachable_iff, adj_iff, I.
    - intros i j u v m n Hij Hu Hw Dm Dn.
      apply (distance_iff _ _ (adj_iff g I)) in Dm, Dn.
      destruct (nth_error lv i) as [a|] eqn:Ea.
      2:{ apply nth_error_None in Ea. assert (i < length out) by (apply nth_error_Some; congruence). lia. }
      destruct (nth_error lv j) as [b|] eqn:Eb.
      2:{ apply nth_error_None in Eb. assert (j < length out) by (apply nth_error_Some; congruence). lia. }
      rewrite (distance_unique _ _ _ _ _ Dm (Hd i u a Hu Ea)).
      rewrite (distance_unique _ _ _ _ _ Dn (Hd j v b Hw Eb)).
      eapply sorted_nth; eauto.
  Qed.

  Lemma connected_final : exists b, is_connected g = Ok b /\ (b = true <-> V <> [] /\ connected A V).
  Proof.
    destruct (is_connected_spec g I) as (b & E & Hb). exists b. split; auto. rewrite Hb.
    now rewrite (connected_iff _ _ (adj_iff g I)).
  Qed.

  Lemma tree_final enum : (forall k l, Permutation (enum k l) l) ->
    exists b, is_tree enum g = Ok b /\ (b = true <-> V <> [] /\ connected A V /\ acyclic A).
  Proof.
    intros He. destruct (is_tree_spec g enum I He) as (b & E & Hb). exists b. split; auto. rewrite Hb.
    now rewrite (connected_iff _ _ (adj_iff g I)), (acyclic_iff _ _ (adj_iff g I)).
  Qed.

  Lemma cyclic_final enum : (forall k l, Permutation (enum k l) l) ->
    exists b, is_cyclic enum g = Ok b /\ (b = true <-> exists u v, A u v).
  Proof.
    intros He. destruct (is_cyclic_spec g I enum He) as (b & E & Hb). exists b. split; auto. rewrite Hb.
    split; intros (u & v & H); exists u, v; now apply (adj_iff g I).
  Qed.

  Lemma cyclic_sound enum : (forall k l, Permutation (enum k l) l) ->
    (exists a l, cycle A a l) -> is_cyclic enum g = Ok true.
  Proof.
    intros He (a & l & Hc). destruct (cyclic_final enum He) as (b & -> & Hb). f_equal. apply Hb.
    destruct Hc as (_ & _ & _ & H). eauto.
  Qed.

  Lemma sp_scan_raises entries visited v :
    let r := (do _ <- sp_scan entries visited v ; @Raise (list edge) TypeError) in
    r = Raise TypeError \/ r = Raise IndexError.
  Proof.
    induction entries as [|e l IH]; simpl; auto.
    unfold char_at. destruct (get 0 e); simpl; auto.
    destruct (mem _ visited); simpl; auto. destruct (get 1 e); simpl; auto.
  Qed.

  Lemma sp_final enum s t : In s V -> In t V -> s <> t ->
    shortest_path enum g s t = Raise TypeError \/ shortest_path enum g s t = Raise IndexError.
  Proof.
    intros Hs Ht Hne. unfold shortest_path.
    assert (forall v, In v V -> dmem String.eqb v (ug_graph g) = true) as Hm.
    { intros v Hv. apply (dmem_keys _ eqs). now apply (i_dom _ I). }
    rewrite (Hm s Hs), (Hm t Ht). simpl. destruct (eqs t s); [congruence|]. simpl.
    apply (i_dom _ I) in Hs. destruct (key_get _ eqs _ _ Hs) as [x ->].
    apply sp_scan_raises.
  Qed.
End R.

Lemma remove_edge_final g e g' : reach g -> remove_edge g e = (g', Ok tt) ->
  (forall u v, adjacent (ug_graph g') u v <->
     adjacent (ug_graph g) u v /\ (u, v) <> e /\ (v, u) <> e) /\
  ug_edges g' = ug_edges g /\ ug_vertices g' = ug_vertices g /\ has_edge g' e = true.
Proof.
  intros R E. pose proof (reach_inv g R) as I. pose proof (remove_edge_inv g e I) as I'. rewrite E in I'. simpl in I'.
  destruct (remove_edge_cases g e I) as [[_ E']|[(_ & _ & E')|(He & Ha & g2 & E' & B1 & B2 & B3 & B4 & B5)]];
    rewrite E in E'; inversion E'; subst.
  split; [|split; [auto|split; [auto|]]].
  - intros u v. rewrite <- (adj_iff g2 I'), <- (adj_iff g I), B1. destruct e as [a b]. simpl.
    assert (forall x y z t : string, (x, y) <> (z, t) <-> ~ (x = z /\ y = t)) as Hp.
    { intros. split; [intros H [-> ->]; now apply H|intros H K; apply H; inversion K; auto]. }
    rewrite !Hp. tauto.
  - destruct (has_edge_spec g2 e) as [|Hn]; auto. exfalso. apply Hn. now rewrite B3.
Qed.

Lemma traverse_rng g start srt : traverse g start "rng" srt = (if has_vertex g start then Ok [] else Raise ValueError).
Proof. unfold traverse. destruct (has_vertex g start); reflexivity. Qed.

Lemma unknown_start g start m srt : ~ In start (map fst (ug_vertices g)) -> traverse g start m srt = Raise ValueError.
Proof. intros H. unfold traverse. destruct (has_vertex_spec g start); [contradiction|reflexivity]. Qed.

Lemma construct_reach gr es vs g : construct gr es vs = Ok g -> reach g.
Proof. intros H. exists gr, es, vs, g, []. auto. Qed.
