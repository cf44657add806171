(** C19-C21: DirectedGraph. *)
From Coq Require Import String List Bool Arith QArith Qcanon Lia.
From Verif Require Import Py QcTac UndirectedModel UndirectedProofs DirectedModel DirectedSpec DirectedProofs FlowSpec FlowTheory DirectedFinal.
Import ListNotations.
Open Scope nat_scope.
Open Scope string_scope.
Open Scope list_scope.

(** ** C19 *)

(** A call outside the two defects refuted below: the demands of add_arc are None, zero or a
    pair, and remove_nodes=True is used on one-character names only. *)
Definition regular_call (o : dop) : Prop :=
  match o with
  | AddArc _ _ d => match d with DNum x => x = 0%Qc | _ => True end
  | RemoveArc a b => b = true -> short (fst a) /\ short (snd a)
  | _ => True
  end.
(** states reached by the constructor and then any history of regular calls, failing or not *)
Definition digraph_state (g : digraph) : Prop :=
  exists gr arcs nodes g0 h, dconstruct gr arcs nodes = Ok g0 /\ Forall regular_call h /\ g = drun g0 h.

Lemma digraph_state_inv g : digraph_state g -> dinv g.
Proof.
  intros (gr & arcs & nodes & g0 & h & E & Hh & ->).
  apply drun_good.
  - pose proof (dconstruct_good gr arcs nodes) as G. rewrite E in G. exact G.
  - eapply Forall_impl; [|exact Hh]. intros [| | | |]; auto.
Qed.

Theorem C19_consistency_partial :
  forall g, digraph_state g -> dconsistent (dg_graph g) (dg_arcs g) (dg_nodes g).
Proof. intros g H. apply dinv_consistent. now apply digraph_state_inv. Qed.
Print Assumptions C19_consistency_partial.

Theorem C19_raising_calls_are_atomic_partial :
  forall g o, digraph_state g -> regular_call o ->
    snd (dstep g o) = Ok tt \/ (exists x, snd (dstep g o) = Raise x /\ fst (dstep g o) = g).
Proof.
  intros g o H Ho. apply digraph_state_inv in H. apply dstep_good; auto.
Qed.
Print Assumptions C19_raising_calls_are_atomic_partial.

(** What the two structural mutators do, when they succeed and when they fail. *)
Theorem C19_add_arc_effect :
  forall g a w d, digraph_state g -> regular_call (AddArc a w d) ->
    (snd (add_arc g a w d) = Ok tt <-> ~ is_arc (dg_arcs g) (fst a) (snd a) /\ fst a <> snd a) /\
    (forall g', add_arc g a w d = (g', Ok tt) ->
       (forall b x, In (b, x) (dg_arcs g') <-> In (b, x) (dg_arcs g) \/ (b = a /\ x = w)) /\
       (forall v, is_node (dg_nodes g') v <-> is_node (dg_nodes g) v \/ v = fst a \/ v = snd a) /\
       (forall v x, In (v, x) (dg_nodes g) -> In (v, x) (dg_nodes g'))).
Proof.
  intros g a w d H Ho. apply digraph_state_inv in H.
  assert (Hk : is_arc (dg_arcs g) (fst a) (snd a) <-> In a (dkeys (dg_arcs g))).
  { unfold is_arc. rewrite key_In. now destruct a. }
  assert (Happ : forall (K : Type) (eqk : K -> K -> bool) (d : list (K * Qc)) k x y, In y (dsetdefault eqk k x d) <-> In y d \/ (dmem eqk k d = false /\ y = (k, x))).
  { intros K eqk dd k x y. unfold dsetdefault. destruct (dmem eqk k dd); [intuition discriminate|]. rewrite in_app_iff. simpl. intuition congruence. }
  destruct (add_arc_good g a w d H) as [[Hc E]|(Hn & Hne & x & y & E)]; [now destruct d| |].
  - rewrite E. split; [split; [discriminate|]|discriminate]. rewrite Hk. tauto.
  - rewrite E. split; [rewrite Hk; simpl; tauto|]. intros g' Eg; inversion Eg; subst; clear Eg.
    cbn [put_node half dg_arcs dg_nodes]. split; [|split].
    + intros b z. rewrite Happ. split.
      * intros [Hb|[_ Hb]]; [auto|inversion Hb; auto].
      * intros [Hb|[-> ->]]; auto. right. split; auto.
        destruct (dmem eqe a (dg_arcs g)) eqn:M; auto. apply (dmem_keys _ eqe_spec) in M. contradiction.
    + intros v. unfold is_node.
      assert (Q : forall l : list (string * Qc), (exists w0, In (v, w0) l) <-> In v (dkeys l)) by (intros; now rewrite key_In).
      rewrite !Q, !(dsetdefault_keys _ eqs). tauto.
    + intros v z Hv. rewrite !Happ. auto.
Qed.
Print Assumptions C19_add_arc_effect.

Theorem C19_remove_arc_effect :
  forall g a b, digraph_state g -> regular_call (RemoveArc a b) ->
    (snd (remove_arc g a b) = Ok tt <-> is_arc (dg_arcs g) (fst a) (snd a)) /\
    (forall g', remove_arc g a b = (g', Ok tt) ->
       (forall p q, is_arc (dg_arcs g') p q <-> is_arc (dg_arcs g) p q /\ (p, q) <> a) /\
       (b = false -> dg_nodes g' = dg_nodes g) /\
       (b = true -> forall z, is_node (dg_nodes g') z <->
          is_node (dg_nodes g) z /\
          (z = fst a \/ z = snd a -> exists p q, is_arc (dg_arcs g') p q /\ (p = z \/ q = z)))).
Proof.
  intros g a b H Ho. apply digraph_state_inv in H.
  assert (Hk : forall (l : list (arc * Qc)) p q, is_arc l p q <-> In (p, q) (dkeys l)) by (intros; unfold is_arc; now rewrite key_In).
  assert (Hn : forall (l : list (string * Qc)) p, is_node l p <-> In p (dkeys l)) by (intros; unfold is_node; now rewrite key_In).
  destruct (remove_arc_good g a b H Ho) as [[Hc E]|(Hc & g' & E & I' & A' & N1 & N2)].
  - rewrite E. split; [|discriminate]. rewrite Hk. destruct a as [p q]. simpl. split; [discriminate|tauto].
  - rewrite E. split; [rewrite Hk; destruct a; simpl; tauto|]. intros g'' Eg; inversion Eg; subst; clear Eg.
    assert (A2 : forall p q, is_arc (dg_arcs g'') p q <-> is_arc (dg_arcs g) p q /\ (p, q) <> a).
    { intros p q. rewrite !Hk, A'. apply (ddel_keys _ eqe_spec). apply H. }
    split; [exact A2|]. split; [exact N1|]. intros -> z. rewrite !Hn, N2. split.
    + intros [Hz Hno]. split; auto. intros Hza.
      destruct (existsb (fun pq => String.eqb (fst pq) z || String.eqb (snd pq) z) (dkeys (dg_arcs g''))) eqn:Ex.
      * apply existsb_exists in Ex. destruct Ex as ([p q] & Hpq & Hb). exists p, q. rewrite Hk. split; auto.
        apply orb_true_iff in Hb. simpl in Hb. rewrite !String.eqb_eq in Hb. auto.
      * exfalso. apply Hno. split; auto. split; auto. intros p q Hpq Hne.
        assert (Hin : In (p, q) (dkeys (dg_arcs g''))) by (apply Hk, A2; rewrite Hk; auto).
        assert (F : String.eqb p z || String.eqb q z = false).
        { destruct (String.eqb p z || String.eqb q z) eqn:F; auto. 
          assert (existsb (fun pq => String.eqb (fst pq) z || String.eqb (snd pq) z) (dkeys (dg_arcs g'')) = true); [|congruence].
          apply existsb_exists. exists (p, q). auto. }
        apply orb_false_iff in F. rewrite !String.eqb_neq in F. exact F.
    + intros [Hz Hex]. split; auto. intros (_ & Hza & Hno). destruct (Hex Hza) as (p & q & Hpq & Hd).
      apply A2 in Hpq. destruct Hpq as [Hpq Hne]. apply Hk in Hpq. destruct (Hno p q Hpq Hne). tauto.
Qed.
Print Assumptions C19_remove_arc_effect.

(** concrete states *)
Definition ddemo : digraph :=
  mkdg [("a", ["b"; "c"]); ("b", []); ("c", ["b"])]
       [(("a", "b"), (qz 2)); (("a", "c"), 1%Qc); (("c", "b"), 1%Qc)]
       [("a", 0%Qc); ("b", 0%Qc); ("c", 0%Qc)].
Example ddemo_is_reachable : digraph_state ddemo.
Proof.
  exists [], [(("a", "b"), (qz 2)); (("a", "c"), 1%Qc)], [], 
    (mkdg [("a", ["b"; "c"]); ("b", []); ("c", [])] [(("a", "b"), (qz 2)); (("a", "c"), 1%Qc)] [("a", 0%Qc); ("b", 0%Qc); ("c", 0%Qc)]),
    [AddArc ("c", "b") 1%Qc DNone; AddArc ("a", "d") 1%Qc (DPair 1%Qc (qz 2)); AddArc ("a", "a") 0%Qc DNone; RemoveArc ("a", "d") true].
  split; [vm_compute; reflexivity|]. split; [|vm_compute; reflexivity].
  repeat constructor.
Qed.
Example C19_nontrivial : digraph_state ddemo /\ snd (dstep ddemo (AddArc ("a", "b") 1%Qc DNone)) = Raise ValueError /\
  snd (dstep ddemo (RemoveArc ("a", "c") true)) = Ok tt.
Proof. split; [apply ddemo_is_reachable|]. split; vm_compute; reflexivity. Qed.

(** The full property is false of the code.  A number as demand, which the documentation of
    add_arc allows, raises TypeError after the arc was recorded: the arc's endpoint is not a node. *)
Theorem C19_failed_add_arc_refuted :
  exists g a w d g', digraph_state g /\ add_arc g a w d = (g', Raise TypeError) /\
    is_arc (dg_arcs g') (fst a) (snd a) /\ ~ is_node (dg_nodes g') (snd a).
Proof.
  exists ddemo, ("a", "e"), 1%Qc, (DNum 1%Qc), (fst (add_arc ddemo ("a", "e") 1%Qc (DNum 1%Qc))).
  split; [apply ddemo_is_reachable|]. split; [vm_compute; reflexivity|]. split.
  - exists 1%Qc. vm_compute. auto.
  - intros [w H]. vm_compute in H. repeat (destruct H as [H|H]; [discriminate|]). exact H.
Qed.
Print Assumptions C19_failed_add_arc_refuted.

(** And remove_nodes=True drops a node that still has arcs when its name is longer than one
    character (its connections are counted over the characters of the name). *)
Theorem C19_remove_nodes_refuted :
  exists g a g', digraph_state g /\ remove_arc g a true = (g', Ok tt) /\
    exists u v, is_arc (dg_arcs g') u v /\ ~ is_node (dg_nodes g') u.
Proof.
  set (g := mkdg [("aa", ["b"; "c"]); ("b", []); ("c", [])] [(("aa", "b"), 1%Qc); (("aa", "c"), 1%Qc)] [("aa", 0%Qc); ("b", 0%Qc); ("c", 0%Qc)]).
  exists g, ("aa", "b"), (fst (remove_arc g ("aa", "b") true)). split; [|split; [vm_compute; reflexivity|]].
  - exists [], [(("aa", "b"), 1%Qc); (("aa", "c"), 1%Qc)], [], g, []. split; [vm_compute; reflexivity|]. split; constructor.
  - exists "aa", "c". split; [exists 1%Qc; vm_compute; auto|].
    intros [w H]. vm_compute in H. repeat (destruct H as [H|H]; [discriminate|]). exact H.
Qed.
Print Assumptions C19_remove_nodes_refuted.

(** ** C20 *)
Theorem C20_cuts_are_the_boundaries :
  forall g S, digraph_state g ->
    NoDup (cut g (Nodes S)) /\ NoDup (ncut g (Nodes S)) /\
    (forall u v, In (u, v) (cut g (Nodes S)) <-> is_arc (dg_arcs g) u v /\ In u S /\ ~ In v S) /\
    (forall u v, In (u, v) (ncut g (Nodes S)) <-> is_arc (dg_arcs g) u v /\ In v S /\ ~ In u S) /\
    outdegree g (Nodes S) = length (cut g (Nodes S)) /\ indegree g (Nodes S) = length (ncut g (Nodes S)) /\
    connections g (Nodes S) = length (cut g (Nodes S)) + length (ncut g (Nodes S)).
Proof.
  intros g S H. apply digraph_state_inv in H.
  assert (Hk : forall (l : list (arc * Qc)) p q, is_arc l p q <-> In (p, q) (dkeys l)) by (intros; unfold is_arc; now rewrite key_In).
  split; [now apply cut_NoDup|]. split; [now apply ncut_NoDup|]. split; [|split; [|split; [|split]]]; auto.
  - intros u v. rewrite cut_spec, Hk. reflexivity.
  - intros u v. rewrite ncut_spec, Hk. reflexivity.
  - unfold connections, indegree, outdegree. lia.
Qed.
Print Assumptions C20_cuts_are_the_boundaries.

(** the cut of a set is the reverse cut of its complement in the nodes *)
Theorem C20_complement :
  forall g S S', digraph_state g ->
    (forall v, is_node (dg_nodes g) v -> (In v S <-> ~ In v S')) ->
    cut g (Nodes S) = ncut g (Nodes S').
Proof.
  intros g S S' H Hc. apply digraph_state_inv in H. unfold cut, ncut. apply filter_ext_in. intros [u v] Hin. cbn [fst snd node_set].
  destruct (d_arc _ H _ _ Hin) as (_ & Hu & Hv).
  assert (Cu : In u S <-> ~ In u S') by (apply Hc; unfold is_node; now apply key_In).
  assert (Cv : In v S <-> ~ In v S') by (apply Hc; unfold is_node; now apply key_In).
  destruct (mem_spec u S), (mem_spec v S), (mem_spec u S'), (mem_spec v S'); simpl; auto; tauto.
Qed.
Print Assumptions C20_complement.

(** A name of one character stands for the node; over all nodes the degrees sum to the number
    of arcs. *)
Theorem C20_names_partial :
  forall g v, short v -> cut g (Name v) = cut g (Nodes [v]) /\ ncut g (Name v) = ncut g (Nodes [v]) /\
    outdegree g (Name v) = outdegree g (Nodes [v]) /\ indegree g (Name v) = indegree g (Nodes [v]) /\
    connections g (Name v) = connections g (Nodes [v]).
Proof.
  intros g v Hv. unfold connections, outdegree, indegree, cut, ncut. cbn [node_set].
  rewrite (chars_short v Hv). auto.
Qed.
Print Assumptions C20_names_partial.

Theorem C20_degree_sums :
  forall g, digraph_state g ->
    list_sum (map (fun v => indegree g (Nodes [v])) (map fst (dg_nodes g))) = length (dg_arcs g) /\
    list_sum (map (fun v => outdegree g (Nodes [v])) (map fst (dg_nodes g))) = length (dg_arcs g).
Proof.
  intros g H. apply digraph_state_inv in H.
  rewrite <- (map_length fst (dg_arcs g)). change (map fst (dg_arcs g)) with (dkeys (dg_arcs g)).
  split.
  - rewrite <- (sum_indicator (dkeys (dg_arcs g)) (map fst (dg_nodes g)) snd).
    + f_equal. apply map_ext. intros v. unfold indegree, ncut. f_equal. apply filter_ext_in. intros [p q] Hin.
      cbn [node_set fst snd]. destruct (d_arc _ H _ _ Hin) as [Hne _]. simpl.
      destruct (eqs p v), (eqs q v); simpl; auto. congruence.
    + apply H.
    + intros [p q] Ha. apply (d_arc _ H) in Ha. apply Ha.
  - rewrite <- (sum_indicator (dkeys (dg_arcs g)) (map fst (dg_nodes g)) fst).
    + f_equal. apply map_ext. intros v. unfold outdegree, cut. f_equal. apply filter_ext_in. intros [p q] Hin.
      cbn [node_set fst snd]. destruct (d_arc _ H _ _ Hin) as [Hne _]. simpl.
      destruct (eqs p v), (eqs q v); simpl; auto. congruence.
    + apply H.
    + intros [p q] Ha. apply (d_arc _ H) in Ha. apply Ha.
Qed.
Print Assumptions C20_degree_sums.

Example C20_nontrivial : cut ddemo (Nodes ["a"]) = [("a", "b"); ("a", "c")] /\ ncut ddemo (Nodes ["b"; "c"]) = [("a", "b"); ("a", "c")].
Proof. split; reflexivity. Qed.

(** False for longer names: the node "aa" has an outgoing arc, but its outdegree is 0. *)
Theorem C20_long_names_refuted :
  exists g v, digraph_state g /\ is_node (dg_nodes g) v /\ outdegree g (Name v) <> outdegree g (Nodes [v]).
Proof.
  set (g := mkdg [("aa", ["b"]); ("b", [])] [(("aa", "b"), 1%Qc)] [("aa", 0%Qc); ("b", 0%Qc)]).
  exists g, "aa". split; [|split; [exists 0%Qc; vm_compute; auto|vm_compute; discriminate]].
  exists [], [(("aa", "b"), 1%Qc)], [], g, []. split; [vm_compute; reflexivity|]. split; constructor.
Qed.
Print Assumptions C20_long_names_refuted.

(** ** C21 *)

(** [f] is the function a flow dictionary stands for: absent arcs carry nothing *)
Definition denotes (flow : list (arc * Qc)) (f : arc -> Qc) : Prop :=
  (forall a x, In (a, x) flow -> f a = x) /\ (forall a, ~ In a (map fst flow) -> f a = 0%Qc).

Lemma denotes_fget flow f a : denotes flow f -> fget flow a = f a.
Proof.
  intros [H1 H2]. unfold fget. destruct (dget eqe a flow) as [x|] eqn:E.
  - apply (dget_In _ eqe_spec) in E. symmetry. auto.
  - apply (dget_None _ eqe_spec) in E. symmetry. auto.
Qed.

Theorem C21_create_residual_partial :
  forall g flow f, digraph_state g -> no_antiparallel (dg_arcs g) -> nonnegative_capacities (dg_arcs g) ->
    NoDup (map fst flow) -> denotes flow f -> (forall a x, In (a, x) flow -> is_arc (dg_arcs g) (fst a) (snd a)) ->
    within_capacity (dg_arcs g) f ->
    exists g', create_residual g flow = Ok g' /\ dconsistent (dg_graph g') (dg_arcs g') (dg_nodes g') /\
      (forall u v x, In ((u, v), x) (dg_arcs g') <-> residual_value (dg_arcs g) f u v x) /\
      (forall v, is_node (dg_nodes g') v <-> exists u, is_arc (dg_arcs g') u v \/ is_arc (dg_arcs g') v u).
Proof.
  intros g flow f H Hw Hnn Hnd Hf Hin Hcap. apply digraph_state_inv in H.
  assert (Hk : forall (l : list (arc * Qc)) p q, is_arc l p q <-> In (p, q) (dkeys l)) by (intros; unfold is_arc; now rewrite key_In).
  assert (F : feasible_flow_arg g flow).
  { split; [exact Hnd|]. split.
    - intros a x Hax. pose proof (Hin a x Hax) as Ha. split; [apply Hk in Ha; now destruct a|].
      destruct Ha as [c Hc]. destruct a as [p q]. simpl in Hc. destruct (Hcap _ _ Hc) as [H0 _].
      rewrite (proj1 Hf _ _ Hax) in H0. exact H0.
    - intros a c Hc. split; [eapply Hnn; eauto|]. rewrite (denotes_fget flow f a Hf). eapply Hcap; eauto. }
  destruct (create_residual_spec g flow H Hw F) as (g' & E & I' & V & N).
  exists g'. split; [exact E|]. split; [now apply dinv_consistent|]. split.
  - intros u v x. assert (Q : In ((u, v), x) (dg_arcs g') <-> rexp (dg_arcs g) flow u v = Some x).
    { rewrite <- V. split; [apply (In_dget _ eqe_spec), I'|apply (dget_In _ eqe_spec)]. }
    rewrite Q, (rexp_residual_value g flow u v x H Hw F).
    unfold residual_value. rewrite !(denotes_fget flow f _ Hf). reflexivity.
  - intros v. assert (Q : is_node (dg_nodes g') v <-> In v (dkeys (dg_nodes g'))) by (unfold is_node; now rewrite key_In).
    rewrite Q, N. split.
    + intros ([p q] & Ha & [-> | ->]); simpl; [exists q; right|exists p; left]; now apply Hk.
    + intros (u & [Hu|Hu]); apply Hk in Hu; eexists; (split; [exact Hu|simpl; auto]).
Qed.
Print Assumptions C21_create_residual_partial.

(** Bad input raises: an unknown arc, a negative value or capacity, a value above the capacity. *)
Theorem C21_bad_flows_raise :
  forall g flow f, denotes flow f ->
    let bad := (exists a x, In (a, x) flow /\ (~ is_arc (dg_arcs g) (fst a) (snd a) \/ (x < 0)%Qc)) \/
               (exists a c, In (a, c) (dg_arcs g) /\ (c < 0)%Qc) in
    (bad -> create_residual g flow = Raise ValueError) /\
    (~ bad -> (exists a c, In (a, c) (dg_arcs g) /\ (c < f a)%Qc) -> create_residual g flow = Raise ArithmeticError).
Proof.
  intros g flow f Hf bad. destruct (create_residual_raises g flow) as [R1 R2].
  assert (Hk : forall (l : list (arc * Qc)) a, is_arc l (fst a) (snd a) <-> In a (dkeys l)).
  { intros l [p q]. unfold is_arc. now rewrite key_In. }
  assert (B : bad <-> ((exists a x, In (a, x) flow /\ (~ In a (dkeys (dg_arcs g)) \/ (x < 0)%Qc)) \/ (exists a c, In (a, c) (dg_arcs g) /\ (c < 0)%Qc))).
  { unfold bad. split; (intros [(a & x & H & [H1|H1])|H]; [left; exists a, x; rewrite Hk in *; tauto|left; exists a, x; tauto|right; exact H]). }
  rewrite B. split; auto. intros Hb (a & c & H1 & H2). apply R2; auto. exists a, c. now rewrite (denotes_fget flow f a Hf).
Qed.
Print Assumptions C21_bad_flows_raise.

Example C21_nontrivial : exists g', create_residual ddemo [(("a", "b"), 1%Qc); (("a", "c"), 1%Qc); (("c", "b"), 1%Qc)] = Ok g' /\
  map (fun p => (fst p, this (snd p))) (dg_arcs g') = [(("a", "b"), 1%Q); (("b", "a"), 1%Q); (("b", "c"), 1%Q); (("c", "a"), 1%Q)].
Proof. eexists. split; vm_compute; reflexivity. Qed.

(** The full property is false with antiparallel arcs.  With capacities 4 on (a,b) and 5 on (b,a)
    and one unit of flow on (b,a), the residual digraph offers only 1 unit from a to b
    although 4 units of capacity are unused there; with the flow on (a,b) instead it offers 5
    units from b to a although 6 could be sent. *)
Theorem C21_antiparallel_refuted :
  exists g, digraph_state g /\ is_arc (dg_arcs g) "a" "b" /\ In (("b", "a"), qz 5) (dg_arcs g) /\ In (("a", "b"), qz 4) (dg_arcs g) /\ (exists g', create_residual g [(("b", "a"), 1%Qc)] = Ok g' /\ exists x, In (("a", "b"), x) (dg_arcs g') /\ x = 1%Qc) /\ (exists g', create_residual g [(("a", "b"), 1%Qc)] = Ok g' /\ exists x, In (("b", "a"), x) (dg_arcs g') /\ x = qz 5).
Proof.
  set (g := mkdg [("a", ["b"]); ("b", ["a"])] [(("a", "b"), qz 4); (("b", "a"), qz 5)] [("a", 0%Qc); ("b", 0%Qc)]).
  exists g. split.
  { exists [], [(("a", "b"), qz 4); (("b", "a"), qz 5)], [], g, []. split; [vm_compute; reflexivity|]. split; constructor. }
  split; [exists (qz 4); simpl; auto|]. split; [simpl; auto|]. split; [simpl; auto|]. split.
  - eexists. split; [vm_compute; reflexivity|]. eexists. split; [simpl; eauto|]. apply Qc_is_canon. reflexivity.
  - eexists. split; [vm_compute; reflexivity|]. eexists. split; [simpl; eauto|]. apply Qc_is_canon. reflexivity.
Qed.
Print Assumptions C21_antiparallel_refuted.
