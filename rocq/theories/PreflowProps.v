(** C26, C27: preflow_push. *)
From Coq Require Import String List Bool Arith QArith Qcanon Lia ZArith.
From Verif Require Import Py QcTac QSum QInt UndirectedModel UndirectedProofs DirectedModel DirectedSpec DirectedProofs FlowModel FlowSpec FlowTheory ResidualProofs DirectedFinal DirectedProps FFProofs FFFinal FFProps PreflowProofs PreflowFinal.
Import ListNotations.
Open Scope nat_scope.
Open Scope string_scope.
Open Scope list_scope.

(** Bad arguments are rejected. *)
Theorem C26_bad_arguments_raise :
  forall fuel g s t, ~ is_node (dg_nodes g) s \/ ~ is_node (dg_nodes g) t \/ s = t ->
    preflow_push fuel g s t = Raise ValueError.
Proof.
  intros fuel g s t H. unfold preflow_push.
  assert (Hk : forall v, is_node (dg_nodes g) v <-> In v (dkeys (dg_nodes g))) by (intros; unfold is_node; now rewrite key_In).
  rewrite !Hk in H. destruct (has_node_spec g s), (has_node_spec g t); cbn [negb]; auto.
  destruct H as [H|[H|H]]; try contradiction. subst. now rewrite String.eqb_refl.
Qed.
Print Assumptions C26_bad_arguments_raise.

(** all names other than the sink's have one character *)
Definition short_names (g : digraph) (t : string) : Prop := forall v, is_node (dg_nodes g) v -> v <> t -> short v.
(** some node is neither the source nor the sink *)
Definition inner_node (g : digraph) (s t : string) : Prop := exists v, is_node (dg_nodes g) v /\ v <> s /\ v <> t.

(** On every network without antiparallel arcs, with one-character node names and at least one
    inner node: the call returns after finitely many iterations a flow with exactly the arcs as
    keys, which is feasible, conserved and maximum, and equal in value to a cut; the reported
    value is the value of that flow.
    Missing: longer node names and digraphs with only the source and the sink, for which the
    claim is false (below). *)
Theorem C26_maximum_flow_partial :
  forall g s t, network g s t -> no_antiparallel (dg_arcs g) -> short_names g t -> inner_node g s t ->
    exists N value flow f inside, (forall fuel, N <= fuel -> preflow_push fuel g s t = Ok (value, flow)) /\
      map fst flow = map fst (dg_arcs g) /\ denotes flow f /\ maximum_flow (dg_arcs g) s t f /\
      inside s = true /\ inside t = false /\ net_value (dg_arcs g) s f = cut_capacity (dg_arcs g) inside /\
      value = net_value (dg_arcs g) s f.
Proof.
  intros g s t [H1 H2 H3 H4 H5] Hw Hsh Hin. apply digraph_state_inv in H1. apply is_node_key in H2, H3.
  assert (Hsh' : forall v, In v (dkeys (dg_nodes g)) -> v <> t -> short v).
  { intros v Hv Hne. apply Hsh; auto. unfold is_node. now rewrite <- key_In. }
  assert (HN : preflow_nodes g s t <> []).
  { destruct Hin as (v & Hv & N1 & N2). apply is_node_key in Hv. intros E.
    assert (X : In v (preflow_nodes g s t)) by (apply N_spec; auto). rewrite E in X. destruct X. }
  destruct (preflow_all g s t H1 H2 H3 H4 H5 Hw Hsh' HN) as (k & flow & inside & E & K & M & I1 & I2 & Vl).
  exists k, (net_value (dg_arcs g) s (fget flow)), flow, (fget flow), inside. split; [exact E|]. split; [exact K|].
  split; [apply denotes_self; rewrite_nodup K; apply H1|]. split; [exact M|]. auto.
Qed.
Print Assumptions C26_maximum_flow_partial.

(** It reports the same value as ford_fulkerson, whenever ford_fulkerson returns without having
    gone backwards. *)
Theorem C26_agrees_with_ford_fulkerson_partial :
  forall g s t fuel1 fuel2 v1 flow1 paths v2 flow2,
    network g s t -> no_antiparallel (dg_arcs g) -> short_names g t ->
    ford_fulkerson fuel1 g s t = (Ok (v1, flow1), paths) -> never_backwards g paths ->
    preflow_push fuel2 g s t = Ok (v2, flow2) -> inner_node g s t -> v1 = v2.
Proof.
  intros g s t fuel1 fuel2 v1 flow1 paths v2 flow2 Hn Hw Hsh E1 F E2 Hin.
  destruct (C23_forward_runs_are_maximum_partial _ _ _ _ _ _ _ Hn Hw E1 F) as (f1 & i1 & D1 & M1 & _ & _ & _ & W1).
  destruct (C26_maximum_flow_partial g s t Hn Hw Hsh Hin) as (N & v & flow & f & i & E & K & D & M & _ & _ & _ & W).
  assert (Mono : forall n m gg st x nodes val, n <= m -> preflow_loop n gg s t nodes val st = Ok x -> preflow_loop m gg s t nodes val st = Ok x).
  { clear. induction n as [|n IH]; intros m gg st x nodes val Hm Hx; [discriminate Hx|]. destruct m as [|m]; [lia|].
    cbn [preflow_loop] in *. destruct (nth_error nodes (p_index st)); [|exact Hx].
    destruct (preflow_step (dg_arcs gg) s t s0 st) as [st'| |]; [|discriminate Hx|discriminate Hx]. cbn [bind] in *. apply IH; [lia|exact Hx]. }
  assert (E2' : preflow_push (max N fuel2) g s t = Ok (v2, flow2)).
  { revert E2. unfold preflow_push. destruct (negb (has_node g s)); [intros X; discriminate X|]. destruct (negb (has_node g t)); [intros X; discriminate X|].
    destruct (String.eqb s t); [intros X; discriminate X|].
    destruct (compute_residual g (preflow_init_flow g s)) as [r| |]; [|intros X; discriminate X|intros X; discriminate X].
    cbn [bind]. cbv zeta. apply Mono. lia. }
  rewrite E in E2' by lia. inversion E2'; subst v2 flow2.
  assert (Hss : short s). { destruct Hn as [_ A _ B _]. apply Hsh; auto. }
  rewrite (W1 Hss), W. destruct M1 as [A1 B1], M as [A B]. apply Qcle_antisym; auto.
Qed.
Print Assumptions C26_agrees_with_ford_fulkerson_partial.

(** C27, the positive part: it stops, normally, after finitely many pushes and relabels. *)
Corollary C27_terminates_partial :
  forall g s t, network g s t -> no_antiparallel (dg_arcs g) -> short_names g t -> inner_node g s t ->
    exists N value flow, forall fuel, N <= fuel -> preflow_push fuel g s t = Ok (value, flow).
Proof.
  intros g s t H1 H2 H3 H4. destruct (C26_maximum_flow_partial g s t H1 H2 H3 H4) as (N & v & flow & _ & _ & E & _). eauto.
Qed.
Print Assumptions C27_terminates_partial.

(** a network meeting the hypotheses, with a push back to the source *)
Definition kite : digraph :=
  match dconstruct [] [(("s", "a"), qz 4); (("a", "b"), qz 2); (("a", "t"), 1%Qc); (("b", "t"), 1%Qc)] [] with Ok g => g | _ => empty_digraph end.
Ltac small_network arcs := apply (network_of _ arcs); [vm_compute; reflexivity|vm_compute; reflexivity|vm_compute; reflexivity|discriminate|vm_compute; reflexivity].
Ltac small_names := intros v [w H]; vm_compute in H; repeat (destruct H as [H|H]; [inversion H; subst; intros; reflexivity|]); contradiction.
Example C26_nontrivial : network kite "s" "t" /\ no_antiparallel (dg_arcs kite) /\ short_names kite "t" /\ inner_node kite "s" "t" /\
  exists flow, rmap (fun p => (this (fst p), snd p)) (preflow_push 60 kite "s" "t") = Ok (this (qz 2), flow) /\ this (fget flow ("s", "a")) = this (qz 2).
Proof.
  split; [small_network [(("s", "a"), qz 4); (("a", "b"), qz 2); (("a", "t"), 1%Qc); (("b", "t"), 1%Qc)]|].
  split; [apply one_wayb_ok; vm_compute; reflexivity|]. split; [small_names|]. split.
  - exists "a". split; [exists 0%Qc; vm_compute; auto|split; discriminate].
  - eexists. split; [vm_compute; reflexivity|reflexivity].
Qed.

(** ** C27 and C26 are false of the code in these cases *)

(** only the source and the sink: [value] is never assigned *)
Definition pair_graph : digraph := mkdg [("s", ["t"]); ("t", [])] [(("s", "t"), 1%Qc)] [("s", 0%Qc); ("t", 0%Qc)].
Theorem C27_two_nodes_refuted :
  exists g s t, network g s t /\ no_antiparallel (dg_arcs g) /\ short_names g t /\
    forall fuel, preflow_push (S fuel) g s t = Raise UnboundLocalError.
Proof.
  exists pair_graph, "s", "t". split; [small_network [(("s", "t"), 1%Qc)]|]. split; [apply one_wayb_ok; reflexivity|].
  split; [small_names|]. intros fuel. reflexivity.
Qed.
Print Assumptions C27_two_nodes_refuted.

(** an antiparallel pair at the source: the initial residual network is not that of the initial
    flow, and the search for a neighbour of the overflowing node fails *)
Definition back_graph : digraph :=
  mkdg [("s", ["b"]); ("b", ["s"]); ("t", [])] [(("s", "b"), qz 3); (("b", "s"), qz 2)] [("s", 0%Qc); ("b", 0%Qc); ("t", 0%Qc)].
Theorem C27_antiparallel_raises_refuted :
  exists g s t, network g s t /\ short_names g t /\ inner_node g s t /\
    forall fuel, preflow_push (8 + fuel) g s t = Raise KeyError.
Proof.
  exists back_graph, "s", "t". split.
  - split.
    + exists [("s", ["b"]); ("b", ["s"]); ("t", [])], (dg_arcs back_graph), [], back_graph, []. split; [vm_compute; reflexivity|]. split; constructor.
    + exists 0%Qc. vm_compute. auto.
    + exists 0%Qc. vm_compute. auto.
    + discriminate.
    + intros a c [H|[H|[]]]; inversion H; intros X; vm_compute in X; discriminate X.
  - split; [small_names|]. split.
    + exists "b". split; [exists 0%Qc; vm_compute; auto|split; discriminate].
    + intros fuel. vm_compute. reflexivity.
Qed.
Print Assumptions C27_antiparallel_raises_refuted.

(** a node with a name of two characters: its excess is computed from the wrong cuts *)
Definition long_inner : digraph :=
  mkdg [("s", ["aa"]); ("aa", ["t"]); ("t", [])] [(("s", "aa"), 1%Qc); (("aa", "t"), 1%Qc)] [("s", 0%Qc); ("aa", 0%Qc); ("t", 0%Qc)].
Theorem C26_long_names_refuted :
  exists g s t value flow f, network g s t /\ no_antiparallel (dg_arcs g) /\ inner_node g s t /\
    (forall fuel, preflow_push (2 + fuel) g s t = Ok (value, flow)) /\ denotes flow f /\ ~ conserved (dg_arcs g) s t f.
Proof.
  exists long_inner, "s", "t".
  assert (Hn : network long_inner "s" "t") by small_network (dg_arcs long_inner).
  destruct (preflow_push 2 long_inner "s" "t") as [[value flow]| |] eqn:E; [|vm_compute in E; discriminate E|vm_compute in E; discriminate E].
  exists value, flow, (fget flow). split; [exact Hn|]. split; [apply one_wayb_ok; reflexivity|]. split; [|split; [|split]].
  - exists "aa". split; [exists 0%Qc; vm_compute; auto|split; discriminate].
  - intros fuel. rewrite <- E. reflexivity.
  - apply denotes_self. vm_compute in E. inversion E; subst. cbn. repeat constructor; simpl; intuition discriminate.
  - intros C. specialize (C "aa"). assert (X : inflow (dg_arcs long_inner) (fget flow) "aa" = outflow (dg_arcs long_inner) (fget flow) "aa") by (apply C; discriminate).
    apply (f_equal this) in X. vm_compute in E. inversion E; subst. vm_compute in X. discriminate X.
Qed.
Print Assumptions C26_long_names_refuted.
