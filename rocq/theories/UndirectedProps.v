(** C09-C15, C17, C18: properties of [UndirectedGraph]. *)
From Coq Require Import String List Bool Arith QArith Qcanon Lia Permutation.
From Verif Require Import Py QcTac UndirectedModel GraphSpec UndirectedSpec UndirectedProofs GraphTheory
  TraverseProofs TreeProofs UndirectedHeap UndirectedHeapProofs UndirectedFinal.
Import ListNotations.
Open Scope nat_scope.
Open Scope string_scope.
Open Scope list_scope.

(** the states a client can produce: construct from any three dictionaries, then call any
    mutating methods with any arguments, including calls that raise *)
Definition api_state (g : ugraph) : Prop :=
  exists gr es vs g0 h, construct gr es vs = Ok g0 /\ g = urun g0 h.

(** ** C09 *)

(** In every reachable state: adjacency is symmetric, every adjacency is a recorded edge, edge
    keys are sorted pairs of distinct nonempty names, endpoints are vertices, and the adjacency
    dictionary has exactly the vertices as keys.  Missing from the full property: a recorded
    edge need not be in the adjacency sets (see the refutation below). *)
Theorem C09_consistency_partial :
  forall g, api_state g -> weakly_consistent (ug_graph g) (ug_edges g) (ug_vertices g).
Proof. intros g R. exact (inv_weak g (reach_inv g R)). Qed.
Print Assumptions C09_consistency_partial.

(** Full consistency holds along every history that does not call remove_edge. *)
Theorem C09_consistent_without_removals :
  forall gr es vs g0 h, construct gr es vs = Ok g0 -> (forall e, ~ In (RemoveEdge e) h) ->
    let g := urun g0 h in consistent (ug_graph g) (ug_edges g) (ug_vertices g).
Proof.
  intros gr es vs g0 h H Hn. apply full_consistent.
  - apply reach_inv. exists gr, es, vs, g0, h. auto.
  - exact (construct_full gr es vs g0 h H Hn).
Qed.
Print Assumptions C09_consistent_without_removals.

(** A call that raises leaves the graph unchanged; no call diverges. *)
Theorem C09_raising_calls_are_atomic :
  forall g o, api_state g ->
    (snd (ustep g o) = Ok tt \/ (exists x, snd (ustep g o) = Raise x /\ fst (ustep g o) = g)).
Proof.
  intros g o R. pose proof (ustep_raise g o (reach_inv g R)) as H.
  destruct (snd (ustep g o)) as [[]|x|] eqn:E; auto.
  - right. exists x. split; auto. apply H. discriminate.
  - exfalso. clear H. destruct o as [e w|e|v w|e w|v w]; simpl in E.
    + unfold add_edge in E. repeat (destruct (_ : bool) in E; try discriminate).
    + destruct (remove_edge_cases g e (reach_inv g R)) as [[_ X]|[(_ & _ & X)|(_ & _ & g' & X & _)]];
        rewrite X in E; discriminate.
    + unfold add_vertex in E. repeat (destruct (_ : bool) in E; try discriminate).
    + unfold set_edge_weight in E. repeat (destruct (_ : bool) in E; try discriminate).
    + unfold set_vertex_weight in E. repeat (destruct (_ : bool) in E; try discriminate).
Qed.
Print Assumptions C09_raising_calls_are_atomic.

Definition demo : ugraph :=
  match construct [] [(("a", "b"), 1%Qc); (("s", "a"), 1%Qc); (("s", "b"), 1%Qc); (("b", "c"), 1%Qc)] [] with
  | Ok g => g | _ => empty_graph end.
Example demo_is_reachable : api_state demo /\ length (ug_edges demo) = 4 /\ length (ug_vertices demo) = 4.
Proof.
  split; [|split; reflexivity].
  exists [], [(("a", "b"), 1%Qc); (("s", "a"), 1%Qc); (("s", "b"), 1%Qc); (("b", "c"), 1%Qc)], [], demo, [].
  split; vm_compute; reflexivity.
Qed.

(** The full property is false of the code: remove_edge leaves the edge dictionary as it was. *)
Theorem C09_consistency_refuted :
  exists g, api_state g /\ ~ consistent (ug_graph g) (ug_edges g) (ug_vertices g).
Proof.
  exists (urun demo [RemoveEdge ("a", "b")]). split.
  - exists [], [(("a", "b"), 1%Qc); (("s", "a"), 1%Qc); (("s", "b"), 1%Qc); (("b", "c"), 1%Qc)], [], demo, [RemoveEdge ("a", "b")].
    split; vm_compute; reflexivity.
  - intros [_ H]. destruct (H "a" "b") as (s & Hs & Hb).
    + left. exists 1%Qc. vm_compute. auto.
    + vm_compute in Hs. destruct Hs as [Hs|[Hs|[Hs|[Hs|[]]]]]; inversion Hs; subst; simpl in Hb;
        repeat (destruct Hb as [Hb|Hb]; [discriminate|]); contradiction.
Qed.
Print Assumptions C09_consistency_refuted.

(** ** C10 *)

Theorem C10_endpoint_order_is_ignored :
  forall g u v w,
    has_edge g (u, v) = has_edge g (v, u) /\
    get_edge_weight g (u, v) = get_edge_weight g (v, u) /\
    set_edge_weight g (u, v) w = set_edge_weight g (v, u) w.
Proof. exact edge_order. Qed.
Print Assumptions C10_endpoint_order_is_ignored.

(** [has_edge] and [get_edge_weight] answer what the edge dictionary records. *)
Theorem C10_queries_read_the_dictionary :
  forall g u v, api_state g ->
    (has_edge g (u, v) = true <-> is_edge (ug_edges g) u v) /\
    (forall w, get_edge_weight g (u, v) = Ok w <-> (In ((u, v), w) (ug_edges g) \/ In ((v, u), w) (ug_edges g))).
Proof.
  intros g u v R. pose proof (reach_inv g R) as I. split.
  - rewrite (is_edge_keys g u v I). destruct (has_edge_spec g (u, v)); intuition discriminate.
  - intros w. unfold get_edge_weight. destruct (has_edge_spec g (u, v)) as [He|He]; simpl.
    + destruct (dget eqe (sorted2 (u, v)) (ug_edges g)) as [w'|] eqn:E.
      * apply (dget_In _ eqe_spec) in E. split.
        -- intros X; inversion X; subst. destruct (sorted2_cases (u, v)) as [Y|Y]; rewrite Y in E; auto.
        -- intros X. f_equal.
           assert (In (sorted2 (u, v), w) (ug_edges g)) as E2.
           { destruct X as [X|X].
             - assert (K : In (u, v) (dkeys (ug_edges g))) by (apply in_map_iff; exists ((u, v), w); auto).
               apply (i_edge _ I) in K. rewrite sorted2_lt by apply K. exact X.
             - assert (K : In (v, u) (dkeys (ug_edges g))) by (apply in_map_iff; exists ((v, u), w); auto).
               apply (i_edge _ I) in K. rewrite sorted2_swap, sorted2_lt by apply K. exact X. }
           assert (E3 : dget eqe (sorted2 (u, v)) (ug_edges g) = Some w) by (apply (In_dget _ eqe_spec); auto; apply I).
           assert (E4 : dget eqe (sorted2 (u, v)) (ug_edges g) = Some w') by (apply (In_dget _ eqe_spec); auto; apply I).
           congruence.
      * apply (dget_None _ eqe_spec) in E. contradiction.
    + split; [discriminate|]. intros X. exfalso. apply He. apply (is_edge_keys g u v I).
      destruct X as [X|X]; [left|right]; eauto.
Qed.
Print Assumptions C10_queries_read_the_dictionary.

(** After a successful set_edge_weight: the edge reads the new weight; nothing else changes. *)
Theorem C10_set_edge_weight_frame :
  forall g e w g', set_edge_weight g e w = (g', Ok tt) ->
    get_edge_weight g' e = Ok w /\
    (forall e', e' <> e -> e' <> (snd e, fst e) -> get_edge_weight g' e' = get_edge_weight g e') /\
    (forall e', has_edge g' e' = has_edge g e') /\
    (forall v, get_vertex_weight g' v = get_vertex_weight g v).
Proof.
  intros g e w g' H. destruct (set_edge_frame g e w g' H) as (A & B & C & D & _).
  split; [auto|split; [|auto]]. intros e' H1 H2. apply B. intros E.
  destruct e as [a b], e' as [c d]; simpl in *.
  destruct (sorted2_cases (a, b)) as [X|X], (sorted2_cases (c, d)) as [Y|Y]; rewrite X, Y in E; simpl in E; inversion E; subst; congruence.
Qed.
Print Assumptions C10_set_edge_weight_frame.

(** After a successful add_edge: the edge was absent and now reads the given weight; every other
    edge and every vertex weight is unchanged; new endpoints become vertices of weight 0. *)
Theorem C10_add_edge_frame :
  forall g e w g', api_state g -> add_edge g e w = (g', Ok tt) ->
    has_edge g e = false /\ get_edge_weight g' e = Ok w /\
    (forall e', e' <> e -> e' <> (snd e, fst e) -> get_edge_weight g' e' = get_edge_weight g e') /\
    (forall v x, get_vertex_weight g v = Ok x -> get_vertex_weight g' v = Ok x) /\
    (forall v, has_vertex g' v = true <-> has_vertex g v = true \/ v = fst e \/ v = snd e) /\
    (forall v, has_vertex g v = false -> v = fst e \/ v = snd e -> get_vertex_weight g' v = Ok 0%Qc).
Proof.
  intros g e w g' R H. destruct (add_edge_frame g e w g' (reach_inv g R) H) as (A & B & C & D).
  split; [|split; [auto|split; [|auto]]].
  - unfold get_edge_weight in A. destruct (has_edge_spec g e) as [He|]; auto. simpl in A.
    destruct (dget eqe (sorted2 e) (ug_edges g)) eqn:E; [discriminate|]. apply (dget_None _ eqe_spec) in E. contradiction.
  - intros e' H1 H2. apply C. intros E.
    destruct e as [a b], e' as [c d]; simpl in *.
    destruct (sorted2_cases (a, b)) as [X|X], (sorted2_cases (c, d)) as [Y|Y]; rewrite X, Y in E; simpl in E; inversion E; subst; congruence.
Qed.
Print Assumptions C10_add_edge_frame.

(** add_edge succeeds exactly on nonnegative weights and distinct nonempty names not yet joined. *)
Theorem C10_add_edge_succeeds_iff :
  forall g u v w,
    snd (add_edge g (u, v) w) = Ok tt <->
    (0 <= w)%Qc /\ u <> v /\ u <> "" /\ v <> "" /\ has_edge g (u, v) = false.
Proof.
  intros g u v w. unfold add_edge. simpl.
  destruct (qlt_spec w 0) as [Hw|Hw].
  - split; [discriminate|]. intros [H _]. exfalso. eapply Qclt_not_le; eauto.
  - apply Qcnot_lt_le in Hw. destruct (eqs u v) as [|H1]; [split; [discriminate|tauto]|].
    destruct (eqs u "") as [|H2]; [split; [discriminate|tauto]|].
    destruct (eqs v "") as [|H3]; [split; [discriminate|tauto]|]. simpl orb. cbv iota.
    unfold has_edge. rewrite sorted2_idem. destruct (dmem eqe (sorted2 (u, v)) (ug_edges g)); simpl.
    + split; [discriminate|]. intros (_ & _ & _ & _ & H). discriminate.
    + split; auto.
Qed.
Print Assumptions C10_add_edge_succeeds_iff.

Theorem C10_vertex_writes_frame :
  forall g v w g',
    (set_vertex_weight g v w = (g', Ok tt) \/ add_vertex g v w = (g', Ok tt)) ->
    get_vertex_weight g' v = Ok w /\
    (forall v', v' <> v -> get_vertex_weight g' v' = get_vertex_weight g v') /\
    (forall e, has_edge g' e = has_edge g e /\ get_edge_weight g' e = get_edge_weight g e).
Proof. exact vertex_frame. Qed.
Print Assumptions C10_vertex_writes_frame.

(** What a successful remove_edge does: the two adjacency entries disappear and nothing else
    changes; in particular has_edge still answers true for the removed edge. *)
Theorem C10_remove_edge_effect :
  forall g e g', api_state g -> remove_edge g e = (g', Ok tt) ->
    (forall u v, adjacent (ug_graph g') u v <->
       adjacent (ug_graph g) u v /\ (u, v) <> e /\ (v, u) <> e) /\
    ug_edges g' = ug_edges g /\ ug_vertices g' = ug_vertices g /\ has_edge g' e = true.
Proof. exact remove_edge_final. Qed.
Print Assumptions C10_remove_edge_effect.

(** The full property is false of the code: has_edge is true right after remove_edge. *)
Theorem C10_removed_edge_is_gone_refuted :
  exists g e g', api_state g /\ remove_edge g e = (g', Ok tt) /\ has_edge g' e = true.
Proof.
  exists demo, ("a", "b"), (fst (remove_edge demo ("a", "b"))).
  split; [apply demo_is_reachable|]. split; vm_compute; reflexivity.
Qed.
Print Assumptions C10_removed_edge_is_gone_refuted.

Example C10_nontrivial : exists g', add_edge demo ("c", "d") 1%Qc = (g', Ok tt) /\
  exists g'', set_edge_weight demo ("s", "b") 1%Qc = (g'', Ok tt).
Proof. eexists. split; [vm_compute; reflexivity|]. eexists. vm_compute. reflexivity. Qed.

(** ** C11 *)

(** cut(S) is exactly the boundary, listed without repetition; degree(S) is its size. *)
Theorem C11_cut_is_the_boundary :
  forall g S, api_state g ->
    NoDup (cut_set g S) /\ degree_set g S = length (cut_set g S) /\
    (forall u v, In (u, v) (cut_set g S) <->
       (exists w, In ((u, v), w) (ug_edges g)) /\ ((In u S /\ ~ In v S) \/ (In v S /\ ~ In u S))).
Proof.
  intros g S R. split; [apply cut_set_NoDup, reach_inv, R|]. split; [reflexivity|].
  intros u v. rewrite cut_set_spec. unfold dkeys. rewrite in_map_iff. simpl.
  split.
  - intros (([e w] & E & Hin) & H). simpl in E. subst. split; eauto.
  - intros ((w & Hin) & H). split; auto. exists ((u, v), w). auto.
Qed.
Print Assumptions C11_cut_is_the_boundary.

(** cut(S) = cut of the complement. *)
Theorem C11_cut_of_complement :
  forall g S S', api_state g ->
    (forall v, is_vertex (ug_vertices g) v -> (In v S' <-> ~ In v S)) -> cut_set g S = cut_set g S'.
Proof.
  intros g S S' R H. apply cut_complement; [apply reach_inv, R|]. intros v Hv. apply H.
  apply in_map_iff in Hv. destruct Hv as ([x w] & <- & Hin). now exists w.
Qed.
Print Assumptions C11_cut_of_complement.

(** cut(v) for a one-character name is the set of incident edges.  Missing: longer names. *)
Theorem C11_cut_of_a_name_partial :
  forall g c, api_state g -> let v := String c "" in
    degree_name g v = length (cut_name g v) /\
    forall a b, In (a, b) (cut_name g v) <-> (exists w, In ((a, b), w) (ug_edges g)) /\ (a = v \/ b = v).
Proof.
  intros g c R v. split; [reflexivity|]. intros a b. unfold cut_name. unfold v. rewrite chars_single. fold v.
  destruct (C11_cut_is_the_boundary g [v] R) as (_ & _ & H). rewrite H. simpl. split.
  - intros [H1 [[[H2|[]] _]|[[H2|[]] _]]]; auto.
  - intros [[w Hw] Hv]. split; eauto.
    assert (a <> b) as Hne.
    { intros ->. pose proof (reach_inv g R) as I. destruct (i_edge _ I b b) as (E & _).
      - apply in_map_iff. exists ((b, b), w). auto.
      - rewrite compare_refl in E. discriminate. }
    destruct Hv as [-> | ->]; [left|right]; intuition congruence.
Qed.
Print Assumptions C11_cut_of_a_name_partial.

(** For a longer name the code cuts the set of the name's characters: degree("ab") is 0 although
    "ab" has an edge. *)
Theorem C11_cut_of_a_name_refuted :
  exists g v a b w, api_state g /\ In ((a, b), w) (ug_edges g) /\ a = v /\ cut_name g v = [] /\ degree_name g v = 0.
Proof.
  exists (match construct [] [(("ab", "cd"), 1%Qc)] [] with Ok g => g | _ => empty_graph end), "ab", "ab", "cd", 1%Qc.
  split; [|split; [|vm_compute; auto]].
  - exists [], [(("ab", "cd"), 1%Qc)], [], (match construct [] [(("ab", "cd"), 1%Qc)] [] with Ok g => g | _ => empty_graph end), [].
    split; vm_compute; reflexivity.
  - vm_compute. auto.
Qed.
Print Assumptions C11_cut_of_a_name_refuted.

Example C11_nontrivial : cut_set demo ["s"; "a"] = [("a", "b"); ("b", "s")] /\ cut_name demo "b" <> [].
Proof. split; [vm_compute; reflexivity|vm_compute; discriminate]. Qed.

(** ** C12 *)

Theorem C12_bfs_by_distance :
  forall g start, api_state g -> In start (map fst (ug_vertices g)) ->
    exists out, bfs g start = Ok out /\ NoDup out /\ hd_error out = Some start /\
      (forall v, In v out <-> reachable (adjacent (ug_graph g)) start v) /\
      (forall i j u v m n, i <= j -> nth_error out i = Some u -> nth_error out j = Some v ->
         distance (adjacent (ug_graph g)) start u m -> distance (adjacent (ug_graph g)) start v n -> m <= n).
Proof. intros g start R H. apply traverse_final; auto; [discriminate|apply sorted_perm]. Qed.
Print Assumptions C12_bfs_by_distance.

(** The same with a client-supplied order on neighbours, whatever permutation it sorts into. *)
Theorem C12_traverse_with_any_order :
  forall g start method srt, api_state g -> In start (map fst (ug_vertices g)) -> method <> "rng" ->
    (forall l, Permutation (srt l) l) ->
    exists out, traverse g start method srt = Ok out /\ NoDup out /\ hd_error out = Some start /\
      (forall v, In v out <-> reachable (adjacent (ug_graph g)) start v) /\
      (forall i j u v m n, i <= j -> nth_error out i = Some u -> nth_error out j = Some v ->
         distance (adjacent (ug_graph g)) start u m -> distance (adjacent (ug_graph g)) start v n -> m <= n).
Proof. intros g start m srt R H. now apply traverse_final. Qed.
Print Assumptions C12_traverse_with_any_order.

Theorem C12_unknown_start :
  forall g start method srt, ~ In start (map fst (ug_vertices g)) ->
    traverse g start method srt = Raise ValueError.
Proof. exact unknown_start. Qed.
Print Assumptions C12_unknown_start.

(** dfs visits the reachable vertices, once each (but in breadth-first order, see below). *)
Theorem C12_dfs_reaches_partial :
  forall g start, api_state g -> In start (map fst (ug_vertices g)) ->
    dfs g start = bfs g start /\
    exists out, dfs g start = Ok out /\ NoDup out /\ hd_error out = Some start /\
      (forall v, In v out <-> reachable (adjacent (ug_graph g)) start v).
Proof.
  intros g start R H. split; [reflexivity|].
  destruct (C12_bfs_by_distance g start R H) as (out & E & A & B & C & _). exists out. auto.
Qed.
Print Assumptions C12_dfs_reaches_partial.

Theorem C12_dfs_order_refuted :
  exists g start out, api_state g /\ dfs g start = Ok out /\ ~ depth_first_order (adjacent (ug_graph g)) out.
Proof.
  set (es := [(("a", "c"), 1%Qc); (("a", "s"), 1%Qc); (("b", "s"), 1%Qc)]).
  exists (match construct [] es [] with Ok g => g | _ => empty_graph end), "s", ["s"; "a"; "b"; "c"].
  split; [|split; [vm_compute; reflexivity|]].
  - exists [], es, [], (match construct [] es [] with Ok g => g | _ => empty_graph end), [].
    split; vm_compute; reflexivity.
  - intros D. destruct (D ["s"; "a"] "b" ["c"] eq_refl) as (p1 & u & p2 & E & Hadj & Hcl); [discriminate|].
    destruct p1 as [|x [|y p1]]; simpl in E.
    + inversion E; subst. specialize (Hcl "a" "c" (or_introl eq_refl)).
      assert (In "c" ["s"; "a"]) as K; [|simpl in K; intuition discriminate].
      apply Hcl. exists ["c"; "s"]. vm_compute. intuition.
    + inversion E; subst. destruct Hadj as (s & Hs & Hb). vm_compute in Hs.
      repeat (destruct Hs as [Hs|Hs]; [inversion Hs; subst; simpl in Hb; intuition discriminate|]). contradiction.
    + inversion E. destruct p1; discriminate.
Qed.
Print Assumptions C12_dfs_order_refuted.

(** traverse with method "rng" yields no vertex at all, on every graph. *)
Theorem C12_rng_lists_all_vertices_refuted :
  (forall g start srt, In start (map fst (ug_vertices g)) -> traverse g start "rng" srt = Ok []) /\
  exists g start, api_state g /\ In start (map fst (ug_vertices g)).
Proof.
  split.
  - intros g start srt H. rewrite traverse_rng. destruct (has_vertex_spec g start); [auto|contradiction].
  - exists demo, "a". split; [apply demo_is_reachable|vm_compute; auto].
Qed.
Print Assumptions C12_rng_lists_all_vertices_refuted.

Example C12_nontrivial : bfs demo "s" = Ok ["s"; "a"; "b"; "c"].
Proof. vm_compute. reflexivity. Qed.

(** ** C13 *)
Theorem C13_is_connected_decides :
  forall g, api_state g ->
    exists b, is_connected g = Ok b /\
      (b = true <-> map fst (ug_vertices g) <> [] /\
                    connected (adjacent (ug_graph g)) (map fst (ug_vertices g))).
Proof. intros g R. exact (connected_final g R). Qed.
Print Assumptions C13_is_connected_decides.
Example C13_nontrivial : is_connected demo = Ok true /\
  is_connected (urun demo [AddVertex "z" 0%Qc]) = Ok false /\ is_connected empty_graph = Ok false.
Proof. vm_compute. auto. Qed.

(** ** C14 *)
Theorem C14_is_tree_decides :
  forall g enum, api_state g -> (forall k l, Permutation (enum k l) l) ->
    exists b, is_tree enum g = Ok b /\
      (b = true <-> map fst (ug_vertices g) <> [] /\
                    connected (adjacent (ug_graph g)) (map fst (ug_vertices g)) /\
                    acyclic (adjacent (ug_graph g))).
Proof. intros g enum R He. exact (tree_final g R enum He). Qed.
Print Assumptions C14_is_tree_decides.
Example C14_nontrivial : is_tree (fun _ l => rev l) demo = Ok false /\
  is_tree (fun _ l => l) (urun demo [RemoveEdge ("a", "b")]) = Ok true.
Proof. vm_compute. auto. Qed.

(** ** C15 *)

(** is_cyclic answers true on every cyclic graph ... *)
Theorem C15_is_cyclic_complete_partial :
  forall g enum, api_state g -> (forall k l, Permutation (enum k l) l) ->
    (exists a l, cycle (adjacent (ug_graph g)) a l) -> is_cyclic enum g = Ok true.
Proof. intros g enum R He. exact (cyclic_sound g R enum He). Qed.
Print Assumptions C15_is_cyclic_complete_partial.

(** ... because it answers true exactly when the graph has any adjacency at all. *)
Theorem C15_is_cyclic_exact :
  forall g enum, api_state g -> (forall k l, Permutation (enum k l) l) ->
    exists b, is_cyclic enum g = Ok b /\ (b = true <-> exists u v, adjacent (ug_graph g) u v).
Proof. intros g enum R He. exact (cyclic_final g R enum He). Qed.
Print Assumptions C15_is_cyclic_exact.

(** So the property is false of the code: a single edge is reported as a cycle, under every
    enumeration order. *)
Theorem C15_is_cyclic_decides_refuted :
  exists g, api_state g /\ acyclic (adjacent (ug_graph g)) /\
    forall enum, (forall k l, Permutation (enum k l) l) -> is_cyclic enum g = Ok true.
Proof.
  set (es := [(("a", "b"), 1%Qc)]).
  set (g := match construct [] es [] with Ok g => g | _ => empty_graph end).
  assert (R : api_state g).
  { exists [], es, [], g, []. split; vm_compute; reflexivity. }
  exists g. split; [exact R|]. split.
  - intros a l (Hnd & Hl & Hc & _).
    assert (K : forall u v, adjacent (ug_graph g) u v -> (u = "a" /\ v = "b") \/ (u = "b" /\ v = "a")).
    { intros u v (s & Hs & Hv). vm_compute in Hs.
      destruct Hs as [Hs|[Hs|[]]]; inversion Hs; subst; simpl in Hv; intuition congruence. }
    destruct l as [|b [|c l]]; simpl in Hl; try lia. destruct Hc as (H1 & H2 & _).
    apply K in H1, H2. inversion Hnd; subst. simpl in H3. intuition congruence.
  - intros enum He. destruct (cyclic_final g R enum He) as (b & -> & Hb). f_equal. apply Hb.
    exists "a", "b". exists ["b"]. vm_compute. auto.
Qed.
Print Assumptions C15_is_cyclic_decides_refuted.

(** ** C17 *)

(** The copy is equal to the original. *)
Theorem C17_copy_is_equal :
  forall H o, api_state (view H o) ->
    view H (h_copy o) = view H o /\ ugraph_eq (view H o) (view H (h_copy o)) = true.
Proof.
  intros H o R. split; [reflexivity|]. apply ugraph_eq_refl. exact (reach_inv _ R).
Qed.
Print Assumptions C17_copy_is_equal.

(** Weights and vertex sets are independent: under any interleaving of calls on the original
    (true) and the copy (false), each one's [edges] and [vertices] are what its own calls alone
    produce. *)
Theorem C17_weights_are_independent_partial :
  forall H o h,
    let '(H', o', c') := hrun2 H o (h_copy o) h in
    ug_edges (view H' o') = ug_edges (urun (view H o) (calls_on true h)) /\
    ug_vertices (view H' o') = ug_vertices (urun (view H o) (calls_on true h)) /\
    ug_edges (view H' c') = ug_edges (urun (view H o) (calls_on false h)) /\
    ug_vertices (view H' c') = ug_vertices (urun (view H o) (calls_on false h)).
Proof. exact copy_interleaved. Qed.
Print Assumptions C17_weights_are_independent_partial.

(** Adjacency: calls on the copy leave the original's key set and the adjacency set of every
    vertex not named by an add_edge or remove_edge call; the copy itself evolves as a graph. *)
Theorem C17_adjacency_partial :
  forall H o h, dwf H (hg_graph o) ->
    let '(H', c') := hrun H (h_copy o) h in
    view H' c' = urun (view H o) h /\
    ug_edges (view H' o) = ug_edges (view H o) /\ ug_vertices (view H' o) = ug_vertices (view H o) /\
    map fst (ug_graph (view H' o)) = map fst (ug_graph (view H o)) /\
    (forall u, (forall op, In op h -> ~ touches u op) ->
       dget String.eqb u (ug_graph (view H' o)) = dget String.eqb u (ug_graph (view H o))).
Proof. exact copy_partial. Qed.
Print Assumptions C17_adjacency_partial.

(** every reachable graph has such a heap layout *)
Theorem C17_layouts_exist :
  forall g, api_state g -> exists H o, dwf H (hg_graph o) /\ view H o = g.
Proof.
  intros g R. destruct (alloc_ok g (i_nd1 _ (reach_inv g R))) as [A B].
  exists (fst (alloc g)), (snd (alloc g)). auto.
Qed.
Print Assumptions C17_layouts_exist.

(** Independence is false of the code: adding an edge to the copy changes the original's
    adjacency (the original then has an adjacency for which it records no edge). *)
Theorem C17_copy_is_independent_refuted :
  exists H o e w, api_state (view H o) /\ dwf H (hg_graph o) /\
    let '(H', _, r) := hstep H (h_copy o) (AddEdge e w) in
    r = Ok tt /\ view H' o <> view H o /\
    adjacent (ug_graph (view H' o)) (fst e) (snd e) /\ ~ is_edge (ug_edges (view H' o)) (fst e) (snd e).
Proof.
  exists (fst (alloc demo)), (snd (alloc demo)), ("s", "c"), 1%Qc.
  pose proof (proj1 demo_is_reachable) as R.
  destruct (alloc_ok demo (i_nd1 _ (reach_inv demo R))) as [A B].
  split; [now rewrite B|]. split; [exact A|]. clear. vm_compute hstep.
  split; [reflexivity|]. split; [vm_compute; discriminate|]. split.
  - exists ["a"; "b"; "c"]. vm_compute. intuition.
  - intros [[w K]|[w K]]; vm_compute in K; intuition discriminate.
Qed.
Print Assumptions C17_copy_is_independent_refuted.

(** ** C18 *)

(** shortest_path between two different vertices never returns: it raises TypeError or
    IndexError on every reachable graph and under every enumeration order. *)
Theorem C18_shortest_path_always_raises :
  forall enum g s t, api_state g -> In s (map fst (ug_vertices g)) -> In t (map fst (ug_vertices g)) -> s <> t ->
    shortest_path enum g s t = Raise TypeError \/ shortest_path enum g s t = Raise IndexError.
Proof. intros enum g s t R. exact (sp_final g R enum s t). Qed.
Print Assumptions C18_shortest_path_always_raises.

(** The trivial case works; unknown vertices raise ValueError.  Missing: everything else. *)
Theorem C18_shortest_path_partial :
  forall enum g s t, api_state g ->
    (In s (map fst (ug_vertices g)) -> shortest_path enum g s s = Ok []) /\
    (~ In s (map fst (ug_vertices g)) \/ ~ In t (map fst (ug_vertices g)) -> shortest_path enum g s t = Raise ValueError).
Proof.
  intros enum g s t R. pose proof (reach_inv g R) as I.
  assert (M : forall v, reflect (In v (map fst (ug_vertices g))) (dmem String.eqb v (ug_graph g))).
  { intros v. apply iff_reflect. rewrite (dmem_keys _ eqs). symmetry. apply (i_dom _ I). }
  unfold shortest_path. split.
  - intros Hs. destruct (M s); [|tauto]. simpl. now rewrite String.eqb_refl.
  - intros H. destruct (M s); auto. destruct (M t); auto. tauto.
Qed.
Print Assumptions C18_shortest_path_partial.

(** The property is false of the code: adjacent vertices, no path returned. *)
Theorem C18_shortest_path_refuted :
  exists g s t, api_state g /\ adjacent (ug_graph g) s t /\
    forall enum, (forall k l, Permutation (enum k l) l) -> forall p, shortest_path enum g s t <> Ok p.
Proof.
  exists demo, "s", "a". split; [apply demo_is_reachable|]. split.
  - exists ["a"; "b"]. vm_compute. intuition.
  - intros enum He p. destruct (C18_shortest_path_always_raises enum demo "s" "a") as [-> | ->]; try discriminate.
    + apply demo_is_reachable.
    + vm_compute; auto.
    + vm_compute; auto.
Qed.
Print Assumptions C18_shortest_path_refuted.
