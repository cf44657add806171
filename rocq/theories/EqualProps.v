(** C65, C66: equality, constructor, printed form and spanning trees of [UndirectedGraph]. *)
From Coq Require Import String Ascii List Bool Arith QArith Qcanon Lia Permutation.
From Verif Require Import Py QcTac UndirectedModel GraphSpec UndirectedSpec UndirectedProofs GraphTheory TraverseProofs TreeProofs
  UndirectedHeapProofs UndirectedFinal UndirectedProps EqualModel EqualSpec EqualProofs EqualBuild EqualText.
Import ListNotations.
Open Scope nat_scope.
Open Scope string_scope.
Open Scope list_scope.

(** ** C65 *)

(** [g1 == g2] holds exactly when both graphs show the same vertices, edges, weights and adjacencies. *)
Theorem C65_equal :
  forall g1 g2, api_state g1 -> api_state g2 -> (ugraph_eq g1 g2 = true <-> same_graph g1 g2).
Proof. intros g1 g2 R1 R2. pose proof (reach_inv _ R1) as I1. pose proof (reach_inv _ R2) as I2. now rewrite (eq_alike g1 g2 I1 I2), (alike_same g1 g2 I1 I2). Qed.
Print Assumptions C65_equal.

(** It is an equivalence relation. *)
Theorem C65_equivalence :
  forall g1 g2 g3, api_state g1 -> api_state g2 -> api_state g3 ->
    ugraph_eq g1 g1 = true /\ ugraph_eq g1 g2 = ugraph_eq g2 g1 /\
    (ugraph_eq g1 g2 = true -> ugraph_eq g2 g3 = true -> ugraph_eq g1 g3 = true).
Proof.
  intros g1 g2 g3 R1 R2 R3. pose proof (reach_inv _ R1) as I1. pose proof (reach_inv _ R2) as I2. pose proof (reach_inv _ R3) as I3. split; [|split].
  - now apply ugraph_eq_refl.
  - apply (eq_bool _ _ _ _ (eq_alike g1 g2 I1 I2) (eq_alike g2 g1 I2 I1)). split; apply alike_sym.
  - rewrite (eq_alike g1 g2 I1 I2), (eq_alike g2 g3 I2 I3), (eq_alike g1 g3 I1 I3). apply alike_trans.
Qed.
Print Assumptions C65_equivalence.

(** Equal graphs cannot be told apart later: the same calls, with the same arguments, return or raise the
    same, and leave equal graphs. *)
Theorem C65_histories :
  forall g1 g2 h, api_state g1 -> api_state g2 -> ugraph_eq g1 g2 = true ->
    answers g1 h = answers g2 h /\ ugraph_eq (urun g1 h) (urun g2 h) = true.
Proof.
  intros g1 g2 h R1 R2 E. pose proof (reach_inv _ R1) as I1. pose proof (reach_inv _ R2) as I2. apply (eq_alike g1 g2 I1 I2) in E.
  destruct (run_alike h g1 g2 E) as [A B]. split; [exact A|]. apply eq_alike; auto; now apply urun_inv.
Qed.
Print Assumptions C65_histories.

(** Nor by the queries: the same breadth-first order, the same verdicts (whatever the order in which sets are
    enumerated), the same cuts and degrees, the same text. *)
Theorem C65_queries :
  forall g1 g2, api_state g1 -> api_state g2 -> ugraph_eq g1 g2 = true ->
    (forall v, bfs g1 v = bfs g2 v /\ dfs g1 v = dfs g2 v) /\
    is_connected g1 = is_connected g2 /\
    (forall e1 e2 : oracle, (forall k l, Permutation (e1 k l) l) -> (forall k l, Permutation (e2 k l) l) ->
       is_tree e1 g1 = is_tree e2 g2 /\ is_cyclic e1 g1 = is_cyclic e2 g2) /\
    (forall s, Permutation (cut_set g1 s) (cut_set g2 s) /\ degree_set g1 s = degree_set g2 s) /\
    repr g1 = repr g2.
Proof.
  intros g1 g2 R1 R2 E. pose proof (reach_inv _ R1) as I1. pose proof (reach_inv _ R2) as I2. apply (eq_alike g1 g2 I1 I2) in E.
  split; [|split; [|split; [|split]]].
  - intros v. split; now apply bfs_alike.
  - now apply connected_alike.
  - intros e1 e2 P1 P2. split; [now apply tree_alike|now apply cyclic_alike].
  - intros s. assert (P : Permutation (cut_set g1 s) (cut_set g2 s)) by now apply cut_alike. split; [exact P|]. now apply Permutation_length.
  - now apply repr_alike.
Qed.
Print Assumptions C65_queries.

(** the same graph built in two orders *)
Definition demo' : ugraph :=
  match construct [("c", ["b"]); ("a", ["s"; "b"])] [(("b", "a"), 1%Qc); (("s", "a"), 1%Qc); (("b", "s"), 1%Qc); (("b", "c"), 1%Qc)] [] with
  | Ok g => g | _ => empty_graph end.
Example C65_nontrivial : api_state demo' /\ ugraph_eq demo demo' = true /\ demo <> demo' /\
  ugraph_eq demo (urun demo' [SetEdgeWeight ("a", "b") 0%Qc]) = false /\ ugraph_eq demo (urun demo' [AddVertex "z" 0%Qc]) = false.
Proof.
  split; [|split; [vm_compute; reflexivity|split; [vm_compute; discriminate|split; vm_compute; reflexivity]]].
  exists [("c", ["b"]); ("a", ["s"; "b"])], [(("b", "a"), 1%Qc); (("s", "a"), 1%Qc); (("b", "s"), 1%Qc); (("b", "c"), 1%Qc)], [], demo', []. split; vm_compute; reflexivity.
Qed.

(** The constructor raises ValueError exactly when its arguments name an edge between equal or empty names.
    Otherwise the graph has exactly the edges named, in either orientation; an edge has the last weight given
    for it, or 0; the vertices are the keys of [graph] and [vertices] and the endpoints of edges; a vertex has
    the last weight given for it, or 0. *)
Theorem C65_construct :
  forall gr es vs,
    ((exists u v, listed gr es u v /\ ~ legal u v) /\ construct gr es vs = Raise ValueError) \/
    ((forall u v, listed gr es u v -> legal u v) /\
     exists g, construct gr es vs = Ok g /\
       (forall u v, has_edge g (u, v) = true <-> listed gr es u v \/ listed gr es v u) /\
       (forall u v, adjacent (ug_graph g) u v <-> listed gr es u v \/ listed gr es v u) /\
       (forall u v w, get_edge_weight g (u, v) = Ok w <->
          last_edge_weight es u v w \/
          ((forall x, ~ In ((u, v), x) es /\ ~ In ((v, u), x) es) /\ (listed gr [] u v \/ listed gr [] v u) /\ w = 0%Qc)) /\
       (forall v, has_vertex g v = true <->
          In v (map fst gr) \/ In v (map fst vs) \/ exists u, listed gr es u v \/ listed gr es v u) /\
       (forall v w, get_vertex_weight g v = Ok w <->
          last_vertex_weight vs v w \/
          ((forall x, ~ In (v, x) vs) /\ (In v (map fst gr) \/ exists u, listed gr es u v \/ listed gr es v u) /\ w = 0%Qc))).
Proof.
  intros gr es vs. pose proof (construct_loops gr es vs) as H. destruct (g_legal gr && e_legal es) eqn:L; [right|left; split; [now apply illegal|exact H]].
  split; [now apply all_legal|]. destruct H as (g & E & G & He & Hv). exists g. split; [exact E|].
  assert (Z : forall (b : bool) (w : Qc), (if b then Some 0%Qc else None) = Some w <-> b = true /\ w = 0%Qc) by (intros [] w; split; [intros X; injection X as <-; auto|intros [_ ->]; auto|discriminate|intros [X _]; discriminate]).
  assert (W : forall u v w, get_edge_weight g (u, v) = Ok w <-> last_edge_weight es u v w \/
          ((forall x, ~ In ((u, v), x) es /\ ~ In ((v, u), x) es) /\ (listed gr [] u v \/ listed gr [] v u) /\ w = 0%Qc)).
  { intros u v w. rewrite get_ew, He, e_weight_spec, Z, g_edge_spec. reflexivity. }
  assert (V : forall v w, get_vertex_weight g v = Ok w <-> last_vertex_weight vs v w \/
          ((forall x, ~ In (v, x) vs) /\ (In v (map fst gr) \/ exists u, listed gr es u v \/ listed gr es v u) /\ w = 0%Qc)).
  { intros v w. rewrite get_vw, Hv, v_weight_spec, Z, named_spec. reflexivity. }
  assert (HE : forall u v, has_edge g (u, v) = true <-> listed gr es u v \/ listed gr es v u).
  { intros u v. rewrite ew_some. split.
    - intros (w & X). apply get_ew, W in X. destruct X as [(l1 & e & l2 & -> & K & _)|(_ & K & _)].
      + destruct K as [-> | ->]; [left|right]; right; exists w; apply in_app_iff; right; now left.
      + destruct K as [[K|(x & [])]|[K|(x & [])]]; [left|right]; now left.
    - intros K. rewrite He. destruct (e_weight es (u, v) (if g_edge gr (u, v) then Some 0%Qc else None)) as [w|] eqn:X; [eauto|exfalso].
      assert (N : forall x, ~ In ((u, v), x) es /\ ~ In ((v, u), x) es).
      { assert (Mono : forall es o, (exists x, In ((u, v), x) es \/ In ((v, u), x) es) -> e_weight es (u, v) o <> None).
        { clear. induction es as [|[[a b] w] es IH]; intros o (x & Hx); [destruct Hx as [[]|[]]|]. cbn [e_weight]. unfold override. destruct (same_edge (a, b) (u, v)) eqn:S; [apply e_weight_some|]. apply IH. exists x.
          assert (S' : same_edge (a, b) (u, v) <> true) by congruence. rewrite same_edge_spec in S'. destruct Hx as [[Y|Y]|[Y|Y]]; auto; injection Y as -> -> ->; tauto. }
        intros x. split; intros Hx; apply (Mono es (if g_edge gr (u, v) then Some 0%Qc else None)); auto; exists x; auto. }
      assert (Y : e_weight es (u, v) (if g_edge gr (u, v) then Some 0%Qc else None) = Some 0%Qc); [|congruence].
      apply e_weight_spec. right. split; [exact N|]. apply Z. split; [|reflexivity]. apply g_edge_spec.
      destruct K as [[K|(x & K)]|[K|(x & K)]]; [left; left; exact K|exfalso; destruct (N x); contradiction|right; left; exact K|exfalso; destruct (N x); contradiction]. }
  split; [exact HE|]. split; [intros u v; rewrite (good_adjacent g u v G); apply HE|]. split; [exact W|]. split; [|exact V].
  intros v. rewrite vw_some. split.
  - intros (w & X). apply get_vw, V in X. destruct X as [(l1 & l2 & -> & _)|(_ & K & _)]; [|tauto]. right. left. rewrite map_app, in_app_iff. right. now left.
  - intros K. rewrite Hv. destruct (v_weight vs v (if g_vertex gr v || e_vertex es v then Some 0%Qc else None)) as [w|] eqn:X; [eauto|exfalso].
    assert (Some_ : forall vs w, v_weight vs v (Some w) <> None) by (clear; induction vs as [|[a x] vs IH]; intros w; cbn; [discriminate|]; unfold override; destruct (String.eqb v a); apply IH).
    assert (N : forall x, ~ In (v, x) vs).
    { assert (Mono : forall vs o, (exists x, In (v, x) vs) -> v_weight vs v o <> None).
      { clear - Some_. induction vs as [|[a w] vs IH]; intros o (x & Hx); [destruct Hx|]. cbn [v_weight]. unfold override. destruct (eqs v a) as [->|D]; [apply Some_|]. apply IH. exists x. destruct Hx as [Y|Y]; [congruence|exact Y]. }
      intros x Hx. apply (Mono vs (if g_vertex gr v || e_vertex es v then Some 0%Qc else None)); eauto. }
    assert (Y : v_weight vs v (if g_vertex gr v || e_vertex es v then Some 0%Qc else None) = Some 0%Qc); [|congruence].
    apply v_weight_spec. right. split; [exact N|]. apply Z. split; [|reflexivity]. apply named_spec. destruct K as [K|[K|K]]; [now left| |now right].
    exfalso. apply in_map_iff in K. destruct K as ([a x] & <- & K). now apply (N x).
Qed.
Print Assumptions C65_construct.
Example C65_construct_nontrivial :
  (exists g, construct [("a", ["b"]); ("z", [])] [(("b", "a"), 1%Qc)] [("c", 1%Qc)] = Ok g) /\
  construct [("a", ["b"])] [(("c", "c"), 1%Qc)] [] = Raise ValueError.
Proof. split; [eexists; vm_compute; reflexivity|vm_compute; reflexivity]. Qed.

(** "Weight cannot be negative." does not hold of the constructor (nor of the setters): any weight is stored. *)
Theorem C65_negative_weight_refuted :
  forall w : Qc, exists g, construct [] [(("a", "b"), w)] [("a", w)] = Ok g /\
    get_edge_weight g ("a", "b") = Ok w /\ get_vertex_weight g "a" = Ok w /\
    ((w < 0)%Qc -> snd (add_edge empty_graph ("a", "b") w) = Raise ValueError /\ snd (add_vertex empty_graph "a" w) = Raise ValueError).
Proof.
  intros w. eexists. split; [reflexivity|]. split; [reflexivity|]. split; [reflexivity|]. intros H. unfold add_edge, add_vertex. destruct (qlt_spec w 0); [split; reflexivity|contradiction].
Qed.
Print Assumptions C65_negative_weight_refuted.

(** Feeding a graph's own dictionaries to the constructor gives back every vertex, edge and weight, with the
    recorded edges as adjacencies; so it gives back an equal graph whenever the graph is consistent. *)
Theorem C65_rebuild :
  forall g, api_state g ->
    exists g', construct (ug_graph g) (ug_edges g) (ug_vertices g) = Ok g' /\
      (forall e, get_edge_weight g' e = get_edge_weight g e) /\
      (forall v, get_vertex_weight g' v = get_vertex_weight g v) /\
      (forall u v, adjacent (ug_graph g') u v <-> is_edge (ug_edges g) u v) /\
      (consistent (ug_graph g) (ug_edges g) (ug_vertices g) -> ugraph_eq g' g = true).
Proof.
  intros g R. pose proof (reach_inv _ R) as I.
  assert (A : forall u v, listed (ug_graph g) [] u v -> is_edge (ug_edges g) u v).
  { intros u v [K|(w & [])]. apply (is_edge_keys g u v I). apply (i_rec _ I). now apply (adj_iff g I). }
  assert (LE : forall u v, listed (ug_graph g) (ug_edges g) u v -> is_edge (ug_edges g) u v).
  { intros u v [K|(w & K)]; [apply A; now left|left; eauto]. }
  assert (Leg : forall u v, is_edge (ug_edges g) u v -> legal u v).
  { intros u v [(w & K)|(w & K)]; apply (in_map fst) in K; cbn in K; apply (i_edge _ I) in K as (X & N1 & N2 & _); repeat split; auto; intros ->; rewrite compare_refl in X; discriminate X. }
  destruct (C65_construct (ug_graph g) (ug_edges g) (ug_vertices g)) as [((u & v & X & Y) & _)|(_ & g' & E & HE & HA & HW & HV & HVW)]; [exfalso; apply Y; auto|].
  assert (R' : api_state g') by (exists (ug_graph g), (ug_edges g), (ug_vertices g), g', []; auto).
  assert (IsE : forall u v, listed (ug_graph g) (ug_edges g) u v \/ listed (ug_graph g) (ug_edges g) v u <-> is_edge (ug_edges g) u v).
  { intros u v. split; [intros [K|K]; apply LE in K; destruct K; [left|right|right|left]; auto|]. intros [K|K]; [left|right]; right; exact K. }
  assert (Ew : forall u v w, get_edge_weight g' (u, v) = Ok w <-> get_edge_weight g (u, v) = Ok w).
  { intros u v w. rewrite HW. rewrite (proj2 (C10_queries_read_the_dictionary g u v R) w). split.
    - intros [(l1 & e & l2 & Es & K & _)|(N & K & _)].
      + assert (In (e, w) (ug_edges g)) by (rewrite Es; apply in_app_iff; right; now left). destruct K as [-> | ->]; auto.
      + exfalso. destruct K as [K|K]; apply A in K; destruct K as [(x & K)|(x & K)]; destruct (N x); contradiction.
    - intros K. left. assert (M : forall e, In (e, w) (ug_edges g) -> (e = (u, v) \/ e = (v, u)) -> last_edge_weight (ug_edges g) u v w).
      { intros e Hi D. apply in_split in Hi. destruct Hi as (l1 & l2 & Es). exists l1, e, l2. split; [exact Es|]. split; [exact D|].
        pose proof (i_nd2 _ I) as ND. unfold dkeys in ND. rewrite Es, map_app in ND. cbn in ND. apply NoDup_remove_2 in ND.
        assert (NX : forall e' x, In (e', x) l2 -> e' <> e) by (intros e' x Hx ->; apply ND, in_app_iff; right; now apply (in_map fst) in Hx).
        assert (Lt : forall a b x, In ((a, b), x) (ug_edges g) -> String.compare a b = Lt) by (intros a b x Hx; apply (in_map fst) in Hx; now apply (i_edge _ I) in Hx).
        assert (Ie : In (e, w) (ug_edges g)) by (rewrite Es; apply in_app_iff; right; now left).
        assert (Il : forall y, In y l2 -> In y (ug_edges g)) by (intros y Hy; rewrite Es; apply in_app_iff; right; now right).
        assert (Anti : forall a b, String.compare a b = Datatypes.Lt -> String.compare b a = Datatypes.Lt -> False) by (intros a b X Y; pose proof (compare_trans a b a X Y) as Z; rewrite compare_refl in Z; discriminate Z).
        intros x. destruct D as [-> | ->]; split; intros Hx; try (now apply NX in Hx); apply Lt in Ie; apply Il, Lt in Hx; now apply (Anti u v). }
      destruct K as [K|K]; eapply M; eauto. }
  assert (Vw : forall v w, get_vertex_weight g' v = Ok w <-> get_vertex_weight g v = Ok w).
  { intros v w. rewrite HVW. assert (Rd : get_vertex_weight g v = Ok w <-> In (v, w) (ug_vertices g)).
    { rewrite get_vw. split; [apply (dget_In _ eqs)|apply (In_dget _ eqs), I]. }
    rewrite Rd. split.
    - intros [(l1 & l2 & -> & _)|(N & K & _)]; [apply in_app_iff; right; now left|]. exfalso.
      assert (Kv : In v (dkeys (ug_vertices g))).
      { destruct K as [K|(u & K)]; [now apply (i_dom _ I)|]. apply IsE in K. destruct K as [(x & K)|(x & K)]; apply (in_map fst) in K; cbn in K; apply (i_edge _ I) in K; tauto. }
      apply in_map_iff in Kv. destruct Kv as ([a x] & <- & Kv). now apply (N x).
    - intros K. left. apply in_split in K. destruct K as (l1 & l2 & Es). exists l1, l2. split; [exact Es|]. pose proof (i_nd3 _ I) as ND. unfold dkeys in ND. rewrite Es, map_app in ND. cbn in ND. apply NoDup_remove_2 in ND.
      intros x Hx. apply ND, in_app_iff. right. now apply (in_map fst) in Hx. }
  assert (Ee : forall e, get_edge_weight g' e = get_edge_weight g e).
  { intros [u v]. specialize (Ew u v). unfold get_edge_weight, has_edge, dmem in *. destruct (dget eqe (sorted2 (u, v)) (ug_edges g')), (dget eqe (sorted2 (u, v)) (ug_edges g)); cbn in *; auto; [now apply Ew|exfalso; specialize (Ew q); assert (X : Raise ValueError = Ok q) by (now apply Ew); discriminate X|exfalso; specialize (Ew q); assert (X : Raise ValueError = Ok q) by (now apply Ew); discriminate X]. }
  assert (Ve : forall v, get_vertex_weight g' v = get_vertex_weight g v).
  { intros v. specialize (Vw v). unfold get_vertex_weight, has_vertex, dmem in *. destruct (sget v (ug_vertices g')), (sget v (ug_vertices g)); cbn in *; auto; [now apply Vw|exfalso; specialize (Vw q); assert (X : Raise ValueError = Ok q) by (now apply Vw); discriminate X|exfalso; specialize (Vw q); assert (X : Raise ValueError = Ok q) by (now apply Vw); discriminate X]. }
  exists g'. split; [exact E|]. split; [exact Ee|]. split; [exact Ve|]. split; [intros u v; now rewrite HA, IsE|].
  intros [WC C]. apply (C65_equal g' g R' R). split; [exact Ve|]. split; [exact Ee|]. intros u v. rewrite HA, IsE. split; [apply C|apply WC].
Qed.
Print Assumptions C65_rebuild.
(** After remove_edge the rebuilt graph is a different one. *)
Theorem C65_rebuild_refuted :
  exists g g', api_state g /\ construct (ug_graph g) (ug_edges g) (ug_vertices g) = Ok g' /\ ugraph_eq g' g = false.
Proof.
  exists (urun demo [RemoveEdge ("a", "b")]). eexists. split; [|split; [vm_compute; reflexivity|vm_compute; reflexivity]].
  destruct demo_is_reachable as [(gr & es & vs & g0 & h & H & E) _]. exists gr, es, vs, g0, (h ++ [RemoveEdge ("a", "b")]). split; [exact H|]. rewrite E. clear. revert g0. induction h as [|o h IH]; intros g0; [reflexivity|exact (IH _)].
Qed.
Print Assumptions C65_rebuild_refuted.

(** If no name contains ":", "-" or a line break, the text tells the vertices and the adjacencies. *)
Theorem C65_repr_partial :
  forall g1 g2, api_state g1 -> api_state g2 ->
    (forall v, has_vertex g1 v = true -> plain v) -> (forall v, has_vertex g2 v = true -> plain v) -> repr g1 = repr g2 ->
    (forall v, has_vertex g1 v = has_vertex g2 v) /\ (forall u v, adjacent (ug_graph g1) u v <-> adjacent (ug_graph g2) u v).
Proof.
  intros g1 g2 R1 R2 P1 P2 E. pose proof (reach_inv _ R1) as I1. pose proof (reach_inv _ R2) as I2.
  assert (Q1 : plain_graph g1) by (intros v Hv; apply P1; destruct (has_vertex_spec g1 v); auto). assert (Q2 : plain_graph g2) by (intros v Hv; apply P2; destruct (has_vertex_spec g2 v); auto).
  pose proof (repr_sub g1 g2 I1 I2 Q1 Q2 E) as S1. pose proof (repr_sub g2 g1 I2 I1 Q2 Q1 (eq_sym E)) as S2. split.
  - assert (H : forall ga gb, inv ga -> inv gb -> (forall u s, sget u (ug_graph ga) = Some s -> exists t, sget u (ug_graph gb) = Some t /\ forall x, In x s <-> In x t) -> forall v, In v (dkeys (ug_vertices ga)) -> In v (dkeys (ug_vertices gb))).
    { intros ga gb Ia Ib S v Hv. apply (i_dom _ Ia) in Hv. destruct (key_get String.eqb eqs _ _ Hv) as (s & Hs). destruct (S v s Hs) as (t & Ht & _). apply (i_dom _ Ib). now apply (get_key String.eqb eqs) in Ht. }
    intros v. destruct (has_vertex_spec g1 v) as [K1|K1], (has_vertex_spec g2 v) as [K2|K2]; auto; exfalso; [apply K2, (H g1 g2)|apply K1, (H g2 g1)]; auto.
  - intros u v. rewrite <- (adj_iff g1 I1), <- (adj_iff g2 I2). split; intros (s & Hs & Hv); [destruct (S1 u s Hs) as (t & Ht & X)|destruct (S2 u s Hs) as (t & Ht & X)]; exists t; (split; [exact Ht|now apply X]).
Qed.
Print Assumptions C65_repr_partial.
Example C65_repr_nontrivial : repr demo = ("a: b-s" ++ newline ++ "b: a-c-s" ++ newline ++ "c: b" ++ newline ++ "s: a-b")%string /\
  forall v, has_vertex demo v = true -> plain v.
Proof.
  split; [vm_compute; reflexivity|]. intros v H. destruct (has_vertex_spec demo v) as [K|]; [|discriminate]. cbn in K. unfold plain. repeat destruct K as [<-|K]; try contradiction; cbn; intuition discriminate.
Qed.

(** In general the text does not tell the graph: names are not escaped, and weights are not shown. *)
Theorem C65_repr_refuted :
  (exists g1 g2, api_state g1 /\ api_state g2 /\ repr g1 = repr g2 /\ length (ug_vertices g1) = 1 /\ length (ug_vertices g2) = 2) /\
  (forall g e w, api_state g -> has_edge g e = true -> get_edge_weight g e <> Ok w ->
     repr (urun g [SetEdgeWeight e w]) = repr g /\ ugraph_eq (urun g [SetEdgeWeight e w]) g = false).
Proof.
  split.
  - set (n := ("a: " ++ newline ++ "b")%string).
    exists (match construct [(n, [])] [] [] with Ok g => g | _ => empty_graph end), (match construct [("a", []); ("b", [])] [] [] with Ok g => g | _ => empty_graph end).
    split; [exists [(n, [])], [], [], (match construct [(n, [])] [] [] with Ok g => g | _ => empty_graph end), []; split; vm_compute; reflexivity|].
    split; [exists [("a", []); ("b", [])], [], [], (match construct [("a", []); ("b", [])] [] [] with Ok g => g | _ => empty_graph end), []; split; vm_compute; reflexivity|].
    split; [vm_compute; reflexivity|split; vm_compute; reflexivity].
  - intros g e w R He Hw. pose proof (reach_inv _ R) as I. cbn [urun ustep].
    assert (S : snd (set_edge_weight g e w) = Ok tt) by (unfold set_edge_weight; now rewrite He). split; [unfold set_edge_weight; rewrite He; reflexivity|].
    destruct (set_edge_weight g e w) as [g' r] eqn:Es. cbn in S. subst r. cbn [fst]. destruct (ugraph_eq g' g) eqn:X; [|reflexivity]. exfalso. apply Hw.
    assert (I' : inv g') by (pose proof (set_edge_weight_inv g e w I) as [Y _]; now rewrite Es in Y).
    apply (eq_alike g' g I' I), (alike_same g' g I' I) in X. destruct X as (_ & X & _). rewrite <- X. now apply (set_edge_frame g e w g').
Qed.
Print Assumptions C65_repr_refuted.

(** ** C66 *)

(** has_spanning_tree answers true exactly when some of the graph's edges join all its vertices without a
    cycle (false on the graph without vertices). *)
Theorem C66_has_spanning_tree :
  forall g, api_state g ->
    exists b, has_spanning_tree g = Ok b /\
      (b = true <-> map fst (ug_vertices g) <> [] /\
        exists T, (forall u v, In (u, v) T -> adjacent (ug_graph g) u v) /\ spanning_tree T (map fst (ug_vertices g))).
Proof.
  intros g R. pose proof (reach_inv _ R) as I. destruct (C13_is_connected_decides g R) as (b & E & H). exists b. split; [exact E|]. rewrite H. split.
  - intros [N C]. split; [exact N|]. apply (connected_iff _ _ (adj_iff g I)) in C. destruct (spanning g I N C) as (T & HT & S). exists T. split; [|exact S]. intros u v Hi. now apply (adj_iff g I), HT.
  - intros [N (T & HT & [C _])]. split; [exact N|]. intros u v Hu Hv. destruct (C u v Hu Hv) as (n & W). exists n. clear - W HT I. induction W as [v|n u v w W IH J]; [constructor|]. econstructor; [exact IH|].
    destruct J as [J|J]; apply HT in J; auto. apply (adj_iff g I). apply (i_sym _ I). now apply (adj_iff g I).
Qed.
Print Assumptions C66_has_spanning_tree.
Example C66_nontrivial : has_spanning_tree demo = Ok true /\ has_spanning_tree (urun demo [RemoveEdge ("b", "c")]) = Ok false.
Proof. split; vm_compute; reflexivity. Qed.

(** minimum_spanning_tree returns no graph: None when there is a spanning tree, ValueError otherwise. *)
Theorem C66_minimum_spanning_tree_refuted :
  (forall g, api_state g -> (has_spanning_tree g = Ok true /\ minimum_spanning_tree g = Ok None) \/ (has_spanning_tree g = Ok false /\ minimum_spanning_tree g = Raise ValueError)) /\
  minimum_spanning_tree demo = Ok None.
Proof.
  split; [|vm_compute; reflexivity]. intros g R. destruct (C13_is_connected_decides g R) as (b & E & _). unfold has_spanning_tree, minimum_spanning_tree. rewrite E. destruct b; auto.
Qed.
Print Assumptions C66_minimum_spanning_tree_refuted.

(** partition raises AttributeError on every graph with a vertex. *)
Theorem C66_partition_refuted :
  (forall g, api_state g -> ug_vertices g <> [] -> partition g = Raise AttributeError) /\ partition empty_graph = Ok [] /\ partition demo = Raise AttributeError.
Proof.
  split; [|split; vm_compute; reflexivity]. intros g R N. pose proof (reach_inv _ R) as I. unfold partition. destruct (ug_vertices g) as [|[v w] l] eqn:E; [congruence|].
  assert (K : In v (dkeys (ug_graph g))) by (apply (i_dom _ I); rewrite E; now left). destruct (key_get String.eqb eqs _ _ K) as (s & ->). reflexivity.
Qed.
Print Assumptions C66_partition_refuted.

(** formulate_shortest_path raises for every pair of vertices, whatever the graph. *)
Theorem C66_formulate_refuted :
  forall g s t, api_state g ->
    formulate_shortest_path g s t = if has_vertex g s && has_vertex g t then Raise AttributeError else Raise ValueError.
Proof.
  intros g s t R. pose proof (reach_inv _ R) as I.
  assert (M : forall v, dmem String.eqb v (ug_graph g) = has_vertex g v).
  { intros v. apply (eq_bool _ _ _ _ (dmem_keys _ eqs v (ug_graph g)) (dmem_keys _ eqs v (ug_vertices g))). apply (i_dom _ I). }
  unfold formulate_shortest_path. rewrite !M. now destruct (has_vertex g s), (has_vertex g t).
Qed.
Print Assumptions C66_formulate_refuted.
