(** C86: ford_fulkerson and preflow_push with double precision capacities. *)
From Coq Require Import String List Bool Arith QArith Qcanon Lia ZArith Permutation.
From Verif Require Import Py QcTac QSum QInt UndirectedModel UndirectedProofs DirectedModel DirectedSpec DirectedProofs FlowModel FlowSpec FlowTheory ResidualProofs DirectedFinal DirectedProps FFProofs FFFinal FFProps PreflowProofs PreflowFinal PreflowProps FloatModel DoubleSpec DoubleProofs FloatProofs FlowFloatModel FlowFloatSpec FlowFloatProofs.
Import ListNotations.
Open Scope nat_scope.
Open Scope string_scope.
Open Scope list_scope.

(** Capacities that are whole numbers (or multiples of one power of two), less than [2 ^ 53] together:
    no operation of preflow_push rounds, so the run on doubles is, iteration by iteration, the run on
    exact numbers. *)
Theorem C86_preflow_exact :
  forall order g s t, some_order order -> network g s t -> no_antiparallel (dg_arcs g) -> short_names g t -> exact_capacities (dg_arcs g) ->
    forall fuel, fl_preflow_push order fuel g s t = preflow_push fuel g s t.
Proof.
  intros order g s t Ho [H1 H2 H3 H4 H5] Hw Hsh (p & Hp & Hg & Ht) fuel. apply digraph_state_inv in H1. apply is_node_key in H2, H3.
  apply (preflow_eq p Hp g H1 H5); auto.
  - intros a c H. apply on_grid_grid; eauto.
  - intros v Hv Hne. apply Hsh; auto. unfold is_node. now rewrite <- key_In.
Qed.
Print Assumptions C86_preflow_exact.

(** On such networks the flow returned is feasible, conserved and maximum, all exactly, and so is the value. *)
Theorem C86_preflow_maximum_partial :
  forall order g s t, some_order order -> network g s t -> no_antiparallel (dg_arcs g) -> short_names g t -> inner_node g s t -> exact_capacities (dg_arcs g) ->
    exists N value flow f inside, (forall fuel, N <= fuel -> fl_preflow_push order fuel g s t = Ok (value, flow)) /\
      map fst flow = map fst (dg_arcs g) /\ denotes flow f /\ maximum_flow (dg_arcs g) s t f /\
      inside s = true /\ inside t = false /\ net_value (dg_arcs g) s f = cut_capacity (dg_arcs g) inside /\
      value = net_value (dg_arcs g) s f.
Proof.
  intros order g s t Ho Hn Hw Hsh Hin Hx. destruct (C26_maximum_flow_partial g s t Hn Hw Hsh Hin) as (N & value & flow & f & inside & E & R).
  exists N, value, flow, f, inside. split; [|exact R]. intros fuel Hf. rewrite (C86_preflow_exact order g s t Ho Hn Hw Hsh Hx). auto.
Qed.
Print Assumptions C86_preflow_maximum_partial.

(** The same for ford_fulkerson, for every run none of whose augmenting paths goes backwards. *)
Theorem C86_forward_runs_exact :
  forall order g s t fuel, some_order order -> network g s t -> no_antiparallel (dg_arcs g) -> exact_capacities (dg_arcs g) ->
    never_backwards g (snd (ford_fulkerson fuel g s t)) -> fl_ford_fulkerson order fuel g s t = ford_fulkerson fuel g s t.
Proof.
  intros order g s t fuel Ho [H1 H2 H3 H4 H5] Hw (p & Hp & Hg & Ht) F. apply digraph_state_inv in H1. apply is_node_key in H2, H3.
  apply (ff_eq p Hp g H1 H5); auto.
  - intros a c H. apply on_grid_grid; eauto.
  - apply never_forward. exact F.
Qed.
Print Assumptions C86_forward_runs_exact.

(** So, on the networks of C24 with such capacities, ford_fulkerson stops with a maximum flow. *)
Theorem C86_narrow_networks_partial :
  forall order g s t, some_order order -> network g s t -> no_antiparallel (dg_arcs g) -> narrow g s t -> exact_capacities (dg_arcs g) ->
    exists N value flow f inside, (forall fuel, N <= fuel -> fst (fl_ford_fulkerson order fuel g s t) = Ok (value, flow)) /\
      denotes flow f /\ maximum_flow (dg_arcs g) s t f /\
      inside s = true /\ inside t = false /\ net_value (dg_arcs g) s f = cut_capacity (dg_arcs g) inside /\
      (short s -> value = net_value (dg_arcs g) s f).
Proof.
  intros order g s t Ho Hn Hw Hc Hx. destruct (C24_narrow_networks_partial g s t Hn Hw Hc) as (N & value & flow & f & inside & E & R).
  exists N, value, flow, f, inside. split; [|exact R]. intros fuel Hf. rewrite C86_forward_runs_exact; auto.
  apply never_forward. destruct Hn as [H1 H2 H3 H4 H5]. apply digraph_state_inv in H1. apply is_node_key in H2, H3.
  apply (ff_class g s t H1 H2 H3 H4 H5 Hw).
  destruct Hc as [Hc|Hc]; [left|right]; intros v q q' N1 N2 A1 A2; apply is_arc_key in A1, A2; eauto.
Qed.
Print Assumptions C86_narrow_networks_partial.

(** Whatever the double precision capacities, antiparallel arcs included, and however the operations round,
    ford_fulkerson does not raise: either it is still augmenting after [fuel] paths, or it has returned a
    dictionary with exactly the arcs of the network and double precision values. *)
Theorem C86_ford_fulkerson_never_raises :
  forall order g s t fuel, network g s t -> double_capacities (dg_arcs g) ->
    (exists value flow paths, fl_ford_fulkerson order fuel g s t = (Ok (value, flow), paths) /\
       map fst flow = map fst (dg_arcs g) /\ is_double value /\ forall a x, In (a, x) flow -> is_double x) \/
    (exists paths, fl_ford_fulkerson order fuel g s t = (Diverges, paths) /\ length paths = fuel).
Proof.
  intros order g s t fuel [H1 H2 H3 H4 H5] Hd. apply digraph_state_inv in H1. apply is_node_key in H2, H3.
  destruct (ff_any g s t H2 H3 H4 H5 Hd order fuel) as [(flow & tr & E & K & Db)|R]; [left|right; exact R].
  exists (fl_flow_value order g s flow), flow, tr. split; [exact E|]. split; [exact K|]. split; [apply rnd_rounds|].
  intros a x Hin. apply (Db a x). apply (In_dget _ eqe_spec); [|exact Hin]. rewrite K. apply H1.
Qed.
Print Assumptions C86_ford_fulkerson_never_raises.

(** a network meeting the hypotheses, with quarters *)
Definition quarters : list (arc * Qc) := [(("s", "a"), Q2Qc (5 # 4)); (("a", "b"), Q2Qc (3 # 4)); (("a", "t"), Q2Qc (1 # 4)); (("b", "t"), Q2Qc (1 # 2))].
Definition quarter_graph : digraph := match dconstruct [] quarters [] with Ok g => g | _ => empty_digraph end.
Example C86_nontrivial : network quarter_graph "s" "t" /\ no_antiparallel (dg_arcs quarter_graph) /\ short_names quarter_graph "t" /\
  inner_node quarter_graph "s" "t" /\ narrow quarter_graph "s" "t" /\ exact_capacities (dg_arcs quarter_graph) /\
  rmap (fun p => this (fst p)) (fl_preflow_push (@rev arc) 60 quarter_graph "s" "t") = Ok (3 # 4)%Q /\
  rmap (fun p => this (fst p)) (fst (fl_ford_fulkerson (@rev arc) 60 quarter_graph "s" "t")) = Ok (3 # 4)%Q.
Proof.
  split; [small_network quarters|]. split; [apply one_wayb_ok; vm_compute; reflexivity|]. split; [small_names|]. split.
  { exists "a". split; [exists 0%Qc; vm_compute; auto|split; discriminate]. }
  split.
  { left. intros v q q' N1 N2 A1 A2. apply is_arc_key in A1, A2. vm_compute in A1, A2.
    repeat (destruct A1 as [A1|A1]; [inversion A1; subst|]); try contradiction; repeat (destruct A2 as [A2|A2]; [inversion A2; subst|]); try contradiction; congruence. }
  split.
  { exists 2%Z. split; [lia|]. split; [|vm_compute; reflexivity]. intros a c H. vm_compute in H.
    repeat (destruct H as [H|H]; [inversion H; subst; match goal with |- on_grid _ ?c => exists (Qnum (this (qz 4 * c)%Qc)); apply Qc_is_canon; vm_compute; reflexivity end|]). contradiction. }
  split; vm_compute; reflexivity.
Qed.
Example some_order_rev : some_order (@rev arc). Proof. intros l. apply Permutation_sym, Permutation_rev. Qed.

(** ** With capacities like 0.1 the claims are false of the code *)

(** the doubles nearest to 0.1, 0.2, 0.34, 0.52, 0.64 and 0.86 *)
Definition d010 : Qc := Q2Qc (3602879701896397 # 36028797018963968).
Definition d020 : Qc := Q2Qc (3602879701896397 # 18014398509481984).
Definition d034 : Qc := Q2Qc (6124895493223875 # 18014398509481984).
Definition d052 : Qc := Q2Qc (1170935903116329 # 2251799813685248).
Definition d064 : Qc := Q2Qc (5764607523034235 # 9007199254740992).
Definition d086 : Qc := Q2Qc (7746191359077253 # 9007199254740992).
Example decimals : d010 = rnd (Q2Qc (1 # 10)) /\ d020 = rnd (Q2Qc (2 # 10)) /\ d034 = rnd (Q2Qc (34 # 100)) /\ d052 = rnd (Q2Qc (52 # 100)) /\
  d064 = rnd (Q2Qc (64 # 100)) /\ d086 = rnd (Q2Qc (86 # 100)).
Proof. repeat split; apply Qc_is_canon; vm_compute; reflexivity. Qed.
Lemma decimals_double x : In x [d010; d020; d034; d052; d064; d086; 0%Qc] -> is_double x.
Proof.
  destruct decimals as (E1 & E2 & E3 & E4 & E5 & E6). intros H. repeat (destruct H as [<-|H]; [rewrite ?E1, ?E2, ?E3, ?E4, ?E5, ?E6; try apply rnd_rounds; apply double_0|]). destruct H.
Qed.

(** Without any way to the sink: 0.2 units sent to b go on to a, where they meet 0.1 from the source.  The
    excess of a becomes 0.30000000000000004; sending back 0.1 and 0.2 leaves a little excess, and a has no
    residual arc left: KeyError. *)
Definition stuck : list (arc * Qc) := [(("s", "b"), d020); (("s", "a"), d010); (("b", "a"), d020); (("a", "t"), 0%Qc)].
Definition stuck_graph : digraph := match dconstruct [] stuck [] with Ok g => g | _ => empty_digraph end.
Lemma two_orders (order : list arc -> list arc) a b : some_order order -> order [a; b] = [a; b] \/ order [a; b] = [b; a].
Proof. intros H. apply Permutation_length_2_inv. apply Permutation_sym, H. Qed.
Lemma one_order (order : list arc -> list arc) a : some_order order -> order [a] = [a].
Proof. intros H. apply Permutation_length_1_inv. apply Permutation_sym, H. Qed.
Theorem C86_preflow_raises_refuted :
  exists g s t, network g s t /\ no_antiparallel (dg_arcs g) /\ short_names g t /\ inner_node g s t /\ double_capacities (dg_arcs g) /\
    (exists N value flow, forall fuel, N <= fuel -> preflow_push fuel g s t = Ok (value, flow)) /\
    exists N, forall order fuel, some_order order -> fl_preflow_push order (N + fuel) g s t = Raise KeyError.
Proof.
  exists stuck_graph, "s", "t". assert (Hn : network stuck_graph "s" "t") by (small_network stuck).
  assert (Hw : no_antiparallel (dg_arcs stuck_graph)) by (apply one_wayb_ok; vm_compute; reflexivity).
  assert (Hs : short_names stuck_graph "t") by small_names.
  assert (Hin : inner_node stuck_graph "s" "t") by (exists "a"; split; [exists 0%Qc; vm_compute; auto 6|split; discriminate]).
  split; [exact Hn|]. split; [exact Hw|]. split; [exact Hs|]. split; [exact Hin|]. split.
  { assert (E : dg_arcs stuck_graph = stuck) by (vm_compute; reflexivity). rewrite E. intros a c H. apply decimals_double. apply (in_map snd) in H. unfold stuck in H. cbn [map snd In] in *. tauto. }
  split; [apply (C27_terminates_partial _ _ _ Hn Hw Hs Hin)|].
  exists 40. intros order fuel Ho. unfold fl_preflow_push.
  assert (has_node stuck_graph "s" = true) as -> by (vm_compute; reflexivity).
  assert (has_node stuck_graph "t" = true) as -> by (vm_compute; reflexivity).
  cbn [negb]. change ("s" =? "t") with false. cbv zeta.
  assert (En : preflow_nodes stuck_graph "s" "t" = ["b"; "a"]) by (vm_compute; reflexivity). rewrite En.
  set (flow := preflow_init_flow stuck_graph "s").
  assert (Eb : fl_preflow_excess order stuck_graph flow "b" = fl_preflow_excess (fun l => l) stuck_graph flow "b").
  { unfold fl_preflow_excess. replace (ncut stuck_graph (Name "b")) with [("s", "b")] by (vm_compute; reflexivity). replace (cut stuck_graph (Name "b")) with [("b", "a")] by (vm_compute; reflexivity).
    now rewrite !(one_order order _ Ho). }
  assert (Ea : fl_preflow_excess order stuck_graph flow "a" = fl_preflow_excess (fun l => l) stuck_graph flow "a").
  { unfold fl_preflow_excess. replace (ncut stuck_graph (Name "a")) with [("s", "a"); ("b", "a")] by (vm_compute; reflexivity). replace (cut stuck_graph (Name "a")) with [("a", "t")] by (vm_compute; reflexivity).
    rewrite !(one_order order _ Ho). destruct (two_orders order ("s", "a") ("b", "a") Ho) as [-> | ->]; [reflexivity|]. apply Qc_is_canon. vm_compute. reflexivity. }
  cbn [map]. rewrite Ea, Eb. clear. vm_compute. reflexivity.
Qed.
Print Assumptions C86_preflow_raises_refuted.

(** ford_fulkerson: 0.34 and then 0.52 through an arc of capacity 0.86 make 0.8600000000000001. *)
Definition brim : list (arc * Qc) := [(("a", "t"), d034); (("s", "a"), d086); (("b", "t"), d064); (("a", "b"), d052)].
Definition brim_graph : digraph := match dconstruct [] brim [] with Ok g => g | _ => empty_digraph end.
Theorem C86_capacity_exceeded_refuted :
  exists g s t, network g s t /\ no_antiparallel (dg_arcs g) /\ narrow g s t /\ double_capacities (dg_arcs g) /\
    exists N, forall order fuel, some_order order -> exists value flow paths f,
      fl_ford_fulkerson order (N + fuel) g s t = (Ok (value, flow), paths) /\ never_backwards g paths /\ denotes flow f /\
      ~ within_capacity (dg_arcs g) f.
Proof.
  exists brim_graph, "s", "t". split; [small_network brim|]. split; [apply one_wayb_ok; vm_compute; reflexivity|]. split.
  { left. intros v q q' N1 N2 A1 A2. apply is_arc_key in A1, A2. vm_compute in A1, A2.
    repeat (destruct A1 as [A1|A1]; [inversion A1; subst|]); try contradiction; repeat (destruct A2 as [A2|A2]; [inversion A2; subst|]); try contradiction; congruence. }
  split.
  { assert (E : dg_arcs brim_graph = brim) by (vm_compute; reflexivity). rewrite E. intros a c H. apply decimals_double. apply (in_map snd) in H. unfold brim in H. cbn [map snd In] in *. tauto. }
  exists 10. intros order fuel Ho.
  set (flow0 := map (fun p => (fst p, 0%Qc)) (dg_arcs brim_graph)).
  set (r0 := match fl_residual brim_graph flow0 with Ok r => r | _ => [] end).
  assert (Ck : match fl_ff_loop (10 + fuel) (dg_arcs brim_graph) "s" "t" flow0 r0 [] with
     | (Ok flow, paths) => map fst flow = map fst brim /\ forallb (forallb (fun a => existsb (eqe a) (dkeys (dg_arcs brim_graph)))) paths = true /\ qlt d086 (fget flow ("s", "a")) = true
     | _ => False end) by (vm_compute; repeat split).
  destruct (fl_ff_loop (10 + fuel) (dg_arcs brim_graph) "s" "t" flow0 r0 []) as [[flow| |] paths] eqn:E; [|destruct Ck|destruct Ck].
  destruct Ck as (Kf & Kp & L).
  assert (Nd : NoDup (dkeys flow)) by (unfold dkeys; rewrite Kf; repeat constructor; simpl; intuition discriminate).
  assert (F : never_backwards brim_graph paths).
  { intros l u v Hl Huv. apply is_arc_key. rewrite forallb_forall in Kp. apply Kp in Hl. rewrite forallb_forall in Hl. apply Hl in Huv.
    apply existsb_exists in Huv. destruct Huv as (x & Hx & Ex). destruct (eqe_spec (u, v) x); [subst; auto|discriminate]. }
  assert (Er : fl_residual brim_graph flow0 = Ok r0) by (vm_compute; reflexivity).
  exists (fl_flow_value order brim_graph "s" flow), flow, paths, (fget flow). split; [|split; [exact F|split; [apply denotes_self; exact Nd|]]].
  - unfold fl_ford_fulkerson. assert (has_node brim_graph "s" = true) as -> by (vm_compute; reflexivity).
    assert (has_node brim_graph "t" = true) as -> by (vm_compute; reflexivity). cbn [negb]. change ("s" =? "t") with false. cbv zeta.
    fold flow0. rewrite Er, E. reflexivity.
  - intros W. destruct (W ("s", "a") d086) as [_ W1]; [vm_compute; auto|]. assert (Lt : forall x y, qlt x y = true -> (x < y)%Qc) by (intros x y; destruct (qlt_spec x y); [auto|discriminate]).
    exact (Qcle_not_lt _ _ W1 (Lt _ _ L)).
Qed.
Print Assumptions C86_capacity_exceeded_refuted.
