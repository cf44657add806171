(** C22-C25: ford_fulkerson. *)
From Coq Require Import String List Bool Arith QArith Qcanon Lia ZArith.
From Verif Require Import Py QcTac QSum QInt UndirectedModel UndirectedProofs DirectedModel DirectedSpec DirectedProofs FlowModel FlowSpec FlowTheory ResidualProofs DirectedFinal DirectedProps FFProofs FFFinal FFDiverge.
Import ListNotations.
Open Scope nat_scope.
Open Scope string_scope.
Open Scope list_scope.

(** a reachable digraph with nonnegative capacities and two different nodes *)
Record network (g : digraph) (s t : string) : Prop := {
  nw_state : digraph_state g;
  nw_source : is_node (dg_nodes g) s;
  nw_sink : is_node (dg_nodes g) t;
  nw_distinct : s <> t;
  nw_capacities : nonnegative_capacities (dg_arcs g) }.

(** every step of every augmenting path is along an arc, none is against one *)
Definition never_backwards (g : digraph) (paths : list (list (string * string))) : Prop :=
  forall path u v, In path paths -> In (u, v) path -> is_arc (dg_arcs g) u v.

Lemma is_node_key (l : list (string * Qc)) v : is_node l v -> In v (dkeys l).
Proof. unfold is_node. now rewrite key_In. Qed.
Lemma is_arc_key (l : list (arc * Qc)) u v : is_arc l u v <-> In (u, v) (dkeys l).
Proof. unfold is_arc. now rewrite key_In. Qed.
Lemma never_forward g paths : never_backwards g paths <-> forall l, In l paths -> forward (dg_arcs g) l.
Proof.
  unfold never_backwards, forward. split.
  - intros H l Hl [u v] Ha. apply is_arc_key. eauto.
  - intros H l u v Hl Ha. apply is_arc_key. apply (H l); auto.
Qed.
Ltac rewrite_nodup K := match type of K with ?a = ?b => cut (NoDup b); [intros rwN; exact (eq_ind_r (@NoDup _) rwN K)|] end.
Lemma denotes_self flow : NoDup (dkeys flow) -> denotes flow (fget flow).
Proof.
  intros Hn. split.
  - intros a x H. unfold fget. now rewrite (In_dget _ eqe_spec _ _ _ Hn H).
  - intros a H. unfold fget. apply (dget_None _ eqe_spec) in H. now rewrite H.
Qed.

(** ** C22, C23 *)

(** Bad arguments are rejected. *)
Theorem C22_bad_arguments_raise :
  forall fuel g s t, ~ is_node (dg_nodes g) s \/ ~ is_node (dg_nodes g) t \/ s = t ->
    fst (ford_fulkerson fuel g s t) = Raise ValueError.
Proof.
  intros fuel g s t H. unfold ford_fulkerson.
  assert (Hk : forall v, is_node (dg_nodes g) v <-> In v (dkeys (dg_nodes g))) by (intros; unfold is_node; now rewrite key_In).
  rewrite !Hk in H. destruct (has_node_spec g s), (has_node_spec g t); cbn [negb fst]; auto.
  destruct H as [H|[H|H]]; try contradiction. subst. now rewrite String.eqb_refl.
Qed.
Print Assumptions C22_bad_arguments_raise.

(** On every network, antiparallel arcs included: the call never raises; when it returns, the
    flow has exactly the arcs as keys and is conserved, and the value is the net value of the
    flow when the source has a one-character name.  Missing: 0 <= f <= capacity, which is false
    (below). *)
Theorem C22_conservation_and_value_partial :
  forall fuel g s t, network g s t ->
    (exists value flow f, fst (ford_fulkerson fuel g s t) = Ok (value, flow) /\
       map fst flow = map fst (dg_arcs g) /\ denotes flow f /\ conserved (dg_arcs g) s t f /\
       (short s -> value = net_value (dg_arcs g) s f)) \/
    (fst (ford_fulkerson fuel g s t) = Diverges /\ length (snd (ford_fulkerson fuel g s t)) = fuel).
Proof.
  intros fuel g s t [H1 H2 H3 H4 H5]. apply digraph_state_inv in H1. apply is_node_key in H2, H3.
  destruct (ff_gen g s t H1 H2 H3 H4 H5 fuel) as [(flow & tr & E & K & C)|(tr & E & L)]; rewrite E; cbn [fst snd].
  - left. exists (flow_value g s flow), flow, (fget flow). split; [auto|]. split; [exact K|]. split.
    + apply denotes_self. rewrite_nodup K; apply H1.
    + split; [auto|]. apply (value_short g s H1).
  - right. auto.
Qed.
Print Assumptions C22_conservation_and_value_partial.

(** Without antiparallel arcs, a run none of whose augmenting paths goes backwards returns a
    maximum flow, equal in value to a cut.  Missing: runs with a backward step (false, below). *)
Theorem C23_forward_runs_are_maximum_partial :
  forall fuel g s t value flow paths, network g s t -> no_antiparallel (dg_arcs g) ->
    ford_fulkerson fuel g s t = (Ok (value, flow), paths) -> never_backwards g paths ->
    exists f inside, denotes flow f /\ maximum_flow (dg_arcs g) s t f /\
      inside s = true /\ inside t = false /\ net_value (dg_arcs g) s f = cut_capacity (dg_arcs g) inside /\
      (short s -> value = net_value (dg_arcs g) s f).
Proof.
  intros fuel g s t value flow paths [H1 H2 H3 H4 H5] Hw E F. apply digraph_state_inv in H1. apply is_node_key in H2, H3.
  pose proof (proj1 (never_forward g paths) F) as F'. clear F. rename F' into F.
  destruct (ff_forward g s t H1 H2 H3 H4 H5 Hw fuel value flow paths E F) as (inside & I1 & I2 & M & V).
  destruct (ff_gen g s t H1 H2 H3 H4 H5 fuel) as [(flow' & tr & E' & K & C)|(tr & E' & L)]; rewrite E in E'; inversion E'; subst.
  exists (fget flow'), inside. split; [apply denotes_self; rewrite_nodup K; apply H1|]. split; [auto|]. split; [auto|]. split; [auto|].
  split; [auto|]. apply (value_short g s H1).
Qed.
Print Assumptions C23_forward_runs_are_maximum_partial.

(** A class of networks on which everything holds: every node other than the source and the
    sink has at most one incoming arc, or every such node has at most one outgoing arc. *)
Definition narrow (g : digraph) (s t : string) : Prop :=
  (forall v p q, v <> s -> v <> t -> is_arc (dg_arcs g) p v -> is_arc (dg_arcs g) q v -> p = q) \/
  (forall v p q, v <> s -> v <> t -> is_arc (dg_arcs g) v p -> is_arc (dg_arcs g) v q -> p = q).

Theorem C24_narrow_networks_partial :
  forall g s t, network g s t -> no_antiparallel (dg_arcs g) -> narrow g s t ->
    exists N value flow f inside, (forall fuel, N <= fuel -> fst (ford_fulkerson fuel g s t) = Ok (value, flow)) /\
      denotes flow f /\ maximum_flow (dg_arcs g) s t f /\
      inside s = true /\ inside t = false /\ net_value (dg_arcs g) s f = cut_capacity (dg_arcs g) inside /\
      (short s -> value = net_value (dg_arcs g) s f).
Proof.
  intros g s t Hn Hw Hc. pose proof Hn as Hn'. destruct Hn as [H1 H2 H3 H4 H5]. apply digraph_state_inv in H1. apply is_node_key in H2, H3.
  assert (Hc' : narrow_in (dg_arcs g) s t \/ narrow_out (dg_arcs g) s t).
  { destruct Hc as [Hc|Hc]; [left|right]; intros v p q N1 N2 A1 A2; apply is_arc_key in A1, A2; eauto. }
  destruct (ff_terminates g s t H1 H2 H3 H4 H5 Hw) as (N & [(value & flow & tr & E)|(l & a & Hl & Ha & Hna)]).
  2: { destruct Hna. apply (ff_class g s t H1 H2 H3 H4 H5 Hw N Hc' l Hl a Ha). }
  destruct (C23_forward_runs_are_maximum_partial N g s t value flow tr Hn' Hw E) as (f & inside & D & M & I1 & I2 & V & W).
  { apply never_forward. intros l Hl. apply (ff_class g s t H1 H2 H3 H4 H5 Hw N Hc' l). rewrite E. exact Hl. }
  exists N, value, flow, f, inside. split; [|exact (conj D (conj M (conj I1 (conj I2 (conj V W)))))].
  intros fuel Hf. destruct (ff_unfold g s t H2 H3 H4 H5 N) as (r & Er & Eu). destruct (ff_unfold g s t H2 H3 H4 H5 fuel) as (r' & Er' & Eu').
  rewrite Er in Er'. inversion Er'; subst r'. rewrite Eu'. rewrite Eu in E. cbn [fst] in *.
  assert (Mono : forall n m fl r tr, n <= m -> (exists x, fst (ff_loop n (dg_arcs g) s t fl r tr) = Ok x) ->
     ff_loop m (dg_arcs g) s t fl r tr = ff_loop n (dg_arcs g) s t fl r tr).
  { clear. induction n as [|n IH]; intros m fl r tr Hm [x Hx]; [discriminate|]. destruct m as [|m]; [lia|]. simpl in *.
    destruct (bfs_path s t r) as [[p|]| |]; auto. destruct (ff_augment (dg_arcs g) t p fl r) as [[l [f1 r1]]| |]; auto.
    apply IH; [lia|eauto]. }
  assert (Ex : exists x, fst (ff_loop N (dg_arcs g) s t (zero_flow (dg_arcs g)) r []) = Ok x).
  { destruct (ff_loop N (dg_arcs g) s t (zero_flow (dg_arcs g)) r []) as [[x| |] y]; [exists x; reflexivity|discriminate E|discriminate E]. }
  rewrite (Mono N fuel _ _ _ Hf Ex).
  destruct (ff_loop N (dg_arcs g) s t (zero_flow (dg_arcs g)) r []) as [[x| |] y]; inversion E; subst; auto.
Qed.
Print Assumptions C24_narrow_networks_partial.

(** ** C24: without antiparallel arcs, the only way not to return is to go backwards. *)
Theorem C24_stops_or_goes_backwards_partial :
  forall g s t, network g s t -> no_antiparallel (dg_arcs g) ->
    exists fuel, (exists value flow, fst (ford_fulkerson fuel g s t) = Ok (value, flow)) \/
      ~ never_backwards g (snd (ford_fulkerson fuel g s t)).
Proof.
  intros g s t [H1 H2 H3 H4 H5] Hw. apply digraph_state_inv in H1. apply is_node_key in H2, H3.
  destruct (ff_terminates g s t H1 H2 H3 H4 H5 Hw) as (N & [(value & flow & tr & E)|(l & a & Hl & Ha & Hna)]); exists N.
  - left. exists value, flow. now rewrite E.
  - right. rewrite never_forward. intros F. apply Hna, (F l Hl a Ha).
Qed.
Print Assumptions C24_stops_or_goes_backwards_partial.

(** a network meeting the hypotheses: a diamond with capacities 2, 1, 1, 2 *)
Definition diamond : digraph :=
  mkdg [("s", ["a"; "b"]); ("a", ["t"]); ("b", ["t"]); ("t", [])]
       [(("s", "a"), qz 2); (("s", "b"), 1%Qc); (("a", "t"), 1%Qc); (("b", "t"), qz 2)]
       [("s", 0%Qc); ("a", 0%Qc); ("b", 0%Qc); ("t", 0%Qc)].
Lemma network_of g arcs s t : dconstruct [] arcs [] = Ok g -> has_node g s = true -> has_node g t = true -> s <> t ->
  forallb (fun p => qle 0 (snd p)) (dg_arcs g) = true -> network g s t.
Proof.
  intros E H1 H2 H3 H4. split; auto.
  - exists [], arcs, [], g, []. split; [exact E|]. split; constructor.
  - unfold is_node. rewrite <- key_In. destruct (has_node_spec g s); [auto|discriminate].
  - unfold is_node. rewrite <- key_In. destruct (has_node_spec g t); [auto|discriminate].
  - intros a c Hin. rewrite forallb_forall in H4. specialize (H4 _ Hin). simpl in H4. destruct (qle_spec 0 c); [auto|discriminate].
Qed.
Definition one_wayb (arcs : list (arc * Qc)) : bool :=
  forallb (fun p => negb (existsb (fun q => eqe (snd (fst p), fst (fst p)) (fst q)) arcs)) arcs.
Lemma one_wayb_ok arcs : one_wayb arcs = true -> no_antiparallel arcs.
Proof.
  unfold one_wayb. rewrite forallb_forall. intros H u v H1 H2. apply in_map_iff in H1, H2.
  destruct H1 as ([a x] & E1 & H1), H2 as ([b y] & E2 & H2). simpl in E1, E2. subst.
  specialize (H _ H1). simpl in H. apply negb_true_iff in H.
  assert (existsb (fun q : edge * Qc => eqe (v, u) (fst q)) arcs = true); [|congruence].
  apply existsb_exists. exists ((v, u), y). split; auto. simpl. destruct (eqe_spec (v, u) (v, u)); congruence.
Qed.

Example C23_nontrivial : network diamond "s" "t" /\ no_antiparallel (dg_arcs diamond) /\ narrow diamond "s" "t" /\
  exists value flow paths, ford_fulkerson 5 diamond "s" "t" = (Ok (value, flow), paths) /\ never_backwards diamond paths /\ value = qz 2 /\
    length paths = 2.
Proof.
  split; [apply (network_of _ (dg_arcs diamond)); [vm_compute; reflexivity|reflexivity|reflexivity|discriminate|reflexivity]|].
  split; [apply one_wayb_ok; reflexivity|]. split.
  - left. intros v p q Hs Ht [x Hp] [y Hq]. cbn [diamond dg_arcs In] in Hp, Hq.
    repeat (destruct Hp as [Hp|Hp]; [inversion Hp; subst|]); try contradiction; repeat (destruct Hq as [Hq|Hq]; [inversion Hq; subst|]); try contradiction; auto; congruence.
  - do 3 eexists. split; [vm_compute; reflexivity|]. split; [|split; [apply Qc_is_canon; reflexivity|reflexivity]].
    intros l u v Hl Ha. simpl in Hl. repeat (destruct Hl as [Hl|Hl]; [subst l; simpl in Ha; repeat (destruct Ha as [Ha|Ha]; [inversion Ha; subst; eexists; vm_compute; eauto 9|]); contradiction|]); contradiction.
Qed.

(** C22 and C23 are false of the code even without antiparallel arcs: a backward step writes the
    two residual entries exchanged.  Here ford_fulkerson returns normally, reports 4 although
    the cut around s, c and a has capacity 3, and sends
    -1 along (b, a). *)
Definition spoiled : digraph :=
  mkdg [("s", ["t"; "b"; "c"]); ("t", []); ("d", ["t"]); ("a", ["t"; "s"]); ("b", ["a"; "d"]); ("c", ["a"])]
       [(("s", "t"), qz 1); (("d", "t"), qz 3); (("a", "t"), qz 1); (("b", "a"), qz 2); (("s", "b"), qz 1); (("c", "a"), qz 3); (("b", "d"), qz 2); (("s", "c"), qz 2); (("a", "s"), qz 2)]
       [("s", 0%Qc); ("t", 0%Qc); ("d", 0%Qc); ("a", 0%Qc); ("b", 0%Qc); ("c", 0%Qc)].
Theorem C22_infeasible_refuted :
  exists g s t value flow paths, network g s t /\ no_antiparallel (dg_arcs g) /\ (forall v, is_node (dg_nodes g) v -> short v) /\
    ford_fulkerson 10 g s t = (Ok (value, flow), paths) /\
    (exists a x, In (a, x) flow /\ (x < 0)%Qc) /\
    (exists inside, inside s = true /\ inside t = false /\ (cut_capacity (dg_arcs g) inside < value)%Qc) /\
    (forall f, is_flow (dg_arcs g) s t f -> (net_value (dg_arcs g) s f < value)%Qc).
Proof.
  exists spoiled, "s", "t".
  destruct (ford_fulkerson 10 spoiled "s" "t") as [r paths] eqn:E.
  assert (X : (let r := fst (ford_fulkerson 10 spoiled "s" "t") in
     match r with Ok (value, flow) => qlt (fget flow ("b", "a")) 0 && existsb (fun p => eqe (fst p) ("b", "a")) flow && qlt (cut_capacity (dg_arcs spoiled) (String.eqb "s")) (qz 5) && qeq value (qz 4) | _ => false end) = true) by (vm_compute; reflexivity).
  rewrite E in X. cbn [fst] in X. destruct r as [[value flow]| |]; try discriminate X.
  apply andb_prop in X as [X X4]. apply andb_prop in X as [X X3]. apply andb_prop in X as [X1 X2].
  destruct (qeq_spec value (qz 4)) as [->|]; [|discriminate]. destruct (qlt_spec (fget flow ("b", "a")) 0) as [L|]; [|discriminate].
  set (inside := fun v => mem v ["s"; "c"; "a"]).
  assert (Cut : (cut_capacity (dg_arcs spoiled) inside < qz 4)%Qc) by (vm_compute; reflexivity).
  exists (qz 4), flow, paths. split; [|split; [apply one_wayb_ok; reflexivity|split; [|split; [reflexivity|split; [|split]]]]].
  - apply (network_of _ (dg_arcs spoiled)); [vm_compute; reflexivity|reflexivity|reflexivity|discriminate|reflexivity].
  - intros v [w H]. cbn [spoiled dg_nodes In] in H. repeat (destruct H as [H|H]; [inversion H; subst; reflexivity|]). contradiction.
  - exists ("b", "a"), (fget flow ("b", "a")). split; [|auto].
    unfold fget in *. destruct (dget eqe ("b", "a") flow) as [x|] eqn:Eg; [now apply (dget_In _ eqe_spec) in Eg|]. exfalso. qclra.
  - exists inside. auto.
  - intros f Hf. assert (net_value (dg_arcs spoiled) "s" f <= cut_capacity (dg_arcs spoiled) inside)%Qc.
    { apply (weak_duality (dg_arcs spoiled) "s" "t" f inside); auto. discriminate. }
    qclra.
Qed.
Print Assumptions C22_infeasible_refuted.

Corollary C23_above_the_maximum_refuted :
  exists g s t value flow paths, network g s t /\ no_antiparallel (dg_arcs g) /\
    ford_fulkerson 10 g s t = (Ok (value, flow), paths) /\
    (forall f, is_flow (dg_arcs g) s t f -> (net_value (dg_arcs g) s f < value)%Qc).
Proof.
  destruct C22_infeasible_refuted as (g & s & t & value & flow & paths & H1 & H2 & _ & H3 & _ & _ & H4).
  exists g, s, t, value, flow, paths. auto.
Qed.
Print Assumptions C23_above_the_maximum_refuted.

(** C24 is false of the code: on this digraph of 16 nodes and 23 arcs with integer capacities,
    without antiparallel arcs, no number of augmentations is enough. *)
Definition trap : digraph := match dconstruct [] trap_arcs [] with Ok g => g | _ => empty_digraph end.
Theorem C24_never_ends_refuted :
  exists g s t, network g s t /\ no_antiparallel (dg_arcs g) /\ (forall a c, In (a, c) (dg_arcs g) -> exists n, c = qz n) /\
    forall fuel, fst (ford_fulkerson fuel g s t) = Diverges.
Proof.
  assert (Ea : dg_arcs trap = trap_arcs) by (vm_compute; reflexivity).
  assert (Ec : dconstruct [] trap_arcs [] = Ok trap) by (vm_compute; reflexivity).
  assert (Hs : has_node trap "s" = true) by (vm_compute; reflexivity).
  assert (Ht : has_node trap "t" = true) by (vm_compute; reflexivity).
  assert (Hn : network trap "s" "t").
  { apply (network_of _ trap_arcs); [exact Ec|exact Hs|exact Ht|discriminate|rewrite Ea; reflexivity]. }
  exists trap, "s", "t". split; [exact Hn|]. rewrite Ea. split; [apply one_wayb_ok; reflexivity|]. split.
  - intros a c H. unfold trap_arcs in H. simpl in H. repeat (destruct H as [H|H]; [inversion H; eauto|]). contradiction.
  - intros fuel. destruct Hn as [H1 H2 H3 H4 H5]. apply is_node_key in H2, H3.
    clear Ec. revert Ea H2 H3 H4 H5. clear. generalize trap. intros g Ea H2 H3 H4 H5.
    destruct (ff_unfold g "s" "t" H2 H3 H4 H5 fuel) as (r & Er & Eu). rewrite Eu. cbn [fst].
    assert (Ef : zero_flow (dg_arcs g) = trap_flow0) by (rewrite Ea; reflexivity).
    unfold compute_residual in Er. rewrite (trap_any _ _ _ Ea Ef Er fuel). reflexivity.
Qed.
Print Assumptions C24_never_ends_refuted.

(** ** C25 is false of the code: with a pair of antiparallel arcs the returned flow exceeds a
    capacity, and with a source name of two characters the reported value is wrong although
    the flow itself is maximum. *)
Definition twoway_arcs : list (arc * Qc) :=
  [(("s", "b"), qz 5); (("b", "a"), qz 5); (("a", "t"), qz 5); (("s", "c"), qz 5); (("c", "a"), qz 5);
   (("a", "b"), 1%Qc); (("b", "d"), qz 5); (("d", "t"), qz 5)].
Definition twoway : digraph := match dconstruct [] twoway_arcs [] with Ok g => g | _ => empty_digraph end.
Theorem C25_antiparallel_refuted :
  exists g s t value flow paths, network g s t /\ ford_fulkerson 10 g s t = (Ok (value, flow), paths) /\
    exists a c x, In (a, c) (dg_arcs g) /\ In (a, x) flow /\ (c < x)%Qc.
Proof.
  exists twoway, "s", "t".
  destruct (ford_fulkerson 10 twoway "s" "t") as [r paths] eqn:E.
  assert (X : (match fst (ford_fulkerson 10 twoway "s" "t") with Ok (value, flow) => match dget eqe ("a", "b") flow with Some x => qlt 1 x | None => false end | _ => false end) = true) by (vm_compute; reflexivity).
  rewrite E in X. cbn [fst] in X. destruct r as [[value flow]| |]; try discriminate X.
  destruct (dget eqe ("a", "b") flow) as [x|] eqn:Ex; [|discriminate]. destruct (qlt_spec 1 x); [|discriminate].
  exists value, flow, paths. split.
  - apply (network_of _ twoway_arcs); [vm_compute; reflexivity|vm_compute; reflexivity|vm_compute; reflexivity|discriminate|vm_compute; reflexivity].
  - split; [reflexivity|]. exists ("a", "b"), 1%Qc, x. split; [|split; [now apply (dget_In _ eqe_spec)|auto]].
    assert (Ea : dg_arcs twoway = twoway_arcs) by (vm_compute; reflexivity). rewrite Ea. unfold twoway_arcs. simpl. tauto.
Qed.
Print Assumptions C25_antiparallel_refuted.

Definition longname : digraph := mkdg [("ss", ["t"]); ("t", [])] [(("ss", "t"), 1%Qc)] [("ss", 0%Qc); ("t", 0%Qc)].
Theorem C25_long_source_name_refuted :
  exists g s t value flow paths f, network g s t /\ no_antiparallel (dg_arcs g) /\ ford_fulkerson 10 g s t = (Ok (value, flow), paths) /\
    denotes flow f /\ maximum_flow (dg_arcs g) s t f /\ value <> net_value (dg_arcs g) s f.
Proof.
  assert (Hn : network longname "ss" "t").
  { apply (network_of _ (dg_arcs longname)); [vm_compute; reflexivity|vm_compute; reflexivity|vm_compute; reflexivity|discriminate|vm_compute; reflexivity]. }
  assert (Hw : no_antiparallel (dg_arcs longname)) by (apply one_wayb_ok; reflexivity).
  destruct (ford_fulkerson 10 longname "ss" "t") as [[[value flow]| |] paths] eqn:E; try (vm_compute in E; discriminate E).
  destruct (C23_forward_runs_are_maximum_partial 10 longname "ss" "t" value flow paths Hn Hw E) as (f & inside & D & M & I1 & I2 & V & _).
  { vm_compute in E. inversion E; subst. intros l u v [<-|[]] [Ha|[]]. inversion Ha; subst. exists 1%Qc. simpl. auto. }
  exists longname, "ss", "t", value, flow, paths, f. split; [auto|]. split; [auto|]. split; [auto|]. split; [auto|]. split; [auto|].
  rewrite V. assert (value = 0%Qc) as -> by (vm_compute in E; inversion E; subst; apply Qc_is_canon; reflexivity).
  unfold cut_capacity. cbn [longname dg_arcs filter fst snd]. rewrite I1, I2. cbn. intros X.
  apply (f_equal this) in X. vm_compute in X. discriminate X.
Qed.
Print Assumptions C25_long_source_name_refuted.
