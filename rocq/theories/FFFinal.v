(** ford_fulkerson as a whole: from the initial state to the returned value. *)
From Coq Require Import String List Bool Arith QArith Qcanon Lia ZArith.
From Verif Require Import Py QcTac QSum QInt UndirectedModel UndirectedProofs DirectedModel DirectedSpec DirectedProofs FlowModel FlowSpec FlowTheory ResidualProofs DirectedFinal FFProofs.
Import ListNotations.
Open Scope nat_scope.
Open Scope string_scope.
Open Scope list_scope.

Section Class.
  Variable arcs : list (arc * Qc).
  Variables s t : string.
  Hypothesis Hst : s <> t.
  Hypothesis Hnd : NoDup (dkeys arcs).
  Hypothesis Hloop : forall u v, In (u, v) (dkeys arcs) -> u <> v.
  Hypothesis Hw : one_way arcs.
  Hypothesis Hcap : forall a c, In (a, c) arcs -> (0 <= c)%Qc.

  (** at most one arc enters, or at most one leaves, each node other than the source and sink *)
  Definition narrow_in : Prop := forall v p q, v <> s -> v <> t -> In (p, v) (dkeys arcs) -> In (q, v) (dkeys arcs) -> p = q.
  Definition narrow_out : Prop := forall v p q, v <> s -> v <> t -> In (v, p) (dkeys arcs) -> In (v, q) (dkeys arcs) -> p = q.

  Definition ends (flow : list (arc * Qc)) : Prop := forall x, fget flow (x, s) = 0%Qc /\ fget flow (t, x) = 0%Qc.

  Lemma reversed_flow flow r u v : exact arcs flow r -> edge_in r u v -> ~ In (u, v) (dkeys arcs) ->
    In (v, u) (dkeys arcs) /\ (0 < fget flow (v, u))%Qc.
  Proof.
    intros (B & V & _) He Hn. unfold edge_in in He. rewrite V in He. unfold rexp in He.
    apply (dget_None _ eqe_spec) in Hn. rewrite Hn in He. destruct (dget eqe (v, u) arcs) as [c|] eqn:E; [|congruence].
    split; [eapply (get_key _ eqe_spec); eauto|]. destruct (qlt_spec 0 (fget flow (v, u))); [auto|congruence].
  Qed.

  Lemma forward_in flow r : narrow_in -> exact arcs flow r -> ends flow -> forall v l, bpath r s v l ->
    (forall a, In a l -> fst a <> t) -> forward arcs l.
  Proof.
    intros Hin X Z v l Hb. induction Hb as [|u v l Hb IH He Hne Hfr Hs]; intros Ht; [intros ? []|].
    assert (Fl : forward arcs l) by (apply IH; intros a Ha; apply Ht; now right).
    intros a [<-|Ha]; [|now apply Fl].
    destruct (in_dec arc_dec (u, v) (dkeys arcs)) as [H|H]; [auto|exfalso].
    destruct (reversed_flow flow r u v X He H) as [H1 H2].
    inversion Hb as [Eu El|p u' l' Hb' He' Hne' Hfr' Hs' Eu El]; subst.
    - destruct (Z v) as [Zv _]. rewrite Zv in H2. qclra.
    - assert (p = v).
      { apply (Hin u); auto; [apply (Ht (u, v)); now left|apply Fl; now left]. }
      subst p. destruct (Hfr (v, u) (or_introl eq_refl)) as [Hf _]. simpl in Hf. congruence.
  Qed.

  Lemma forward_out flow r : narrow_out -> exact arcs flow r -> ends flow -> forall v l, bpath r s v l ->
    (forall a, In a l -> fst a <> t) -> v = t \/ (exists q, In (v, q) (dkeys arcs) /\ q <> v /\ forall a, In a l -> fst a <> q /\ snd a <> q) ->
    forward arcs l.
  Proof.
    intros Hout X Z v l Hb. induction Hb as [|u v l Hb IH He Hne Hfr Hs]; intros Ht Hv; [intros ? []|].
    assert (Ha : In (u, v) (dkeys arcs)).
    { destruct (in_dec arc_dec (u, v) (dkeys arcs)) as [H|H]; [auto|exfalso].
      destruct (reversed_flow flow r u v X He H) as [H1 H2].
      destruct (string_dec v t) as [->|Nt].
      - destruct (Z u) as [_ Zu]. rewrite Zu in H2. qclra.
      - destruct Hv as [Hv|(q & Hq & Hqv & Hql)]; [congruence|].
        assert (u = q) by (apply (Hout v); auto). subst q. destruct (Hql (u, v) (or_introl eq_refl)). simpl in *. congruence. }
    intros a [<-|Hl]; [auto|]. revert a Hl. apply IH.
    - intros a Hl. apply Ht. now right.
    - right. exists v. split; [auto|]. split; [auto|]. exact Hfr.
  Qed.

  Lemma bpath_top r v l : bpath r s v l -> v = t -> forall a, In a l -> fst a <> t.
  Proof.
    intros Hb Hv. inversion Hb as [|u v' l' Hb' He' Hne' Hfr' Hs']; subst; [intros ? []|].
    intros a [<-|Ha]; [simpl; congruence|]. now apply Hfr'.
  Qed.
  Lemma bpath_source r v l : bpath r s v l -> forall a, In a l -> snd a <> s.
  Proof. intros H; induction H; [intros ? []|]. intros a [<-|Ha]; auto. Qed.

  Lemma loop_class : narrow_in \/ narrow_out -> forall fuel flow r trace, exact arcs flow r -> ends flow ->
    forall l, In l (snd (ff_loop fuel arcs s t flow r trace)) -> In l trace \/ forward arcs l.
  Proof.
    intros Hn. induction fuel as [|fuel IH]; intros flow r trace X Z l Hl; simpl in Hl; [auto|].
    destruct (bfs_path_spec r s t Hst) as [[Eb HS]|(p & l0 & Eb & Ep & Hb)]; rewrite Eb in Hl; [auto|].
    pose proof (bpath_top r t l0 Hb eq_refl) as Ht.
    assert (Fl : forward arcs l0).
    { destruct Hn as [Hn|Hn]; [eapply forward_in; eauto|eapply forward_out; eauto]. }
    destruct (augment_forward arcs s t Hst Hnd Hloop Hw flow r p l0 X Ep Hb Fl)
      as (d & f1 & r1 & Ea & X1 & _ & _ & _ & F1).
    rewrite Ea in Hl. destruct (IH f1 r1 (trace ++ [l0]) X1) with (l := l) as [Hi|Hi]; auto.
    - intros x. assert (Q : forall a, ~ In a l0 -> fget flow a = 0%Qc -> fget f1 a = 0%Qc).
      { intros a Ha E0. destruct (in_dec arc_dec a (dkeys arcs)) as [Hk|Hk].
        - rewrite F1 by auto. destruct (existsb (eqe a) l0) eqn:Ex; auto.
          apply existsb_exists in Ex. destruct Ex as (b & Hb1 & Hb2). destruct (eqe_spec a b); [subst; contradiction|discriminate].
        - unfold fget. destruct (dget eqe a f1) eqn:Eg; auto. apply (get_key _ eqe_spec) in Eg.
          destruct X1 as ((K & _) & _). destruct Hk. rewrite <- K. exact Eg. }
      split; apply Q; try apply Z; intros Hi.
      + apply (bpath_source r t l0 Hb) in Hi. now apply Hi.
      + apply Ht in Hi. now apply Hi.
    - apply in_app_or in Hi. destruct Hi as [Hi|[<-|[]]]; auto.
  Qed.
End Class.

(** ** the initial state *)
Definition zero_flow (arcs : list (arc * Qc)) : list (arc * Qc) := map (fun p => (fst p, 0%Qc)) arcs.
Lemma zero_keys arcs : dkeys (zero_flow arcs) = dkeys arcs.
Proof. unfold zero_flow, dkeys. rewrite map_map. reflexivity. Qed.
Lemma zero_fget arcs a : fget (zero_flow arcs) a = 0%Qc.
Proof.
  unfold fget. destruct (dget eqe a (zero_flow arcs)) as [x|] eqn:E; auto.
  apply (dget_In _ eqe_spec) in E. unfold zero_flow in E. apply in_map_iff in E. destruct E as ([b c] & E & _). inversion E. auto.
Qed.
Lemma zero_conserved arcs s t : conserved arcs s t (fget (zero_flow arcs)).
Proof.
  apply conserved_net. intros v _ _. rewrite net_Sigma. rewrite (Sigma_ext _ _ (fun _ => 0%Qc)); [apply Sigma_zero|]. intros a _. rewrite zero_fget. ring.
Qed.

Section Whole.
  Variable g : digraph.
  Variables s t : string.
  Hypothesis Hi : dinv g.
  Hypothesis Hs : In s (dkeys (dg_nodes g)).
  Hypothesis Ht : In t (dkeys (dg_nodes g)).
  Hypothesis Hst : s <> t.
  Hypothesis Hcap : forall a c, In (a, c) (dg_arcs g) -> (0 <= c)%Qc.

  Lemma arcs_nd : NoDup (dkeys (dg_arcs g)). Proof. apply Hi. Qed.
  Lemma arcs_loop u v : In (u, v) (dkeys (dg_arcs g)) -> u <> v. Proof. intros H. apply (d_arc _ Hi _ _ H). Qed.

  Lemma init_residual : exists r, compute_residual g (zero_flow (dg_arcs g)) = Ok r /\ base (dg_arcs g) (zero_flow (dg_arcs g)) r.
  Proof.
    unfold compute_residual. destruct (compute_residual_raises (zero_flow (dg_arcs g)) (dg_arcs g) []) as [[r E]|[_ (a & c & H1 & H2)]].
    - exists r. split; auto. destruct (compute_residual_support _ _ _ _ rok_nil E) as (R & Sp & _).
      split; [apply zero_keys|]. split; auto. intros u v H. destruct (Sp u v H) as [X|X]; auto. unfold rval in X. simpl in X. congruence.
    - rewrite zero_fget in H2. apply Hcap in H1. qclra.
  Qed.
  Lemma init_exact r : one_way (dg_arcs g) -> compute_residual g (zero_flow (dg_arcs g)) = Ok r -> exact (dg_arcs g) (zero_flow (dg_arcs g)) r.
  Proof.
    intros Hw E. destruct init_residual as (r' & E' & B). rewrite E in E'. inversion E'; subst r'.
    split; [auto|]. split.
    - destruct (compute_residual_ok (zero_flow (dg_arcs g)) (dg_arcs g) arcs_nd Hw) with (r := [] : rnet) as (r' & E2 & _ & V).
      + intros a c H. rewrite zero_fget. eauto.
      + apply rok_nil.
      + unfold compute_residual in E. rewrite E in E2. inversion E2; subst r'. intros u v. rewrite V.
        destruct (rexp (dg_arcs g) (zero_flow (dg_arcs g)) u v); auto.
    - intros a c H. rewrite zero_fget. split; [apply Qcle_refl|eauto].
  Qed.

  Lemma value_short flow : short s -> flow_value g s flow = net_value (dg_arcs g) s (fget flow).
  Proof. intros H. unfold flow_value. rewrite (cut_short g s Hi H), (ncut_short g s Hi H). reflexivity. Qed.

  Lemma ff_unfold fuel : exists r, compute_residual g (zero_flow (dg_arcs g)) = Ok r /\
    ford_fulkerson fuel g s t =
      (rmap (fun f => (flow_value g s f, f)) (fst (ff_loop fuel (dg_arcs g) s t (zero_flow (dg_arcs g)) r [])),
       snd (ff_loop fuel (dg_arcs g) s t (zero_flow (dg_arcs g)) r [])).
  Proof.
    destruct init_residual as (r & E & B). exists r. split; [auto|]. unfold ford_fulkerson.
    assert (has_node g s = true) as -> by (destruct (has_node_spec g s); [reflexivity|contradiction]).
    assert (has_node g t = true) as -> by (destruct (has_node_spec g t); [reflexivity|contradiction]).
    cbn [negb]. destruct (eqs s t); [congruence|]. change (map (fun p : edge * Qc => (fst p, 0%Qc)) (dg_arcs g)) with (zero_flow (dg_arcs g)). cbv zeta. rewrite E. reflexivity.
  Qed.

  Lemma ff_gen fuel : 
    (exists flow tr, ford_fulkerson fuel g s t = (Ok (flow_value g s flow, flow), tr) /\
       dkeys flow = dkeys (dg_arcs g) /\ conserved (dg_arcs g) s t (fget flow)) \/
    (exists tr, ford_fulkerson fuel g s t = (Diverges, tr) /\ length tr = fuel).
  Proof.
    destruct init_residual as (r & E & B). destruct (ff_unfold fuel) as (r' & E' & ->). rewrite E in E'. inversion E'; subst r'.
    destruct (loop_gen (dg_arcs g) s t Hst arcs_nd fuel (zero_flow (dg_arcs g)) r [] B (zero_conserved _ s t))
      as [(flow' & more & EL & K & C)|(more & EL & L)]; rewrite EL; cbn [fst snd rmap].
    - left. exists flow', ([] ++ more). auto.
    - right. exists ([] ++ more). auto.
  Qed.

  Hypothesis Hw : one_way (dg_arcs g).
  Lemma ff_forward fuel value flow tr : ford_fulkerson fuel g s t = (Ok (value, flow), tr) -> (forall l, In l tr -> forward (dg_arcs g) l) ->
    exists inside, inside s = true /\ inside t = false /\ maximum_flow (dg_arcs g) s t (fget flow) /\
      net_value (dg_arcs g) s (fget flow) = cut_capacity (dg_arcs g) inside.
  Proof.
    intros E F. destruct (ff_unfold fuel) as (r & Er & Eu). rewrite Eu in E.
    destruct (ff_loop fuel (dg_arcs g) s t (zero_flow (dg_arcs g)) r []) as [[f'| |] tr'] eqn:EL; cbn [fst snd rmap] in E; inversion E; subst.
    eapply (loop_forward (dg_arcs g) s t Hst arcs_nd arcs_loop Hw); eauto.
    - now apply init_exact.
    - apply zero_conserved.
  Qed.

  Lemma ff_terminates : exists fuel, (exists value flow tr, ford_fulkerson fuel g s t = (Ok (value, flow), tr)) \/
    (exists l a, In l (snd (ford_fulkerson fuel g s t)) /\ In a l /\ ~ In a (dkeys (dg_arcs g))).
  Proof.
    destruct (common_den (map snd (dg_arcs g))) as (D & HD & Hint).
    set (C := cut_capacity (dg_arcs g) (String.eqb s)).
    assert (HC : forall f, is_flow (dg_arcs g) s t f -> (net_value (dg_arcs g) s f <= C)%Qc).
    { intros f Hf. apply (weak_duality (dg_arcs g) s t f (String.eqb s)); auto; [apply String.eqb_refl|destruct (eqs s t); congruence]. }
    assert (Hf : exists fuel : nat, (qz D * (C - net_value (dg_arcs g) s (fget (zero_flow (dg_arcs g)))) < qz (Z.of_nat fuel))%Qc).
    { set (x := (qz D * (C - net_value (dg_arcs g) s (fget (zero_flow (dg_arcs g)))))%Qc).
      exists (Z.to_nat (1 + Z.abs (Qnum (this x)))). rewrite Z2Nat.id by lia.
      unfold qz, Qclt. rewrite this_Q2Qc. destruct (this x) as [n d]. unfold Qlt, inject_Z. cbn [Qnum Qden]. nia. }
    destruct Hf as [fuel Hf]. exists fuel. destruct (ff_unfold fuel) as (r & Er & ->).
    destruct (loop_terminates (dg_arcs g) s t Hst arcs_nd arcs_loop Hw D HD) with (C := C) (fuel := fuel) (flow := zero_flow (dg_arcs g)) (r := r) (trace := @nil (list (string * string)))
      as [[f' H]|H]; auto.
    - intros a c H. apply Hint. change c with (snd (a, c)). now apply in_map.
    - now apply init_exact.
    - apply zero_conserved.
    - intros a _. rewrite zero_fget. exists 0%Z. rewrite qz_0. ring.
    - left. rewrite H. do 3 eexists. reflexivity.
  Qed.

  Lemma ff_class fuel : narrow_in (dg_arcs g) s t \/ narrow_out (dg_arcs g) s t -> forall l, In l (snd (ford_fulkerson fuel g s t)) -> forward (dg_arcs g) l.
  Proof.
    intros Hn l Hl. destruct (ff_unfold fuel) as (r & Er & Eu). rewrite Eu in Hl. cbn [snd] in Hl.
    destruct (loop_class (dg_arcs g) s t Hst arcs_nd arcs_loop Hw Hn fuel (zero_flow (dg_arcs g)) r []) with (l := l) as [[]|H]; auto.
    - now apply init_exact.
    - intros x. now rewrite !zero_fget.
  Qed.
End Whole.
