(** ford_fulkerson. *)
From Coq Require Import String List Bool Arith QArith Qcanon Lia Permutation.
From Verif Require Import Py QcTac QSum QInt UndirectedModel UndirectedProofs DirectedModel DirectedSpec DirectedProofs FlowModel FlowSpec FlowTheory ResidualProofs DirectedFinal.
Import ListNotations.
Open Scope nat_scope.
Open Scope string_scope.
Open Scope list_scope.

Definition arc_dec (a b : string * string) : {a = b} + {a <> b}.
Proof. decide equality; apply string_dec. Defined.

Section FF.
  Variable arcs : list (arc * Qc).
  Variables s t : string.
  Hypothesis Hst : s <> t.
  Hypothesis Hnd : NoDup (dkeys arcs).
  Hypothesis Hloop : forall u v, In (u, v) (dkeys arcs) -> u <> v.

  Definition support (r : rnet) : Prop :=
    forall u v, rval r u v <> None -> In (u, v) (dkeys arcs) \/ In (v, u) (dkeys arcs).
  Definition base (flow : list (arc * Qc)) (r : rnet) : Prop :=
    dkeys flow = dkeys arcs /\ rok r /\ support r.

  Lemma nz_some x : nz x <> None -> True. Proof. auto. Qed.

  Lemma dset_keys_same (flow : list (arc * Qc)) a x : In a (dkeys flow) -> dkeys (dset eqe a x flow) = dkeys flow.
  Proof. intros. now apply (dset_same_keys eqe eqe_spec). Qed.

  (** one step of the update *)
  Lemma step_gen u v d flow r : base flow r -> u <> v -> In (u, v) (dkeys arcs) \/ In (v, u) (dkeys arcs) ->
    exists a x c r', fupdate flow u v d = Ok (a, dset eqe a x flow) /\
      rupdate arcs (dset eqe a x flow) a u v r = Ok r' /\ base (dset eqe a x flow) r' /\
      In a (dkeys arcs) /\ dget eqe a arcs = Some c /\
      ((a = (u, v) /\ x = (fget flow a + d)%Qc) \/ (a = (v, u) /\ ~ In (u, v) (dkeys arcs) /\ x = (fget flow a - d)%Qc)) /\
      rval r' u v = nz (c - x)%Qc /\ rval r' v u = nz x /\
      (forall p q, (p, q) <> (u, v) -> (p, q) <> (v, u) -> rval r' p q = rval r p q).
  Proof.
    intros (K & R & Sp) Hne Hin. rewrite <- K in Hin.
    destruct (fupdate_spec flow u v d Hin) as (a & x & E & Ha & Hc). rewrite K in Ha.
    destruct (key_get _ eqe_spec _ _ Ha) as [c Ec].
    destruct (rupdate_spec arcs (dset eqe a x flow) a u v c x r R Hne Ec) as (r' & Er & R' & V1 & V2 & V3).
    { apply (dget_dset_eq _ eqe_spec). }
    exists a, x, c, r'. split; [auto|]. split; [auto|]. split.
    - split; [rewrite dset_keys_same; [exact K|now rewrite K]|]. split; [auto|].
      intros p q Hpq. destruct (eqe_spec (p, q) (u, v)) as [E1|E1].
      + inversion E1; subst. now rewrite <- K.
      + destruct (eqe_spec (p, q) (v, u)) as [E2|E2].
        * inversion E2; subst. rewrite <- K. tauto.
        * apply Sp. now rewrite <- V3.
    - split; [auto|]. split; [auto|]. split; [|auto].
      destruct Hc as [(-> & _ & ->)|(-> & Hn & ->)]; [left; auto|right]. rewrite <- K. auto.
  Qed.

  Definition shift (l : list (string * string)) (d : Qc) (w : string) : Qc :=
    Sigma l (fun a => (ind (String.eqb (fst a) w) - ind (String.eqb (snd a) w)) * d)%Qc.

  Lemma net_step flow u v d a x w : dkeys flow = dkeys arcs -> In a (dkeys arcs) ->
    (a = (u, v) /\ x = (fget flow a + d)%Qc) \/ (a = (v, u) /\ ~ In (u, v) (dkeys arcs) /\ x = (fget flow a - d)%Qc) ->
    net arcs (fget (dset eqe a x flow)) w = (net arcs (fget flow) w + (ind (String.eqb u w) - ind (String.eqb v w)) * d)%Qc.
  Proof.
    intros K Ha Hc.
    assert (Ho : forall b, b <> a -> fget (dset eqe a x flow) b = fget flow b).
    { intros b Hb. rewrite fget_dset. destruct (eqe_spec b a); congruence. }
    assert (Hx : fget (dset eqe a x flow) a = x).
    { rewrite fget_dset. destruct (eqe_spec a a); congruence. }
    destruct Hc as [(-> & ->)|(-> & _ & ->)].
    - rewrite (net_change arcs Hnd (fget flow) _ (u, v) d w); auto.
    - rewrite (net_change arcs Hnd (fget flow) _ (v, u) (- d)%Qc w); auto.
      simpl. ring.
  Qed.

  Lemma update_gen d l : forall flow r, base flow r ->
    (forall u v, In (u, v) l -> u <> v /\ (In (u, v) (dkeys arcs) \/ In (v, u) (dkeys arcs))) ->
    exists flow' r', ff_update arcs l d flow r = Ok (flow', r') /\ base flow' r' /\
      forall w, net arcs (fget flow') w = (net arcs (fget flow) w + shift l d w)%Qc.
  Proof.
    induction l as [|[u v] l IH]; intros flow r B H; simpl.
    - exists flow, r. split; auto. split; auto. intros w. unfold shift. rewrite Sigma_nil. ring.
    - destruct (H u v (or_introl eq_refl)) as [Hne Hin].
      destruct (step_gen u v d flow r B Hne Hin) as (a & x & c & r1 & E1 & E2 & B1 & Ha & Ec & Hc & _).
      rewrite E1. simpl. rewrite E2. simpl.
      destruct (IH _ _ B1) as (flow' & r' & E & B' & N); [intros; apply H; now right|].
      exists flow', r'. split; auto. split; auto. intros w. rewrite N.
      rewrite (net_step flow u v d a x w); auto; [|apply B]. unfold shift. rewrite Sigma_cons. simpl. ring.
  Qed.

  Lemma bpath_shift r v l d w : bpath r s v l -> shift l d w = ((ind (String.eqb s w) - ind (String.eqb v w)) * d)%Qc.
  Proof.
    intros H; induction H as [|u v l Hb IH He Hne Hfr Hs].
    - unfold shift. rewrite Sigma_nil. ring.
    - unfold shift in *. rewrite Sigma_cons, IH. simpl. ring.
  Qed.
  Lemma bpath_nodes r v l : bpath r s v l -> forall p q, In (p, q) l -> p <> q /\ edge_in r p q.
  Proof.
    intros H; induction H as [|u v l Hb IH He Hne Hfr Hs]; [intros ? ? []|].
    intros p q [E|E]; [inversion E; subst; split; auto|auto].
  Qed.
  Lemma bpath_NoDup r v l : bpath r s v l -> NoDup l.
  Proof.
    intros H; induction H as [|u v l Hb IH He Hne Hfr Hs]; constructor; auto.
    intros Hin. destruct (Hfr _ Hin). simpl in *. congruence.
  Qed.

  Lemma min_residual_spec r l : forall m, (forall u v, In (u, v) l -> edge_in r u v) -> (l <> [] \/ m <> None) ->
    exists x, min_residual l r m = Ok (Some x) /\
      (forall u v y, In (u, v) l -> rval r u v = Some y -> (x <= y)%Qc) /\
      (forall y, m = Some y -> (x <= y)%Qc) /\
      ((exists u v, In (u, v) l /\ rval r u v = Some x) \/ m = Some x).
  Proof.
    induction l as [|[u v] l IH]; intros m He Hm; simpl.
    - destruct m as [x|]; [|destruct Hm; congruence]. exists x. split; auto. split; [intros ? ? ? []|].
      split; [intros y E; inversion E; subst; apply Qcle_refl|auto].
    - rewrite rget_rval. pose proof (He u v (or_introl eq_refl)) as Huv. unfold edge_in in Huv.
      destruct (rval r u v) as [y|] eqn:Ey; [|congruence]. simpl.
      destruct (IH (Some (match m with None => y | Some z => qmin z y end))) as (x & E & H1 & H2 & H3).
      + intros; apply He; now right.
      + right; discriminate.
      + exists x. split; auto. specialize (H2 _ eq_refl). split; [|split].
        * intros p q z [E'|Hin] Hz; [inversion E'; subst|eauto]. rewrite Ey in Hz. inversion Hz; subst.
          destruct m as [z'|]; auto. unfold qmin in H2. destruct (qle_spec z' z); [qclra|auto].
        * intros z ->. unfold qmin in H2. destruct (qle_spec z y); [auto|qclra].
        * destruct H3 as [(p & q & H3 & H4)|H3]; [left; exists p, q; split; [now right|auto]|].
          inversion H3; subst. destruct m as [z|]; [unfold qmin; destruct (qle_spec z y)|]; eauto.
          all: left; exists u, v; split; [now left|auto].
  Qed.

  (** one augmentation *)
  Lemma augment_gen flow r p l : base flow r -> path_arcs (2 + length p) p t = Ok l -> bpath r s t l ->
    exists d flow' r', min_residual l r None = Ok (Some d) /\ ff_update arcs l d flow r = Ok (flow', r') /\
      ff_augment arcs t p flow r = Ok (l, (flow', r')) /\ base flow' r' /\
      (forall w, net arcs (fget flow') w = (net arcs (fget flow) w + (ind (String.eqb s w) - ind (String.eqb t w)) * d)%Qc).
  Proof.
    intros B Ep Hb. assert (Hl : l <> []). { intros ->. inversion Hb. congruence. }
    destruct (min_residual_spec r l None) as (d & Ed & _); [intros u v; apply (bpath_nodes r t l Hb)|auto|].
    destruct (update_gen d l flow r B) as (flow' & r' & E & B' & N).
    { intros u v Hin. destruct (bpath_nodes r t l Hb u v Hin). split; auto. apply B. auto. }
    exists d, flow', r'. split; [auto|]. split; [auto|]. split; [|split; [auto|]].
    - unfold ff_augment. rewrite Ep. cbn [bind]. destruct l as [|a l']; [congruence|]. rewrite Ed. cbn [bind]. rewrite E. reflexivity.
    - intros w. rewrite N, (bpath_shift r t l d w Hb). reflexivity.
  Qed.

  Lemma loop_gen fuel : forall flow r trace, base flow r -> conserved arcs s t (fget flow) ->
    (exists flow' more, ff_loop fuel arcs s t flow r trace = (Ok flow', trace ++ more) /\
        dkeys flow' = dkeys arcs /\ conserved arcs s t (fget flow')) \/
    (exists more, ff_loop fuel arcs s t flow r trace = (Diverges, trace ++ more) /\ length more = fuel).
  Proof.
    induction fuel as [|fuel IH]; intros flow r trace B C; simpl.
    - right. exists []. rewrite app_nil_r. auto.
    - destruct (bfs_path_spec r s t Hst) as [[E _]|(p & l & E & Ep & Hb)]; rewrite E.
      + left. exists flow, []. rewrite app_nil_r. split; auto. split; auto. apply B.
      + destruct (augment_gen flow r p l B Ep Hb) as (d & flow' & r' & _ & _ & Ea & B' & N). rewrite Ea.
        destruct (IH flow' r' (trace ++ [l]) B') as [(f2 & more & E2 & K & C2)|(more & E2 & K)].
        * apply conserved_net. intros v H1 H2. rewrite N. rewrite conserved_net in C. rewrite C; auto.
          destruct (eqs s v); [congruence|]. destruct (eqs t v); [congruence|]. simpl. ring.
        * left. exists f2, (l :: more). rewrite <- app_assoc in E2. auto.
        * right. exists (l :: more). rewrite <- app_assoc in E2. simpl. auto.
  Qed.

  (** ** exact residuals, as long as no arc is traversed backwards *)
  Hypothesis Hw : one_way arcs.
  Hypothesis Hcap : forall a c, In (a, c) arcs -> (0 <= c)%Qc.

  Definition exact (flow : list (arc * Qc)) (r : rnet) : Prop :=
    base flow r /\ (forall u v, rval r u v = rexp arcs flow u v) /\ within_capacity arcs (fget flow).
  Definition forward (l : list (string * string)) : Prop := forall a, In a l -> In a (dkeys arcs).

  Lemma arc_cap a c : dget eqe a arcs = Some c <-> In (a, c) arcs.
  Proof. split; [apply (dget_In _ eqe_spec)|apply (In_dget _ eqe_spec), Hnd]. Qed.
  Lemma nz_cap f c : (f <= c)%Qc -> nz (c - f)%Qc = if qlt f c then Some (c - f)%Qc else None.
  Proof.
    intros H. unfold nz. destruct (qeq_spec (c - f) 0), (qlt_spec f c); auto; exfalso; [qclra|].
    assert (f = c) by qclra. subst. apply n. ring.
  Qed.
  Lemma nz_flow f : (0 <= f)%Qc -> nz f = if qlt 0 f then Some f else None.
  Proof.
    intros H. unfold nz. destruct (qeq_spec f 0), (qlt_spec 0 f); auto; exfalso; [qclra|].
    apply n. qclra.
  Qed.

  Lemma update_forward d l : (0 <= d)%Qc -> forall flow r flow' r', exact flow r -> NoDup l -> forward l ->
    (forall a c, In a l -> In (a, c) arcs -> (fget flow a + d <= c)%Qc) ->
    ff_update arcs l d flow r = Ok (flow', r') ->
    exact flow' r' /\ forall a, In a (dkeys arcs) -> fget flow' a = if existsb (eqe a) l then (fget flow a + d)%Qc else fget flow a.
  Proof.
    intros Hd. induction l as [|[u v] l IH]; intros flow r flow' r' X Nl Fl Hc E; simpl in E.
    - inversion E; subst. split; auto.
    - destruct X as (B & V & W). inversion Nl as [|? ? Hni Nl']; subst.
      assert (Huv : In (u, v) (dkeys arcs)) by (apply Fl; now left).
      destruct (step_gen u v d flow r B (Hloop u v Huv) (or_introl Huv)) as (a & x & c & r1 & E1 & E2 & B1 & Ha & Ec & Hx & V1 & V2 & V3).
      rewrite E1 in E. simpl in E. rewrite E2 in E. simpl in E.
      destruct Hx as [(-> & Hx)|(-> & Hn & _)]; [|contradiction].
      apply arc_cap in Ec. pose proof (Hc (u, v) c (or_introl eq_refl) Ec) as Hcx. rewrite <- Hx in Hcx.
      destruct (W _ _ Ec) as [W1 W2].
      assert (Hx0 : (0 <= x)%Qc) by (rewrite Hx; qclra).
      assert (W' : within_capacity arcs (fget (dset eqe (u, v) x flow))).
      { intros b cb Hb. rewrite fget_dset. destruct (eqe_spec b (u, v)) as [->|]; [|apply W; auto].
        apply arc_cap in Hb. apply arc_cap in Ec. rewrite Ec in Hb. inversion Hb; subst. auto. }
      assert (X1 : exact (dset eqe (u, v) x flow) r1).
      { split; [exact B1|]. split; [|exact W']. intros p q.
        assert (Hvu : dget eqe (v, u) arcs = None) by (apply (dget_None _ eqe_spec), Hw, Huv).
        pose proof Ec as Ec'. apply arc_cap in Ec'.
        destruct (eqe_spec (p, q) (u, v)) as [Q|Q1].
        - inversion Q; subst p q. rewrite V1. unfold rexp. rewrite Ec', fget_dset. destruct (eqe_spec (u, v) (u, v)); [|congruence].
          now apply nz_cap.
        - destruct (eqe_spec (p, q) (v, u)) as [Q|Q2].
          + inversion Q; subst p q. rewrite V2. unfold rexp. rewrite Hvu, Ec', fget_dset. destruct (eqe_spec (u, v) (u, v)); [|congruence].
            now apply nz_flow.
          + rewrite V3; auto. rewrite V. unfold rexp. rewrite !fget_dset.
            destruct (eqe_spec (p, q) (u, v)); [congruence|].
            destruct (eqe_spec (q, p) (u, v)); [congruence|]. reflexivity. }
      destruct (IH _ _ flow' r' X1 Nl') as [X' F']; auto.
      { intros b Hb. apply Fl. now right. }
      { intros b cb Hb Hbc. rewrite fget_dset. destruct (eqe_spec b (u, v)) as [->|]; [contradiction|]. apply Hc; auto. now right. }
      split; auto. intros b Hb. rewrite F' by auto. rewrite fget_dset. cbn [existsb].
      destruct (eqe_spec b (u, v)) as [->|Hbne]; simpl.
      + assert (existsb (eqe (u, v)) l = false) as ->; [|auto].
        apply not_true_is_false. intros Y. apply existsb_exists in Y. destruct Y as (z & Hz & Ez). destruct (eqe_spec (u, v) z); [|discriminate]. subst. contradiction.
      + reflexivity.
  Qed.

  (** a forward augmentation keeps the residual network exact and adds a positive amount *)
  Lemma augment_forward flow r p l : exact flow r -> path_arcs (2 + length p) p t = Ok l -> bpath r s t l -> forward l ->
    exists d flow' r', ff_augment arcs t p flow r = Ok (l, (flow', r')) /\ exact flow' r' /\ (0 < d)%Qc /\
      (forall w, net arcs (fget flow') w = (net arcs (fget flow) w + (ind (String.eqb s w) - ind (String.eqb t w)) * d)%Qc) /\
      (exists a c, In a l /\ In (a, c) arcs /\ d = (c - fget flow a)%Qc) /\
      (forall a, In a (dkeys arcs) -> fget flow' a = if existsb (eqe a) l then (fget flow a + d)%Qc else fget flow a).
  Proof.
    intros X Ep Hb Fl. destruct X as (B & V & W).
    destruct (augment_gen flow r p l B Ep Hb) as (d & flow' & r' & Em & Eu & Ea & B' & N).
    assert (Hl : l <> []). { intros ->. inversion Hb. congruence. }
    destruct (min_residual_spec r l None) as (x & Ex & M1 & _ & M2); [intros u v; apply (bpath_nodes r t l Hb)|auto|].
    rewrite Em in Ex. inversion Ex; subst x.
    assert (R : forall a, In a l -> exists c, In (a, c) arcs /\ rval r (fst a) (snd a) = Some (c - fget flow a)%Qc /\ (fget flow a < c)%Qc).
    { intros [u v] Ha. pose proof (Fl _ Ha) as K. apply (key_get _ eqe_spec) in K. destruct K as [c Ec].
      exists c. split; [now apply arc_cap|]. destruct (bpath_nodes r t l Hb u v Ha) as [_ He]. unfold edge_in in He. cbn [fst snd].
      rewrite V in *. unfold rexp in *. rewrite Ec in *. destruct (qlt_spec (fget flow (u, v)) c); [auto|congruence]. }
    destruct M2 as [(u & v & Hin & Huv)|]; [|discriminate].
    destruct (R _ Hin) as (c & Hc & Hr & Hlt). simpl in Hr. rewrite Huv in Hr. inversion Hr; subst d.
    assert (Hd : (0 < c - fget flow (u, v))%Qc) by qclra.
    destruct (update_forward (c - fget flow (u, v))%Qc l (Qclt_le_weak _ _ Hd) flow r flow' r') as [X' F']; auto.
    - split; [exact B|split; [exact V|exact W]].
    - eapply bpath_NoDup; eauto.
    - intros [p' q'] ca Ha Hca. destruct (R _ Ha) as (c' & Hc' & Hr' & _). apply arc_cap in Hca. apply arc_cap in Hc'.
      rewrite Hca in Hc'. inversion Hc'; subst c'. simpl in Hr'. pose proof (M1 _ _ _ Ha Hr'). qclra.
    - exists (c - fget flow (u, v))%Qc, flow', r'. split; [auto|]. split; [auto|]. split; [auto|]. split; [auto|]. split; [|auto].
      exists (u, v), c. auto.
  Qed.

  (** when the search fails, the flow is maximum *)
  Lemma exact_max flow r : exact flow r -> conserved arcs s t (fget flow) ->
    (exists S, In s S /\ ~ In t S /\ forall u v, In u S -> edge_in r u v -> In v S) ->
    exists inside, inside s = true /\ inside t = false /\ maximum_flow arcs s t (fget flow) /\
      net_value arcs s (fget flow) = cut_capacity arcs inside.
  Proof.
    intros (B & V & W) C (S & H1 & H2 & H3). exists (fun v => mem v S).
    assert (T1 : mem s S = true) by (destruct (mem_spec s S); auto).
    assert (T2 : mem t S = false) by (destruct (mem_spec t S); auto; contradiction).
    assert (F1 : forall u v c, In ((u, v), c) arcs -> mem u S = true -> mem v S = false -> fget flow (u, v) = c).
    { intros u v c Hc Hu Hv. destruct (W _ _ Hc) as [W1 W2].
      destruct (qlt_spec (fget flow (u, v)) c) as [L|L]; [|qclra].
      exfalso. assert (In v S). { apply (H3 u); [destruct (mem_spec u S); [auto|discriminate]|].
        unfold edge_in. rewrite V. unfold rexp. apply arc_cap in Hc. rewrite Hc.
        destruct (qlt_spec (fget flow (u, v)) c); [discriminate|contradiction]. }
      destruct (mem_spec v S); [discriminate|contradiction]. }
    assert (F2 : forall u v c, In ((u, v), c) arcs -> mem u S = false -> mem v S = true -> fget flow (u, v) = 0%Qc).
    { intros u v c Hc Hu Hv. destruct (W _ _ Hc) as [W1 W2].
      destruct (qlt_spec 0 (fget flow (u, v))) as [L|L]; [|qclra].
      exfalso. assert (In u S). { apply (H3 v); [destruct (mem_spec v S); [auto|discriminate]|].
        unfold edge_in. rewrite V. unfold rexp.
        assert (Huv : In (u, v) (dkeys arcs)) by (apply key_In; eauto).
        assert (dget eqe (v, u) arcs = None) as -> by (apply (dget_None _ eqe_spec), Hw, Huv).
        apply arc_cap in Hc. rewrite Hc.
        destruct (qlt_spec 0 (fget flow (u, v))); [discriminate|contradiction]. }
      destruct (mem_spec u S); [discriminate|contradiction]. }
    assert (Fl : is_flow arcs s t (fget flow)) by (split; auto).
    split; [auto|]. split; [auto|]. split.
    - apply (tight_cut_max arcs s t (fget flow) (fun v => mem v S)); auto.
    - apply (tight_cut arcs s t (fget flow) (fun v => mem v S)); auto.
  Qed.

  Lemma loop_forward fuel : forall flow r trace flow' trace', exact flow r -> conserved arcs s t (fget flow) ->
    ff_loop fuel arcs s t flow r trace = (Ok flow', trace') -> (forall l, In l trace' -> forward l) ->
    exists inside, inside s = true /\ inside t = false /\ maximum_flow arcs s t (fget flow') /\
      net_value arcs s (fget flow') = cut_capacity arcs inside.
  Proof.
    induction fuel as [|fuel IH]; intros flow r trace flow' trace' X C E F; simpl in E; [discriminate|].
    destruct (bfs_path_spec r s t Hst) as [[Eb HS]|(p & l & Eb & Ep & Hb)]; rewrite Eb in E.
    - inversion E; subst. eapply exact_max; eauto.
    - destruct (augment_gen flow r p l (proj1 X) Ep Hb) as (d & f1 & r1 & _ & _ & Ea & B' & N). rewrite Ea in E.
      assert (C1 : conserved arcs s t (fget f1)).
      { apply conserved_net. intros v H1 H2. rewrite N. rewrite conserved_net in C. rewrite C; auto.
        destruct (eqs s v); [congruence|]. destruct (eqs t v); [congruence|]. simpl. ring. }
      assert (Fl : forward l).
      { apply F. destruct (loop_gen fuel f1 r1 (trace ++ [l]) B' C1) as [(f2 & more & E2 & _)|(more & E2 & _)];
          rewrite E2 in E; inversion E; subst. rewrite <- app_assoc. apply in_or_app. simpl. auto. }
      destruct (augment_forward flow r p l X Ep Hb Fl) as (d' & f1' & r1' & Ea' & X1 & _).
      rewrite Ea in Ea'. inversion Ea'; subst f1' r1'. eapply IH; eauto.
  Qed.

  (** ** termination, as long as no arc is traversed backwards *)
  Lemma loop_terminates (D : Z) (HD : (0 < D)%Z) (Hint : forall a c, In (a, c) arcs -> isint (qz D * c)%Qc) (C : Qc)
     (HC : forall f, is_flow arcs s t f -> (net_value arcs s f <= C)%Qc) fuel :
    forall flow r trace, exact flow r -> conserved arcs s t (fget flow) ->
    (forall a, In a (dkeys arcs) -> isint (qz D * fget flow a)%Qc) ->
    (qz D * (C - net_value arcs s (fget flow)) < qz (Z.of_nat fuel))%Qc ->
    (exists flow', fst (ff_loop fuel arcs s t flow r trace) = Ok flow') \/
    (exists l a, In l (snd (ff_loop fuel arcs s t flow r trace)) /\ In a l /\ ~ In a (dkeys arcs)).
  Proof.
    induction fuel as [|fuel IH]; intros flow r trace X Cn I M.
    - exfalso. assert (is_flow arcs s t (fget flow)) as Fl by (split; [apply X|auto]). apply HC in Fl.
      change (qz (Z.of_nat 0)) with 0%Qc in M.
      assert (HD' : (0 < qz D)%Qc) by (rewrite <- qz_0; now apply qz_lt). qcnra.
    - simpl. destruct (bfs_path_spec r s t Hst) as [[Eb HS]|(p & l & Eb & Ep & Hb)]; rewrite Eb; [left; exists flow; reflexivity|].
      destruct (augment_gen flow r p l (proj1 X) Ep Hb) as (d & f1 & r1 & _ & _ & Ea & B' & N). rewrite Ea.
      assert (C1 : conserved arcs s t (fget f1)).
      { apply conserved_net. intros v H1 H2. rewrite N. rewrite conserved_net in Cn. rewrite Cn; auto.
        destruct (eqs s v); [congruence|]. destruct (eqs t v); [congruence|]. simpl. ring. }
      destruct (Forall_Exists_dec (fun a => In a (dkeys arcs)) (fun a => in_dec arc_dec a (dkeys arcs)) l) as [Fl|Fl].
      + rewrite Forall_forall in Fl.
        destruct (augment_forward flow r p l X Ep Hb Fl) as (d' & f1' & r1' & Ea' & X1 & Hd & N' & (a & c & Ha & Hc & Hdc) & F').
        rewrite Ea in Ea'. inversion Ea'; subst f1' r1'.
        assert (Id : isint (qz D * d')%Qc).
        { rewrite Hdc. replace (qz D * (c - fget flow a))%Qc with (qz D * c - qz D * fget flow a)%Qc by ring.
          apply isint_sub; [eauto|]. apply I. apply Fl; auto. }
        apply IH; auto.
        * intros b Hb'. rewrite F' by auto. destruct (existsb (eqe b) l); [|auto].
          replace (qz D * (fget flow b + d'))%Qc with (qz D * fget flow b + qz D * d')%Qc by ring. apply isint_add; auto.
        * assert (Ev : net_value arcs s (fget f1) = (net_value arcs s (fget flow) + d')%Qc).
          { specialize (N' s). unfold net in N'. unfold net_value. rewrite N', String.eqb_refl.
            destruct (eqs t s); [congruence|]. simpl. unfold ind. ring. }
          rewrite Ev.
          assert (HD' : (0 < qz D)%Qc) by (rewrite <- qz_0; now apply qz_lt).
          assert (1 <= qz D * d')%Qc. { apply isint_pos; auto. qcnra. }
          assert (Es : qz (Z.of_nat (S fuel)) = (qz (Z.of_nat fuel) + 1)%Qc).
          { rewrite Nat2Z.inj_succ. unfold Z.succ. now rewrite qz_add. }
          rewrite Es in M.
          replace (qz D * (C - (net_value arcs s (fget flow) + d')))%Qc with (qz D * (C - net_value arcs s (fget flow)) - qz D * d')%Qc by ring.
          qclra.
      + right. apply Exists_exists in Fl. destruct Fl as (a & Ha & Hna).
        destruct (loop_gen fuel f1 r1 (trace ++ [l]) B' C1) as [(f2 & more & E2 & _)|(more & E2 & _)]; rewrite E2;
          exists l, a; (split; [simpl; rewrite <- app_assoc; apply in_or_app; simpl; auto|auto]).
  Qed.
End FF.
