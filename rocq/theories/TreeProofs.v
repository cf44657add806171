(** [is_tree] and [is_cyclic] (C14-C15). *)
From Coq Require Import String List Bool Arith QArith Qcanon Lia Permutation.
From Verif Require Import Py QcTac UndirectedModel UndirectedSpec UndirectedProofs GraphSpec GraphTheory TraverseProofs.
Import ListNotations.
Open Scope nat_scope.
Open Scope string_scope.
Open Scope list_scope.

Lemma split_snoc (vis l1 l2 : list string) c u :
  vis ++ [c] = l1 ++ u :: l2 -> (l2 = [] /\ u = c /\ l1 = vis) \/ (exists l2', l2 = l2' ++ [c] /\ vis = l1 ++ u :: l2').
Proof.
  intros E. destruct (snoc_cases l2) as [->|(l2' & x & ->)].
  - left. apply app_inj_tail in E. destruct E; subst; auto.
  - right. exists l2'. change (l1 ++ u :: l2' ++ [x]) with (l1 ++ (u :: l2') ++ [x]) in E.
    rewrite app_assoc in E. apply app_inj_tail in E. destruct E; subst; auto.
Qed.

Lemma NoDup_app_intro {A} (l l' : list A) :
  NoDup l -> NoDup l' -> (forall x, In x l -> In x l' -> False) -> NoDup (l ++ l').
Proof.
  induction l as [|a l IH]; simpl; auto. intros H H' Hd. inversion H; subst.
  constructor.
  - rewrite in_app_iff. intros [Hi|Hi]; eauto.
  - apply IH; auto. intros x Hx. apply Hd; auto.
Qed.

Lemma NoDup_snd_inj (ps : list (string * string)) p1 p2 c :
  NoDup (map snd ps) -> In (p1, c) ps -> In (p2, c) ps -> p1 = p2.
Proof.
  induction ps as [|[a b] ps IH]; simpl; [tauto|]. intros Hnd H1 H2. inversion Hnd; subst.
  assert (Hb : forall p, In (p, b) ps -> False).
  { intros p Hp. apply H3. change b with (snd (p, b)). now apply in_map. }
  destruct H1 as [E1|H1], H2 as [E2|H2].
  - congruence.
  - inversion E1; subst. now apply Hb in H2.
  - inversion E2; subst. now apply Hb in H1.
  - eauto.
Qed.

(** a value repeated in [map snd ps] has two different partners *)
Lemma dup_snd (ps : list (string * string)) l1 c l2 :
  NoDup ps -> map snd ps = l1 ++ c :: l2 -> In c l1 -> exists p1 p2, p1 <> p2 /\ In (p1, c) ps /\ In (p2, c) ps.
Proof.
  intros Hnd E Hc. apply in_split in Hc. destruct Hc as (m1 & m2 & ->).
  rewrite <- app_assoc in E. simpl in E. apply map_eq_app in E.
  destruct E as (a1 & a2 & -> & E1 & E2). destruct a2 as [|[p1 c1] a2]; [discriminate|]. simpl in E2.
  inversion E2 as [[Ec E3]]; subst. apply map_eq_app in E3.
  destruct E3 as (a3 & a4 & -> & E3 & E4). destruct a4 as [|[p2 c2] a4]; [discriminate|].
  simpl in E4. inversion E4; subst.
  exists p1, p2. split; [|split].
  - intros ->. apply NoDup_remove_2 in Hnd. apply Hnd. apply in_app_iff. right. apply in_app_iff. right. now left.
  - apply in_app_iff. right. now left.
  - apply in_app_iff. right. right. apply in_app_iff. right. now left.
Qed.

(** the last of a nonempty set of positions *)
Lemma latest (L : list string) : forall vis, L <> [] -> incl L vis ->
  exists l1 c l2, vis = l1 ++ c :: l2 /\ In c L /\ forall x, In x L -> ~ In x l2.
Proof.
  induction vis as [|x vis IH] using rev_ind; intros Hne Hi.
  - destruct L; [congruence|]. destruct (Hi s). now left.
  - destruct (in_dec string_dec x L) as [Hx|Hx].
    + exists vis, x, []. repeat split; auto.
    + destruct IH as (l1 & c & l2 & -> & Hc & Hl); auto.
      * intros y Hy. specialize (Hi y Hy). apply in_app_iff in Hi. destruct Hi as [|[<-|[]]]; auto. tauto.
      * exists l1, c, (l2 ++ [x]). split; [now rewrite <- app_assoc|]. split; auto.
        intros y Hy. rewrite in_app_iff. intros [H|[<-|[]]]; [now apply (Hl y Hy)|tauto].
Qed.

Section Tree.
  Variable g : ugraph.
  Hypothesis I : inv g.
  Variable enum : oracle.
  Hypothesis enum_perm : forall k l, Permutation (enum k l) l.
  Variable start : string.
  Let adj := adjg (ug_graph g).
  Let V := dkeys (ug_vertices g).

  Record trinv (vis q : list string) (ps : list (string * string)) : Prop := {
    r_eq : start :: map snd ps = vis ++ q;
    r_nd : NoDup vis;
    r_ps : forall p c, In (p, c) ps -> adj p c /\ In p vis /\ forall l1 l2, vis = l1 ++ p :: l2 -> ~ In c (l1 ++ [p]);
    r_cl : forall l1 u l2 w, vis = l1 ++ u :: l2 -> adj u w -> In (u, w) ps \/ In w (l1 ++ [u]);
    r_ndps : NoDup ps;
    r_path : forall l1 u l2, vis = l1 ++ u :: l2 -> exists l, spath adj start l u /\ incl (start :: l) (l1 ++ [u]);
    r_V : incl (vis ++ q) V }.

  Lemma r_init : In start V -> trinv [] [start] [].
  Proof.
    intros Hs. constructor; simpl; auto; try (constructor; fail); try tauto.
    - intros l1 u l2 w E. destruct l1; discriminate.
    - intros l1 u l2 E. destruct l1; discriminate.
    - intros x [<-|[]]. exact Hs.
  Qed.

  Lemma r_head vis q ps : trinv vis q ps -> vis <> [] -> exists vis', vis = start :: vis'.
  Proof.
    intros T Hne. destruct vis as [|x vis]; [congruence|]. pose proof (r_eq _ _ _ T) as E.
    simpl in E. inversion E; subst. eauto.
  Qed.

  Lemma r_step vis c q ps s new :
    trinv vis (c :: q) ps -> ~ In c vis -> sget c (ug_graph g) = Some s ->
    Permutation new (filter (fun x => negb (mem x (vis ++ [c]))) s) ->
    trinv (vis ++ [c]) (q ++ new) (ps ++ map (pair c) new).
  Proof.
    intros T Hc Es Hp.
    assert (Hnew : forall w, In w new <-> adj c w /\ ~ In w (vis ++ [c])).
    { intros w. unfold adj, adjg. split.
      - intros H. eapply Permutation_in in H; [|exact Hp]. apply filter_In in H. destruct H as [H1 H2].
        split; [eauto|]. destruct (mem_spec w (vis ++ [c])); [discriminate|auto].
      - intros [(t & E & H1) H2]. rewrite Es in E. inversion E; subst.
        eapply Permutation_in; [apply Permutation_sym, Hp|]. apply filter_In. split; auto.
        destruct (mem_spec w (vis ++ [c])); [tauto|auto]. }
    assert (Hndnew : NoDup new).
    { eapply Permutation_NoDup; [apply Permutation_sym, Hp|]. apply NoDup_filter. eapply i_sets; eauto. }
    constructor.
    - rewrite map_app, map_map. simpl. rewrite map_id.
      rewrite app_comm_cons, (r_eq _ _ _ T). rewrite <- !app_assoc. reflexivity.
    - apply NoDup_snoc; auto. apply T.
    - intros p x H. apply in_app_iff in H. destruct H as [H|H].
      + destruct (r_ps _ _ _ T p x H) as (A & B & C). split; auto. split; [apply in_app_iff; auto|].
        intros l1 l2 E. apply split_snoc in E. destruct E as [(-> & -> & ->)|(l2' & -> & E)]; [tauto|eauto].
      + apply in_map_iff in H. destruct H as (w & E & Hw). inversion E; subst. apply Hnew in Hw.
        destruct Hw as [A B]. split; auto. split; [apply in_app_iff; right; now left|].
        intros l1 l2 E2. apply split_snoc in E2. destruct E2 as [(-> & _ & ->)|(l2' & -> & E2)]; auto.
        exfalso. apply Hc. rewrite E2. apply in_app_iff. right. now left.
    - intros l1 u l2 w E Hw. apply split_snoc in E. destruct E as [(-> & -> & ->)|(l2' & -> & E)].
      + destruct (in_dec string_dec w (vis ++ [c])) as [Hi|Hi]; auto.
        left. apply in_app_iff. right. apply in_map. now apply Hnew.
      + destruct (r_cl _ _ _ T l1 u l2' w E Hw); auto. left. apply in_app_iff. auto.
    - apply NoDup_app_intro.
      + apply T.
      + apply FinFun.Injective_map_NoDup; auto. intros a b E. now inversion E.
      + intros [p x] H1 H2. apply in_map_iff in H2. destruct H2 as (w & E & _). inversion E; subst.
        now apply (r_ps _ _ _ T) in H1.
    - intros l1 u l2 E. apply split_snoc in E. destruct E as [(-> & -> & ->)|(l2' & -> & E)].
      2:{ eapply (r_path _ _ _ T); eauto. }
      destruct (list_eq_dec string_dec vis []) as [->|Hne].
      + pose proof (r_eq _ _ _ T) as E. simpl in E. inversion E; subst. exists [].
        split; [constructor|apply incl_refl].
      + destruct (r_head _ _ _ T Hne) as [vis' Ev].
        assert (Hcin : In c (start :: map snd ps)).
        { rewrite (r_eq _ _ _ T). apply in_app_iff. right. now left. }
        destruct Hcin as [<-|Hcin]; [exfalso; apply Hc; rewrite Ev; now left|].
        apply in_map_iff in Hcin. destruct Hcin as ([p c'] & E & Hpc). simpl in E. subst c'.
        destruct (r_ps _ _ _ T p c Hpc) as (A & B & _). apply in_split in B. destruct B as (m1 & m2 & Em).
        destruct (r_path _ _ _ T m1 p m2 Em) as (l & Hl & Hi).
        exists (l ++ [c]). split.
        * eapply spath_app; [exact Hl|]. constructor; [exact A|constructor].
        * intros z [<-|Hz].
          -- apply in_app_iff. left. rewrite Ev. now left.
          -- apply in_app_iff in Hz. apply in_app_iff. destruct Hz as [Hz|Hz]; auto. left.
             specialize (Hi z (or_intror Hz)). rewrite Em. apply in_app_iff in Hi. apply in_app_iff.
             destruct Hi as [|[<-|[]]]; auto. right. now left.
    - intros z Hz. rewrite <- app_assoc in Hz. simpl in Hz. apply in_app_iff in Hz.
      destruct Hz as [Hz|[Hz|Hz]].
      + apply (r_V _ _ _ T). apply in_app_iff; auto.
      + apply (r_V _ _ _ T). apply in_app_iff. right. now left.
      + apply in_app_iff in Hz. destruct Hz as [Hz|Hz].
        * apply (r_V _ _ _ T). apply in_app_iff. right. now right.
        * apply Hnew in Hz. apply (i_dom _ I). eapply adj_key; eauto. apply Hz.
  Qed.

  Lemma r_sym : forall u v, adj u v -> adj v u. Proof. apply I. Qed.

  (** popping a visited vertex exhibits a cycle *)
  Lemma r_false vis c q ps : trinv vis (c :: q) ps -> In c vis -> ~ acyclic adj.
  Proof.
    intros T Hc Hac.
    assert (Hne : vis <> []) by (intros ->; destruct Hc).
    destruct (r_head _ _ _ T Hne) as [vis' Ev].
    pose proof (r_eq _ _ _ T) as E. rewrite Ev in E. simpl in E. inversion E as [E'].
    assert (Hcs : c <> start).
    { intros ->. assert (Hin : In start (map snd ps)) by (rewrite E'; apply in_app_iff; right; now left).
      apply in_map_iff in Hin. destruct Hin as ([p c'] & Ec & Hp). simpl in Ec; subst c'.
      destruct (r_ps _ _ _ T p start Hp) as (_ & B & C). apply in_split in B. destruct B as (m1 & m2 & Em).
      apply (C m1 m2 Em). rewrite Ev in Em. destruct m1; simpl in Em; inversion Em; now left. }
    assert (Hc' : In c vis') by (rewrite Ev in Hc; destruct Hc; [congruence|auto]).
    destruct (dup_snd ps vis' c q (r_ndps _ _ _ T) E' Hc') as (p1 & p2 & Hpp & H1 & H2).
    destruct (r_ps _ _ _ T p1 c H1) as (A1 & B1 & C1). destruct (r_ps _ _ _ T p2 c H2) as (A2 & B2 & C2).
    apply in_split in B1. destruct B1 as (m1 & m2 & Em). apply in_split in B2. destruct B2 as (n1 & n2 & En).
    destruct (r_path _ _ _ T m1 p1 m2 Em) as (l1 & Hl1 & Hi1).
    destruct (r_path _ _ _ T n1 p2 n2 En) as (l2 & Hl2 & Hi2).
    destruct (spath_rev adj r_sym _ _ _ Hl1) as (l1' & Hl1' & Hi1').
    pose proof (spath_app adj _ _ _ _ _ Hl1' Hl2) as Hpath.
    destruct (cycle_through adj c p1 p2 (l1' ++ l2)) as [l' Hl']; auto.
    - now apply r_sym.
    - intros Hx. simpl in Hx. rewrite in_app_iff in Hx.
      assert (Hx' : In c (p1 :: l1') \/ In c l2) by (simpl; tauto).
      destruct Hx' as [Hx'|Hx'].
      + apply Hi1', Hi1 in Hx'. now apply (C1 m1 m2 Em).
      + apply (C2 n1 n2 En). apply Hi2. now right.
    - now apply (Hac c l').
  Qed.

  (** an exhausted queue: the visited vertices form a tree component *)
  Lemma r_done vis ps : trinv vis [] ps -> vis <> [] ->
    (length vis = length V <-> connected adj V /\ acyclic adj).
  Proof.
    intros T Hne. destruct (r_head _ _ _ T Hne) as [vis' Ev].
    pose proof (r_eq _ _ _ T) as E. rewrite app_nil_r in E.
    assert (HV : incl vis V) by (pose proof (r_V _ _ _ T) as H; now rewrite app_nil_r in H).
    assert (HndV : NoDup V) by apply I.
    assert (Hreach : forall u, In u vis -> reachable adj start u).
    { intros u Hu. apply in_split in Hu. destruct Hu as (l1 & l2 & El).
      destruct (r_path _ _ _ T l1 u l2 El) as (l & Hl & _). clear - Hl.
      induction Hl as [a|a b l v Hab Hp IH]; [apply reach_refl|].
      destruct IH as [n W]. exists (S n). eapply walk_cons; eauto. }
    assert (Hclosed : forall u w, In u vis -> adj u w -> In w vis).
    { intros u w Hu Hw. apply in_split in Hu. destruct Hu as (l1 & l2 & El).
      destruct (r_cl _ _ _ T l1 u l2 w El Hw) as [H|H].
      - rewrite <- E. right. change w with (snd (u, w)). now apply in_map.
      - rewrite El. apply in_app_iff in H. apply in_app_iff. destruct H as [|[<-|[]]]; auto. right. now left. }
    split.
    - intros Hlen.
      assert (Hall : incl V vis) by (apply NoDup_length_incl; [apply T|lia|auto]).
      split.
      + intros u v Hu Hv. eapply reach_trans; [apply reach_sym; [apply r_sym|]|]; apply Hreach, Hall; eauto.
      + intros a l Hcyc.
        assert (Hin : incl (a :: l) vis).
        { intros x Hx. apply Hall. destruct (cycle_two adj r_sym a l x Hcyc Hx) as (u1 & u2 & _ & _ & _ & _ & _ & H & _).
          apply (i_dom _ I). eapply adj_key; eauto. }
        destruct (latest (a :: l) vis) as (l1 & c & l2 & El & Hc & Hlast); auto; [discriminate|].
        destruct (cycle_two adj r_sym a l c Hcyc Hc) as (u1 & u2 & Huu & Hu1c & Hu2c & Hu1 & Hu2 & H1 & H2).
        assert (Hpush : forall u, In u (a :: l) -> u <> c -> adj u c -> In (u, c) ps).
        { intros u Hu Huc Hadj.
          assert (Hul1 : In u l1).
          { specialize (Hin u Hu). rewrite El in Hin. apply in_app_iff in Hin.
            destruct Hin as [|[->|Hx]]; [auto|congruence|]. now apply Hlast in Hx. }
          apply in_split in Hul1. destruct Hul1 as (k1 & k2 & ->).
          rewrite <- app_assoc in El. simpl in El.
          destruct (r_cl _ _ _ T k1 u (k2 ++ c :: l2) c El Hadj) as [|Hx]; auto.
          exfalso. pose proof (r_nd _ _ _ T) as Hnd. rewrite El in Hnd.
          assert (Hx' : In c k1 \/ u = c) by (apply in_app_iff in Hx; destruct Hx as [|[|[]]]; auto).
          destruct Hx' as [Hx'|]; [|congruence].
          apply in_split in Hx'. destruct Hx' as (j1 & j2 & ->).
          rewrite <- app_assoc in Hnd. simpl in Hnd. apply NoDup_remove_2 in Hnd. apply Hnd.
          apply in_app_iff. right. apply in_app_iff. right. right. apply in_app_iff. right. now left. }
        pose proof (r_nd _ _ _ T) as Hnd. rewrite <- E in Hnd. inversion Hnd as [|? ? _ Hnd2]; subst.
        apply Huu. eapply NoDup_snd_inj; eauto.
    - intros [Hcon _]. apply Nat.le_antisymm.
      + apply NoDup_incl_length; [apply T|exact HV].
      + apply NoDup_incl_length; auto. intros v Hv.
        assert (Hs : In start vis) by (rewrite Ev; now left).
        destruct (Hcon start v) as [n W]; auto.
        clear - W Hs Hclosed. induction W as [v|n u v w W IH H]; auto. eapply Hclosed; [apply IH|]; eauto.
  Qed.

  Lemma tree_loop_spec fuel : forall k vis q ps, trinv vis q ps -> (vis <> [] \/ q <> []) ->
    length V + 2 <= fuel + length vis ->
    exists b, tree_loop fuel enum k g q vis = Ok b /\ (b = true <-> connected adj V /\ acyclic adj).
  Proof.
    induction fuel as [|fuel IH]; intros k vis q ps T Hne Hf.
    - exfalso. assert (length vis <= length V).
      { apply NoDup_incl_length; [apply T|]. intros x Hx. apply (r_V _ _ _ T). apply in_app_iff; auto. }
      lia.
    - simpl. destruct q as [|c q].
      + assert (Hvis : vis <> []) by (destruct Hne; congruence).
        eexists. split; [reflexivity|]. rewrite Nat.eqb_eq.
        rewrite <- (r_done vis ps T Hvis). unfold V, dkeys. now rewrite map_length.
      + destruct (mem_spec c vis) as [Hc|Hc].
        * exists false. split; auto. split; [discriminate|]. intros [_ Hac]. exfalso.
          eapply r_false; eauto.
        * assert (Hk : In c (dkeys (ug_graph g))).
          { apply (i_dom _ I). apply (r_V _ _ _ T). apply in_app_iff. right. now left. }
          destruct (key_get _ eqs _ _ Hk) as [s Es]. rewrite Es.
          eapply IH.
          -- eapply r_step; eauto.
          -- left. destruct vis; discriminate.
          -- rewrite app_length. simpl. lia.
  Qed.
End Tree.

Lemma is_tree_spec g enum : inv g -> (forall k l, Permutation (enum k l) l) ->
  exists b, is_tree enum g = Ok b /\
    (b = true <-> dkeys (ug_vertices g) <> [] /\
       connected (adjg (ug_graph g)) (dkeys (ug_vertices g)) /\ acyclic (adjg (ug_graph g))).
Proof.
  intros I He. unfold is_tree. destruct (ug_vertices g) as [|[r w] vs] eqn:Ev.
  - exists false. split; auto. simpl. intuition discriminate.
  - rewrite <- Ev. assert (Hr : In r (dkeys (ug_vertices g))) by (rewrite Ev; now left).
    destruct (tree_loop_spec g I enum He r (2 + length (ug_vertices g)) 0 [] [r] []) as (b & Hb & Hiff).
    + now apply r_init.
    + right. discriminate.
    + unfold dkeys. rewrite map_length. simpl. lia.
    + exists b. split; auto. rewrite Hiff. rewrite Ev. simpl dkeys. intuition discriminate.
Qed.

(** is_cyclic *)
Section Cyclic.
  Variable g : ugraph.
  Hypothesis I : inv g.
  Variable enum : oracle.
  Hypothesis enum_perm : forall k l, Permutation (enum k l) l.
  Let adj := adjg (ug_graph g).
  Let V := dkeys (ug_vertices g).

  Lemma no_loop u : ~ adj u u.
  Proof.
    intros H. apply (i_rec _ I) in H. unfold sorted2 in H. simpl in H. rewrite compare_refl in H.
    apply (i_edge _ I) in H. rewrite compare_refl in H. intuition discriminate.
  Qed.

  Lemma inner_dup fuel : forall k vis q x, In x q -> In x vis -> NoDup vis -> incl (vis ++ q) V ->
    length V + 2 <= fuel + length vis ->
    exists k' vis', cyclic_inner fuel enum k g q vis = Ok (true, k', vis').
  Proof.
    induction fuel as [|fuel IH]; intros k vis q x Hq Hv Hnd Hi Hf.
    - exfalso. assert (length vis <= length V).
      { apply NoDup_incl_length; auto. intros y Hy. apply Hi. apply in_app_iff; auto. }
      lia.
    - simpl. destruct q as [|c q]; [destruct Hq|]. destruct (mem_spec c vis) as [Hc|Hc]; eauto.
      assert (Hk : In c (dkeys (ug_graph g))).
      { apply (i_dom _ I). apply Hi. apply in_app_iff. right. now left. }
      destruct (key_get _ eqs _ _ Hk) as [s Es]. rewrite Es.
      apply IH with (x := x).
      + apply in_app_iff. left. destruct Hq; [congruence|auto].
      + apply in_app_iff; auto.
      + now apply NoDup_snoc.
      + intros z Hz. rewrite <- app_assoc in Hz. apply in_app_iff in Hz. simpl in Hz.
        rewrite in_app_iff in Hz. destruct Hz as [Hz|[Hz|[Hz|Hz]]].
        * apply Hi, in_app_iff; auto.
        * apply Hi, in_app_iff. right. now left.
        * apply Hi, in_app_iff. right. now right.
        * apply (i_dom _ I). apply (adj_key g I c). exists s. split; auto. eapply Permutation_in; eauto.
      + rewrite app_length. simpl. lia.
  Qed.

  Lemma inner_spec k v : In v V ->
    exists k' vis', cyclic_inner (2 + length (ug_vertices g)) enum k g [v] [] = 
      Ok (if match sget v (ug_graph g) with Some (_ :: _) => true | _ => false end then true else false, k', vis')
      /\ (match sget v (ug_graph g) with Some (_ :: _) => True | _ => vis' = [v] end).
  Proof.
    intros Hv. assert (Hk : In v (dkeys (ug_graph g))) by now apply (i_dom _ I).
    destruct (key_get _ eqs _ _ Hk) as [s Es]. rewrite Es.
    change (2 + length (ug_vertices g)) with (S (S (length (ug_vertices g)))).
    cbn [cyclic_inner mem existsb app]. rewrite Es.
    destruct s as [|w0 s].
    - assert (E : enum k [] = []).
      { apply Permutation_nil. apply Permutation_sym, enum_perm. }
      rewrite E. cbn. eauto.
    - destruct (enum k (w0 :: s)) as [|w q] eqn:Ee.
      { pose proof (enum_perm k (w0 :: s)) as H. rewrite Ee in H. apply Permutation_nil_cons in H. tauto. }
      assert (Hw : forall z, In z (w :: q) -> adj v z).
      { intros z Hz. exists (w0 :: s). split; auto. eapply Permutation_in; [apply (enum_perm k)|]. now rewrite Ee. }
      assert (Hvw : adj v w) by (apply Hw; now left).
      cbn [app].
      destruct (eqs w v) as [Hx|Hx].
      { exfalso. subst w. now apply (no_loop v). }
      cbn [orb].
      assert (Hkw : In w (dkeys (ug_graph g))) by (eapply adj_key; eauto).
      destruct (key_get _ eqs _ _ Hkw) as [t Et]. rewrite Et.
      assert (Hback : In v (enum (S k) t)).
      { apply (i_sym _ I) in Hvw. destruct Hvw as (t' & Et' & Hin). rewrite Et in Et'. inversion Et'; subst.
        eapply Permutation_in; [apply Permutation_sym, enum_perm|auto]. }
      destruct (inner_dup (length (ug_vertices g)) (S (S k)) [v; w] (q ++ enum (S k) t) v) as (k' & vis' & ->).
      + apply in_app_iff. auto.
      + now left.
      + constructor; [|constructor; auto using NoDup_nil]. simpl. intuition.
      + intros z Hz. cbn [app] in Hz. destruct Hz as [<-|[<-|Hz]]; [exact Hv|now apply (i_dom _ I)|].
        apply in_app_iff in Hz. apply (i_dom _ I). destruct Hz as [Hz|Hz].
        * eapply adj_key; [exact I|]. apply Hw. now right.
        * apply (adj_key g I w). exists t. split; auto. eapply Permutation_in; eauto.
      + unfold V, dkeys. rewrite map_length. simpl. lia.
      + eauto.
  Qed.

  Lemma outer_spec fuel : forall k un, incl un V -> length un < fuel ->
    exists b, cyclic_outer fuel enum k g un = Ok b /\
      (b = true <-> exists u w, In u un /\ adj u w).
  Proof.
    induction fuel as [|fuel IH]; intros k un Hi Hf; [lia|]. cbn [cyclic_outer].
    pose proof (enum_perm k un) as Hp. destruct (enum k un) as [|v rest] eqn:Ee.
    - apply Permutation_nil in Hp. subst. exists false. split; auto. split; [discriminate|].
      intros (u & w & [] & _).
    - assert (Hv : In v un) by (eapply Permutation_in; [exact Hp|now left]).
      destruct (inner_spec (S k) v (Hi v Hv)) as (k' & vis' & -> & Hvis).
      destruct (sget v (ug_graph g)) as [[|w0 s]|] eqn:Es; cbn [bind].
      + subst vis'. destruct (IH k' (filter (fun x => negb (mem x [v])) un)) as (b & -> & Hb).
        * intros x Hx. apply filter_In in Hx. now apply Hi.
        * assert (Hlt : length (filter (fun x => negb (mem x [v])) un) < length un).
          { clear - Hv. induction un as [|y un IH]; [destruct Hv|]. simpl.
            destruct (eqs y v) as [->|Hne]; simpl.
            - apply Nat.lt_succ_r. clear. induction un as [|z un IH]; simpl; auto. destruct (negb _); simpl; lia.
            - destruct Hv as [|Hv]; [congruence|]. specialize (IH Hv).
              simpl in IH. lia. }
          lia.
        * exists b. split; auto. rewrite Hb. split; intros (u & w & Hu & Hw).
          -- apply filter_In in Hu. exists u, w. tauto.
          -- exists u, w. split; auto. apply filter_In. split; auto.
             simpl. destruct (eqs u v) as [->|]; auto. destruct Hw as (s & E & Hin).
             rewrite Es in E. inversion E; subst. destruct Hin.
      + exists true. split; auto. split; auto. intros _. exists v, w0. split; auto.
        exists (w0 :: s). split; auto. now left.
      + exfalso. assert (Hk : In v (dkeys (ug_graph g))) by (apply (i_dom _ I); auto).
        destruct (key_get _ eqs _ _ Hk) as [s' Es']. congruence.
  Qed.

  Lemma is_cyclic_spec : exists b, is_cyclic enum g = Ok b /\ (b = true <-> exists u w, adj u w).
  Proof.
    unfold is_cyclic. destruct (outer_spec (1 + length (ug_vertices g)) 0 V) as (b & Hb & Hiff).
    - apply incl_refl.
    - unfold V, dkeys. rewrite map_length. lia.
    - exists b. split; auto. rewrite Hiff. split; intros (u & w & H).
      + exists u, w. apply H.
      + exists u, w. split; auto. apply (i_dom _ I). destruct H as (s & E & _). eapply get_key; eauto using eqs.
  Qed.
End Cyclic.
