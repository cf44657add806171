(** Traversal, connectivity, treeness, cyclicity (C12-C15). *)
From Coq Require Import String List Bool Arith QArith Qcanon Lia Permutation Sorted.
From Verif Require Import Py QcTac UndirectedModel UndirectedSpec UndirectedProofs GraphSpec GraphTheory.
Import ListNotations.
Open Scope nat_scope.
Open Scope string_scope.
Open Scope list_scope.

(** lexical sort is a permutation *)
Lemma insert_perm x l : Permutation (insert x l) (x :: l).
Proof.
  induction l as [|y l IH]; simpl; auto. destruct (String.leb x y); auto.
  rewrite IH. apply perm_swap.
Qed.
Lemma sorted_perm l : Permutation (sorted l) l.
Proof. induction l as [|x l IH]; simpl; auto. rewrite insert_perm. now constructor. Qed.

Section Sum.
  Definition pend (visited : list string) (d : list (string * list string)) : nat :=
    list_sum (map (fun p => if mem (fst p) visited then 0 else length (snd p)) d).

  Lemma mem_app x l1 l2 : mem x (l1 ++ l2) = mem x l1 || mem x l2.
  Proof. unfold mem. apply existsb_app. Qed.

  Lemma pend_notin c visited d : ~ In c (dkeys d) -> pend (visited ++ [c]) d = pend visited d.
  Proof.
    unfold pend. intros H. f_equal. apply map_ext_in. intros [k s] Hi. simpl.
    rewrite mem_app. simpl. destruct (eqs k c) as [->|]; simpl; [|now rewrite orb_false_r].
    exfalso. apply H. apply key_In. eauto.
  Qed.
  Lemma pend_visit c s visited d : NoDup (dkeys d) -> sget c d = Some s -> ~ In c visited ->
    pend visited d = pend (visited ++ [c]) d + length s.
  Proof.
    intros Hnd E Hc. induction d as [|[k t] d IH]; [discriminate|].
    simpl in *. inversion Hnd; subst. destruct (eqs c k) as [->|Hne].
    - inversion E; subst. change (pend visited ((k, s) :: d)) with ((if mem k visited then 0 else length s) + pend visited d).
      change (pend (visited ++ [k]) ((k, s) :: d)) with ((if mem k (visited ++ [k]) then 0 else length s) + pend (visited ++ [k]) d).
      rewrite pend_notin by auto. rewrite mem_app. simpl. rewrite String.eqb_refl, orb_true_r.
      destruct (mem_spec k visited); [tauto|]. lia.
    - change (pend visited ((k, t) :: d)) with ((if mem k visited then 0 else length t) + pend visited d).
      change (pend (visited ++ [c]) ((k, t) :: d)) with ((if mem k (visited ++ [c]) then 0 else length t) + pend (visited ++ [c]) d).
      rewrite (IH H2 E). rewrite mem_app. simpl. destruct (eqs k c); [congruence|]. rewrite orb_false_r. lia.
  Qed.
End Sum.

Section Traverse.
  Variable g : ugraph.
  Hypothesis I : inv g.
  Variable srt : list string -> list string.
  Hypothesis srt_perm : forall l, Permutation (srt l) l.
  Variable start : string.
  Let adj := adjg (ug_graph g).

  Definition lvls (l : list (string * nat)) := map snd l.
  Definition nms (l : list (string * nat)) := map fst l.

  Record tinv (av aq : list (string * nat)) : Prop := {
    t_vis : forall u l, In (u, l) av -> distance adj start u l;
    t_nd : NoDup (nms av);
    t_q : forall u l, In (u, l) aq -> walk adj l start u;
    t_srt : StronglySorted le (lvls (av ++ aq));
    t_bnd : forall u l u' l', In (u, l) aq -> In (u', l') aq -> l <= S l';
    t_cl : forall u l w, In (u, l) av -> adj u w -> In w (nms av) \/ exists l', l' <= S l /\ In (w, l') aq;
    t_start : hd_error (av ++ aq) = Some (start, 0);
    t_startin : In (start, 0) (av ++ aq) }.

  Lemma t_lower av aq : tinv av aq -> forall m v, walk adj m start v ->
    (exists l, In (v, l) av) \/ exists x l, l <= m /\ In (x, l) aq.
  Proof.
    intros T m v W. remember start as st eqn:Est in W. induction W as [v|m u v w W IH Hvw]; subst.
    - destruct (proj1 (in_app_iff _ _ _) (t_startin _ _ T)) as [H|H]; eauto.
    - destruct (IH eq_refl) as [[l Hl]|(x & l & Hle & Hx)].
      + destruct (t_cl _ _ T v l w Hl Hvw) as [Hw|(l' & Hle & Hw)].
        * left. unfold nms in Hw. apply in_map_iff in Hw. destruct Hw as ([w' l'] & <- & Hw). eauto.
        * right. exists w, l'. split; auto. destruct (t_vis _ _ T _ _ Hl) as [_ Hmin].
          specialize (Hmin _ W). lia.
      + right. exists x, l. split; [lia|auto].
  Qed.

  Lemma sorted_app_inv (l1 l2 : list nat) : StronglySorted le (l1 ++ l2) ->
    StronglySorted le l1 /\ StronglySorted le l2 /\ (forall x y, In x l1 -> In y l2 -> x <= y).
  Proof.
    induction l1 as [|a l1 IH]; simpl; intros H.
    - repeat split; auto. constructor. intros ? ? [].
    - inversion H; subst. destruct (IH H2) as (A & B & C). rewrite Forall_forall in H3.
      repeat split; auto.
      + constructor; auto. apply Forall_forall. intros x Hx. apply H3. apply in_app_iff; auto.
      + intros x y [<-|Hx] Hy; auto. apply H3. apply in_app_iff; auto.
  Qed.
  Lemma sorted_app_intro (l1 l2 : list nat) :
    StronglySorted le l1 -> StronglySorted le l2 -> (forall x y, In x l1 -> In y l2 -> x <= y) ->
    StronglySorted le (l1 ++ l2).
  Proof.
    induction l1 as [|a l1 IH]; simpl; intros H1 H2 H3; auto.
    inversion H1; subst. constructor.
    - apply IH; auto.
    - apply Forall_forall. intros x Hx. apply in_app_iff in Hx. rewrite Forall_forall in H5.
      destruct Hx; auto.
  Qed.
  Lemma sorted_const (l : list string) k : StronglySorted le (lvls (map (fun w => (w, k)) l)).
  Proof.
    induction l as [|a l IH]; simpl; constructor; auto. apply Forall_forall. intros x Hx.
    unfold lvls in Hx. rewrite map_map in Hx. apply in_map_iff in Hx. destruct Hx as (y & <- & _). auto.
  Qed.

  Lemma tinv_skip av v l aq : tinv av ((v, l) :: aq) -> In v (nms av) -> tinv av aq.
  Proof.
    intros T Hv. 
    assert (Hne : av <> []) by (intros ->; destruct Hv).
    constructor.
    - apply T.
    - apply T.
    - intros u k H. apply (t_q _ _ T). now right.
    - pose proof (t_srt _ _ T) as H. unfold lvls in *. rewrite map_app in *. simpl in H.
      apply sorted_app_inv in H. destruct H as (A & B & C). inversion B; subst.
      apply sorted_app_intro; auto. intros x y Hx Hy. apply C; auto. now right.
    - intros u k u' k' H H'. eapply (t_bnd _ _ T); right; eauto.
    - intros u k w Hu Hw. destruct (t_cl _ _ T u k w Hu Hw) as [|(l' & Hl & [E|Hi])]; eauto.
      inversion E; subst. auto.
    - pose proof (t_start _ _ T) as H. destruct av; [congruence|]. exact H.
    - pose proof (t_start _ _ T) as H. destruct av; [congruence|]. simpl in H. inversion H; subst. now left.
  Qed.

  Lemma tinv_visit av v l aq s : tinv av ((v, l) :: aq) -> ~ In v (nms av) ->
    sget v (ug_graph g) = Some s ->
    tinv (av ++ [(v, l)]) (aq ++ map (fun w => (w, S l)) (srt s)).
  Proof.
    intros T Hv Es.
    assert (Hin : forall w, In w (srt s) <-> adj v w).
    { intros w. unfold adj, adjg. rewrite Es. split.
      - intros H. exists s. split; auto. eapply Permutation_in; eauto.
      - intros (t & E & H). inversion E; subst. eapply Permutation_in; [apply Permutation_sym, srt_perm|auto]. }
    assert (Hnew : forall u k, In (u, k) (map (fun w => (w, S l)) (srt s)) <-> k = S l /\ adj v u).
    { intros u k. rewrite in_map_iff. split.
      - intros (w & E & H). inversion E; subst. split; auto. now apply Hin.
      - intros [-> H]. exists u. split; auto. now apply Hin. }
    assert (Hge : forall u k, In (u, k) aq -> l <= k).
    { pose proof (t_srt _ _ T) as H. unfold lvls in H. rewrite map_app in H. apply sorted_app_inv in H.
      destruct H as (_ & H & _). inversion H; subst. rewrite Forall_forall in H3.
      intros u k Hu. apply H3. change k with (snd (u, k)). now apply in_map. }
    assert (Hle : forall u k, In (u, k) aq -> k <= S l).
    { intros u k Hu. eapply (t_bnd _ _ T); [right; eauto|left; eauto]. }
    assert (Wv : walk adj l start v) by (apply (t_q _ _ T); now left).
    assert (Dv : distance adj start v l).
    { split; auto. intros m W. destruct (t_lower _ _ T m v W) as [[k Hk]|(x & k & Hk & [E|Hx])].
      - exfalso. apply Hv. unfold nms. change v with (fst (v, k)). now apply in_map.
      - inversion E; subst. auto.
      - apply Hge in Hx. lia. }
    constructor.
    - intros u k. rewrite in_app_iff. intros [H|[E|[]]]; [now apply (t_vis _ _ T)|]. now inversion E; subst.
    - unfold nms in *. rewrite map_app. simpl. apply NoDup_snoc; auto. apply (t_nd _ _ T).
    - intros u k. rewrite in_app_iff, Hnew. intros [H|[-> H]].
      + apply (t_q _ _ T). now right.
      + econstructor; eauto.
    - pose proof (t_srt _ _ T) as H. 
      unfold lvls in *. rewrite <- app_assoc. simpl app. rewrite map_app in *. simpl in *.
      rewrite map_app. change (snd (v, l)) with l in *.
      rewrite (app_comm_cons (map snd aq) _ l). rewrite app_assoc. apply sorted_app_intro; auto.
      + apply sorted_const.
      + intros x y Hx Hy.
        assert (y = S l) as ->.
        { rewrite map_map in Hy. apply in_map_iff in Hy. destruct Hy as (? & <- & _). auto. }
        apply sorted_app_inv in H. destruct H as (_ & _ & C).
        apply in_app_iff in Hx. destruct Hx as [Hx|[<-|Hx]].
        * specialize (C x l Hx (or_introl eq_refl)). lia.
        * lia.
        * apply in_map_iff in Hx. destruct Hx as ([u k] & <- & Hu). simpl. eauto.
    - intros u k u' k'. rewrite !in_app_iff, !Hnew.
      intros [H|[-> H]] [H'|[-> H']]; try lia.
      + apply Hle in H. apply Hge in H'. lia.
      + apply Hle in H. lia.
      + apply Hge in H'. lia.
    - intros u k w. rewrite in_app_iff. intros [H|[E|[]]] Hw.
      + destruct (t_cl _ _ T u k w H Hw) as [Hi|(l' & Hl' & [E|Hi])].
        * left. unfold nms in *. rewrite map_app, in_app_iff. auto.
        * inversion E; subst. left. unfold nms. rewrite map_app, in_app_iff. right. now left.
        * right. exists l'. rewrite in_app_iff. auto.
      + inversion E; subst. right. exists (S k). split; auto. rewrite in_app_iff, Hnew. auto.
    - rewrite <- app_assoc. pose proof (t_start _ _ T) as H. destruct av; simpl in *; auto.
    - rewrite <- app_assoc. pose proof (t_startin _ _ T) as H. rewrite in_app_iff in *. simpl in *.
      rewrite in_app_iff. tauto.
  Qed.

  Lemma adj_key u v : adj u v -> In v (dkeys (ug_graph g)).
  Proof. intros H. apply (i_sym _ I) in H. destruct H as (s & E & _). eapply get_key; eauto using eqs. Qed.

  Lemma loop_spec fuel : forall av aq, tinv av aq ->
    (forall u l, In (u, l) aq -> In u (dkeys (ug_graph g))) ->
    length aq + pend (nms av) (ug_graph g) < fuel ->
    exists av', traverse_loop fuel srt g (nms aq) (nms av) = Ok (nms av') /\ tinv av' [].
  Proof.
    induction fuel as [|fuel IH]; intros av aq T Hk Hf; [lia|].
    destruct aq as [|[v l] aq]; simpl.
    - exists av. auto.
    - destruct (mem_spec v (nms av)) as [Hv|Hv].
      + apply IH; [eapply tinv_skip; eauto| |simpl in Hf; lia]. intros u k H. eapply Hk. right; eauto.
      + destruct (key_get _ eqs (ug_graph g) v (Hk v l (or_introl eq_refl))) as [s Es]. rewrite Es.
        assert (E1 : nms aq ++ srt s = nms (aq ++ map (fun w => (w, S l)) (srt s))).
        { unfold nms. rewrite map_app, map_map. simpl. now rewrite map_id. }
        assert (E2 : nms av ++ [v] = nms (av ++ [(v, l)])).
        { unfold nms. now rewrite map_app. }
        rewrite E1, E2. apply IH.
        * apply tinv_visit; auto.
        * intros u k. rewrite in_app_iff. intros [H|H]; [eapply Hk; right; eauto|].
          apply in_map_iff in H. destruct H as (w & E & Hw). inversion E; subst.
          apply (adj_key v). exists s. split; auto. eapply Permutation_in; eauto.
        * rewrite <- E2. pose proof (pend_visit v s (nms av) (ug_graph g) (i_nd1 _ I) Es Hv).
          rewrite app_length, map_length. rewrite (Permutation_length (srt_perm s)). simpl in Hf. lia.
  Qed.

  Lemma pend_nil : pend [] (ug_graph g) = list_sum (map (fun p => length (snd p)) (ug_graph g)).
  Proof. reflexivity. Qed.

  (** the result of the traversal loop *)
  Lemma traverse_spec : In start (dkeys (ug_vertices g)) ->
    exists out lv,
      traverse_loop (traverse_fuel g) srt g [start] [] = Ok out /\
      NoDup out /\ hd_error out = Some start /\
      (forall v, In v out <-> reachable adj start v) /\
      length lv = length out /\
      (forall i v n, nth_error out i = Some v -> nth_error lv i = Some n -> distance adj start v n) /\
      StronglySorted le lv.
  Proof.
    intros Hs. apply (i_dom _ I) in Hs.
    destruct (loop_spec (traverse_fuel g) [] [(start, 0)]) as (av & E & T).
    - constructor.
      + intros u l [].
      + constructor.
      + intros u l [H|[]]. inversion H; subst. constructor.
      + repeat constructor.
      + intros u l u' l' [H|[]] [H'|[]]. inversion H; inversion H'; subst; lia.
      + intros ? ? ? [].
      + reflexivity.
      + now left.
    - intros u l [H|[]]. inversion H; subst; auto.
    - unfold traverse_fuel. simpl. rewrite pend_nil. lia.
    - exists (nms av), (lvls av). split; [exact E|]. split; [apply T|].
      pose proof (t_start _ _ T) as H1. rewrite app_nil_r in H1.
      split; [|split; [|split; [|split]]].
      + destruct av; simpl in *; [discriminate|]. now inversion H1; subst.
      + intros v. split.
        * intros Hv. unfold nms in Hv. apply in_map_iff in Hv. destruct Hv as ([v' l] & <- & Hv).
          destruct (t_vis _ _ T _ _ Hv) as [W _]. exists l. exact W.
        * intros [m W]. destruct (t_lower _ _ T m v W) as [[l Hl]|(x & l & _ & [])].
          unfold nms. change v with (fst (v, l)). now apply in_map.
      + unfold nms, lvls. now rewrite !map_length.
      + intros i v n Hv Hn. apply (t_vis _ _ T). 
        unfold nms, lvls in *. rewrite nth_error_map in Hv, Hn.
        destruct (nth_error av i) as [[a b]|] eqn:Ea; simpl in *; [|discriminate].
        inversion Hv; inversion Hn; subst. eapply nth_error_In; eauto.
      + pose proof (t_srt _ _ T) as H. now rewrite app_nil_r in H.
  Qed.
End Traverse.

(** connectivity *)
Lemma adj_sym g : inv g -> forall u v, adjg (ug_graph g) u v -> adjg (ug_graph g) v u.
Proof. intros I. apply I. Qed.

Lemma reach_vertex g u v : inv g -> In u (dkeys (ug_vertices g)) -> reachable (adjg (ug_graph g)) u v ->
  In v (dkeys (ug_vertices g)).
Proof.
  intros I Hu [n W]. induction W as [|n u v w W IH H]; auto.
  apply (i_dom _ I). eapply adj_key; eauto.
Qed.

Lemma bfs_spec g start : inv g -> In start (dkeys (ug_vertices g)) ->
  exists out lv,
    bfs g start = Ok out /\ NoDup out /\ hd_error out = Some start /\
    (forall v, In v out <-> reachable (adjg (ug_graph g)) start v) /\
    length lv = length out /\
    (forall i v n, nth_error out i = Some v -> nth_error lv i = Some n -> distance (adjg (ug_graph g)) start v n) /\
    StronglySorted le lv.
Proof.
  intros I Hs. unfold bfs, traverse. destruct (has_vertex_spec g start); [|tauto]. simpl.
  apply traverse_spec; auto. apply sorted_perm.
Qed.

Lemma is_connected_spec g : inv g ->
  exists b, is_connected g = Ok b /\
    (b = true <-> dkeys (ug_vertices g) <> [] /\ connected (adjg (ug_graph g)) (dkeys (ug_vertices g))).
Proof.
  intros I. unfold is_connected. destruct (ug_vertices g) as [|[r w] vs] eqn:Ev.
  - exists false. split; auto. simpl. intuition discriminate.
  - rewrite <- Ev. assert (Hr : In r (dkeys (ug_vertices g))) by (rewrite Ev; now left).
    destruct (bfs_spec g r I Hr) as (out & lv & -> & Hnd & _ & Hin & _). simpl.
    eexists. split; [reflexivity|]. rewrite Nat.eqb_eq.
    assert (Hlen : length (dkeys (ug_vertices g)) = length (ug_vertices g)) by (unfold dkeys; apply map_length).
    assert (Hincl : incl out (dkeys (ug_vertices g))).
    { intros v Hv. apply Hin in Hv. eapply reach_vertex; eauto. }
    split.
    + intros Heq. split; [rewrite Ev; discriminate|].
      assert (Hall : incl (dkeys (ug_vertices g)) out).
      { apply NoDup_length_incl; auto. lia. }
      intros u v Hu Hv. apply Hall, Hin in Hu. apply Hall, Hin in Hv.
      eapply reach_trans; [apply reach_sym; [apply adj_sym; auto|exact Hu]|exact Hv].
    + intros [_ Hc]. apply Nat.le_antisymm.
      * rewrite <- Hlen. apply NoDup_incl_length; auto.
      * rewrite <- Hlen. apply NoDup_incl_length; [apply I|]. intros v Hv. apply Hin. now apply Hc.
Qed.

(** cycles have two distinct neighbours at every vertex *)
Lemma snoc_cases {A} (l : list A) : l = [] \/ exists l' x, l = l' ++ [x].
Proof. induction l as [|x l _] using rev_ind; eauto. Qed.

Section Cyc.
  Variable adj : string -> string -> Prop.
  Hypothesis sym : forall u v, adj u v -> adj v u.

  Lemma chain_app_r l1 l2 : chain adj (l1 ++ l2) -> chain adj l2.
  Proof.
    induction l1 as [|a l1 IH]; auto. simpl app. rewrite chain_cons. intros H. apply IH.
    destruct (l1 ++ l2); simpl; auto. apply H.
  Qed.
  Lemma chain_mid l1 x y l2 : chain adj (l1 ++ x :: y :: l2) -> adj x y.
  Proof. intros H. apply chain_app_r in H. now destruct H. Qed.

  Lemma cycle_two a l c : cycle adj a l -> In c (a :: l) ->
    exists u1 u2, u1 <> u2 /\ u1 <> c /\ u2 <> c /\ In u1 (a :: l) /\ In u2 (a :: l) /\ adj u1 c /\ adj u2 c.
  Proof.
    intros (Hnd & Hlen & Hch & Hlast) Hc.
    apply in_split in Hc. destruct Hc as (l1 & l2 & E).
    destruct (snoc_cases l1) as [->|(l1' & p & ->)].
    - (* c is the first vertex *)
      simpl in E. inversion E; subst c l2.
      destruct l as [|x l]; [simpl in Hlen; lia|].
      destruct (snoc_cases l) as [->|(l' & z & ->)]; [simpl in Hlen; lia|].
      exists x, z.
      assert (Hz : last (x :: l' ++ [z]) a = z).
      { change (x :: l' ++ [z]) with ((x :: l') ++ [z]). apply last_last. }
      rewrite Hz in Hlast.
      inversion Hnd as [|? ? Ha Hnd']; subst. inversion Hnd' as [|? ? Hx _]; subst.
      assert (Hzi : In z (l' ++ [z])) by (apply in_app_iff; right; now left).
      repeat split.
      + intros ->; tauto.
      + intros ->. apply Ha. now left.
      + intros ->. apply Ha. now right.
      + right; now left.
      + right; now right.
      + rewrite chain_cons in Hch. apply sym. apply Hch.
      + exact Hlast.
    - rewrite <- app_assoc in E. simpl in E.
      assert (Hpc : adj p c).
      { rewrite E in Hch. now apply chain_mid in Hch. }
      assert (Hp : p <> c /\ In p (a :: l)).
      { split; [|rewrite E; apply in_app_iff; right; now left].
        intros ->. rewrite E in Hnd. apply NoDup_remove_2 in Hnd. apply Hnd.
        apply in_app_iff. right. now left. }
      destruct l2 as [|q l2].
      + (* c is the last vertex *)
        destruct l1' as [|b l1'].
        { simpl in E. inversion E; subst. simpl in Hlen; lia. }
        simpl in E. inversion E; subst b.
        assert (Hl : l = (l1' ++ [p]) ++ [c]) by (rewrite <- app_assoc; exact H1).
        rewrite Hl in Hlast. rewrite last_last in Hlast.
        exists p, a.
        inversion Hnd as [|? ? Ha Hnd']; subst.
        repeat split; try tauto.
        * intros ->. apply Ha. apply in_app_iff. right. now left.
        * intros ->. apply Ha. apply in_app_iff. right. right. now left.
        * now left.
        * apply sym. exact Hlast.
      + exists p, q.
        assert (Hcq : adj c q).
        { rewrite E in Hch. change (l1' ++ p :: c :: q :: l2) with (l1' ++ (p :: [c]) ++ q :: l2) in Hch.
          rewrite app_assoc in Hch. apply chain_mid with (l1 := l1' ++ [p]) (l2 := l2).
          rewrite <- app_assoc. simpl. rewrite <- app_assoc in Hch. exact Hch. }
        assert (Hnd2 : NoDup (p :: c :: q :: l2)).
        { rewrite E in Hnd. clear - Hnd. induction l1' as [|b l1' IH]; auto. apply IH. now inversion Hnd. }
        inversion Hnd2 as [|? ? Hp1 Hnd3]; subst. inversion Hnd3 as [|? ? Hc1 _]; subst.
        repeat split; try tauto.
        * intros ->. apply Hp1. right; now left.
        * intros ->. apply Hc1. now left.
        * rewrite E. apply in_app_iff. right. right. right. now left.
        * now apply sym.
  Qed.
End Cyc.
