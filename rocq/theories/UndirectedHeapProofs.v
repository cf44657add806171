From Coq Require Import String List Bool Arith QArith Qcanon Lia.
From Verif Require Import Py QcTac UndirectedModel UndirectedSpec UndirectedProofs UndirectedHeap.
Import ListNotations.
Open Scope nat_scope.
Open Scope string_scope.
Open Scope list_scope.

Lemma hwrite_length H r s : length (hwrite H r s) = length H.
Proof. revert r. induction H as [|t H IH]; intros [|r]; simpl; auto. Qed.
Lemma hread_hwrite H r s x : r < length H -> hread (hwrite H r s) x = if Nat.eqb x r then s else hread H x.
Proof.
  revert r x. induction H as [|t H IH]; intros [|r] [|x]; simpl; try lia; auto.
  intros Hr. unfold hread in *. simpl. apply IH. lia.
Qed.
Lemma hread_app H l x : x < length H -> hread (H ++ l) x = hread H x.
Proof. intros Hx. unfold hread. now rewrite app_nth1. Qed.
Lemma hread_new H s : hread (H ++ [s]) (length H) = s.
Proof. unfold hread. rewrite app_nth2, Nat.sub_diag; auto. Qed.

Definition vg (H : heap) (d : list (string * nat)) := map (fun p : string * nat => (fst p, hread H (snd p))) d.

Lemma vg_keys H d : dkeys (vg H d) = dkeys d.
Proof. unfold vg, dkeys. rewrite map_map. reflexivity. Qed.
Lemma vg_get H d u : sget u (vg H d) = match dget String.eqb u d with Some r => Some (hread H r) | None => None end.
Proof.
  induction d as [|[k r] d IH]; simpl; auto. destruct (String.eqb u k); auto.
Qed.
Lemma dget_ref_in (d : list (string * nat)) u r : dget String.eqb u d = Some r -> In (u, r) d.
Proof. apply (dget_In _ eqs). Qed.

Lemma vg_write H d u r s : dwf H d -> dget String.eqb u d = Some r ->
  vg (hwrite H r s) d = dset String.eqb u s (vg H d).
Proof.
  intros (Hk & Hr & Hb) E.
  assert (Hlt : r < length H) by (eapply Hb; apply dget_ref_in; eauto).
  clear Hb. induction d as [|[k t] d IH]; [discriminate|]. simpl in *.
  inversion Hk; subst. inversion Hr; subst.
  destruct (eqs u k) as [->|Hne]; simpl.
  - inversion E; subst. rewrite hread_hwrite, Nat.eqb_refl by auto. f_equal.
    unfold vg. apply map_ext_in. intros [k' r'] Hin. simpl. rewrite hread_hwrite by auto.
    destruct (Nat.eqb_spec r' r) as [->|]; auto. exfalso. apply H4.
    change r with (snd (k', r)). now apply in_map.
  - rewrite hread_hwrite by auto. destruct (Nat.eqb_spec t r) as [->|].
    + exfalso. apply H4. apply dget_ref_in in E. change r with (snd (u, r)). now apply in_map.
    + f_equal. now apply IH.
Qed.

Lemma vg_grow H d l : (forall u r, In (u, r) d -> r < length H) -> vg (H ++ l) d = vg H d.
Proof.
  intros Hb. unfold vg. apply map_ext_in. intros [u r] Hin. simpl. rewrite hread_app; eauto.
Qed.

Lemma vg_alloc H d u s : dwf H d -> dget String.eqb u d = None ->
  vg (H ++ [s]) (d ++ [(u, length H)]) = vg H d ++ [(u, s)] /\ dwf (H ++ [s]) (d ++ [(u, length H)]).
Proof.
  intros (Hk & Hr & Hb) E. split.
  - unfold vg at 1. rewrite map_app. fold (vg (H ++ [s]) d). rewrite vg_grow by auto. simpl.
    now rewrite hread_new.
  - split; [|split].
    + unfold dkeys. rewrite map_app. simpl. apply NoDup_snoc; auto. now apply (dget_None _ eqs) in E.
    + rewrite map_app. simpl. apply NoDup_snoc; auto. intros Hin. apply in_map_iff in Hin.
      destruct Hin as ([k r] & Er & Hin). simpl in Er. subst. apply Hb in Hin. lia.
    + intros k r Hin. rewrite app_length. simpl. apply in_app_iff in Hin. destruct Hin as [Hin|[Er|[]]].
      * apply Hb in Hin. lia.
      * inversion Er; subst. lia.
Qed.

Lemma dwf_write H d r s : dwf H d -> dwf (hwrite H r s) d.
Proof. intros (A & B & C). repeat split; auto. intros u x Hx. rewrite hwrite_length. eauto. Qed.

Lemma dset_absent {V} (d : list (string * V)) u v : dget String.eqb u d = None -> dset String.eqb u v d = d ++ [(u, v)].
Proof.
  induction d as [|[k w] d IH]; simpl; auto. destruct (String.eqb u k); [discriminate|]. intros E. now rewrite IH.
Qed.

Lemma h_adj_add_view H d u v H' d' : dwf H d -> h_adj_add u v H d = (H', d') ->
  vg H' d' = adj_add u v (vg H d) /\ dwf H' d'.
Proof.
  intros W. unfold h_adj_add, adj_add. rewrite vg_get. destruct (dget String.eqb u d) as [r|] eqn:E; intros Eq; inversion Eq; subst.
  - split; [now apply vg_write|now apply dwf_write].
  - destruct (vg_alloc H d u [v] W E) as [A B]. split; auto. rewrite A.
    rewrite dset_absent; auto. now rewrite vg_get, E.
Qed.

Lemma h_adj_remove_view H g u v : dwf H (hg_graph g) ->
  let r := h_adj_remove H (hg_graph g) u v in
  let r' := adj_remove u v (view H g) in
  view (fst r) g = fst r' /\ snd r = snd r' /\ dwf (fst r) (hg_graph g).
Proof.
  intros W. unfold h_adj_remove, adj_remove. simpl. fold (vg H (hg_graph g)). rewrite vg_get.
  destruct (dget String.eqb u (hg_graph g)) as [r|] eqn:E; simpl; auto.
  unfold set_remove. destruct (mem v (hread H r)); simpl; auto.
  split; [|split; auto using dwf_write]. unfold view. f_equal. now apply vg_write.
Qed.

(** one graph on the heap behaves as the plain model *)
Lemma hstep_view H g o : dwf H (hg_graph g) ->
  let '(H', g', r) := hstep H g o in
  (view H' g', r) = ustep (view H g) o /\ dwf H' (hg_graph g').
Proof.
  intros W. destruct o as [e w|e|v w|e w|v w]; simpl.
  - unfold h_add_edge, add_edge. destruct (qlt w 0); auto. destruct (String.eqb _ _); auto.
    destruct (_ || _); auto. unfold has_edge. simpl ug_edges.
    destruct (dmem eqe (sorted2 (sorted2 e)) (hg_edges g)); auto.
    destruct (h_adj_add (fst (sorted2 e)) (snd (sorted2 e)) H (hg_graph g)) as [H1 d1] eqn:E1.
    destruct (h_adj_add (snd (sorted2 e)) (fst (sorted2 e)) H1 d1) as [H2 d2] eqn:E2.
    destruct (h_adj_add_view _ _ _ _ _ _ W E1) as [A1 W1].
    destruct (h_adj_add_view _ _ _ _ _ _ W1 E2) as [A2 W2].
    split; auto. unfold view at 1. simpl. fold (vg H2 d2). rewrite A2, A1. reflexivity.
  - unfold h_remove_edge, remove_edge, has_edge. simpl ug_edges.
    destruct (dmem eqe (sorted2 e) (hg_edges g)); simpl; auto.
    destruct (h_adj_remove_view H g (fst e) (snd e) W) as (A & B & C).
    destruct (h_adj_remove H (hg_graph g) (fst e) (snd e)) as [H1 r1].
    destruct (adj_remove (fst e) (snd e) (view H g)) as [g1 r1'] eqn:Ea. simpl in A, B, C. subst r1' g1.
    destruct r1 as [[]| |]; auto.
    destruct (h_adj_remove_view H1 g (snd e) (fst e) C) as (A' & B' & C').
    destruct (h_adj_remove H1 (hg_graph g) (snd e) (fst e)) as [H2 r2].
    destruct (adj_remove (snd e) (fst e) (view H1 g)) as [g2 r2']. simpl in *. subst. auto.
  - unfold h_add_vertex, add_vertex, has_vertex. simpl ug_vertices. destruct (qlt w 0); auto.
    destruct (dmem String.eqb v (hg_vertices g)); auto.
    destruct (dget String.eqb v (hg_graph g)) as [r|] eqn:E.
    + split; auto. unfold view, dsetdefault at 1. simpl. fold (vg H (hg_graph g)).
      unfold dsetdefault, dmem. rewrite vg_get, E. reflexivity.
    + destruct (vg_alloc H (hg_graph g) v [] W E) as [A B]. split; auto.
      unfold view. simpl. fold (vg (H ++ [[]]) (hg_graph g ++ [(v, length H)])). rewrite A.
      fold (vg H (hg_graph g)). unfold dsetdefault at 2. unfold dmem. now rewrite vg_get, E.
  - unfold h_set_edge_weight, set_edge_weight, has_edge. simpl ug_edges.
    destruct (dmem eqe (sorted2 e) (hg_edges g)); simpl; auto.
  - unfold h_set_vertex_weight, set_vertex_weight, has_vertex. simpl ug_vertices.
    destruct (dmem String.eqb v (hg_vertices g)); simpl; auto.
Qed.

Lemma hrun_view h : forall H g, dwf H (hg_graph g) ->
  let '(H', g') := hrun H g h in view H' g' = urun (view H g) h /\ dwf H' (hg_graph g').
Proof.
  induction h as [|o h IH]; intros H g W; simpl; auto.
  pose proof (hstep_view H g o W) as S. destruct (hstep H g o) as [[H1 g1] r]. destruct S as [E W1].
  specialize (IH H1 g1 W1). destruct (hrun H1 g1 h) as [H' g']. destruct IH as [A B]. split; auto.
  rewrite A. now rewrite <- E.
Qed.

(** every plain graph can be laid out on the heap *)
Definition alloc (g : ugraph) : heap * hgraph :=
  (map snd (ug_graph g), mkhg (combine (dkeys (ug_graph g)) (seq 0 (length (ug_graph g)))) (ug_edges g) (ug_vertices g)).
Lemma combine_fst {A B} (l : list A) (l' : list B) : length l = length l' -> map fst (combine l l') = l.
Proof. revert l'. induction l as [|a l IH]; intros [|b l']; simpl; try discriminate; auto. intros E. f_equal. auto. Qed.
Lemma combine_snd {A B} (l : list A) (l' : list B) : length l = length l' -> map snd (combine l l') = l'.
Proof. revert l'. induction l as [|a l IH]; intros [|b l']; simpl; try discriminate; auto. intros E. f_equal. auto. Qed.
Lemma alloc_ok g : NoDup (dkeys (ug_graph g)) ->
  dwf (fst (alloc g)) (hg_graph (snd (alloc g))) /\ view (fst (alloc g)) (snd (alloc g)) = g.
Proof.
  intros Hnd. simpl. assert (Hl : length (dkeys (ug_graph g)) = length (seq 0 (length (ug_graph g)))).
  { unfold dkeys. now rewrite map_length, seq_length. }
  split.
  - split; [|split].
    + unfold dkeys at 1. now rewrite combine_fst.
    + rewrite combine_snd by auto. apply seq_NoDup.
    + intros u r Hin. apply in_combine_r in Hin. apply in_seq in Hin. rewrite map_length. lia.
  - destruct g as [d es vs]. unfold view. simpl in *. f_equal. clear.
    assert (G : forall n (pre : heap), length pre = n ->
      map (fun p : string * nat => (fst p, hread (pre ++ map snd d) (snd p))) (combine (dkeys d) (seq n (length d))) = d).
    { induction d as [|[k s] d IH]; intros n pre Hn; simpl; auto. f_equal.
      - f_equal. subst n. unfold hread. rewrite app_nth2, Nat.sub_diag; auto.
      - specialize (IH (S n) (pre ++ [s])). rewrite <- app_assoc in IH. apply IH. rewrite app_length. simpl. lia. }
    apply (G 0 []). reflexivity.
Qed.

Lemma h_adj_add_frame H d u v H' d' r : dwf H d -> h_adj_add u v H d = (H', d') -> r < length H ->
  (dget String.eqb u d <> Some r) -> hread H' r = hread H r /\ length H <= length H'.
Proof.
  intros (_ & _ & Hb). unfold h_adj_add. destruct (dget String.eqb u d) as [x|] eqn:E; intros Eq Hr Hne; inversion Eq; subst.
  - rewrite hwrite_length, hread_hwrite by (eapply Hb, dget_ref_in; eauto). destruct (Nat.eqb_spec r x); [congruence|]. auto.
  - rewrite hread_app by auto. rewrite app_length. simpl. split; auto. lia.
Qed.

Lemma h_adj_add_get H d u v H' d' k r : h_adj_add u v H d = (H', d') -> r < length H ->
  dget String.eqb k d' = Some r -> (exists x, dget String.eqb k d = Some x) -> dget String.eqb k d = Some r.
Proof.
  unfold h_adj_add. destruct (dget String.eqb u d) as [x|] eqn:E; intros Eq Hr; inversion Eq; subst; auto.
  rewrite dget_app. intros H1 [y Hy]. rewrite Hy in *. auto.
Qed.
Lemma h_adj_add_keep H d u v H' d' k r : h_adj_add u v H d = (H', d') ->
  dget String.eqb k d = Some r -> dget String.eqb k d' = Some r.
Proof.
  unfold h_adj_add. destruct (dget String.eqb u d) as [x|] eqn:E; intros Eq; inversion Eq; subst; auto.
  rewrite dget_app. now intros ->.
Qed.

Lemma h_adj_remove_frame H d u v r : dwf H d -> dget String.eqb u d <> Some r ->
  hread (fst (h_adj_remove H d u v)) r = hread H r /\ length (fst (h_adj_remove H d u v)) = length H.
Proof.
  intros (_ & _ & Hb) Hne. unfold h_adj_remove. destruct (dget String.eqb u d) as [x|] eqn:E; simpl; auto.
  destruct (set_remove v (hread H x)); simpl; auto.
  rewrite hwrite_length, hread_hwrite by (eapply Hb, dget_ref_in; eauto).
  destruct (Nat.eqb_spec r x); [congruence|]. auto.
Qed.

Lemma ref_inj H d u w r : dwf H d -> dget String.eqb u d = Some r -> dget String.eqb w d = Some r -> u = w.
Proof.
  intros (_ & Hr & _) E1 E2. apply dget_ref_in in E1, E2. clear - Hr E1 E2.
  induction d as [|[k x] d IH]; simpl in *; [tauto|]. inversion Hr; subst.
  assert (Hx : forall k', In (k', x) d -> False).
  { intros k' Hk. apply H1. change x with (snd (k', x)). now apply in_map. }
  destruct E1 as [E1|E1], E2 as [E2|E2].
  - congruence.
  - inversion E1; subst. now apply Hx in E2.
  - inversion E2; subst. now apply Hx in E1.
  - auto.
Qed.

(** an operation leaves the set behind [u]'s reference alone unless it touches [u] *)
Lemma hstep_frame H g o u r : dwf H (hg_graph g) -> dget String.eqb u (hg_graph g) = Some r -> ~ touches u o ->
  let '(H', g', _) := hstep H g o in
  hread H' r = hread H r /\ dget String.eqb u (hg_graph g') = Some r.
Proof.
  intros W E Hn.
  assert (Hr : r < length H) by (destruct W as (_ & _ & Hb); eapply Hb, dget_ref_in; eauto).
  assert (Hne : forall w, w <> u -> dget String.eqb w (hg_graph g) <> Some r).
  { intros w Hw E2. apply Hw. eapply ref_inj; eauto. }
  destruct o as [e w|e|v w|e w|v w]; simpl in *.
  - unfold h_add_edge. destruct (qlt w 0); auto. destruct (String.eqb _ _); auto.
    destruct (_ || _); auto. destruct (dmem eqe (sorted2 (sorted2 e)) (hg_edges g)); auto.
    assert (Hse : fst (sorted2 e) <> u /\ snd (sorted2 e) <> u).
    { destruct (sorted2_cases e) as [-> | ->]; simpl; intuition. }
    destruct (h_adj_add (fst (sorted2 e)) (snd (sorted2 e)) H (hg_graph g)) as [H1 d1] eqn:E1.
    destruct (h_adj_add (snd (sorted2 e)) (fst (sorted2 e)) H1 d1) as [H2 d2] eqn:E2.
    destruct (h_adj_add_view _ _ _ _ _ _ W E1) as [_ W1].
    destruct (h_adj_add_frame _ _ _ _ _ _ r W E1 Hr) as [A1 L1]; [apply Hne; tauto|].
    assert (Ed1 : dget String.eqb u d1 = Some r) by (eapply h_adj_add_keep; eauto).
    destruct (h_adj_add_frame _ _ _ _ _ _ r W1 E2) as [A2 L2]; [lia| |].
    { intros Ex. destruct Hse as [_ Hse]. apply Hse. eapply ref_inj; eauto. }
    simpl. split; [congruence|]. eapply h_adj_add_keep; eauto.
  - unfold h_remove_edge. destruct (dmem eqe (sorted2 e) (hg_edges g)); simpl; auto.
    destruct (h_adj_remove_frame H (hg_graph g) (fst e) (snd e) r W) as [A L]; [apply Hne; intuition|].
    pose proof (h_adj_remove_view H g (fst e) (snd e) W) as (_ & _ & W1).
    destruct (h_adj_remove H (hg_graph g) (fst e) (snd e)) as [H1 r1]; simpl in *.
    destruct r1 as [[]| |]; auto.
    destruct (h_adj_remove_frame H1 (hg_graph g) (snd e) (fst e) r W1) as [A' L']; [apply Hne; intuition|].
    destruct (h_adj_remove H1 (hg_graph g) (snd e) (fst e)) as [H2 r2]; simpl in *. split; [congruence|auto].
  - unfold h_add_vertex. destruct (qlt w 0); auto. destruct (dmem String.eqb v (hg_vertices g)); auto.
    destruct (dget String.eqb v (hg_graph g)); simpl; auto.
    rewrite hread_app by auto. split; auto. rewrite dget_app. now rewrite E.
  - unfold h_set_edge_weight. destruct (dmem eqe (sorted2 e) (hg_edges g)); simpl; auto.
  - unfold h_set_vertex_weight. destruct (dmem String.eqb v (hg_vertices g)); simpl; auto.
Qed.

Lemma hrun_frame h : forall H g u r, dwf H (hg_graph g) -> dget String.eqb u (hg_graph g) = Some r ->
  (forall o, In o h -> ~ touches u o) -> hread (fst (hrun H g h)) r = hread H r.
Proof.
  induction h as [|o h IH]; intros H g u r W E Hn; simpl; auto.
  pose proof (hstep_frame H g o u r W E (Hn o (or_introl eq_refl))) as F.
  pose proof (hstep_view H g o W) as S.
  destruct (hstep H g o) as [[H1 g1] x]. destruct F as [A B]. destruct S as [_ W1].
  rewrite (IH H1 g1 u r W1 B); auto. intros o' Ho. apply Hn. now right.
Qed.

(** copying, then running any history on the copy *)
Lemma dict_eqb_refl {K V} eqk eqv (Hk : forall a b : K, reflect (a = b) (eqk a b)) (d : list (K * V)) :
  NoDup (dkeys d) -> (forall k v, In (k, v) d -> eqv v v = true) -> dict_eqb eqk eqv d d = true.
Proof.
  intros Hnd Hv. unfold dict_eqb. rewrite Nat.eqb_refl. simpl. apply forallb_forall. intros [k v] Hin. simpl.
  assert (E : dget eqk k d = Some v) by (now apply (In_dget _ Hk)). rewrite E. eauto.
Qed.
Lemma set_eqb_refl s : set_eqb s s = true.
Proof.
  unfold set_eqb. rewrite andb_diag. apply forallb_forall. intros x Hx. destruct (mem_spec x s); auto.
Qed.
Lemma ugraph_eq_refl g : inv g -> ugraph_eq g g = true.
Proof.
  intros I. unfold ugraph_eq. destruct I.
  rewrite (dict_eqb_refl _ _ eqs), (dict_eqb_refl _ _ eqe_spec), (dict_eqb_refl _ _ eqs); auto using set_eqb_refl.
  - intros k v _. destruct (qeq_spec v v); auto.
  - intros k v _. destruct (qeq_spec v v); auto.
Qed.

Lemma copy_partial H o h : dwf H (hg_graph o) ->
  let '(H', c') := hrun H (h_copy o) h in
  view H' c' = urun (view H o) h /\
  ug_edges (view H' o) = ug_edges (view H o) /\ ug_vertices (view H' o) = ug_vertices (view H o) /\
  dkeys (ug_graph (view H' o)) = dkeys (ug_graph (view H o)) /\
  (forall u, (forall op, In op h -> ~ touches u op) ->
     dget String.eqb u (ug_graph (view H' o)) = dget String.eqb u (ug_graph (view H o))).
Proof.
  intros W.
  assert (Ho : h_copy o = o) by (now destruct o).
  rewrite Ho. pose proof (hrun_view h H o W) as R. pose proof (hrun_frame h H o) as F.
  destruct (hrun H o h) as [H' c']. destruct R as [R1 R2]. simpl in F.
  split; [auto|]. split; [reflexivity|split; [reflexivity|split]].
  - simpl. fold (vg H' (hg_graph o)) (vg H (hg_graph o)). now rewrite !vg_keys.
  - intros u Hu. simpl. fold (vg H' (hg_graph o)) (vg H (hg_graph o)). rewrite !vg_get.
    destruct (dget String.eqb u (hg_graph o)) as [r|] eqn:E; auto. f_equal. eapply F; eauto.
Qed.

Definition same_ev (g : hgraph) (g' : ugraph) : Prop := hg_edges g = ug_edges g' /\ hg_vertices g = ug_vertices g'.
Lemma hstep_ev H g g' o : same_ev g g' ->
  same_ev (snd (fst (hstep H g o))) (fst (ustep g' o)).
Proof.
  unfold same_ev. intros [E1 E2].
  destruct o as [e w|e|v w|e w|v w]; simpl.
  - unfold h_add_edge, add_edge, has_edge. rewrite <- E1, <- E2.
    destruct (qlt w 0); auto. destruct (String.eqb _ _); auto. destruct (_ || _); auto.
    destruct (dmem eqe (sorted2 (sorted2 e)) (hg_edges g)); auto.
    destruct (h_adj_add _ _ H (hg_graph g)) as [H1 d1]. destruct (h_adj_add _ _ H1 d1) as [H2 d2]. auto.
  - unfold h_remove_edge, remove_edge, has_edge. rewrite <- E1.
    destruct (dmem eqe (sorted2 e) (hg_edges g)); simpl; auto.
    assert (A : forall u v x, ug_edges (fst (adj_remove u v x)) = ug_edges x /\ ug_vertices (fst (adj_remove u v x)) = ug_vertices x).
    { intros u v x. unfold adj_remove. destruct (dget String.eqb u (ug_graph x)); simpl; auto.
      destruct (set_remove v l); simpl; auto. }
    assert (B : forall r : ugraph, (ug_edges r = ug_edges g' /\ ug_vertices r = ug_vertices g') -> hg_edges g = ug_edges r /\ hg_vertices g = ug_vertices r).
    { intros r [-> ->]. auto. }
    assert (C : hg_edges g = ug_edges (fst (match adj_remove (fst e) (snd e) g' with (g1, Ok _) => adj_remove (snd e) (fst e) g1 | r => r end)) /\
                hg_vertices g = ug_vertices (fst (match adj_remove (fst e) (snd e) g' with (g1, Ok _) => adj_remove (snd e) (fst e) g1 | r => r end))).
    { apply B. destruct (A (fst e) (snd e) g') as [A1 A2]. destruct (adj_remove (fst e) (snd e) g') as [g1 r1]. simpl in A1, A2.
      destruct r1; simpl; auto. destruct (A (snd e) (fst e) g1) as [A3 A4]. rewrite A3, A4. auto. }
    destruct (h_adj_remove H (hg_graph g) (fst e) (snd e)) as [H1 r1]; destruct r1; simpl; auto.
    destruct (h_adj_remove H1 (hg_graph g) (snd e) (fst e)) as [H2 r2]; simpl; auto.
  - unfold h_add_vertex, add_vertex, has_vertex. rewrite <- E1, <- E2. destruct (qlt w 0); auto.
    destruct (dmem String.eqb v (hg_vertices g)); auto.
    destruct (dget String.eqb v (hg_graph g)); simpl; auto.
  - unfold h_set_edge_weight, set_edge_weight, has_edge. rewrite <- E1.
    destruct (dmem eqe (sorted2 e) (hg_edges g)); simpl; auto.
  - unfold h_set_vertex_weight, set_vertex_weight, has_vertex. rewrite <- E2.
    destruct (dmem String.eqb v (hg_vertices g)); simpl; auto.
Qed.

Lemma hrun2_ev h : forall H o c go gc, same_ev o go -> same_ev c gc ->
  let '(H', o', c') := hrun2 H o c h in
  same_ev o' (urun go (calls_on true h)) /\ same_ev c' (urun gc (calls_on false h)).
Proof.
  induction h as [|[w x] h IH]; intros H o c go gc So Sc; simpl; auto. destruct w.
  - pose proof (hstep_ev H o go x So) as S. destruct (hstep H o x) as [[H1 o1] r]. simpl in S.
    apply (IH H1 o1 c _ _ S Sc).
  - pose proof (hstep_ev H c gc x Sc) as S. destruct (hstep H c x) as [[H1 c1] r]. simpl in S.
    apply (IH H1 o c1 _ _ So S).
Qed.

Lemma copy_interleaved H o h :
  let '(H', o', c') := hrun2 H o (h_copy o) h in
  ug_edges (view H' o') = ug_edges (urun (view H o) (calls_on true h)) /\
  ug_vertices (view H' o') = ug_vertices (urun (view H o) (calls_on true h)) /\
  ug_edges (view H' c') = ug_edges (urun (view H o) (calls_on false h)) /\
  ug_vertices (view H' c') = ug_vertices (urun (view H o) (calls_on false h)).
Proof.
  pose proof (hrun2_ev h H o (h_copy o) (view H o) (view H o)) as E.
  destruct (hrun2 H o (h_copy o) h) as [[H' o'] c'].
  destruct E as [[A B] [C D]]; [split; reflexivity|split; reflexivity|]. auto.
Qed.
