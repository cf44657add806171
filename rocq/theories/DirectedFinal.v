(** Cuts and residual digraphs. *)
From Coq Require Import String List Bool Arith QArith Qcanon Lia Permutation.
From Verif Require Import Py QcTac QSum UndirectedModel UndirectedProofs DirectedModel DirectedSpec DirectedProofs FlowModel FlowSpec FlowTheory ResidualProofs.
Import ListNotations.
Open Scope nat_scope.
Open Scope string_scope.
Open Scope list_scope.

(** ** cuts *)
Lemma cut_spec g n a : In a (cut g n) <-> In a (dkeys (dg_arcs g)) /\ In (fst a) (node_set n) /\ ~ In (snd a) (node_set n).
Proof.
  unfold cut. rewrite filter_In, andb_true_iff, negb_true_iff.
  destruct (mem_spec (fst a) (node_set n)), (mem_spec (snd a) (node_set n)); intuition congruence.
Qed.
Lemma ncut_spec g n a : In a (ncut g n) <-> In a (dkeys (dg_arcs g)) /\ In (snd a) (node_set n) /\ ~ In (fst a) (node_set n).
Proof.
  unfold ncut. rewrite filter_In, andb_true_iff, negb_true_iff.
  destruct (mem_spec (fst a) (node_set n)), (mem_spec (snd a) (node_set n)); intuition congruence.
Qed.
Lemma cut_NoDup g n : dinv g -> NoDup (cut g n).
Proof. intros I. apply NoDup_filter, I. Qed.
Lemma ncut_NoDup g n : dinv g -> NoDup (ncut g n).
Proof. intros I. apply NoDup_filter, I. Qed.
Lemma cut_short g v : dinv g -> short v -> cut g (Name v) = filter (fun a => String.eqb (fst a) v) (dkeys (dg_arcs g)).
Proof.
  intros I H. unfold cut. simpl node_set. rewrite (chars_short v H). apply filter_ext_in.
  intros [p q] Hin. cbn [fst snd]. destruct (d_arc _ I _ _ Hin) as [Hne _]. simpl.
  destruct (eqs p v), (eqs q v); simpl; auto. congruence.
Qed.
Lemma ncut_short g v : dinv g -> short v -> ncut g (Name v) = filter (fun a => String.eqb (snd a) v) (dkeys (dg_arcs g)).
Proof.
  intros I H. unfold ncut. simpl node_set. rewrite (chars_short v H). apply filter_ext_in.
  intros [p q] Hin. cbn [fst snd]. destruct (d_arc _ I _ _ Hin) as [Hne _]. simpl.
  destruct (eqs p v), (eqs q v); simpl; auto. congruence.
Qed.

Lemma sum_indicator {A} (l : list A) (ns : list string) (key : A -> string) :
  NoDup ns -> (forall a, In a l -> In (key a) ns) ->
  list_sum (map (fun v => length (filter (fun a => String.eqb (key a) v) l)) ns) = length l.
Proof.
  intros Hnd. induction l as [|a l IH]; intros H; simpl.
  - induction ns; simpl; auto. inversion Hnd; subst. apply IHns; auto. simpl; intros ? [].
  - assert (E : forall ms, NoDup ms -> list_sum (map (fun v => length (filter (fun a0 => String.eqb (key a0) v) (a :: l))) ms) =
       list_sum (map (fun v => length (filter (fun a0 => String.eqb (key a0) v) l)) ms) + (if mem (key a) ms then 1 else 0)).
    { induction ms as [|m ms IHm]; intros Hm; auto. inversion Hm; subst. specialize (IHm H3). simpl in IHm |- *. rewrite IHm.
      destruct (eqs (key a) m) as [->|]; simpl.
      - destruct (mem_spec m ms); [contradiction|]. fold (mem m ms) in *. destruct (mem_spec m ms); [contradiction|]. lia.
      - fold (mem (key a) ms). lia. }
    simpl in E. rewrite E; auto. rewrite IH by (intros; apply H; now right).
    destruct (mem_spec (key a) ns) as [|X]; [lia|]. exfalso. apply X, H. now left.
Qed.

(** ** the residual network of a flow *)
Definition rexp (arcs flow : list (arc * Qc)) (u v : string) : option Qc :=
  match dget eqe (u, v) arcs with
  | Some c => if qlt (fget flow (u, v)) c then Some (c - fget flow (u, v))%Qc else None
  | None => match dget eqe (v, u) arcs with
            | Some _ => if qlt 0 (fget flow (v, u)) then Some (fget flow (v, u)) else None
            | None => None
            end
  end.
Definition one_way (arcs : list (arc * Qc)) : Prop := forall u v, In (u, v) (dkeys arcs) -> ~ In (v, u) (dkeys arcs).

Lemma compute_residual_ok flow arcs : NoDup (dkeys arcs) -> one_way arcs ->
  (forall a c, In (a, c) arcs -> (fget flow a <= c)%Qc) ->
  forall r, rok r -> exists r', compute_residual_loop arcs flow r = Ok r' /\ rok r' /\
    forall u v, rval r' u v = match rexp arcs flow u v with Some x => Some x | None => rval r u v end.
Proof.
  induction arcs as [|[[a b] c] arcs IH]; intros Hnd Hw Hc r R; simpl.
  - exists r. auto.
  - assert (Hcap : (fget flow (a, b) <= c)%Qc) by (apply Hc; now left).
    destruct (qlt_spec c (fget flow (a, b))) as [X|_]; [exfalso; eapply Qclt_not_le; eauto|].
    inversion Hnd as [|? ? Hni Hnd']; subst.
    assert (Hba : ~ In (b, a) (dkeys arcs)). { intros X. apply (Hw a b); simpl; auto. }
    assert (Hne : a <> b). { intros ->. apply (Hw b b); simpl; auto. }
    cbn [fst snd].
    destruct (IH Hnd') with (r := if qlt 0 (fget flow (a, b)) then rset b a (fget flow (a, b)) (if qlt (fget flow (a, b)) c then rset a b (c - fget flow (a, b))%Qc r else r)
       else (if qlt (fget flow (a, b)) c then rset a b (c - fget flow (a, b))%Qc r else r)) as (r' & E & R' & V).
    + intros u v Hu Hv. apply (Hw u v); simpl; auto.
    + intros x y Hx. apply Hc. now right.
    + destruct (qlt 0 (fget flow (a, b))), (qlt (fget flow (a, b)) c); repeat apply rok_rset; auto.
    + exists r'. split; [exact E|]. split; [exact R'|]. intros u v. rewrite V.
      assert (N1 : dget eqe (a, b) arcs = None) by now apply (dget_None _ eqe_spec).
      assert (N2 : dget eqe (b, a) arcs = None) by now apply (dget_None _ eqe_spec).
      unfold rexp. cbn [dget].
      destruct (eqe_spec (u, v) (a, b)) as [E1|E1].
      * inversion E1; subst. rewrite N1, N2.
        destruct (qlt 0 (fget flow (a, b))), (qlt (fget flow (a, b)) c); rewrite ?rval_rset, ?String.eqb_refl; simpl; auto.
        all: destruct (eqs a b); simpl; auto; congruence.
      * destruct (eqe_spec (v, u) (a, b)) as [E2|E2].
        -- inversion E2; subst. rewrite N1, N2.
           destruct (qlt 0 (fget flow (a, b))), (qlt (fget flow (a, b)) c); rewrite ?rval_rset, ?String.eqb_refl; simpl; auto.
           all: destruct (eqs b a); simpl; auto; congruence.
        -- assert (E3 : rval (if qlt 0 (fget flow (a, b)) then rset b a (fget flow (a, b)) (if qlt (fget flow (a, b)) c then rset a b (c - fget flow (a, b))%Qc r else r)
               else (if qlt (fget flow (a, b)) c then rset a b (c - fget flow (a, b))%Qc r else r)) u v = rval r u v).
           { destruct (qlt 0 (fget flow (a, b))), (qlt (fget flow (a, b)) c); rewrite ?rval_rset; auto;
               destruct (eqs u a), (eqs v b), (eqs u b), (eqs v a); simpl; congruence. }
           rewrite E3. reflexivity.
Qed.

(** without the no-antiparallel assumption: support only *)
Lemma compute_residual_support flow arcs :
  forall r r', rok r -> compute_residual_loop arcs flow r = Ok r' -> rok r' /\
    (forall u v, rval r' u v <> None -> rval r u v <> None \/ In (u, v) (dkeys arcs) \/ In (v, u) (dkeys arcs)) /\
    (forall a c, In (a, c) arcs -> (fget flow a <= c)%Qc).
Proof.
  induction arcs as [|[[a b] c] arcs IH]; intros r r' R; simpl.
  - intros E; inversion E; subst. split; [auto|]. split; [auto|]. intros ? ? [].
  - destruct (qlt_spec c (fget flow (a, b))) as [X|X]; [discriminate|]. intros E.
    apply IH in E.
    + destruct E as (E1 & E2 & E3). split; auto. split.
      * intros u v H. apply E2 in H. destruct H as [H|H]; [|tauto].
        destruct (qlt 0 (fget flow (a, b))), (qlt (fget flow (a, b)) c); cbn [fst snd] in H; rewrite ?rval_rset in H; auto;
        destruct (eqs u a), (eqs v b), (eqs u b), (eqs v a); subst; simpl in H; auto.
      * intros x y [Exy|Hx]; [inversion Exy; subst; now apply Qcnot_lt_le|eauto].
    + destruct (qlt 0 (fget flow (a, b))), (qlt (fget flow (a, b)) c); repeat apply rok_rset; auto.
Qed.
Lemma compute_residual_raises flow arcs : forall r,
  (exists r', compute_residual_loop arcs flow r = Ok r') \/
  (compute_residual_loop arcs flow r = Raise ArithmeticError /\ exists a c, In (a, c) arcs /\ (c < fget flow a)%Qc).
Proof.
  induction arcs as [|[a c] arcs IH]; intros r; simpl; eauto.
  destruct (qlt_spec c (fget flow a)) as [X|X].
  - right. split; auto. exists a, c. auto.
  - destruct (IH (if qlt 0 (fget flow a) then rset (snd a) (fst a) (fget flow a) (if qlt (fget flow a) c then rset (fst a) (snd a) (c - fget flow a)%Qc r else r) else if qlt (fget flow a) c then rset (fst a) (snd a) (c - fget flow a)%Qc r else r))
      as [H|[H (x & y & H1 & H2)]]; [left; auto|right]. split; auto. exists x, y. auto.
Qed.

(** ** flattening, and building a digraph from an arc dictionary *)
Lemma flatten_inner (u : string) (d : list (string * Qc)) : forall acc : list (arc * Qc), NoDup (dkeys acc) -> NoDup (dkeys d) ->
  let acc' := fold_left (fun acc q => dset eqe (u, fst q) (snd q) acc) d acc in
  NoDup (dkeys acc') /\
  forall p q, dget eqe (p, q) acc' = if String.eqb p u then match sget q d with Some x => Some x | None => dget eqe (p, q) acc end else dget eqe (p, q) acc.
Proof.
  induction d as [|[k x] d IH]; intros acc Ha Hd; simpl.
  - split; auto. intros p q. now destruct (String.eqb p u).
  - inversion Hd as [|? ? Hk Hd']; subst.
    destruct (IH (dset eqe (u, k) x acc)) as [H1 H2]; auto; [now apply (NoDup_dset _ eqe_spec)|].
    split; auto. intros p q. rewrite H2, (dget_dset _ eqe_spec). destruct (eqs p u) as [->|Hpu].
    + destruct (eqs q k) as [->|Hq].
      * assert (sget k d = None) as -> by now apply (dget_None _ eqs).
        destruct (eqe_spec (u, k) (u, k)); congruence.
      * destruct (sget q d); auto. destruct (eqe_spec (u, q) (u, k)); congruence.
    + destruct (eqe_spec (p, q) (u, k)); congruence.
Qed.
Lemma flatten_spec_aux (r : rnet) : forall acc : list (arc * Qc), NoDup (dkeys acc) -> NoDup (dkeys r) ->
  (forall u d, In (u, d) r -> NoDup (dkeys d)) ->
  let acc' := fold_left (fun acc p => fold_left (fun acc q => dset eqe (fst p, fst q) (snd q) acc) (snd p) acc) r acc in
  NoDup (dkeys acc') /\
  forall p q, dget eqe (p, q) acc' = match rval r p q with Some x => Some x | None => dget eqe (p, q) acc end.
Proof.
  induction r as [|[u d] r IH]; intros acc Ha Hr Hd; simpl; [auto|].
  inversion Hr as [|? ? Hk Hr']; subst.
  destruct (flatten_inner u d acc Ha (Hd u d (or_introl eq_refl))) as [H1 H2].
  destruct (IH _ H1 Hr' (fun a b H => Hd a b (or_intror H))) as [H3 H4]. split; auto.
  intros p q. rewrite H4. unfold rval. simpl. rewrite H2. destruct (eqs p u) as [->|]; auto.
  assert (sget u r = None) as ->; auto. now apply (dget_None _ eqs).
Qed.
Lemma flatten_spec r : rok r -> NoDup (dkeys (flatten_residual r)) /\
  forall u v, dget eqe (u, v) (flatten_residual r) = rval r u v.
Proof.
  intros [H1 H2]. destruct (flatten_spec_aux r []) as [H3 H4]; auto; [constructor| |].
  - intros u d H. apply (H2 u). now apply (In_dget _ eqs).
  - split; auto. intros u v. unfold flatten_residual. rewrite H4. now destruct (rval r u v).
Qed.

Lemma dset_last {V} (d : list (arc * V)) a x y : ~ In a (dkeys d) -> dset eqe a y (d ++ [(a, x)]) = d ++ [(a, y)].
Proof.
  induction d as [|[k z] d IH]; intros H; cbn [dset app dkeys map fst] in *.
  - destruct (eqe_spec a a) as [_|N]; [reflexivity|]. contradiction N. reflexivity.
  - destruct (eqe_spec a k); [subst; simpl in H; tauto|]. rewrite IH; auto. intros X. apply H. now right.
Qed.

Lemma dinit_arcs_spec d : forall g, dinv g -> NoDup (dkeys d) ->
  (forall a, In a (dkeys d) -> ~ In a (dkeys (dg_arcs g)) /\ fst a <> snd a) ->
  exists g', dinit_arcs d (Ok g) = Ok g' /\ dinv g' /\ dg_arcs g' = dg_arcs g ++ d /\
    (forall v, In v (dkeys (dg_nodes g')) <-> In v (dkeys (dg_nodes g)) \/ exists a, In a (dkeys d) /\ (v = fst a \/ v = snd a)).
Proof.
  induction d as [|[a w] d IH]; intros g I Hnd Hok.
  - exists g. split; [reflexivity|]. rewrite app_nil_r. split; [auto|]. split; [auto|]. intros v. split; auto. intros [|(? & [] & _)]; auto.
  - inversion Hnd as [|? ? Hk Hnd']; subst. destruct (Hok a (or_introl eq_refl)) as [Hna Hne].
    unfold dinit_arcs. simpl fold_left. cbn [fst snd dcall].
    destruct (has_arc_spec g a) as [|_]; [contradiction|].
    destruct (add_arc_good g a w DNone I) as [[[X|X] _]|(_ & _ & x & y & E)]; [exact Logic.I|contradiction|contradiction|].
    rewrite E. set (g1 := put_node (put_node (half g a w) (fst a) x) (snd a) y) in *.
    assert (I1 : dinv g1) by now apply put_full.
    assert (Ea : dg_arcs g1 = dg_arcs g ++ [(a, w)]).
    { unfold g1. simpl. unfold dsetdefault. destruct (dmem eqe a (dg_arcs g)) eqn:M; auto. apply (dmem_keys _ eqe_spec) in M. contradiction. }
    assert (Hset : set_arc_weight g1 a w = (g1, Ok tt)).
    { unfold set_arc_weight. destruct (has_arc_spec g1 a) as [_|Z]; cbn [negb].
      - assert (Ed : dset eqe a w (dg_arcs g1) = dg_arcs g1) by (rewrite Ea; now apply dset_last).
        rewrite Ed. now destruct g1.
      - exfalso. apply Z. rewrite Ea. unfold dkeys. rewrite map_app, in_app_iff. simpl. auto. }
    cbn [dcall]. rewrite Hset. fold (dinit_arcs d (Ok g1)).
    destruct (IH g1 I1 Hnd') as (g' & E' & I' & A' & N').
    + intros b Hb. destruct (Hok b (or_intror Hb)) as [H1 H2]. split; auto. rewrite Ea. unfold dkeys. rewrite map_app, in_app_iff. simpl.
      intros [H|[->|[]]]; auto.
    + exists g'. split; [auto|]. split; [auto|]. split; [rewrite A', Ea, <- app_assoc; reflexivity|].
      intros v. rewrite N'. unfold g1. cbn [put_node half dg_nodes]. rewrite !(dsetdefault_keys _ eqs). split.
      * intros [[->|[->|H]]|(b & Hb & H)]; auto.
        -- right. exists a. simpl. auto.
        -- right. exists a. simpl. auto.
        -- right. exists b. simpl. auto.
      * intros [H|(b & [<-|Hb] & H)]; [auto| |right; exists b; auto].
        cbn [fst] in H. left. cbn [put_node half dg_nodes fst snd]. tauto.
Qed.

Definition feasible_flow_arg (g : digraph) (flow : list (arc * Qc)) : Prop :=
  NoDup (dkeys flow) /\ (forall a x, In (a, x) flow -> In a (dkeys (dg_arcs g)) /\ (0 <= x)%Qc) /\
  (forall a c, In (a, c) (dg_arcs g) -> (0 <= c)%Qc /\ (fget flow a <= c)%Qc).

Lemma create_residual_spec g flow : dinv g -> one_way (dg_arcs g) -> feasible_flow_arg g flow ->
  exists g', create_residual g flow = Ok g' /\ dinv g' /\
    (forall u v, dget eqe (u, v) (dg_arcs g') = rexp (dg_arcs g) flow u v) /\
    (forall v, In v (dkeys (dg_nodes g')) <-> exists a, In a (dkeys (dg_arcs g')) /\ (v = fst a \/ v = snd a)).
Proof.
  intros I Hw (F1 & F2 & F3). unfold create_residual.
  assert (E1 : existsb (fun p => negb (dmem eqe (fst p) (dg_arcs g)) || qlt (snd p) 0) flow = false).
  { apply not_true_is_false. intros X. apply existsb_exists in X. destruct X as ([a x] & Hin & Hb). simpl in Hb.
    destruct (F2 a x Hin) as [H1 H2]. apply (dmem_keys _ eqe_spec) in H1. rewrite H1 in Hb. simpl in Hb.
    destruct (qlt_spec x 0); [|discriminate]. eapply Qclt_not_le; eauto. }
  assert (E2 : existsb (fun p => qlt (snd p) 0) (dg_arcs g) = false).
  { apply not_true_is_false. intros X. apply existsb_exists in X. destruct X as ([a x] & Hin & Hb). simpl in Hb.
    destruct (F3 a x Hin) as [H1 H2]. destruct (qlt_spec x 0); [|discriminate]. eapply Qclt_not_le; eauto. }
  rewrite E1, E2. unfold compute_residual.
  destruct (compute_residual_ok flow (dg_arcs g)) with (r := @nil (string * list (string * Qc))) as (r & Er & R & V); auto; [apply I| |apply rok_nil|].
  { intros a c H. now apply F3. }
  rewrite Er. simpl bind. destruct (flatten_spec r R) as [N D].
  assert (Sup : forall a, In a (dkeys (flatten_residual r)) -> fst a <> snd a).
  { intros [u v] Ha. simpl. apply (key_get _ eqe_spec) in Ha. destruct Ha as [x Hx]. rewrite D, V in Hx.
    unfold rexp in Hx. destruct (dget eqe (u, v) (dg_arcs g)) eqn:G1.
    - apply (get_key _ eqe_spec) in G1. now apply (d_arc _ I) in G1.
    - destruct (dget eqe (v, u) (dg_arcs g)) eqn:G2; [|discriminate].
      apply (get_key _ eqe_spec) in G2. apply (d_arc _ I) in G2. intuition. }
  unfold dconstruct. simpl dinit_graph.
  destruct (dinit_arcs_spec (flatten_residual r) empty_digraph dinv_empty N) as (g' & E' & I' & A' & N').
  { intros a Ha. split; [simpl; tauto|auto]. }
  change (dinit_graph [] (Ok empty_digraph)) with (Ok empty_digraph). rewrite E'. exists g'. split; [reflexivity|]. split; [auto|].
  simpl in A'. split.
  - intros u v. rewrite A', D, V. now destruct (rexp (dg_arcs g) flow u v).
  - intros v. rewrite N', A'. simpl. tauto.
Qed.

Lemma rexp_residual_value g flow u v x : dinv g -> one_way (dg_arcs g) -> feasible_flow_arg g flow ->
  (rexp (dg_arcs g) flow u v = Some x <-> residual_value (dg_arcs g) (fget flow) u v x).
Proof.
  intros I Hw (F1 & F2 & F3). unfold rexp, residual_value.
  assert (G : forall a c, dget eqe a (dg_arcs g) = Some c <-> In (a, c) (dg_arcs g)).
  { intros a c. split; [apply (dget_In _ eqe_spec)|apply (In_dget _ eqe_spec), I]. }
  destruct (dget eqe (u, v) (dg_arcs g)) as [c|] eqn:E.
  - destruct (qlt_spec (fget flow (u, v)) c) as [L|L].
    + split.
      * intros X; inversion X; subst. split; [qclra|]. left. exists c. split; auto. now apply G.
      * intros [Hp [(c' & H1 & H2)|(c' & H1 & H2)]].
        -- apply G in H1. rewrite E in H1. inversion H1; subst. reflexivity.
        -- exfalso. apply (Hw u v); [eapply (get_key _ eqe_spec); eauto|apply key_In; eauto].
    + split; [discriminate|]. intros [Hp [(c' & H1 & H2)|(c' & H1 & H2)]].
      * apply G in H1. rewrite E in H1. inversion H1; subst. exfalso. apply L. qclra.
      * exfalso. apply (Hw u v); [eapply (get_key _ eqe_spec); eauto|apply key_In; eauto].
  - destruct (dget eqe (v, u) (dg_arcs g)) as [c|] eqn:E'.
    + destruct (qlt_spec 0 (fget flow (v, u))) as [L|L].
      * split.
        -- intros X; inversion X; subst. split; auto. right. exists c. split; auto. now apply G.
        -- intros [Hp [(c' & H1 & H2)|(c' & H1 & H2)]]; [|subst; reflexivity].
           apply G in H1. congruence.
      * split; [discriminate|]. intros [Hp [(c' & H1 & H2)|(c' & H1 & H2)]]; [apply G in H1; congruence|subst; contradiction].
    + split; [discriminate|]. intros [Hp [(c' & H1 & H2)|(c' & H1 & H2)]]; apply G in H1; congruence.
Qed.

Lemma create_residual_raises g flow :
  ((exists a x, In (a, x) flow /\ (~ In a (dkeys (dg_arcs g)) \/ (x < 0)%Qc)) \/ (exists a c, In (a, c) (dg_arcs g) /\ (c < 0)%Qc) ->
    create_residual g flow = Raise ValueError) /\
  (~ ((exists a x, In (a, x) flow /\ (~ In a (dkeys (dg_arcs g)) \/ (x < 0)%Qc)) \/ (exists a c, In (a, c) (dg_arcs g) /\ (c < 0)%Qc)) ->
    (exists a c, In (a, c) (dg_arcs g) /\ (c < fget flow a)%Qc) -> create_residual g flow = Raise ArithmeticError).
Proof.
  unfold create_residual. split.
  - intros [(a & x & Hin & H)|(a & c & Hin & H)].
    + assert (existsb (fun p => negb (dmem eqe (fst p) (dg_arcs g)) || qlt (snd p) 0) flow = true) as ->; auto.
      apply existsb_exists. exists (a, x). split; auto. simpl. destruct H as [H|H].
      * destruct (dmem eqe a (dg_arcs g)) eqn:M; auto. apply (dmem_keys _ eqe_spec) in M. contradiction.
      * destruct (qlt_spec x 0); [apply orb_true_r|contradiction].
    + destruct (existsb (fun p => negb _ || _) flow); auto.
      assert (existsb (fun p => qlt (snd p) 0) (dg_arcs g) = true) as ->; auto.
      apply existsb_exists. exists (a, c). split; auto. simpl. destruct (qlt_spec c 0); [auto|contradiction].
  - intros Hno (a & c & Hin & H).
    assert (existsb (fun p => negb (dmem eqe (fst p) (dg_arcs g)) || qlt (snd p) 0) flow = false) as ->.
    { apply not_true_is_false. intros X. apply existsb_exists in X. destruct X as ([a' x] & Hin' & Hb). simpl in Hb.
      apply Hno. left. exists a', x. split; auto. apply orb_true_iff in Hb. destruct Hb as [Hb|Hb].
      - left. intros K. apply (dmem_keys _ eqe_spec) in K. rewrite K in Hb. discriminate.
      - right. destruct (qlt_spec x 0); [auto|discriminate]. }
    assert (existsb (fun p => qlt (snd p) 0) (dg_arcs g) = false) as ->.
    { apply not_true_is_false. intros X. apply existsb_exists in X. destruct X as ([a' x] & Hin' & Hb). simpl in Hb.
      apply Hno. right. exists a', x. split; auto. destruct (qlt_spec x 0); [auto|discriminate]. }
    unfold compute_residual. destruct (compute_residual_raises flow (dg_arcs g) []) as [[r' E]|[E _]]; rewrite E; auto.
    exfalso. destruct (compute_residual_support _ _ _ _ rok_nil E) as (_ & _ & C). apply C in Hin. eapply Qclt_not_le; eauto.
Qed.
