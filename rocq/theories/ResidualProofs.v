(** Residual networks: reading, writing, breadth-first search and path extraction. *)
From Coq Require Import String List Bool Arith QArith Qcanon Lia Permutation.
From Verif Require Import Py QcTac QSum UndirectedModel UndirectedProofs DirectedModel DirectedProofs FlowModel FlowSpec FlowTheory.
Import ListNotations.
Open Scope nat_scope.
Open Scope string_scope.
Open Scope list_scope.

(** [residual[u][v]] if present *)
Definition rval (r : rnet) (u v : string) : option Qc :=
  match sget u r with Some d => sget v d | None => None end.
Definition rok (r : rnet) : Prop := NoDup (dkeys r) /\ forall u d, sget u r = Some d -> NoDup (dkeys d).
Definition nz (x : Qc) : option Qc := if qeq x 0 then None else Some x.

Lemma rget_rval r u v : rget u v r = match rval r u v with Some x => Ok x | None => Raise KeyError end.
Proof. unfold rget, rval. destruct (sget u r); auto. Qed.

Lemma rval_rset r u v x p q : rval (rset u v x r) p q =
  if String.eqb p u && String.eqb q v then Some x else rval r p q.
Proof.
  unfold rval, rset. rewrite (dget_dset _ eqs). destruct (eqs p u) as [->|]; simpl; auto.
  rewrite (dget_dset _ eqs). destruct (String.eqb q v); auto. destruct (sget u r); auto.
Qed.
Lemma rok_rset r u v x : rok r -> rok (rset u v x r).
Proof.
  intros [H1 H2]. split.
  - apply (NoDup_dset _ eqs), H1.
  - intros p d. unfold rset. rewrite (dget_dset _ eqs). destruct (eqs p u) as [->|]; [|apply H2].
    intros E; inversion E; subst. apply (NoDup_dset _ eqs). destruct (sget u r) eqn:Eu; [eauto|constructor].
Qed.
Lemma rok_nil : rok [].
Proof. split; [constructor|]. intros u d; discriminate. Qed.

Lemma rdel_zero_spec r u v x : rok r -> rval r u v = Some x ->
  exists r', rdel_zero u v r = Ok r' /\ rok r' /\ rval r' u v = nz x /\
    (forall p q, (p, q) <> (u, v) -> rval r' p q = rval r p q) /\ dkeys r' = dkeys r.
Proof.
  intros [H1 H2] Hx. unfold rdel_zero. rewrite rget_rval, Hx. simpl. unfold nz. destruct (qeq x 0).
  - unfold rval in Hx. destruct (sget u r) as [d|] eqn:Eu; [|discriminate].
    eexists. split; [reflexivity|]. split; [|split; [|split]].
    + split; [apply (NoDup_dset _ eqs), H1|]. intros p d'. rewrite (dget_dset _ eqs). destruct (eqs p u) as [->|]; [|apply H2].
      intros E; inversion E; subst. apply NoDup_ddel. eauto.
    + unfold rval. rewrite (dget_dset_eq _ eqs), (dget_ddel _ eqs) by eauto. now rewrite String.eqb_refl.
    + intros p q Hne. unfold rval. rewrite (dget_dset _ eqs). destruct (eqs p u) as [->|]; auto.
      rewrite Eu, (dget_ddel _ eqs) by eauto. destruct (eqs q v); congruence.
    + rewrite (dkeys_dset _ eqs). unfold dmem. now rewrite Eu.
  - eexists. split; [reflexivity|]. repeat split; auto; apply H2.
Qed.
Lemma rdel_empty_spec r u : rok r -> In u (dkeys r) ->
  exists r', rdel_empty u r = Ok r' /\ rok r' /\ (forall p q, rval r' p q = rval r p q) /\
    (forall p, p <> u -> In p (dkeys r) -> In p (dkeys r')).
Proof.
  intros [H1 H2] Hu. apply (key_get _ eqs) in Hu. destruct Hu as [d Eu]. unfold rdel_empty. rewrite Eu.
  destruct d as [|x d].
  - eexists. split; [reflexivity|]. split; [|split].
    + split; [apply NoDup_ddel, H1|]. intros p d. rewrite (dget_ddel _ eqs) by auto.
      destruct (String.eqb p u); [discriminate|apply H2].
    + intros p q. unfold rval. rewrite (dget_ddel _ eqs) by auto. destruct (eqs p u) as [->|]; auto. now rewrite Eu.
    + intros p Hp Hin. apply (ddel_keys _ eqs); auto.
  - eexists. split; [reflexivity|]. repeat split; auto; apply H2.
Qed.

Lemma rupdate_spec arcs flow a u v c f r : rok r -> u <> v ->
  dget eqe a arcs = Some c -> dget eqe a flow = Some f ->
  exists r', rupdate arcs flow a u v r = Ok r' /\ rok r' /\
    rval r' u v = nz (c - f)%Qc /\ rval r' v u = nz f /\
    (forall p q, (p, q) <> (u, v) -> (p, q) <> (v, u) -> rval r' p q = rval r p q).
Proof.
  intros R Hne Ec Ef. unfold rupdate. rewrite Ec, Ef.
  set (r2 := rset v u f (rset u v (c - f)%Qc r)).
  assert (R2 : rok r2) by (apply rok_rset, rok_rset, R).
  assert (V1 : rval r2 u v = Some (c - f)%Qc).
  { unfold r2. rewrite !rval_rset. rewrite !String.eqb_refl. destruct (eqs u v); [congruence|]. reflexivity. }
  assert (V2 : rval r2 v u = Some f) by (unfold r2; rewrite rval_rset, !String.eqb_refl; reflexivity).
  assert (V3 : forall p q, (p, q) <> (u, v) -> (p, q) <> (v, u) -> rval r2 p q = rval r p q).
  { intros p q N1 N2. unfold r2. rewrite !rval_rset.
    destruct (eqs p u), (eqs q v), (eqs p v), (eqs q u); simpl; congruence. }
  assert (K1 : In u (dkeys r2)).
  { apply (dget_keys _ eqs). unfold rval in V1. destruct (sget u r2); congruence. }
  assert (K2 : In v (dkeys r2)).
  { apply (dget_keys _ eqs). unfold rval in V2. destruct (sget v r2); congruence. }
  destruct (rdel_zero_spec r2 u v _ R2 V1) as (r3 & E3 & R3 & A3 & B3 & D3). rewrite E3. simpl.
  assert (V2' : rval r3 v u = Some f). { rewrite B3; auto. congruence. }
  destruct (rdel_zero_spec r3 v u _ R3 V2') as (r4 & E4 & R4 & A4 & B4 & D4). rewrite E4. simpl.
  destruct (rdel_empty_spec r4 u R4) as (r5 & E5 & R5 & A5 & B5); [congruence|]. rewrite E5. simpl.
  destruct (rdel_empty_spec r5 v R5) as (r6 & E6 & R6 & A6 & B6); [apply B5; congruence|]. rewrite E6.
  exists r6. split; [auto|]. split; [auto|]. split; [|split].
  - rewrite A6, A5, B4, A3; auto. congruence.
  - rewrite A6, A5, A4; auto.
  - intros p q N1 N2. rewrite A6, A5, B4, B3; auto.
Qed.

Lemma fupdate_spec flow u v d : (In (u, v) (dkeys flow) \/ In (v, u) (dkeys flow)) ->
  exists a x, fupdate flow u v d = Ok (a, dset eqe a x flow) /\ In a (dkeys flow) /\
    ((a = (u, v) /\ In (u, v) (dkeys flow) /\ x = (fget flow a + d)%Qc) \/
     (a = (v, u) /\ ~ In (u, v) (dkeys flow) /\ x = (fget flow a - d)%Qc)).
Proof.
  intros H. unfold fupdate, fget. destruct (dget eqe (u, v) flow) as [f|] eqn:E.
  - exists (u, v), (f + d)%Qc. rewrite E. pose proof (get_key _ eqe_spec _ _ _ E). auto 10.
  - apply (dget_None _ eqe_spec) in E. destruct H as [H|H]; [contradiction|].
    destruct (key_get _ eqe_spec _ _ H) as [f Ef]. rewrite Ef.
    exists (v, u), (f - d)%Qc. rewrite Ef. auto 10.
Qed.
Lemma fget_dset flow a x b : fget (dset eqe a x flow) b = if eqe b a then x else fget flow b.
Proof. unfold fget. rewrite (dget_dset _ eqe_spec). destruct (eqe b a); auto. Qed.

(** ** breadth-first search *)
Section BFS.
  Variable r : rnet.
  Variables source target : string.
  Hypothesis Hst : source <> target.

  Definition edge_in (u v : string) : Prop := rval r u v <> None.
  Inductive ptree : list (string * string) -> Prop :=
  | pt_nil : ptree []
  | pt_snoc p e c : ptree p -> In c (source :: dkeys p) -> ~ In e (source :: dkeys p) ->
      edge_in c e -> ptree (p ++ [(e, c)]).

  Lemma ptree_parent p v u : ptree p -> sget v p = Some u -> In u (source :: dkeys p).
  Proof.
    induction 1 as [|p e c Hp IH Hc He Hr]; [discriminate|]. rewrite (dget_app). intros E.
    unfold dkeys in *. rewrite map_app. destruct (sget v p) eqn:E1.
    - specialize (IH E). simpl in *. rewrite in_app_iff. tauto.
    - simpl in E. destruct (String.eqb v e); inversion E; subst. simpl in *. rewrite in_app_iff. tauto.
  Qed.
  Lemma ptree_source p : ptree p -> ~ In source (dkeys p).
  Proof.
    induction 1 as [|p e c Hp IH Hc He Hr]; [tauto|]. unfold dkeys in *. rewrite map_app, in_app_iff. simpl in *. intuition congruence.
  Qed.
  Lemma ptree_NoDup p : ptree p -> NoDup (source :: dkeys p).
  Proof.
    intros H. constructor; [now apply ptree_source|].
    induction H as [|p e c Hp IH Hc He Hr]; [constructor|]. unfold dkeys in *. rewrite map_app. apply NoDup_snoc; auto. simpl in *. tauto.
  Qed.

  (** the path found, from its end backwards *)
  Inductive bpath : string -> list (string * string) -> Prop :=
  | bp_nil : bpath source []
  | bp_cons u v l : bpath u l -> edge_in u v -> v <> u -> (forall a, In a l -> fst a <> v /\ snd a <> v) -> v <> source ->
      bpath v ((u, v) :: l).

  Lemma path_arcs_ext p e c : ptree p -> ~ In e (source :: dkeys p) ->
    forall f v, In v (source :: dkeys p) -> path_arcs f (p ++ [(e, c)]) v = path_arcs f p v.
  Proof.
    intros Hp He. induction f as [|f IH]; intros v Hv; simpl; auto. rewrite dget_app. simpl.
    destruct (sget v p) as [u|] eqn:E.
    - rewrite IH; auto. eapply ptree_parent; eauto.
    - destruct (eqs v e); auto. subst. contradiction.
  Qed.
  Lemma path_arcs_spec p : ptree p -> forall v, In v (source :: dkeys p) -> exists l,
    bpath v l /\ (forall a, In a l -> In (fst a) (source :: dkeys p) /\ In (snd a) (source :: dkeys p)) /\
    forall f, S (length p) <= f -> path_arcs f p v = Ok l.
  Proof.
    induction 1 as [|p e c Hp IH Hc He Hr]; intros v Hv.
    - destruct Hv as [<-|[]]. exists []. split; [constructor|]. split; [intros ? []|]. intros [|f] Hf; [lia|]. reflexivity.
    - assert (Hv' : v = e \/ In v (source :: dkeys p)).
      { unfold dkeys in *. rewrite map_app in Hv. simpl in Hv. rewrite in_app_iff in Hv. simpl in *. intuition. }
      assert (Hincl : forall z, In z (source :: dkeys p) -> In z (source :: dkeys (p ++ [(e, c)]))).
      { intros z. unfold dkeys. rewrite map_app. simpl. rewrite in_app_iff. tauto. }
      rewrite app_length. simpl.
      destruct (in_dec string_dec v (source :: dkeys p)) as [Hin|Hout].
      + destruct (IH v Hin) as (l & B & Hl & F). exists l. split; auto. split.
        * intros a Ha. destruct (Hl a Ha). split; apply Hincl; auto.
        * intros f Hf. rewrite path_arcs_ext; auto. apply F. lia.
      + destruct Hv' as [->|]; [|contradiction]. destruct (IH c Hc) as (l & B & Hl & F).
        exists ((c, e) :: l). split; [|split].
        * constructor; auto.
          -- intros ->. contradiction.
          -- intros a Ha. destruct (Hl a Ha). split; intros <-; contradiction.
          -- intros ->. apply He. now left.
        * intros a [<-|Ha]; simpl.
          -- split; [now apply (Hincl c)|]. unfold dkeys. rewrite map_app, in_app_iff. simpl. auto.
          -- destruct (Hl a Ha). split; apply Hincl; auto.
        * intros f Hf. destruct f as [|f]; [lia|]. simpl. rewrite dget_app. simpl.
          assert (E : sget e p = None). { apply (dget_None _ eqs). intros X. apply He. now right. }
          rewrite E, String.eqb_refl. rewrite path_arcs_ext; auto. rewrite F by lia. reflexivity.
  Qed.

  Lemma bfs_scan_spec endpoints current : forall parent seen queue,
    ptree parent -> seen = source :: dkeys parent -> In current seen ->
    (forall e, In e endpoints -> edge_in current e) -> ~ In target seen ->
    match bfs_scan endpoints current target parent seen queue with
    | inl p => ptree p /\ In target (dkeys p)
    | inr (p, s, q) => ptree p /\ s = source :: dkeys p /\ ~ In target s /\
        (forall e, In e endpoints -> In e s) /\ (exists new, s = seen ++ new /\ q = queue ++ new)
    end.
  Proof.
    induction endpoints as [|e rest IH]; intros parent seen queue Hp Hs Hc He Ht; simpl.
    - split; auto. split; auto. split; auto. split; [intros ? []|]. exists []. now rewrite !app_nil_r.
    - destruct (mem_spec e seen) as [Hin|Hout].
      + specialize (IH parent seen queue Hp Hs Hc (fun x Hx => He x (or_intror Hx)) Ht).
        destruct (bfs_scan rest current target parent seen queue) as [p|[[p s] q]]; auto.
        destruct IH as (A & B & C & D & new & E & F). split; auto. split; auto. split; auto. split.
        * intros x [<-|Hx]; auto. rewrite E. apply in_or_app; auto.
        * eauto.
      + assert (Hk : ~ In e (dkeys parent)) by (intros X; apply Hout; subst; now right).
        assert (Ep : dset String.eqb e current parent = parent ++ [(e, current)]).
        { clear -Hk. induction parent as [|[k x] parent IH]; auto. simpl in *. destruct (eqs e k); [subst; tauto|]. rewrite IH; tauto. }
        rewrite Ep.
        assert (Hp' : ptree (parent ++ [(e, current)])).
        { constructor; auto; try (subst; auto; fail). apply He; now left. }
        assert (Ek : source :: dkeys (parent ++ [(e, current)]) = seen ++ [e]).
        { unfold dkeys. rewrite map_app. subst. reflexivity. }
        destruct (eqs e target) as [->|Hne].
        * split; auto. unfold dkeys. rewrite map_app, in_app_iff. simpl. auto.
        * assert (C1 : In current (seen ++ [e])) by (apply in_or_app; auto).
          assert (C2 : forall x, In x rest -> edge_in current x) by (intros x Hx; apply He; now right).
          assert (C3 : ~ In target (seen ++ [e])) by (rewrite in_app_iff; simpl; intuition).
          specialize (IH (parent ++ [(e, current)]) (seen ++ [e]) (queue ++ [e]) Hp' (eq_sym Ek) C1 C2 C3).
          destruct (bfs_scan rest current target _ _ _) as [p|[[p s] q]]; auto.
          destruct IH as (A & B & C & D & new & E & F). split; auto. split; auto. split; auto. split.
          -- intros x [<-|Hx]; auto. rewrite E. apply in_or_app. left. apply in_or_app. simpl; auto.
          -- exists (e :: new). rewrite E, F, <- !app_assoc. split; reflexivity.
  Qed.

  (** every name that can be enqueued *)
  Definition inner : list string := concat (map (fun p => dkeys (snd p)) r).
  Lemma inner_length : length inner = list_sum (map (fun p : string * list (string * Qc) => length (snd p)) r).
  Proof.
    unfold inner. induction r as [|[k d] r' IH]; simpl; auto. rewrite app_length, IH. unfold dkeys. now rewrite map_length.
  Qed.
  Lemma edge_inner u v : edge_in u v -> In v inner.
  Proof.
    unfold edge_in, rval. destruct (sget u r) as [d|] eqn:E; [|congruence]. intros H.
    apply (dget_keys _ eqs) in H. unfold inner. apply in_concat. exists (dkeys d). split; auto.
    apply (dget_In _ eqs) in E. apply in_map_iff. exists (u, d). auto.
  Qed.
  Lemma ptree_bound p : ptree p -> length (dkeys p) <= length inner.
  Proof.
    intros H. apply NoDup_incl_length; [pose proof (ptree_NoDup p H) as N; now inversion N|].
    induction H as [|p e c Hp IH Hc He Hr]; [intros ? []|]. unfold dkeys. rewrite map_app.
    apply incl_app; auto. intros x [<-|[]]. simpl. eapply edge_inner; eauto.
  Qed.

  Lemma edge_keys u e : In e (dkeys (match sget u r with Some d => d | None => [] end)) <-> edge_in u e.
  Proof.
    unfold edge_in, rval. destruct (sget u r) as [d|]; [|simpl; tauto]. symmetry. apply (dget_keys _ eqs).
  Qed.

  Lemma bfs_loop_spec fuel : forall parent seen queue done,
    ptree parent -> seen = source :: dkeys parent -> ~ In target seen ->
    seen = done ++ queue -> (forall u v, In u done -> edge_in u v -> In v seen) ->
    2 + length inner - length done <= fuel ->
    (bfs_loop fuel r target parent seen queue = Ok None /\
       exists S, In source S /\ ~ In target S /\ forall u v, In u S -> edge_in u v -> In v S) \/
    (exists p, bfs_loop fuel r target parent seen queue = Ok (Some p) /\ ptree p /\ In target (dkeys p)).
  Proof.
    induction fuel as [|fuel IH]; intros parent seen queue done Hp Hs Ht Hd Hcl Hf.
    - exfalso. assert (length seen <= 1 + length inner).
      { subst seen. simpl. pose proof (ptree_bound parent Hp). lia. }
      rewrite Hd, app_length in H. lia.
    - simpl. destruct queue as [|current queue].
      + left. split; auto. exists seen. rewrite app_nil_r in Hd. split; [subst seen; now left|]. split; auto.
        intros u v Hu. apply Hcl. congruence.
      + assert (Hc : In current seen) by (rewrite Hd; apply in_or_app; simpl; auto).
        pose proof (bfs_scan_spec (dkeys (match sget current r with Some d => d | None => [] end)) current parent seen queue Hp Hs Hc
           (fun e He => proj1 (edge_keys current e) He) Ht) as Sp.
        destruct (bfs_scan _ current target parent seen queue) as [p|[[p s] q]].
        * right. exists p. tauto.
        * destruct Sp as (A & B & C & D & new & E & F).
          apply (IH p s q (done ++ [current])); auto.
          -- rewrite E, F, Hd, <- !app_assoc. reflexivity.
          -- intros u v Hu Huv. apply in_app_iff in Hu. destruct Hu as [Hu|[<-|[]]].
             ++ rewrite E. apply in_or_app. left. eapply Hcl; eauto.
             ++ apply D. now apply edge_keys.
          -- rewrite app_length. cbn [length].
             assert (length seen <= 1 + length inner).
             { rewrite Hs. simpl. pose proof (ptree_bound parent Hp). lia. }
             rewrite Hd, app_length in H. cbn [length] in H. lia.
  Qed.

  (** the search always ends; it finds a simple path along residual entries, or a set closed
      under them that contains the source and not the target *)
  Lemma bfs_path_spec :
    (bfs_path source target r = Ok None /\
       exists S, In source S /\ ~ In target S /\ forall u v, In u S -> edge_in u v -> In v S) \/
    (exists p l, bfs_path source target r = Ok (Some p) /\
       path_arcs (2 + length p) p target = Ok l /\ bpath target l).
  Proof.
    unfold bfs_path, bfs_fuel. rewrite <- inner_length.
    destruct (bfs_loop_spec (2 + length inner) [] [source] [source] []) as [H|(p & H1 & H2 & H3)]; auto.
    - constructor.
    - simpl. intuition.
    - intros u v [].
    - right. destruct (path_arcs_spec p H2 target) as (l & B & _ & F); [now right|].
      exists p, l. split; auto. split; auto. apply F. lia.
  Qed.
End BFS.
