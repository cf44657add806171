(** A network on which the augmenting loop of ford_fulkerson never ends. *)
From Coq Require Import String List Bool Arith QArith Qcanon Lia Permutation.
From Verif Require Import Py QcTac QSum QInt UndirectedModel UndirectedProofs DirectedModel DirectedSpec DirectedProofs FlowModel FlowSpec FlowTheory ResidualProofs DirectedFinal FFProofs.
Import ListNotations.
Open Scope nat_scope.
Open Scope string_scope.
Open Scope list_scope.

(** ** the search only depends on which residual entries exist *)
Definition shape (r : rnet) : list (string * list string) := map (fun p => (fst p, dkeys (snd p))) r.

Lemma shape_dget r u : sget u (shape r) = option_map dkeys (sget u r).
Proof. induction r as [|[k d] r IH]; simpl; auto. destruct (String.eqb u k); auto. Qed.
Lemma shape_scan r r' u : shape r = shape r' ->
  dkeys (match sget u r with Some d => d | None => [] end) = dkeys (match sget u r' with Some d => d | None => [] end).
Proof.
  intros H. pose proof (shape_dget r u) as H1. pose proof (shape_dget r' u) as H2. rewrite <- H in H2. rewrite H1 in H2.
  destruct (sget u r), (sget u r'); simpl in *; congruence.
Qed.
Lemma shape_loop r r' target fuel : shape r = shape r' -> forall parent seen queue,
  bfs_loop fuel r target parent seen queue = bfs_loop fuel r' target parent seen queue.
Proof.
  intros H. induction fuel as [|fuel IH]; intros; simpl; auto. destruct queue as [|c q]; auto.
  rewrite (shape_scan r r' c H). destruct (bfs_scan _ c target parent seen q) as [|[[? ?] ?]]; auto.
Qed.
Lemma shape_fuel r r' : shape r = shape r' -> bfs_fuel r = bfs_fuel r'.
Proof.
  intros H. unfold bfs_fuel. f_equal. f_equal.
  assert (E : forall r : rnet, map (fun p : string * list (string * Qc) => length (snd p)) r = map (fun p => length (snd p)) (shape r)).
  { intros x. unfold shape. rewrite map_map. apply map_ext. intros [k d]. simpl. unfold dkeys. now rewrite map_length. }
  now rewrite !E, H.
Qed.
Lemma shape_bfs s t r r' : shape r = shape r' -> bfs_path s t r = bfs_path s t r'.
Proof. intros H. unfold bfs_path. rewrite (shape_fuel r r' H). now apply shape_loop. Qed.

Lemma shape_dset_same (r : rnet) u d d' : sget u r = Some d -> dkeys d' = dkeys d -> shape (dset String.eqb u d' r) = shape r.
Proof.
  intros E H. induction r as [|[k x] r IH]; simpl in *; [discriminate|].
  destruct (eqs u k) as [->|]; simpl.
  - inversion E; subst. now rewrite H.
  - now rewrite IH.
Qed.
Lemma shape_rset r u v x : rval r u v <> None -> shape (rset u v x r) = shape r.
Proof.
  unfold rval, rset. destruct (sget u r) as [d|] eqn:E; [|congruence]. intros H.
  eapply shape_dset_same; eauto. apply (dset_same_keys String.eqb eqs). now apply (dget_keys _ eqs).
Qed.

Lemma rupdate_shape arcs flow a u v c f r : u <> v -> rval r u v <> None -> rval r v u <> None ->
  dget eqe a arcs = Some c -> dget eqe a flow = Some f -> (c - f)%Qc <> 0%Qc -> f <> 0%Qc ->
  exists r', rupdate arcs flow a u v r = Ok r' /\ shape r' = shape r.
Proof.
  intros Hne H1 H2 Ec Ef N1 N2. unfold rupdate. rewrite Ec, Ef.
  set (r2 := rset v u f (rset u v (c - f)%Qc r)).
  assert (V1 : rval r2 u v = Some (c - f)%Qc).
  { unfold r2. rewrite !rval_rset. rewrite !String.eqb_refl. destruct (eqs u v); [congruence|]. reflexivity. }
  assert (V2 : rval r2 v u = Some f) by (unfold r2; rewrite rval_rset, !String.eqb_refl; reflexivity).
  unfold rdel_zero at 1. rewrite rget_rval, V1. cbn [bind]. destruct (qeq_spec (c - f) 0); [contradiction|]. cbn [bind].
  unfold rdel_zero at 1. rewrite rget_rval, V2. cbn [bind]. destruct (qeq_spec f 0); [contradiction|]. cbn [bind].
  assert (E1 : rdel_empty u r2 = Ok r2).
  { unfold rdel_empty. unfold rval in V1. destruct (sget u r2) as [[|]|]; auto; discriminate. }
  assert (E2 : rdel_empty v r2 = Ok r2).
  { unfold rdel_empty. unfold rval in V2. destruct (sget v r2) as [[|]|]; auto; discriminate. }
  rewrite E1. cbn [bind]. rewrite E2. exists r2. split; auto. unfold r2.
  rewrite !shape_rset; auto. rewrite rval_rset. destruct (_ && _); [discriminate|auto].
Qed.

(** pairs that do not meet, in either direction *)
Fixpoint sep (l : list (string * string)) : Prop :=
  match l with
  | [] => True
  | (u, v) :: l' => u <> v /\ (forall p q, In (p, q) l' -> (p, q) <> (u, v) /\ (p, q) <> (v, u)) /\ sep l'
  end.

Section Steady.
  Variable arcs : list (arc * Qc).
  Variable d : Qc.

  (** the arc and new value at the pair [(p, q)] *)
  Definition next (flow : list (arc * Qc)) (p q : string) (c x : Qc) : Prop :=
    (dget eqe (p, q) arcs = Some c /\ x = (fget flow (p, q) + d)%Qc) \/
    (dget eqe (p, q) arcs = None /\ dget eqe (q, p) arcs = Some c /\ x = (fget flow (q, p) - d)%Qc).

  Lemma update_steady l : forall flow r, base arcs flow r -> sep l ->
    (forall p q, In (p, q) l -> rval r p q <> None /\ rval r q p <> None /\
        exists c x, next flow p q c x /\ (c - x)%Qc <> 0%Qc /\ x <> 0%Qc) ->
    exists flow' r', ff_update arcs l d flow r = Ok (flow', r') /\ base arcs flow' r' /\ shape r' = shape r /\
      (forall p q c x, In (p, q) l -> next flow p q c x ->
         rval r' p q = Some (c - x)%Qc /\ rval r' q p = Some x /\
         (dget eqe (p, q) arcs = Some c -> fget flow' (p, q) = x) /\
         (dget eqe (p, q) arcs = None -> fget flow' (q, p) = x)) /\
      (forall p q, ~ In (p, q) l -> ~ In (q, p) l -> fget flow' (p, q) = fget flow (p, q) /\ rval r' p q = rval r p q).
  Proof.
    induction l as [|[u v] l IH]; intros flow r B Hs Hok.
    - exists flow, r. split; [reflexivity|]. split; [exact B|]. split; [reflexivity|]. split; [intros ? ? ? ? []|auto].
    - destruct Hs as (Hne & Hsep & Hs). destruct (Hok u v (or_introl eq_refl)) as (R1 & R2 & c & x & Hn & N1 & N2).
      destruct (B) as (K & R & Sp).
      assert (Hin : In (u, v) (dkeys arcs) \/ In (v, u) (dkeys arcs)) by (apply Sp; auto).
      destruct (step_gen arcs u v d flow r B Hne Hin) as (a & x' & c' & r1 & E1 & E2 & B1 & Ha & Ec & Hc & V1 & V2 & V3).
      assert (Q : x' = x /\ c' = c /\ (dget eqe (u, v) arcs = Some c -> a = (u, v)) /\ (dget eqe (u, v) arcs = None -> a = (v, u)) /\ (a = (u, v) \/ a = (v, u))).
      { destruct Hc as [(-> & ->)|(-> & Hna & ->)].
        - destruct Hn as [(H1 & ->)|(H1 & _ & _)]; [|congruence]. rewrite Ec in H1. inversion H1. 
          split; [auto|]. split; [auto|]. split; [auto|]. split; [congruence|auto].
        - destruct Hn as [(H1 & _)|(H1 & H2 & ->)]; [apply (get_key _ eqe_spec) in H1; contradiction|].
          rewrite Ec in H2. inversion H2. split; [auto|]. split; [auto|]. split; [congruence|]. split; [auto|auto]. }
      destruct Q as (-> & -> & Qf & Qb & Qa).
      destruct (rupdate_shape arcs (dset eqe a x flow) a u v c x r) as (r1' & E2' & Sh1); auto.
      { apply (dget_dset_eq _ eqe_spec). }
      rewrite E2 in E2'. inversion E2'; subst r1'. clear E2'.
      assert (Fo : forall p q, (p, q) <> (u, v) -> (p, q) <> (v, u) -> fget (dset eqe a x flow) (p, q) = fget flow (p, q)).
      { intros p q H1 H2. rewrite fget_dset. destruct (eqe_spec (p, q) a); auto. destruct Qa; congruence. }
      assert (Nx : forall p q c0 x0, In (p, q) l -> (next (dset eqe a x flow) p q c0 x0 <-> next flow p q c0 x0)).
      { intros p q c0 x0 Hpq. destruct (Hsep p q Hpq) as [H1 H2]. unfold next. rewrite !Fo; [reflexivity| | |auto|auto];
          intros E; inversion E; subst; congruence. }
      destruct (IH (dset eqe a x flow) r1 B1 Hs) as (flow' & r' & E & B' & Sh & P1 & P2).
      { intros p q Hpq. destruct (Hok p q (or_intror Hpq)) as (H1 & H2 & c0 & x0 & H3 & H4). destruct (Hsep p q Hpq) as [H5 H6].
        assert ((q, p) <> (u, v) /\ (q, p) <> (v, u)) as [H7 H8] by (split; intros X; inversion X; subst; congruence).
        rewrite !V3; auto. split; [auto|]. split; [auto|]. exists c0, x0. rewrite Nx; auto. }
      exists flow', r'. split; [|split; [exact B'|split; [congruence|split]]].
      + simpl. rewrite E1. simpl. rewrite E2. simpl. exact E.
      + intros p q c0 x0 [Epq|Hpq] Hn0.
        * inversion Epq; subst p q. 
          assert (Q : x0 = x /\ c0 = c).
          { unfold next in *. destruct Hn as [(H1 & ->)|(H1 & H2 & ->)], Hn0 as [(H3 & ->)|(H3 & H4 & ->)]; try congruence.
            - rewrite H1 in H3. inversion H3; auto.
            - rewrite H2 in H4. inversion H4; auto. }
          destruct Q as [-> ->].
          assert (Ni : ~ In (u, v) l) by (intros X; destruct (Hsep _ _ X); congruence).
          assert (Nj : ~ In (v, u) l) by (intros X; destruct (Hsep _ _ X); congruence).
          destruct (P2 u v Ni Nj) as [F1 G1]. destruct (P2 v u Nj Ni) as [F2 G2].
          assert (Z1 : nz (c - x)%Qc = Some (c - x)%Qc) by (unfold nz; destruct (qeq_spec (c - x) 0); [contradiction|auto]).
          assert (Z2 : nz x = Some x) by (unfold nz; destruct (qeq_spec x 0); [contradiction|auto]).
          rewrite G1, G2, V1, V2, F1, F2, Z1, Z2. split; [auto|]. split; [auto|]. split; intros Hd; rewrite fget_dset.
          -- rewrite (Qf Hd). destruct (eqe_spec (u, v) (u, v)); congruence.
          -- rewrite (Qb Hd). destruct (eqe_spec (v, u) (v, u)); congruence.
        * apply P1; auto. now apply Nx.
      + intros p q H1 H2. destruct (P2 p q) as [F G]; [intros X; apply H1; now right|intros X; apply H2; now right|].
        assert ((p, q) <> (u, v)) by (intros X; apply H1; left; auto).
        assert ((p, q) <> (v, u)) by (intros X; inversion X; subst; apply H2; left; auto).
        rewrite F, G, Fo, V3; auto.
  Qed.
End Steady.

(** ** the network *)
Definition trap_arcs : list (arc * Qc) :=
  [(("v", "u"), qz 4); (("s", "v"), qz 4); (("u", "t"), qz 4);
   (("s", "1"), qz 20); (("1", "2"), qz 20); (("2", "3"), qz 20); (("3", "4"), qz 20); (("4", "5"), qz 20); (("5", "6"), qz 20);
   (("2", "u"), qz 1); (("4", "v"), qz 3); (("6", "u"), qz 2);
   (("g", "f"), qz 20); (("f", "e"), qz 20); (("e", "d"), qz 20); (("d", "c"), qz 20); (("c", "b"), qz 20); (("b", "a"), qz 20);
   (("a", "t"), qz 20);
   (("v", "b"), qz 1); (("u", "d"), qz 3); (("v", "f"), qz 1); (("v", "g"), qz 1)].

(** the path taken forever, from the sink backwards *)
Definition trap_path : list (string * string) :=
  [("a", "t"); ("b", "a"); ("c", "b"); ("d", "c"); ("e", "d"); ("f", "e"); ("g", "f"); ("v", "g"); ("u", "v"); ("6", "u");
   ("5", "6"); ("4", "5"); ("3", "4"); ("2", "3"); ("1", "2"); ("s", "1")].

(** [n] augmentations *)
Fixpoint iterate (n : nat) (arcs : list (arc * Qc)) (s t : string) (flow : list (arc * Qc)) (r : rnet) : res (list (arc * Qc) * rnet) :=
  match n with
  | 0 => Ok (flow, r)
  | S n' =>
    do p <- bfs_path s t r ;
    match p with
    | None => Raise ValueError
    | Some path => do lfr <- ff_augment arcs t path flow r ; iterate n' arcs s t (fst (snd lfr)) (snd (snd lfr))
    end
  end.
Lemma iterate_loop arcs s t n : forall flow r flow' r' fuel trace, iterate n arcs s t flow r = Ok (flow', r') ->
  exists trace', ff_loop (n + fuel) arcs s t flow r trace = ff_loop fuel arcs s t flow' r' trace'.
Proof.
  induction n as [|n IH]; intros flow r flow' r' fuel trace E.
  - simpl in E. inversion E; subst. exists trace. reflexivity.
  - simpl in E |- *. destruct (bfs_path s t r) as [[path|]| |]; try discriminate. simpl in E.
    destruct (ff_augment arcs t path flow r) as [[l [f1 r1]]| |]; try discriminate. simpl in E. apply (IH f1 r1 flow' r'). exact E.
Qed.
Lemma iterate_Diverges arcs s t n : forall k flow r flow' r' trace, iterate n arcs s t flow r = Ok (flow', r') -> k <= n ->
  fst (ff_loop k arcs s t flow r trace) = Diverges.
Proof.
  induction n as [|n IH]; intros k flow r flow' r' trace E Hk.
  - assert (k = 0) by lia. subst. reflexivity.
  - destruct k as [|k]; [reflexivity|]. simpl in E |- *. destruct (bfs_path s t r) as [[path|]| |]; try discriminate. simpl in E.
    destruct (ff_augment arcs t path flow r) as [[l [f1 r1]]| |]; try discriminate. simpl in E. eapply IH; eauto. lia.
Qed.

Definition trap_flow0 : list (arc * Qc) := map (fun p => (fst p, 0%Qc)) trap_arcs.
Definition trap_r0 : rnet := match compute_residual_loop trap_arcs trap_flow0 [] with Ok r => r | _ => [] end.
Section Trap.
Variable r0 : rnet.
Hypothesis Hr0 : exists p, bfs_path "s" "t" r0 = Ok (Some p) /\ path_arcs (2 + length p) p "t" = Ok trap_path.

Definition trap_inv (flow : list (arc * Qc)) (r : rnet) : Prop :=
  base trap_arcs flow r /\ shape r = shape r0 /\
  (exists x, (x < 0)%Qc /\ rval r "u" "v" = Some x /\ rval r "v" "u" = Some (qz 4 - x)%Qc /\ fget flow ("v", "u") = (qz 4 - x)%Qc) /\
  (forall p q, In (p, q) trap_path -> (p, q) <> ("u", "v") ->
     exists c, dget eqe (p, q) trap_arcs = Some c /\ (0 <= c)%Qc /\ (fget flow (p, q) < 0)%Qc /\
       rval r p q = Some (c - fget flow (p, q))%Qc /\ rval r q p = Some (fget flow (p, q))).

Lemma trap_base_iter n : forall flow r flow' r', base trap_arcs flow r -> iterate n trap_arcs "s" "t" flow r = Ok (flow', r') -> base trap_arcs flow' r'.
Proof.
  induction n as [|n IH]; intros flow r flow' r' B E; simpl in E; [inversion E; subst; auto|].
  destruct (bfs_path_spec r "s" "t") as [[Eb _]|(p & l & Eb & Ep & Hb)]; [discriminate|rewrite Eb in E; discriminate|].
  rewrite Eb in E. simpl in E.
  destruct (augment_gen trap_arcs "s" "t") with (flow := flow) (r := r) (p := p) (l := l) as (d & f1 & r1 & _ & _ & Ea & B' & _); auto; try discriminate.
  - cbv [trap_arcs dkeys map fst]. repeat constructor; simpl; intuition discriminate.
  - rewrite Ea in E. simpl in E. eapply IH; eauto.
Qed.

Lemma path_sep : sep trap_path.
Proof. cbn [sep trap_path]. repeat split; try discriminate; intros; repeat (destruct H as [H|H]; [inversion H; discriminate|]); destruct H. Qed.

Lemma trap_bfs r : shape r = shape r0 -> exists p, bfs_path "s" "t" r = Ok (Some p) /\ path_arcs (2 + length p) p "t" = Ok trap_path.
Proof. intros H. rewrite (shape_bfs "s" "t" r r0 H). exact Hr0. Qed.

Lemma pathE p q : In (p, q) trap_path -> {(p, q) = ("u", "v")} + {(p, q) <> ("u", "v")}.
Proof. intros _. apply arc_dec. Qed.

(** each augmentation along the path doubles the residual of the reversed arc *)
Lemma trap_step flow r : trap_inv flow r ->
  exists p flow' r', bfs_path "s" "t" r = Ok (Some p) /\ ff_augment trap_arcs "t" p flow r = Ok (trap_path, (flow', r')) /\ trap_inv flow' r'.
Proof.
  intros (B & Sh & (x & Hx & X1 & X2 & X3) & Hf).
  destruct (trap_bfs r Sh) as (p & Eb & Ep).
  destruct (min_residual_spec r trap_path None) as (d & Ed & M1 & _ & M2).
  { intros u v Hin. destruct (pathE u v Hin) as [E|N].
    - inversion E; subst. unfold edge_in. congruence.
    - destruct (Hf u v Hin N) as (c & _ & _ & _ & H & _). unfold edge_in. congruence. }
  { left. discriminate. }
  assert (Ed' : d = x).
  { destruct M2 as [(u & v & Hin & Hr)|]; [|discriminate].
    destruct (pathE u v Hin) as [E|N]; [inversion E; subst; congruence|].
    destruct (Hf u v Hin N) as (c & _ & Hc & Hneg & H & _). rewrite H in Hr. inversion Hr.
    pose proof (M1 "u" "v" x) as Hm. cbn [trap_path In] in Hm. specialize (Hm ltac:(tauto) X1). exfalso. qclra. }
  subst d.
  assert (Euv : dget eqe ("u", "v") trap_arcs = None) by reflexivity.
  assert (Evu : dget eqe ("v", "u") trap_arcs = Some (qz 4)) by reflexivity.
  assert (Nuv : next trap_arcs x flow "u" "v" (qz 4) (qz 4 - (x + x))%Qc).
  { right. split; [exact Euv|]. split; [exact Evu|]. rewrite X3. ring. }
  assert (H4 : (0 < qz 4)%Qc) by reflexivity.
  destruct (update_steady trap_arcs x trap_path flow r B path_sep) as (flow' & r' & E & B' & Sh' & P1 & P2).
  { intros u v Hin. destruct (pathE u v Hin) as [Euv'|N].
    - inversion Euv'; subst. split; [congruence|]. split; [congruence|]. exists (qz 4), (qz 4 - (x + x))%Qc. split; [auto|].
      split; intros Z; qclra.
    - destruct (Hf u v Hin N) as (c & Ec & Hc & Hneg & H1 & H2). split; [congruence|]. split; [congruence|].
      exists c, (fget flow (u, v) + x)%Qc. split; [left; auto|]. split; intros Z; qclra. }
  exists p, flow', r'. split; [auto|]. split.
  - unfold ff_augment. rewrite Ep. cbn [bind]. unfold trap_path at 1. rewrite Ed. cbn [bind]. rewrite E. reflexivity.
  - split; [auto|]. split; [congruence|]. split.
    + exists (x + x)%Qc. destruct (P1 "u" "v" (qz 4) (qz 4 - (x + x))%Qc) as (V1 & V2 & _ & V3).
      { unfold trap_path. simpl. tauto. } { auto. }
      split; [qclra|]. split; [rewrite V1; f_equal; ring|]. split; [auto|]. apply V3. exact Euv.
    + intros u v Hin N. destruct (Hf u v Hin N) as (c & Ec & Hc & Hneg & H1 & H2). exists c. split; [auto|]. split; [auto|].
      destruct (P1 u v c (fget flow (u, v) + x)%Qc Hin) as (V1 & V2 & V3 & _); [left; auto|].
      rewrite (V3 Ec). split; [qclra|]. split; [auto|auto].
Qed.

Lemma trap_forever fuel : forall flow r trace, trap_inv flow r -> fst (ff_loop fuel trap_arcs "s" "t" flow r trace) = Diverges.
Proof.
  induction fuel as [|fuel IH]; intros flow r trace H; [reflexivity|].
  destruct (trap_step flow r H) as (p & flow' & r' & E1 & E2 & H'). simpl. rewrite E1, E2. apply IH, H'.
Qed.

(** the ninth state *)
Definition same (o : option Qc) (x : Qc) : bool := match o with Some y => qeq y x | None => false end.
Lemma same_ok o x : same o x = true -> o = Some x.
Proof. destruct o as [y|]; simpl; [|discriminate]. destruct (qeq_spec y x); congruence. Qed.
Definition trap_check (flow : list (arc * Qc)) (r : rnet) : bool :=
  match rval r "u" "v" with
  | Some x => qlt x 0 && same (rval r "v" "u") (qz 4 - x)%Qc && qeq (fget flow ("v", "u")) (qz 4 - x)%Qc
  | None => false
  end &&
  forallb (fun a => eqe a ("u", "v") ||
     match dget eqe a trap_arcs with
     | Some c => qle 0 c && qlt (fget flow a) 0 && same (rval r (fst a) (snd a)) (c - fget flow a)%Qc && same (rval r (snd a) (fst a)) (fget flow a)
     | None => false
     end) trap_path.
Lemma trap_check_ok flow r : trap_check flow r = true -> base trap_arcs flow r -> shape r = shape r0 -> trap_inv flow r.
Proof.
  unfold trap_check. intros H B Sh. apply andb_prop in H as [H1 H2]. split; [auto|]. split; [auto|]. split.
  - destruct (rval r "u" "v") as [x|] eqn:E; [|discriminate]. exists x. 
    apply andb_prop in H1 as [H1 H3]. apply andb_prop in H1 as [H1 H4].
    destruct (qlt_spec x 0); [|discriminate]. destruct (qeq_spec (fget flow ("v", "u")) (qz 4 - x)); [|discriminate].
    split; [auto|]. split; [auto|]. split; [now apply same_ok|auto].
  - intros p q Hin N. rewrite forallb_forall in H2. specialize (H2 _ Hin). destruct (eqe_spec (p, q) ("u", "v")); [contradiction|].
    cbn [orb] in H2. destruct (dget eqe (p, q) trap_arcs) as [c|] eqn:E; [|discriminate]. exists c. cbn [fst snd] in H2.
    apply andb_prop in H2 as [H2 H3]. apply andb_prop in H2 as [H2 H4]. apply andb_prop in H2 as [H2 H5].
    destruct (qle_spec 0 c); [|discriminate]. destruct (qlt_spec (fget flow (p, q)) 0); [|discriminate].
    split; [auto|]. split; [auto|]. split; [auto|]. split; now apply same_ok.
Qed.

End Trap.

Lemma trap_nd : NoDup (dkeys trap_arcs).
Proof. cbv [trap_arcs dkeys map fst]. repeat constructor; simpl; intuition discriminate. Qed.
Lemma trap_base0 : base trap_arcs trap_flow0 trap_r0.
Proof.
  destruct (compute_residual_raises trap_flow0 trap_arcs []) as [[r E]|[E _]].
  - assert (Er : trap_r0 = r) by (unfold trap_r0; now rewrite E). rewrite Er.
    destruct (compute_residual_support trap_flow0 trap_arcs [] r rok_nil E) as (R & Sp & _).
    split; [reflexivity|]. split; [auto|]. intros u v H. destruct (Sp u v H) as [X|X]; [|auto]. unfold rval in X. simpl in X. congruence.
  - exfalso. assert (X : (match compute_residual_loop trap_arcs trap_flow0 [] with Raise _ => false | _ => true end) = true) by (vm_compute; reflexivity).
    rewrite E in X. discriminate.
Qed.
Fixpoint pairs_eqb (l l' : list (string * string)) : bool :=
  match l, l' with [], [] => true | a :: l, b :: l' => eqe a b && pairs_eqb l l' | _, _ => false end.
Lemma pairs_eqb_ok l : forall l', pairs_eqb l l' = true -> l = l'.
Proof.
  induction l as [|a l IH]; intros [|b l'] H; simpl in H; auto; try discriminate.
  apply andb_prop in H as [H1 H2]. destruct (eqe_spec a b); [|discriminate]. f_equal; auto.
Qed.
Definition final_check (st : list (arc * Qc) * rnet) : bool :=
  trap_check (fst st) (snd st) &&
  match bfs_path "s" "t" (snd st) with
  | Ok (Some p) => match path_arcs (2 + length p) p "t" with Ok l => pairs_eqb l trap_path | _ => false end
  | _ => false
  end.
Lemma trap_main st : iterate 9 trap_arcs "s" "t" trap_flow0 trap_r0 = Ok st -> final_check st = true ->
  forall fuel trace, fst (ff_loop fuel trap_arcs "s" "t" trap_flow0 trap_r0 trace) = Diverges.
Proof.
  intros E C fuel trace. unfold final_check in C. apply andb_prop in C as [C1 C2].
  destruct st as [f r]. cbn [fst snd] in C1, C2.
  assert (H0 : exists p, bfs_path "s" "t" r = Ok (Some p) /\ path_arcs (2 + length p) p "t" = Ok trap_path).
  { clear - C2. destruct (bfs_path "s" "t" r) as [[p|]| |]; try discriminate. exists p. split; auto.
    destruct (path_arcs (2 + length p) p "t"); try discriminate. f_equal. now apply pairs_eqb_ok. }
  assert (I : trap_inv r f r).
  { apply trap_check_ok; [exact C1| |reflexivity]. eapply trap_base_iter; [exact trap_base0|exact E]. }
  destruct (le_lt_dec fuel 9) as [L|L].
  - exact (iterate_Diverges _ _ _ 9 fuel _ _ f r trace E L).
  - replace fuel with (9 + (fuel - 9)) by lia. destruct (iterate_loop _ _ _ _ _ _ _ _ (fuel - 9) trace E) as [tr ->].
    apply (trap_forever r H0). exact I.
Qed.
Lemma trap_diverges : forall fuel trace, fst (ff_loop fuel trap_arcs "s" "t" trap_flow0 trap_r0 trace) = Diverges.
Proof.
  assert (X : (match iterate 9 trap_arcs "s" "t" trap_flow0 trap_r0 with Ok st => final_check st | _ => false end) = true) by (vm_compute; reflexivity).
  destruct (iterate 9 trap_arcs "s" "t" trap_flow0 trap_r0) as [st| |] eqn:E; [|clear E; discriminate X|clear E; discriminate X].
  exact (trap_main st E X).
Qed.
Lemma trap_r0_eq r : compute_residual_loop trap_arcs trap_flow0 [] = Ok r -> trap_r0 = r.
Proof. intros E. unfold trap_r0. rewrite E. reflexivity. Qed.
Lemma trap_any arcs flow r : arcs = trap_arcs -> flow = trap_flow0 -> compute_residual_loop arcs flow [] = Ok r ->
  forall fuel, fst (ff_loop fuel arcs "s" "t" flow r []) = Diverges.
Proof. intros -> -> E fuel. rewrite <- (trap_r0_eq r E). exact (trap_diverges fuel []). Qed.
