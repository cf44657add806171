(** preflow_push: the labelling invariant, the height bound, termination and maximality. *)
From Coq Require Import String List Bool Arith QArith Qcanon Lia ZArith.
From Verif Require Import Py QcTac QSum QInt UndirectedModel UndirectedProofs DirectedModel DirectedSpec DirectedProofs FlowModel FlowSpec FlowTheory ResidualProofs DirectedFinal FFProofs.
Import ListNotations.
Open Scope nat_scope.
Open Scope string_scope.
Open Scope list_scope.

Definition hv (h : list (string * nat)) (v : string) : nat := match sget v h with Some x => x | None => 0 end.
Definition ev (e : list (string * Qc)) (v : string) : Qc := match sget v e with Some x => x | None => 0%Qc end.

Lemma hv_dset h v x w : hv (dset String.eqb v x h) w = if String.eqb w v then x else hv h w.
Proof. unfold hv. rewrite (dget_dset _ eqs). destruct (eqs w v); auto. Qed.
Lemma ev_dset e v x w : ev (dset String.eqb v x e) w = if String.eqb w v then x else ev e w.
Proof. unfold ev. rewrite (dget_dset _ eqs). destruct (eqs w v); auto. Qed.
Lemma hget_hv h v : In v (dkeys h) -> hget v h = Ok (hv h v).
Proof. intros H. unfold hget, hv. destruct (key_get _ eqs _ _ H) as [x ->]. reflexivity. Qed.
Lemma eget_ev e v : In v (dkeys e) -> eget v e = Ok (ev e v).
Proof. intros H. unfold eget, ev. destruct (key_get _ eqs _ _ H) as [x ->]. reflexivity. Qed.

(** a level used by nobody *)
Lemma empty_level (h : string -> nat) (N : list string) (lo len : nat) : length N < len ->
  exists k, lo <= k < lo + len /\ forall v, In v N -> h v <> k.
Proof.
  intros HL. destruct (Forall_Exists_dec (fun k => In k (map h N)) (fun k => in_dec Nat.eq_dec k (map h N)) (seq lo len)) as [F|F].
  - exfalso. assert (len <= length N); [|lia]. rewrite <- (seq_length len lo), <- (map_length h N).
    apply NoDup_incl_length; [apply seq_NoDup|]. intros k Hk. rewrite Forall_forall in F. auto.
  - apply Exists_exists in F. destruct F as (k & Hk & Hn). exists k. apply in_seq in Hk. split; [lia|].
    intros v Hv E. apply Hn. rewrite <- E. now apply in_map.
Qed.

Section Preflow.
  Variable arcs : list (arc * Qc).
  Variables s t : string.
  Variable V N : list string.
  Hypothesis Hst : s <> t.
  Hypothesis Hnd : NoDup (dkeys arcs).
  Hypothesis Hloop : forall u v, In (u, v) (dkeys arcs) -> u <> v.
  Hypothesis Hw : one_way arcs.
  Hypothesis Hcap : forall a c, In (a, c) arcs -> (0 <= c)%Qc.
  Hypothesis HV : NoDup V.
  Hypothesis HVa : forall u v, In (u, v) (dkeys arcs) -> In u V /\ In v V.
  Hypothesis HsV : In s V.
  Hypothesis HtV : In t V.
  Hypothesis HN : forall v, In v N <-> In v V /\ v <> s /\ v <> t.
  Hypothesis HNd : NoDup N.
  Let n := length V.

  Lemma N_length : length N + 2 = n.
  Proof.
    unfold n. replace (length N + 2) with (length (s :: t :: N)) by (simpl; lia).
    apply Nat.le_antisymm; apply NoDup_incl_length; auto.
    - constructor; [|constructor; auto].
      + intros [H|H]; [congruence|]. apply HN in H. tauto.
      + intros H. apply HN in H. tauto.
    - intros v [<-|[<-|H]]; auto. now apply HN in H.
    - intros v H. simpl. destruct (string_dec v s); [auto|]. destruct (string_dec v t); [auto|]. right. right. apply HN. auto.
  Qed.

  Record pre (st : pstate) : Prop := {
    pr_exact : exact arcs (p_flow st) (p_residual st);
    pr_ekeys : dkeys (p_excess st) = N;
    pr_excess : forall v, In v N -> ev (p_excess st) v = (- net arcs (fget (p_flow st)) v)%Qc;
    pr_pos : forall v, In v N -> (0 <= ev (p_excess st) v)%Qc;
    pr_hkeys : dkeys (p_height st) = V;
    pr_hs : hv (p_height st) s = n;
    pr_ht : hv (p_height st) t = 0;
    pr_valid : forall u v, edge_in (p_residual st) u v -> hv (p_height st) u <= S (hv (p_height st) v);
    pr_bound : forall v, hv (p_height st) v <= 2 * n - 1;
    pr_index : p_index st <= length N;
    pr_done : forall i v, i < p_index st -> nth_error N i = Some v -> ev (p_excess st) v = 0%Qc }.

  Lemma edge_V flow r u v : base arcs flow r -> edge_in r u v -> In u V /\ In v V /\ u <> v.
  Proof.
    intros (_ & _ & Sp) He. destruct (Sp u v He) as [H|H]; destruct (HVa _ _ H); pose proof (Hloop _ _ H); auto.
  Qed.

  (** positive inflow surplus gives a residual arc out *)
  Lemma surplus_edge flow r v : exact arcs flow r -> (net arcs (fget flow) v < 0)%Qc -> exists u, edge_in r v u.
  Proof.
    intros (B & Vx & W) Hn.
    assert (Hx : exists a, In a (dkeys arcs) /\ snd a = v /\ (0 < fget flow a)%Qc).
    { destruct (existsb (fun a => String.eqb (snd a) v && qlt 0 (fget flow a)) (dkeys arcs)) eqn:E.
      - apply existsb_exists in E. destruct E as (a & Ha & Hb). apply andb_prop in Hb as [Hb1 Hb2].
        exists a. split; auto. destruct (eqs (snd a) v); [|discriminate]. split; auto. destruct (qlt_spec 0 (fget flow a)); [auto|discriminate].
      - exfalso. assert (0 <= net arcs (fget flow) v)%Qc; [|qclra]. rewrite net_Sigma. apply Sigma_nonneg. intros a Ha.
        assert (Hk : exists c, In (a, c) arcs) by (apply key_In; exact Ha). destruct Hk as [c Hc].
        destruct (W _ _ Hc) as [W1 _].
        assert (Hz : String.eqb (snd a) v && qlt 0 (fget flow a) = false).
        { destruct (String.eqb (snd a) v && qlt 0 (fget flow a)) eqn:Q; auto.
          assert (existsb (fun a => String.eqb (snd a) v && qlt 0 (fget flow a)) (dkeys arcs) = true); [|congruence].
          apply existsb_exists. exists a. auto. }
        unfold ind. destruct (String.eqb (snd a) v).
        + simpl in Hz. destruct (qlt_spec 0 (fget flow a)); [discriminate|].
          assert (fget flow a = 0%Qc) by qclra. rewrite H.
          match goal with |- (0 <= ?x)%Qc => replace x with 0%Qc by ring end. apply Qcle_refl.
        + destruct (String.eqb (fst a) v); qclra. }
    destruct Hx as ([u w] & Ha & Hs & Hp). simpl in Hs. subst w. exists u. unfold edge_in. rewrite Vx. unfold rexp.
    assert (dget eqe (v, u) arcs = None) as -> by (apply (dget_None _ eqe_spec), Hw, Ha).
    destruct (key_get _ eqe_spec _ _ Ha) as [c ->]. destruct (qlt_spec 0 (fget flow (u, v))); [discriminate|contradiction].
  Qed.

  (** across a gap in the labelling no residual arc leaves the upper part *)
  Lemma gap_cut st (h : string -> nat) k : (forall u v, edge_in (p_residual st) u v -> h u <= S (h v)) ->
    (forall v, In v V -> h v <> k) -> exact arcs (p_flow st) (p_residual st) ->
    forall u v, k < h u -> edge_in (p_residual st) u v -> k < h v.
  Proof.
    intros Hval Hk X u v Hu He. pose proof (Hval _ _ He). destruct (edge_V _ _ _ _ (proj1 X) He) as (_ & Hv & _).
    specialize (Hk v Hv). lia.
  Qed.

  (** a set no residual arc leaves receives no net flow *)
  Lemma closed_net flow r (inside : string -> bool) : exact arcs flow r ->
    (forall u v, edge_in r u v -> inside u = true -> inside v = true) ->
    (0 <= Sigma V (fun v => ind (inside v) * net arcs (fget flow) v))%Qc.
  Proof.
    intros X Hc. pose proof X as (B & Vx & W). rewrite (sum_net arcs V (fget flow) inside HV).
    2: { intros [u v] Ha. apply HVa, Ha. }
    apply Sigma_nonneg. intros [u v] Ha. cbn [fst snd].
    assert (Hk : exists c, In ((u, v), c) arcs) by (apply key_In; exact Ha). destruct Hk as [c Hc'].
    destruct (W _ _ Hc') as [W1 W2].
    destruct (inside u) eqn:Iu, (inside v) eqn:Iv; unfold ind; try qclra.
    assert (fget flow (u, v) = 0%Qc); [|rewrite H; match goal with |- (0 <= ?x)%Qc => replace x with 0%Qc by ring end; apply Qcle_refl].
    destruct (qlt_spec 0 (fget flow (u, v))) as [L|L]; [|qclra]. exfalso.
    assert (inside u = true); [|congruence]. apply (Hc v u); auto. unfold edge_in. rewrite Vx. unfold rexp.
    assert (dget eqe (v, u) arcs = None) as -> by (apply (dget_None _ eqe_spec), Hw, Ha).
    apply (arc_cap arcs Hnd) in Hc'. rewrite Hc'. destruct (qlt_spec 0 (fget flow (u, v))); [discriminate|contradiction].
  Qed.

  (** the height of a node with excess *)
  Lemma height_bound flow r (h : string -> nat) u : exact arcs flow r ->
    (forall u v, edge_in r u v -> h u <= S (h v)) -> h s = n -> h t = 0 ->
    (forall v, In v N -> (net arcs (fget flow) v <= 0)%Qc) -> In u N -> (net arcs (fget flow) u < 0)%Qc -> h u <= 2 * n - 1.
  Proof.
    intros X Hval Hs Ht Hle Hu Hlt. destruct (le_lt_dec (h u) (2 * n - 1)) as [L|L]; [auto|exfalso].
    pose proof N_length as HL.
    assert (Hr : length (remove string_dec u N) < length N) by (apply remove_length_lt; auto).
    destruct (empty_level h (remove string_dec u N) (S n) (n - 2)) as (k & Hk & Hno); [lia|].
    assert (Hall : forall v, In v V -> h v <> k).
    { intros v Hv. destruct (string_dec v s) as [->|N1]; [lia|]. destruct (string_dec v t) as [->|N2]; [lia|].
      destruct (string_dec v u) as [->|N3]; [lia|]. apply Hno. apply in_in_remove; auto. apply HN. auto. }
    pose (inside := fun v => Nat.ltb k (h v)).
    assert (Cl : forall a b, edge_in r a b -> inside a = true -> inside b = true).
    { intros a b He Ha. unfold inside in *. apply Nat.ltb_lt in Ha. apply Nat.ltb_lt.
      pose proof (Hval _ _ He). destruct (edge_V _ _ _ _ (proj1 X) He) as (_ & Hb & _). specialize (Hall b Hb). lia. }
    pose proof (closed_net flow r inside X Cl) as P.
    assert (Q : (Sigma V (fun v => ind (inside v) * net arcs (fget flow) v) < 0)%Qc).
    { assert (Hp : (0 < Sigma V (fun v => ind (inside v) * - net arcs (fget flow) v))%Qc).
      { apply (Sigma_pos V _ u).
        - intros v Hv. unfold inside, ind. destruct (Nat.ltb_spec k (h v)) as [L'|L'].
          + assert (In v N) by (apply HN; split; [auto|]; split; intros ->; lia). specialize (Hle v H). qclra.
          + match goal with |- (0 <= ?x)%Qc => replace x with 0%Qc by ring end. apply Qcle_refl.
        - now apply HN in Hu.
        - unfold inside, ind. destruct (Nat.ltb_spec k (h u)) as [L'|L']; [qclra|lia]. }
      assert (E : Sigma V (fun v => ind (inside v) * - net arcs (fget flow) v)%Qc = (- Sigma V (fun v => ind (inside v) * net arcs (fget flow) v))%Qc).
      { transitivity (Sigma V (fun v => 0 - ind (inside v) * net arcs (fget flow) v)%Qc); [apply Sigma_ext; intros; ring|].
        rewrite (Sigma_sub V (fun _ => 0%Qc)), Sigma_zero. ring. }
      rewrite E in Hp. qclra. }
    qclra.
  Qed.

  (** ** pushing along a residual arc *)
  Lemma push_exact flow r u v x d : exact arcs flow r -> rval r u v = Some x -> (0 < d)%Qc -> (d <= x)%Qc ->
    exists a y r', fupdate flow u v d = Ok (a, dset eqe a y flow) /\
      rupdate arcs (dset eqe a y flow) a (fst a) (snd a) r = Ok r' /\ exact arcs (dset eqe a y flow) r' /\
      (forall p q, edge_in r' p q -> edge_in r p q \/ (p, q) = (v, u)) /\
      (forall w, net arcs (fget (dset eqe a y flow)) w = (net arcs (fget flow) w + (ind (String.eqb u w) - ind (String.eqb v w)) * d)%Qc) /\
      ((a = (u, v) /\ y = (fget flow a + d)%Qc) \/ (a = (v, u) /\ y = (fget flow a - d)%Qc)) /\ In a (dkeys arcs).
  Proof.
    intros X Hx Hd Hdx. pose proof X as (B & Vx & W). destruct (B) as (K & R & Sp).
    assert (Hin : In (u, v) (dkeys arcs) \/ In (v, u) (dkeys arcs)) by (apply Sp; congruence).
    assert (Hne : u <> v) by (destruct Hin as [H|H]; apply Hloop in H; congruence).
    destruct (fupdate_spec flow u v d) as (a & y & E & Ha & Hc); [rewrite K; exact Hin|].
    assert (Ha' : In a (dkeys arcs)) by (rewrite <- K; exact Ha).
    assert (Hc' : (a = (u, v) /\ In (u, v) (dkeys arcs) /\ y = (fget flow a + d)%Qc) \/ (a = (v, u) /\ ~ In (u, v) (dkeys arcs) /\ y = (fget flow a - d)%Qc)).
    { destruct Hc as [(H1 & H2 & H3)|(H1 & H2 & H3)]; [left|right]; (split; [exact H1|split; [|exact H3]]).
      - rewrite <- K. exact H2.
      - intros Z. apply H2. rewrite K. exact Z. }
    destruct (key_get _ eqe_spec _ _ Ha') as [c Ec].
    assert (Hca : In (a, c) arcs) by now apply (arc_cap arcs Hnd).
    destruct (W _ _ Hca) as [W1 W2].
    assert (Hy : (0 <= y)%Qc /\ (y <= c)%Qc).
    { rewrite Vx in Hx. unfold rexp in Hx. destruct Hc' as [(-> & H1 & ->)|(-> & H1 & ->)].
      - rewrite Ec in Hx. destruct (qlt_spec (fget flow (u, v)) c); [|discriminate]. inversion Hx; subst. split; qclra.
      - assert (dget eqe (u, v) arcs = None) as H0 by now apply (dget_None _ eqe_spec).
        rewrite H0, Ec in Hx. destruct (qlt_spec 0 (fget flow (v, u))); [|discriminate]. inversion Hx; subst. split; qclra. }
    destruct Hy as [Hy1 Hy2].
    assert (Hna : fst a <> snd a) by (destruct a; now apply Hloop).
    destruct (rupdate_spec arcs (dset eqe a y flow) a (fst a) (snd a) c y r R Hna Ec (dget_dset_eq _ eqe_spec _ _ _))
      as (r' & Er & R' & V1 & V2 & V3).
    assert (K' : dkeys (dset eqe a y flow) = dkeys arcs) by (rewrite (dset_same_keys eqe eqe_spec); auto).
    assert (Fo : forall b, b <> a -> fget (dset eqe a y flow) b = fget flow b).
    { intros b Hb. rewrite fget_dset. destruct (eqe_spec b a); congruence. }
    assert (Fa : fget (dset eqe a y flow) a = y) by (rewrite fget_dset; destruct (eqe_spec a a); congruence).
    assert (Vx' : forall p q, rval r' p q = rexp arcs (dset eqe a y flow) p q).
    { intros p q. destruct a as [a1 a2]. cbn [fst snd] in *.
      assert (Hrev : dget eqe (a2, a1) arcs = None) by (apply (dget_None _ eqe_spec), Hw, Ha').
      destruct (arc_dec (p, q) (a1, a2)) as [Epq|N1].
      - inversion Epq; subst p q. rewrite V1. unfold rexp. rewrite Ec, Fa. apply nz_cap; auto.
      - destruct (arc_dec (p, q) (a2, a1)) as [Epq|N2].
        + inversion Epq; subst p q. rewrite V2. unfold rexp. rewrite Hrev, Ec, Fa. apply nz_flow; auto.
        + rewrite V3 by auto. rewrite Vx. unfold rexp.
          rewrite Fo by auto. rewrite Fo; auto. intros Z; inversion Z; subst; congruence. }
    assert (W' : within_capacity arcs (fget (dset eqe a y flow))).
    { intros b c' Hb. destruct (arc_dec b a) as [->|Nb].
      - assert (c' = c) as -> by (apply (arc_cap arcs Hnd) in Hb; congruence). rewrite Fa. auto.
      - rewrite Fo by auto. apply W; auto. }
    assert (B' : base arcs (dset eqe a y flow) r').
    { split; [exact K'|]. split; [exact R'|]. intros p q Hpq. rewrite Vx' in Hpq. unfold rexp in Hpq.
      destruct (dget eqe (p, q) arcs) eqn:E1; [left; eapply (get_key _ eqe_spec); eauto|].
      destruct (dget eqe (q, p) arcs) eqn:E2; [right; eapply (get_key _ eqe_spec); eauto|congruence]. }
    exists a, y, r'. split; [exact E|]. split; [exact Er|]. split; [split; [exact B'|split; [exact Vx'|exact W']]|]. split; [|split; [|split]].
    - intros p q Hpq. destruct (arc_dec (p, q) (v, u)) as [|N1]; [auto|left].
      unfold edge_in in *. destruct (arc_dec (p, q) (u, v)) as [Epq|N2]; [inversion Epq; subst; congruence|].
      rewrite V3 in Hpq; auto.
      + destruct Hc' as [(-> & _)|(-> & _)]; simpl; auto.
      + destruct Hc' as [(-> & _)|(-> & _)]; simpl; auto.
    - intros w. apply (net_step arcs Hnd flow u v d a y w K Ha').
      destruct Hc' as [(H1 & H2 & H3)|(H1 & H2 & H3)]; [left|right]; auto.
    - destruct Hc' as [(H1 & H2 & H3)|(H1 & H2 & H3)]; auto.
    - exact Ha'.
  Qed.

  Lemma find_push_spec (h : list (string * nat)) hn l : (forall e x, In (e, x) l -> In e (dkeys h)) ->
    (exists e x, find_push l h hn = Ok (Some (e, x)) /\ In (e, x) l /\ S (hv h e) = hn) \/
    (find_push l h hn = Ok None /\ forall e x, In (e, x) l -> S (hv h e) <> hn).
  Proof.
    induction l as [|[e x] l IH]; intros H; cbn [find_push]; [right; split; [auto|intros ? ? []]|].
    rewrite (hget_hv h e) by (eapply H; left; reflexivity). cbn [bind].
    destruct (Nat.eqb_spec (S (hv h e)) hn) as [E|E]; [left; exists e, x; simpl; auto|].
    assert (H' : forall e x, In (e, x) l -> In e (dkeys h)) by (intros; eapply H; right; eauto).
    destruct (IH H') as [(e' & x' & E1 & E2 & E3)|(E1 & E2)].
    - left. exists e', x'. simpl. auto.
    - right. split; auto. intros e' x' [Ee|Hin]; [inversion Ee; subst; auto|eauto].
  Qed.
  Lemma min_height_spec (h : list (string * nat)) l : (forall e x, In (e, x) l -> In e (dkeys h)) -> forall m, l <> [] \/ m <> None ->
    exists k, min_height l h m = Ok (Some k) /\ (forall e x, In (e, x) l -> k <= hv h e) /\ (forall z, m = Some z -> k <= z) /\
      ((exists e x, In (e, x) l /\ hv h e = k) \/ m = Some k).
  Proof.
    induction l as [|[e x] l IH]; intros H m Hm; simpl.
    - destruct m as [k|]; [|tauto]. exists k. split; [auto|]. split; [intros ? ? []|]. split; [intros z Hz; inversion Hz; auto|auto].
    - rewrite (hget_hv h e) by (eapply H; left; reflexivity). cbn [bind].
      destruct (IH ltac:(intros; eapply H; right; eauto) (Some (match m with None => hv h e | Some z => Nat.min (hv h e) z end))) as (k & E & M1 & M2 & M3); [right; discriminate|].
      exists k. split; [auto|]. specialize (M2 _ eq_refl). split; [|split].
      + intros e' x' [Ee|Hin]; [inversion Ee; subst|eauto]. destruct m; lia.
      + intros z ->. lia.
      + destruct M3 as [(e' & x' & M3 & M4)|M3]; [left; exists e', x'; auto|]. inversion M3. destruct m as [z|].
        * destruct (Nat.min_spec (hv h e) z) as [[_ Q]|[_ Q]]; rewrite Q; [left; exists e, x; auto|right; auto].
        * left. exists e, x. auto.
  Qed.

  (** ** one iteration *)
  Definition potential (st : pstate) : nat := list_sum (map (fun v => 2 * n - 1 - hv (p_height st) v) N).
  Definition work (st : pstate) : Qc := Sigma N (fun v => ev (p_excess st) v * qz (Z.of_nat (hv (p_height st) v)))%Qc.
  Variable D : Z.
  Hypothesis HD : (0 < D)%Z.
  Hypothesis HDc : forall a c, In (a, c) arcs -> isint (qz D * c)%Qc.
  Definition scaled (st : pstate) : Prop :=
    (forall a, In a (dkeys arcs) -> isint (qz D * fget (p_flow st) a)%Qc) /\
    (forall v, In v N -> isint (qz D * ev (p_excess st) v)%Qc).

  Lemma neg_flip x : (0 < - x)%Qc <-> (x < 0)%Qc.
  Proof. split; intros; qclra. Qed.

  (** values moved by a push *)
  Lemma push_excess e u v d : dkeys e = N -> In u N -> u <> v -> (In v V) ->
    exists e', (if negb (String.eqb v s) && negb (String.eqb v t) then
        do x <- eget v (dset String.eqb u (ev e u - d)%Qc e) ;
        Ok (dset String.eqb v (x + d)%Qc (dset String.eqb u (ev e u - d)%Qc e))
      else Ok (dset String.eqb u (ev e u - d)%Qc e)) = Ok e' /\ dkeys e' = N /\
      forall w, In w N -> ev e' w = (ev e w - (ind (String.eqb u w) - ind (String.eqb v w)) * d)%Qc.
  Proof.
    intros K Hu Hne Hv. set (e1 := dset String.eqb u (ev e u - d)%Qc e).
    assert (K1 : dkeys e1 = N). { unfold e1. rewrite (dset_same_keys String.eqb eqs); auto. now rewrite K. }
    assert (E1 : forall w, ev e1 w = if String.eqb w u then (ev e u - d)%Qc else ev e w) by (intros; apply ev_dset).
    destruct (eqs v s) as [Es|Ns]; [|destruct (eqs v t) as [Et|Nt]]; cbn [negb andb].
    - exists e1. split; [auto|]. split; [auto|]. intros w Hw'. rewrite E1. apply HN in Hw'. subst v.
      destruct (eqs w u) as [->|N1]; [rewrite String.eqb_refl; destruct (eqs s u); [congruence|]; unfold ind; ring|].
      destruct (eqs u w); [congruence|]. destruct (eqs s w); [intuition congruence|]. unfold ind. ring.
    - exists e1. split; [auto|]. split; [auto|]. intros w Hw'. rewrite E1. apply HN in Hw'. subst v.
      destruct (eqs w u) as [->|N1]; [rewrite String.eqb_refl; destruct (eqs t u); [congruence|]; unfold ind; ring|].
      destruct (eqs u w); [congruence|]. destruct (eqs t w); [intuition congruence|]. unfold ind. ring.
    - assert (HvN : In v N) by (apply HN; auto).
      rewrite (eget_ev e1 v) by now rewrite K1. cbn [bind]. eexists. split; [reflexivity|].
      split; [rewrite (dset_same_keys String.eqb eqs); [auto|now rewrite K1]|].
      intros w Hw'. rewrite ev_dset, !E1.
      destruct (eqs w v) as [->|N1].
      + destruct (eqs v u); [congruence|]. destruct (eqs u v); [congruence|]. rewrite String.eqb_refl. unfold ind. ring.
      + destruct (eqs w u) as [->|N2]; [rewrite String.eqb_refl; destruct (eqs v u); [congruence|]; unfold ind; ring|].
        destruct (eqs u w); [congruence|]. destruct (eqs v w); [congruence|]. unfold ind. ring.
  Qed.

  Lemma Sigma_ind (u : string) (f : string -> Qc) : In u N -> Sigma N (fun w => ind (String.eqb u w) * f w)%Qc = f u.
  Proof.
    intros Hu. rewrite (Sigma_single N u); [|auto|auto|intros y _ Hy; destruct (eqs u y); [congruence|unfold ind; ring]].
    rewrite String.eqb_refl. unfold ind. ring.
  Qed.
  Lemma Sigma_ind0 (u : string) (f : string -> Qc) : ~ In u N -> Sigma N (fun w => ind (String.eqb u w) * f w)%Qc = 0%Qc.
  Proof. intros Hu. apply Sigma_none. intros y Hy. destruct (eqs u y); [subst; contradiction|unfold ind; ring]. Qed.

  Lemma list_sum_lt (f g : string -> nat) l u : In u l -> (forall v, In v l -> f v <= g v) -> f u < g u -> list_sum (map f l) < list_sum (map g l).
  Proof.
    induction l as [|x l IH]; intros Hu Hle Hlt; [destruct Hu|]. simpl.
    assert (Hl : list_sum (map f l) <= list_sum (map g l)).
    { clear -Hle. induction l as [|y l IH]; simpl; auto. pose proof (Hle y (or_intror (or_introl eq_refl))).
      assert (list_sum (map f l) <= list_sum (map g l)) by (apply IH; intros v [<-|Hv]; apply Hle; simpl; auto). lia. }
    pose proof (Hle x (or_introl eq_refl)). destruct Hu as [->|Hu]; [lia|].
    assert (list_sum (map f l) < list_sum (map g l)) by (apply IH; auto; intros; apply Hle; now right). lia.
  Qed.

  Definition progress (st st' : pstate) : Prop :=
    potential st' < potential st \/
    (potential st' = potential st /\
      (scaled st -> (qz D * work st' + 1 <= qz D * work st)%Qc)) \/
    (potential st' = potential st /\ work st' = work st /\ p_index st' = S (p_index st)).

  Lemma step_ok st node : pre st -> nth_error N (p_index st) = Some node ->
    exists st', preflow_step arcs s t node st = Ok st' /\ pre st' /\ progress st st' /\
      (scaled st -> scaled st').
  Proof.
    intros P Hnode. assert (Hu : In node N) by (eapply nth_error_In; eauto).
    assert (Hi : p_index st < length N) by (apply nth_error_Some; congruence).
    pose proof (pr_exact st P) as X. destruct (HN node) as [HNn _]. destruct (HNn Hu) as (HuV & Hus & Hut).
    unfold preflow_step. rewrite (eget_ev (p_excess st) node) by (rewrite (pr_ekeys st P); auto). cbn [bind].
    destruct (qlt_spec 0 (ev (p_excess st) node)) as [Hex|Hex].
    2: { eexists. split; [reflexivity|]. split; [|split].
      - destruct P as [p1 p2 p3 p4 p5 p6 p7 p8 p9 p10 p11]. split; cbn [p_flow p_residual p_excess p_height p_index]; auto.
        intros i v Hiv Hv. destruct (Nat.eq_dec i (p_index st)) as [->|Ni]; [|apply (p11 i); auto; lia].
        rewrite Hnode in Hv. inversion Hv; subst. specialize (p4 v Hu). qclra.
      - right. right. split; [reflexivity|]. split; reflexivity.
      - intros [S1 S2]. split; auto. }
    pose proof (pr_excess st P node Hu) as En.
    assert (Hlt : (net arcs (fget (p_flow st)) node < 0)%Qc) by (apply neg_flip; rewrite <- En; auto).
    destruct (surplus_edge _ _ node X Hlt) as (w0 & Hw0).
    assert (Hd : exists l, sget node (p_residual st) = Some l /\ forall e x, rval (p_residual st) node e = Some x <-> In (e, x) l).
    { unfold edge_in, rval in Hw0. destruct (sget node (p_residual st)) as [l|] eqn:El; [|congruence]. exists l. split; auto.
      intros e x. unfold rval. rewrite El. destruct X as ((_ & (R1 & R2) & _) & _). split; [apply (dget_In _ eqs)|apply (In_dget _ eqs); eauto]. }
    destruct Hd as (l & El & Hl). rewrite El.
    rewrite (hget_hv (p_height st) node) by (rewrite (pr_hkeys st P); auto). cbn [bind].
    assert (Hkeys : forall e x, In (e, x) l -> In e (dkeys (p_height st))).
    { intros e x He. rewrite (pr_hkeys st P). apply Hl in He. eapply edge_V; [apply X|]. unfold edge_in. rewrite He. discriminate. }
    destruct (find_push_spec (p_height st) (hv (p_height st) node) l Hkeys) as [(v & x & Ef & Hin & Hh)|(Ef & Hno)]; rewrite Ef; cbn [bind].
    - (* push *)
      apply Hl in Hin. assert (He : edge_in (p_residual st) node v) by (unfold edge_in; congruence).
      destruct (edge_V _ _ _ _ (proj1 X) He) as (_ & HvV & Huv).
      unfold push. rewrite (eget_ev (p_excess st) node) by (rewrite (pr_ekeys st P); auto). cbn [bind].
      set (d := qmin (ev (p_excess st) node) x).
      assert (Hx : (0 < x)%Qc).
      { destruct X as (_ & Vx & W). rewrite Vx in Hin. unfold rexp in Hin.
        destruct (dget eqe (node, v) arcs) as [c|]; [destruct (qlt_spec (fget (p_flow st) (node, v)) c); inversion Hin; qclra|].
        destruct (dget eqe (v, node) arcs) as [c|]; [|discriminate]. destruct (qlt_spec 0 (fget (p_flow st) (v, node))); inversion Hin; subst; auto. }
      assert (Hd1 : (0 < d)%Qc) by (unfold d, qmin; destruct (qle (ev (p_excess st) node) x); auto).
      assert (Hd2 : (d <= x)%Qc) by (unfold d, qmin; destruct (qle_spec (ev (p_excess st) node) x); qclra).
      assert (Hd3 : (d <= ev (p_excess st) node)%Qc) by (unfold d, qmin; destruct (qle_spec (ev (p_excess st) node) x); qclra).
      destruct (push_exact _ _ node v x d X Hin Hd1 Hd2) as (a & y & r' & E1 & E2 & X' & Edges & Net & Ha & HaA).
      rewrite E1. cbn [bind fst snd]. destruct a as [p q]. cbn [fst snd] in E2. rewrite E2. cbn [bind].
      destruct (eqs node s); [congruence|]. destruct (eqs node t); [congruence|]. cbn [negb andb].
      destruct (push_excess (p_excess st) node v d (pr_ekeys st P) Hu Huv HvV) as (e' & Ee & Ke & Eve).
      assert (Est : (if negb (String.eqb v s) && negb (String.eqb v t)
          then do x0 <- eget v (dset String.eqb node (ev (p_excess st) node - d)%Qc (p_excess st)) ;
               Ok (mkps 0 (dset String.eqb v (x0 + d)%Qc (dset String.eqb node (ev (p_excess st) node - d)%Qc (p_excess st))) (dset eqe (p, q) y (p_flow st)) r' (p_height st))
          else Ok (mkps 0 (dset String.eqb node (ev (p_excess st) node - d)%Qc (p_excess st)) (dset eqe (p, q) y (p_flow st)) r' (p_height st))) =
          Ok (mkps 0 e' (dset eqe (p, q) y (p_flow st)) r' (p_height st))).
      { destruct (negb (String.eqb v s) && negb (String.eqb v t)).
        - destruct (eget v (dset String.eqb node (ev (p_excess st) node - d)%Qc (p_excess st))); cbn [bind] in *; [|discriminate|discriminate]. inversion Ee. reflexivity.
        - inversion Ee. reflexivity. }
      rewrite Est. clear Est Ee. eexists. split; [reflexivity|].
      assert (P' : pre (mkps 0 e' (dset eqe (p, q) y (p_flow st)) r' (p_height st))).
      { destruct P as [p1 p2 p3 p4 p5 p6 p7 p8 p9 p10 p11]. split; cbn [p_flow p_residual p_excess p_height p_index]; auto.
        - intros w Hw'. rewrite (Eve w Hw'), Net, (p3 w Hw'). ring.
        - intros w Hw'. rewrite (Eve w Hw'). specialize (p4 w Hw').
          destruct (eqs node w) as [Q1|Q1]; destruct (eqs v w) as [Q2|Q2]; unfold ind; [congruence|subst w; qclra|qclra|qclra].
        - intros a b Hab. apply Edges in Hab. destruct Hab as [Hab|Hab]; [auto|]. inversion Hab; subst. lia.
        - lia.
        - intros i w Hi'. lia. }
      assert (Hint : scaled st -> isint (qz D * d)%Qc).
      { intros (S1 & S2). unfold d, qmin. destruct (qle (ev (p_excess st) node) x); [auto|].
        destruct X as (_ & Vx & W). rewrite Vx in Hin. unfold rexp in Hin.
        destruct (dget eqe (node, v) arcs) as [c|] eqn:Ec.
        - destruct (qlt (fget (p_flow st) (node, v)) c); inversion Hin.
          replace (qz D * (c - fget (p_flow st) (node, v)))%Qc with (qz D * c - qz D * fget (p_flow st) (node, v))%Qc by ring.
          pose proof (get_key _ eqe_spec _ _ _ Ec). apply (dget_In _ eqe_spec) in Ec. apply isint_sub; eauto.
        - destruct (dget eqe (v, node) arcs) as [c|] eqn:Ec'; [|discriminate].
          destruct (qlt 0 (fget (p_flow st) (v, node))); inversion Hin. subst. apply S1. eapply (get_key _ eqe_spec); eauto. }
      split; [exact P'|]. split.
      + right. left. split; [reflexivity|]. intros (S1 & S2).
        assert (Ework : work (mkps 0 e' (dset eqe (p, q) y (p_flow st)) r' (p_height st)) =
           (work st - Sigma N (fun w => ind (String.eqb node w) * (d * qz (Z.of_nat (hv (p_height st) w)))) + Sigma N (fun w => ind (String.eqb v w) * (d * qz (Z.of_nat (hv (p_height st) w)))))%Qc).
        { unfold work. cbn [p_excess p_height]. rewrite <- Sigma_sub, <- Sigma_add. apply Sigma_ext. intros w Hw'. rewrite (Eve w Hw'). ring. }
        rewrite Ework, Sigma_ind by auto.
        assert (Hz : qz (Z.of_nat (hv (p_height st) node)) = (qz (Z.of_nat (hv (p_height st) v)) + 1)%Qc).
        { rewrite <- Hh, Nat2Z.inj_succ. unfold Z.succ. now rewrite qz_add. }
        assert (Hh0 : (0 <= qz (Z.of_nat (hv (p_height st) v)))%Qc) by (rewrite <- qz_0; apply qz_le; lia).
        assert (HD' : (0 < qz D)%Qc) by (rewrite <- qz_0; now apply qz_lt).
        assert (H1 : (1 <= qz D * d)%Qc) by (apply isint_pos; [apply Hint; split; auto|qcnra]).
        rewrite Hz. destruct (in_dec string_dec v N) as [HvN|HvN].
        * rewrite Sigma_ind by auto.
          match goal with |- (?a <= ?b)%Qc => replace a with (qz D * work st - qz D * d + 1)%Qc by ring end. qclra.
        * rewrite Sigma_ind0 by auto.
          assert (H2 : (0 <= (qz D * d) * qz (Z.of_nat (hv (p_height st) v)))%Qc) by qcnra.
          match goal with |- (?a <= ?b)%Qc => replace a with (qz D * work st - qz D * d - (qz D * d) * qz (Z.of_nat (hv (p_height st) v)) + 1)%Qc by ring end. qclra.
      + intros Hsc. pose proof (Hint Hsc) as Hd'. destruct Hsc as (S1 & S2). split; cbn [p_flow p_excess].
        * intros b Hb. rewrite fget_dset. destruct (eqe_spec b (p, q)) as [->|]; [|auto].
          destruct Ha as [(_ & ->)|(_ & ->)].
          -- replace (qz D * (fget (p_flow st) (p, q) + d))%Qc with (qz D * fget (p_flow st) (p, q) + qz D * d)%Qc by ring. apply isint_add; auto.
          -- replace (qz D * (fget (p_flow st) (p, q) - d))%Qc with (qz D * fget (p_flow st) (p, q) - qz D * d)%Qc by ring. apply isint_sub; auto.
        * intros w Hw'. rewrite (Eve w Hw').
          replace (qz D * (ev (p_excess st) w - (ind (node =? w) - ind (v =? w)) * d))%Qc with (qz D * ev (p_excess st) w - (ind (node =? w) - ind (v =? w)) * (qz D * d))%Qc by ring.
          apply isint_sub; auto. apply isint_mul; auto. apply isint_sub; unfold ind.
          -- destruct (node =? w); [exists 1%Z|exists 0%Z]; reflexivity.
          -- destruct (v =? w); [exists 1%Z|exists 0%Z]; reflexivity.
    - (* relabel *)
      destruct (min_height_spec (p_height st) l Hkeys None) as (k & Ek & M1 & _ & M2).
      { left. intros ->. destruct (rval (p_residual st) node w0) eqn:E0; [|contradiction]. apply Hl in E0. destruct E0. }
      rewrite Ek. cbn [bind]. destruct M2 as [(e & x & He & Hk)|M2]; [|discriminate].
      assert (Hlow : hv (p_height st) node <= k).
      { pose proof (Hno _ _ He) as Hne. apply Hl in He.
        assert (edge_in (p_residual st) node e) as Hed by (unfold edge_in; congruence).
        pose proof (pr_valid st P _ _ Hed). lia. }
      assert (Hh' : forall w, hv (dset String.eqb node (S k) (p_height st)) w = if String.eqb w node then S k else hv (p_height st) w) by (intros; apply hv_dset).
      assert (Hval : forall u v, edge_in (p_residual st) u v -> hv (dset String.eqb node (S k) (p_height st)) u <= S (hv (dset String.eqb node (S k) (p_height st)) v)).
      { intros u v Huv. rewrite !Hh'. pose proof (pr_valid st P _ _ Huv) as Hv.
        destruct (eqs u node) as [->|Nu].
        - destruct (eqs v node) as [->|]; [lia|]. unfold edge_in in Huv. destruct (rval (p_residual st) node v) as [z|] eqn:Ez; [|congruence].
          apply Hl, M1 in Ez. lia.
        - destruct (eqs v node) as [->|]; lia. }
      assert (Hbd : S k <= 2 * n - 1).
      { pose proof (height_bound (p_flow st) (p_residual st) (hv (dset String.eqb node (S k) (p_height st))) node X Hval) as Hb.
        rewrite !Hh', String.eqb_refl in Hb. destruct (eqs s node); [congruence|]. destruct (eqs t node); [congruence|].
        apply Hb; auto; try apply P. intros w Hw'. pose proof (pr_pos st P w Hw') as Hp. rewrite (pr_excess st P w Hw') in Hp. qclra. }
      eexists. split; [reflexivity|]. split; [|split].
      + destruct P as [p1 p2 p3 p4 p5 p6 p7 p8 p9 p10 p11]. split; cbn [p_flow p_residual p_excess p_height p_index]; auto.
        * rewrite (dset_same_keys String.eqb eqs); [auto|]. now rewrite p5.
        * rewrite Hh'. destruct (eqs s node); [congruence|auto].
        * rewrite Hh'. destruct (eqs t node); [congruence|auto].
        * intros w. rewrite Hh'. destruct (String.eqb w node); [auto|apply p9].
        * lia.
        * intros i w Hi'. lia.
      + left. unfold potential. cbn [p_height]. apply (list_sum_lt _ _ N node Hu).
        * intros w _. rewrite Hh'. destruct (eqs w node) as [->|]; lia.
        * rewrite Hh', String.eqb_refl. lia.
      + intros [S1 S2]. split; auto.
  Qed.

  Definition result (g : digraph) (st : pstate) (value : option Qc) : Prop :=
    value = Some (flow_value g s (p_flow st)) \/ (value = None /\ p_index st < length N).

  (** the loop stops *)
  Lemma loop_stops (g : digraph) : dg_arcs g = arcs -> forall p st, potential st = p -> forall w, (qz D * work st <= qz (Z.of_nat w))%Qc ->
    forall i, length N - p_index st = i -> pre st -> scaled st -> forall value, result g st value ->
    exists k st', pre st' /\ p_index st' = length N /\
      forall fuel, k <= fuel -> preflow_loop fuel g s t N value st = Ok (flow_value g s (p_flow st'), p_flow st').
  Proof.
    intros Eg p. induction p as [p IHp] using (well_founded_induction lt_wf).
    intros st Ep w. revert st Ep. induction w as [w IHw] using (well_founded_induction lt_wf).
    intros st Ep Hwk i. revert st Ep Hwk. induction i as [i IHi] using (well_founded_induction lt_wf).
    intros st Ep Hwk Ei P Sc value Hv.
    destruct (nth_error N (p_index st)) as [node|] eqn:En.
    - destruct (step_ok st node P En) as (st' & Es & P' & Pg & Sc').
      assert (Hr : result g st' (Some (flow_value g s (p_flow st')))) by (left; reflexivity).
      assert (K : exists k st'', pre st'' /\ p_index st'' = length N /\
         forall fuel, k <= fuel -> preflow_loop fuel g s t N (Some (flow_value g s (p_flow st'))) st' = Ok (flow_value g s (p_flow st''), p_flow st'')).
      { destruct Pg as [Pg|[(Pg & Hd)|(Pg & Hd & Hi)]].
        - assert (Hex : exists w' : nat, (qz D * work st' <= qz (Z.of_nat w'))%Qc).
          { set (x := (qz D * work st')%Qc). exists (Z.to_nat (Z.abs (Qnum (this x)))). rewrite Z2Nat.id by lia.
            unfold qz, Qcle. rewrite this_Q2Qc. destruct (this x) as [a b]. unfold Qle, inject_Z. cbn [Qnum Qden]. nia. }
          destruct Hex as [w' Hw']. apply (IHp (potential st')) with (w := w') (i := length N - p_index st'); auto. lia.
        - specialize (Hd Sc).
          assert (Hw0 : (0 <= qz D * work st')%Qc).
          { assert (HD' : (0 < qz D)%Qc) by (rewrite <- qz_0; now apply qz_lt).
            assert (0 <= work st')%Qc; [|qcnra]. unfold work. apply Sigma_nonneg. intros v HvN. pose proof (pr_pos st' P' v HvN).
            assert (0 <= qz (Z.of_nat (hv (p_height st') v)))%Qc by (rewrite <- qz_0; apply qz_le; lia). qcnra. }
          destruct w as [|w]; [change (qz (Z.of_nat 0)) with 0%Qc in Hwk; qclra|].
          assert (Es' : qz (Z.of_nat (S w)) = (qz (Z.of_nat w) + 1)%Qc) by (rewrite Nat2Z.inj_succ; unfold Z.succ; now rewrite qz_add).
          apply (IHw w) with (i := length N - p_index st'); auto; [lia|rewrite Es' in Hwk; qclra].
        - assert (p_index st < length N) by (apply nth_error_Some; congruence).
          apply (IHi (length N - p_index st')); auto; [lia|congruence|]. rewrite Hd. auto. }
      destruct K as (k & st'' & P'' & I'' & K). exists (S k), st''. split; [auto|]. split; [auto|].
      intros fuel Hf. destruct fuel as [|fuel]; [lia|]. cbn [preflow_loop]. rewrite En, Eg, Es. cbn [bind]. apply K. lia.
    - exists 1, st. apply nth_error_None in En. pose proof (pr_index st P). split; [auto|]. split; [lia|].
      intros fuel Hf. destruct fuel as [|fuel]; [lia|]. cbn [preflow_loop].
      assert (nth_error N (p_index st) = None) as -> by now apply nth_error_None.
      destruct Hv as [->|[_ Hv]]; [auto|lia].
  Qed.

  (** in the final state the flow is maximum *)
  Lemma final_max st : pre st -> p_index st = length N ->
    conserved arcs s t (fget (p_flow st)) /\
    exists inside, inside s = true /\ inside t = false /\ maximum_flow arcs s t (fget (p_flow st)) /\
      net_value arcs s (fget (p_flow st)) = cut_capacity arcs inside.
  Proof.
    intros P Hi. pose proof (pr_exact st P) as X.
    assert (C : conserved arcs s t (fget (p_flow st))).
    { apply conserved_net. intros v H1 H2. destruct (in_dec string_dec v V) as [HvV|HvV].
      - assert (HvN : In v N) by (apply HN; auto). destruct (In_nth_error _ _ HvN) as [i Ei].
        assert (i < length N) by (apply nth_error_Some; congruence).
        pose proof (pr_done st P i v ltac:(lia) Ei) as E0. rewrite (pr_excess st P v HvN) in E0. qclra.
      - rewrite net_Sigma. rewrite (Sigma_ext _ _ (fun _ => 0%Qc)); [apply Sigma_zero|]. intros [a b] Hab. destruct (HVa _ _ Hab) as [Ha Hb]. cbn [fst snd].
        destruct (eqs a v); [subst; contradiction|]. destruct (eqs b v); [subst; contradiction|]. unfold ind. ring. }
    split; [auto|]. pose proof N_length as HL.
    destruct (empty_level (hv (p_height st)) N 1 (n - 1)) as (k & Hk & Hno); [lia|].
    apply (exact_max arcs s t Hst Hnd Hw (p_flow st) (p_residual st)); auto.
    exists (filter (fun v => Nat.ltb k (hv (p_height st) v)) V).
    assert (Q : forall v, In v (filter (fun v => Nat.ltb k (hv (p_height st) v)) V) <-> In v V /\ k < hv (p_height st) v).
    { intros v. rewrite filter_In, Nat.ltb_lt. reflexivity. }
    rewrite !Q. split; [split; [auto|]; rewrite (pr_hs st P); lia|]. split; [rewrite (pr_ht st P); lia|].
    intros u v Hu He. rewrite Q in *. destruct (edge_V _ _ _ _ (proj1 X) He) as (_ & HvV & _). split; auto.
    apply (gap_cut st (hv (p_height st)) k) with (u := u); auto; [apply P| |apply Hu].
    intros z Hz. destruct (string_dec z s) as [->|N1]; [rewrite (pr_hs st P); lia|].
    destruct (string_dec z t) as [->|N2]; [rewrite (pr_ht st P); lia|]. apply Hno, HN. auto.
  Qed.
End Preflow.
