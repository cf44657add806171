(** The flow algorithms on double precision capacities: where no operation rounds, the run is the exact one. *)
From Coq Require Import String List Bool Arith QArith Qcanon Lia ZArith Permutation.
From Verif Require Import Py QcTac QSum QInt UndirectedModel UndirectedProofs DirectedModel DirectedSpec DirectedProofs FlowModel FlowSpec FlowTheory ResidualProofs DirectedFinal MatTheory FFProofs FFFinal PreflowProofs PreflowFinal FloatModel DoubleSpec DoubleProofs FloatProofs FlowFloatModel FlowFloatSpec.
Import ListNotations.
Open Scope nat_scope.
Open Scope string_scope.
Open Scope list_scope.

Lemma bind_ok {A B} (x : res A) (f : A -> res B) y : (do a <- x ; f a) = Ok y -> exists a, x = Ok a /\ f a = Ok y.
Proof. destruct x; intros H; [eauto|discriminate|discriminate]. Qed.

Section Grid.
  Variable p : Z.
  Hypothesis Hp : (0 <= p <= 1074)%Z.
  Let D := (2 ^ p)%Z.
  Definition B := pow2 (53 - p).
  Definition grid (x : Qc) := isint (qz D * x)%Qc.

  Lemma D_pos : (0 < D)%Z. Proof. apply Z.pow_pos_nonneg; lia. Qed.
  Lemma D_pow : qz D = pow2 p. Proof. symmetry. apply pow2_int. lia. Qed.
  Lemma grid_0 : grid 0. Proof. exists 0%Z. rewrite qz_0. ring. Qed.
  Lemma grid_add x y : grid x -> grid y -> grid (x + y).
  Proof. intros H1 H2. unfold grid. replace (qz D * (x + y))%Qc with (qz D * x + qz D * y)%Qc by ring. now apply isint_add. Qed.
  Lemma grid_sub x y : grid x -> grid y -> grid (x - y).
  Proof. intros H1 H2. unfold grid. replace (qz D * (x - y))%Qc with (qz D * x - qz D * y)%Qc by ring. now apply isint_sub. Qed.
  Lemma on_grid_grid x : on_grid p x -> grid x.
  Proof.
    intros [z ->]. exists z. rewrite D_pow. replace (pow2 p * (qz z * pow2 (- p)))%Qc with (qz z * (pow2 p * pow2 (- p)))%Qc by ring.
    rewrite pow2_opp. ring.
  Qed.
  Lemma grid_rnd x : grid x -> (- B < x)%Qc -> (x < B)%Qc -> rnd x = x.
  Proof.
    intros [z Hz] H1 H2. apply rnd_double. rewrite D_pow in Hz.
    assert (Ex : x = (qz z * pow2 (- p))%Qc).
    { rewrite <- Hz. replace (pow2 p * x * pow2 (- p))%Qc with (x * (pow2 p * pow2 (- p)))%Qc by ring. rewrite pow2_opp. ring. }
    rewrite Ex. apply dyadic; [|lia].
    assert (EB : (pow2 p * B)%Qc = qz (2 ^ 53)).
    { unfold B. rewrite <- pow2_add. replace (p + (53 - p))%Z with 53%Z by lia. apply pow2_int. lia. }
    pose proof (pow2_pos p) as P.
    assert (M1 : (0 < pow2 p * (B - x))%Qc) by (apply qmul_pos; [exact P|qclra]).
    assert (M2 : (0 < pow2 p * (B + x))%Qc) by (apply qmul_pos; [exact P|qclra]).
    replace (pow2 p * (B - x))%Qc with (qz (2 ^ 53) - qz z)%Qc in M1 by (rewrite <- Hz, <- EB; ring).
    replace (pow2 p * (B + x))%Qc with (qz (2 ^ 53) + qz z)%Qc in M2 by (rewrite <- Hz, <- EB; ring).
    assert (L1 : (qz z < qz (2 ^ 53))%Qc) by (set (a := qz z) in *; set (b := qz (2 ^ 53)) in *; clearbody a b; clear - M1; qclra).
    assert (L2 : (qz (- 2 ^ 53) < qz z)%Qc) by (rewrite qz_opp; set (a := qz z) in *; set (b := qz (2 ^ 53)) in *; clearbody a b; clear - M2; qclra).
    apply (proj1 (qz_lt _ _)) in L1. apply (proj1 (qz_lt _ _)) in L2. lia.
  Qed.
  Lemma B_pos : (0 < B)%Qc. Proof. apply pow2_pos. Qed.
  Lemma grid_rnd0 x : grid x -> (0 <= x)%Qc -> (x < B)%Qc -> rnd x = x.
  Proof. intros G H1 H2. pose proof B_pos. apply grid_rnd; auto. qclra. Qed.

  Lemma fl_sum_grid l : forall acc, grid acc -> (0 <= acc)%Qc -> (forall x, In x l -> grid x /\ (0 <= x)%Qc) -> (acc + qsum l < B)%Qc ->
    fold_left (fun s x => rnd (s + x)%Qc) l acc = (acc + qsum l)%Qc.
  Proof.
    induction l as [|x l IH]; intros acc G H0 Hl Hb; cbn [fold_left qsum fold_right] in *; [ring|].
    fold (qsum l) in *. destruct (Hl x (or_introl eq_refl)) as [Gx Hx].
    assert (Hs : (0 <= qsum l)%Qc).
    { clear -Hl. assert (K : forall y, In y l -> (0 <= y)%Qc) by (intros y Hy; apply Hl; now right). clear Hl. induction l as [|y l IH]; [apply Qcle_refl|].
      cbn [qsum fold_right]. fold (qsum l). pose proof (K y (or_introl eq_refl)). assert (0 <= qsum l)%Qc by (apply IH; intros; apply K; now right). qclra. }
    assert (Er : rnd (acc + x)%Qc = (acc + x)%Qc) by (apply grid_rnd0; [now apply grid_add|qclra|qclra]).
    rewrite Er, IH; [ring|now apply grid_add|qclra|intros; apply Hl; now right|].
    replace (acc + x + qsum l)%Qc with (acc + (x + qsum l))%Qc by ring. exact Hb.
  Qed.

  Variable g : digraph.
  Notation arcs := (dg_arcs g).
  Hypothesis Hi : dinv g.
  Hypothesis Hcap : forall a c, In (a, c) arcs -> (0 <= c)%Qc.
  Hypothesis Hgrid : forall a c, In (a, c) arcs -> grid c.
  Hypothesis Htot : (total (map snd arcs) < B)%Qc.
  Variable order : list arc -> list arc.
  Hypothesis Hord : some_order order.

  Lemma total_cap (f : arc -> Qc) : (forall a c, In (a, c) arcs -> (0 <= f a <= c)%Qc) -> (Sigma (dkeys arcs) f <= total (map snd arcs))%Qc.
  Proof.
    intros H. unfold dkeys. rewrite Sigma_map. change (total (map snd arcs)) with (Sigma arcs snd).
    apply Sigma_le. intros [a c] Ha. apply (H a c Ha).
  Qed.
  Lemma cap_below a c : In (a, c) arcs -> (c < B)%Qc.
  Proof.
    intros H. apply Qcle_lt_trans with (y := total (map snd arcs)); [|exact Htot].
    change (total (map snd arcs)) with (Sigma arcs snd). clear -H Hcap. 
    assert (K : forall l, (forall b d, In (b, d) l -> (0 <= d)%Qc) -> In (a, c) l -> (c <= Sigma l snd)%Qc).
    { induction l as [|[b d] l IH]; intros P Hl; [destruct Hl|]. rewrite Sigma_cons. cbn [snd]. destruct Hl as [E|Hin].
      - inversion E; subst. assert (0 <= Sigma l snd)%Qc; [|qclra]. apply Sigma_nonneg. intros [b' d'] Hb. apply (P b'). now right.
      - pose proof (P b d (or_introl eq_refl)). assert (c <= Sigma l snd)%Qc; [|qclra]. apply IH; auto. intros b' d' Hb. apply (P b'). now right. }
    apply K; auto.
  Qed.

  (** flows within the capacities, on the grid *)
  Definition okflow (flow : list (arc * Qc)) : Prop :=
    dkeys flow = dkeys arcs /\ within_capacity arcs (fget flow) /\ forall a, In a (dkeys arcs) -> grid (fget flow a).

  Lemma cut_sum flow (P : arc -> bool) : okflow flow -> let l := filter P (dkeys arcs) in
    fl_sum (map (fget flow) (order l)) = qsum (map (fget flow) l) /\ grid (qsum (map (fget flow) l)) /\
    (0 <= qsum (map (fget flow) l))%Qc /\ (qsum (map (fget flow) l) < B)%Qc.
  Proof.
    intros (K & W & G) l.
    assert (Hl : forall a, In a l -> grid (fget flow a) /\ (0 <= fget flow a)%Qc).
    { intros a Ha. apply filter_In in Ha. destruct Ha as [Ha _]. split; [auto|]. apply key_In in Ha. destruct Ha as [c Hc]. apply (W a c Hc). }
    assert (S0 : (0 <= Sigma l (fget flow))%Qc) by (apply Sigma_nonneg; intros a Ha; apply (Hl a Ha)).
    assert (S1 : (Sigma l (fget flow) <= Sigma (dkeys arcs) (fget flow))%Qc).
    { unfold l. rewrite Sigma_filter. apply Sigma_le. intros a Ha. apply key_In in Ha. destruct Ha as [c Hc]. destruct (W a c Hc) as [W0 _].
      unfold ind. destruct (P a); qclra. }
    assert (S2 : (Sigma (dkeys arcs) (fget flow) <= total (map snd arcs))%Qc) by (apply total_cap; exact W).
    assert (SB : (Sigma l (fget flow) < B)%Qc) by (eapply Qcle_lt_trans; [eapply Qcle_trans; [exact S1|exact S2]|exact Htot]).
    change (qsum (map (fget flow) l)) with (Sigma l (fget flow)).
    assert (Gs : grid (Sigma l (fget flow))).
    { assert (Q : forall m, (forall a, In a m -> grid (fget flow a)) -> grid (Sigma m (fget flow))).
      { induction m as [|a m IH]; intros H; [apply grid_0|]. rewrite Sigma_cons. apply grid_add; [apply H; now left|apply IH; intros; apply H; now right]. }
      apply Q. intros a Ha. apply (Hl a Ha). }
    split; [|split; [exact Gs|split; [exact S0|exact SB]]].
    assert (Eo : Sigma (order l) (fget flow) = Sigma l (fget flow)) by (apply Sigma_perm, Hord).
    unfold fl_sum. rewrite fl_sum_grid.
    - change (qsum (map (fget flow) (order l))) with (Sigma (order l) (fget flow)). rewrite Eo. ring.
    - apply grid_0.
    - apply Qcle_refl.
    - intros x Hx. apply in_map_iff in Hx. destruct Hx as (a & <- & Ha). apply Hl. apply (Permutation_in _ (Hord l) Ha).
    - change (qsum (map (fget flow) (order l))) with (Sigma (order l) (fget flow)). rewrite Eo. replace (0 + Sigma l (fget flow))%Qc with (Sigma l (fget flow)) by ring. exact SB.
  Qed.
  Lemma value_eq s flow : okflow flow -> fl_flow_value order g s flow = flow_value g s flow.
  Proof.
    intros O. unfold fl_flow_value, flow_value, cut, ncut.
    match goal with |- rnd (fl_sum (map _ (order (filter ?P _))) - fl_sum (map _ (order (filter ?Q _))))%Qc = _ =>
      destruct (cut_sum flow P O) as (-> & G1 & P1 & L1); destruct (cut_sum flow Q O) as (-> & G2 & P2 & L2) end.
    apply grid_rnd; [now apply grid_sub| |]; pose proof B_pos; qclra.
  Qed.
  Lemma excess_eq v flow : okflow flow -> fl_preflow_excess order g flow v = preflow_excess g flow v.
  Proof.
    intros O. unfold fl_preflow_excess, preflow_excess, cut, ncut.
    match goal with |- rnd (fl_sum (map _ (order (filter ?P _))) - fl_sum (map _ (order (filter ?Q _))))%Qc = _ =>
      destruct (cut_sum flow P O) as (-> & G1 & P1 & L1); destruct (cut_sum flow Q O) as (-> & G2 & P2 & L2) end.
    apply grid_rnd; [now apply grid_sub| |]; pose proof B_pos; qclra.
  Qed.

  Lemma flow_safe flow a x : okflow flow -> dget eqe a flow = Some x -> rnd x = x.
  Proof.
    intros (K & W & G) E. assert (Ha : In a (dkeys arcs)) by (rewrite <- K; eapply (get_key _ eqe_spec); eauto).
    pose proof (G a Ha) as Ga. apply key_In in Ha. destruct Ha as [c Hc]. destruct (W a c Hc) as [W0 W1]. pose proof (cap_below a c Hc).
    unfold fget in *. rewrite E in *. apply grid_rnd0; auto. qclra.
  Qed.
  Lemma rest_safe flow a x c : okflow flow -> dget eqe a flow = Some x -> dget eqe a arcs = Some c -> rnd (c - x)%Qc = (c - x)%Qc.
  Proof.
    intros (K & W & G) E Ec. assert (Ha : In a (dkeys arcs)) by (rewrite <- K; eapply (get_key _ eqe_spec); eauto).
    pose proof (G a Ha) as Ga. apply (dget_In _ eqe_spec) in Ec. destruct (W a c Ec) as [W0 W1]. pose proof (cap_below a c Ec). pose proof (Hgrid a c Ec).
    unfold fget in *. rewrite E in *. apply grid_rnd0; [now apply grid_sub|qclra|qclra].
  Qed.

  Lemma residual_loop_eq flow l : (forall a c, In (a, c) l -> rnd (c - fget flow a)%Qc = (c - fget flow a)%Qc) ->
    forall r, fl_residual_loop l flow r = compute_residual_loop l flow r.
  Proof.
    induction l as [|[a c] l IH]; intros H r; [reflexivity|]. cbn [fl_residual_loop compute_residual_loop]. cbv zeta.
    rewrite (H a c (or_introl eq_refl)). destruct (qlt c (fget flow a)); [reflexivity|]. apply IH. intros; apply H; now right.
  Qed.
  Lemma residual_eq flow : okflow flow -> fl_residual g flow = compute_residual g flow.
  Proof.
    intros O. apply residual_loop_eq. intros a c H.
    assert (Ha : In a (dkeys flow)) by (rewrite (proj1 O); apply key_In; eauto). destruct (key_get _ eqe_spec _ _ Ha) as [x Ex].
    unfold fget. rewrite Ex. apply (rest_safe flow a x c O Ex). apply (In_dget _ eqe_spec); [apply Hi|exact H].
  Qed.

  Lemma rupdate_eq flow a u v r : (forall x c, dget eqe a flow = Some x -> dget eqe a arcs = Some c -> rnd (c - x)%Qc = (c - x)%Qc) ->
    fl_rupdate arcs flow a u v r = rupdate arcs flow a u v r.
  Proof.
    intros H. unfold fl_rupdate, rupdate. destruct (dget eqe a arcs) as [c|]; [|reflexivity]. destruct (dget eqe a flow) as [x|] eqn:E; [|reflexivity].
    rewrite (H x c eq_refl eq_refl). reflexivity.
  Qed.
  Lemma fupdate_eq flow u v d a flow' : fupdate flow u v d = Ok (a, flow') -> (forall x, dget eqe a flow' = Some x -> rnd x = x) ->
    fl_fupdate flow u v d = Ok (a, flow').
  Proof.
    unfold fupdate, fl_fupdate. destruct (dget eqe (u, v) flow) as [f|].
    - intros E H. inversion E; subst. rewrite H; [reflexivity|]. rewrite (dget_dset _ eqe_spec). destruct (eqe_spec (u, v) (u, v)); [reflexivity|congruence].
    - destruct (dget eqe (v, u) flow) as [f|]; intros E H; inversion E; subst. rewrite H; [reflexivity|].
      rewrite (dget_dset _ eqe_spec). destruct (eqe_spec (v, u) (v, u)); [reflexivity|congruence].
  Qed.

  (** ** preflow_push *)
  Definition okexcess (e : list (string * Qc)) : Prop := forall w x, dget String.eqb w e = Some x -> rnd x = x.

  Lemma push_eq s t node v value st st' : push arcs s t node v value st = Ok st' -> node <> v -> okflow (p_flow st') -> okexcess (p_excess st') ->
    fl_push arcs s t node v value st = Ok st'.
  Proof.
    intros E Hne O X. unfold push in E. apply bind_ok in E. destruct E as (ex & Ee & E). unfold fl_push. rewrite Ee. cbn [bind].
    cbv zeta in *. set (d := qmin ex value) in *. apply bind_ok in E. destruct E as ([a flow'] & Ef & E). cbn [fst snd] in *. destruct a as [u w].
    apply bind_ok in E. destruct E as (r & Er & E).
    set (e1 := if negb (String.eqb node s) && negb (String.eqb node t) then dset String.eqb node (ex - d)%Qc (p_excess st) else p_excess st) in *.
    assert (H1 : p_flow st' = flow').
    { destruct (negb (v =? s) && negb (v =? t)); [apply bind_ok in E; destruct E as (x & _ & E)|]; inversion E; reflexivity. }
    assert (H2 : negb (String.eqb node s) && negb (String.eqb node t) = true -> rnd (ex - d)%Qc = (ex - d)%Qc).
    { intros Hg. unfold e1 in E. rewrite Hg in E.
      assert (G : dget String.eqb node (dset String.eqb node (ex - d)%Qc (p_excess st)) = Some (ex - d)%Qc).
      { rewrite (dget_dset _ eqs). now rewrite String.eqb_refl. }
      destruct (negb (v =? s) && negb (v =? t)); [apply bind_ok in E; destruct E as (x & _ & E)|]; inversion E; subst st'; cbn [p_excess] in X.
      - apply (X node). rewrite (dget_dset _ eqs). destruct (eqs node v); [congruence|]. exact G.
      - apply (X node). exact G. }
    rewrite H1 in O. rewrite (fupdate_eq _ _ _ _ _ _ Ef) by (intros x Hx; apply (flow_safe flow' (u, w) x O Hx)). cbn [bind fst snd].
    rewrite (rupdate_eq flow' (u, w) u w) by (intros x c Hx Hc; apply (rest_safe flow' (u, w) x c O Hx Hc)).
    rewrite Er. cbn [bind].
    assert (H3 : (if negb (String.eqb node s) && negb (String.eqb node t) then dset String.eqb node (rnd (ex - d)%Qc) (p_excess st) else p_excess st) = e1).
    { unfold e1. destruct (negb (String.eqb node s) && negb (String.eqb node t)) eqn:Eg; [rewrite H2; auto|reflexivity]. }
    rewrite H3. destruct (negb (v =? s) && negb (v =? t)) eqn:Ev; [|exact E].
    apply bind_ok in E. destruct E as (x & Ex & E). rewrite Ex. cbn [bind]. inversion E; subst st'. cbn [p_excess] in X.
    rewrite (X v (x + d)%Qc); [reflexivity|]. rewrite (dget_dset _ eqs). now rewrite String.eqb_refl.
  Qed.
  Lemma find_push_height l h hn e x : find_push l h hn = Ok (Some (e, x)) -> exists he, hget e h = Ok he /\ S he = hn.
  Proof.
    induction l as [|[e' x'] l IH]; cbn [find_push]; intros E; [discriminate|]. apply bind_ok in E. destruct E as (he & Eh & E).
    destruct (Nat.eqb_spec (S he) hn) as [Q|Q]; [inversion E; subst; eauto|auto].
  Qed.
  Lemma step_eq s t node st st' : preflow_step arcs s t node st = Ok st' -> okflow (p_flow st') -> okexcess (p_excess st') ->
    fl_preflow_step arcs s t node st = Ok st'.
  Proof.
    intros E O X. unfold preflow_step in E. apply bind_ok in E. destruct E as (ex & Ee & E). unfold fl_preflow_step. rewrite Ee. cbn [bind].
    destruct (qlt 0 ex); [|exact E]. destruct (dget String.eqb node (p_residual st)) as [l|]; [|discriminate].
    apply bind_ok in E. destruct E as (hn & Eh & E). rewrite Eh. cbn [bind]. apply bind_ok in E. destruct E as (fp & Ef & E). rewrite Ef. cbn [bind].
    destruct fp as [[v x]|]; [|exact E]. apply push_eq; auto. apply find_push_height in Ef. destruct Ef as (he & Hh & Hs).
    intros <-. rewrite Eh in Hh. inversion Hh. lia.
  Qed.

  Section Push.
    Variables s t : string.
    Hypothesis Hs : In s (dkeys (dg_nodes g)).
    Hypothesis Ht : In t (dkeys (dg_nodes g)).
    Hypothesis Hst : s <> t.
    Hypothesis Hw : one_way arcs.
    Hypothesis Hshort : forall v, In v (dkeys (dg_nodes g)) -> v <> t -> short v.
    Let V := dkeys (dg_nodes g).
    Let N := preflow_nodes g s t.

    Lemma pre_flow st : pre arcs s t V N st -> scaled arcs N D st -> okflow (p_flow st).
    Proof. intros P [S1 _]. pose proof (pr_exact _ _ _ _ _ _ P) as ((K & _) & _ & W). split; [exact K|]. split; [exact W|]. exact S1. Qed.
    Lemma pre_excess st : pre arcs s t V N st -> scaled arcs N D st -> okexcess (p_excess st).
    Proof.
      intros P Sc w x E. pose proof (pre_flow st P Sc) as (K & W & G). destruct Sc as [_ S2].
      assert (Hw' : In w N) by (rewrite <- (pr_ekeys _ _ _ _ _ _ P); eapply (get_key _ eqs); eauto).
      pose proof (S2 w Hw') as Gx. pose proof (pr_pos _ _ _ _ _ _ P w Hw') as P0. pose proof (pr_excess _ _ _ _ _ _ P w Hw') as Ex.
      unfold ev in *. change (sget w (p_excess st)) with (dget String.eqb w (p_excess st)) in *. rewrite E in *. apply grid_rnd0; [exact Gx|exact P0|].
      rewrite Ex, net_Sigma.
      assert (Q : (- Sigma (map fst arcs) (fun a => (ind (fst a =? w) - ind (snd a =? w)) * fget (p_flow st) a) <= Sigma (map fst arcs) (fget (p_flow st)))%Qc).
      { match goal with |- (- ?a <= ?b)%Qc => cut (0 <= a + b)%Qc; [intros; qclra|] end. rewrite <- Sigma_add. apply Sigma_nonneg. intros a Ha.
        change (In a (dkeys arcs)) in Ha. apply key_In in Ha. destruct Ha as [c Hc]. destruct (W a c Hc) as [W0 _]. unfold ind.
        destruct (fst a =? w), (snd a =? w); qclra. }
      eapply Qcle_lt_trans; [exact Q|]. eapply Qcle_lt_trans; [|exact Htot]. apply total_cap. exact W.
    Qed.

    Lemma loop_eq fuel : forall value st, pre arcs s t V N st -> scaled arcs N D st ->
      fl_preflow_loop order fuel g s t N value st = preflow_loop fuel g s t N value st.
    Proof.
      induction fuel as [|fuel IH]; intros value st P Sc; [reflexivity|]. cbn [fl_preflow_loop preflow_loop].
      destruct (nth_error N (p_index st)) as [node|] eqn:En; [|reflexivity].
      assert (HVnd : NoDup V) by apply Hi.
      assert (HNnd : NoDup N) by (apply NoDup_filter; exact HVnd).
      assert (HVa : forall u v, In (u, v) (dkeys arcs) -> In u V /\ In v V) by (intros u v H; apply (d_arc _ Hi _ _ H)).
      assert (HDc : forall a c, In (a, c) arcs -> isint (qz D * c)%Qc) by (intros; eapply Hgrid; eauto).
      destruct (step_ok arcs s t V N Hst (arcs_nd g Hi) (arcs_loop g Hi) Hw HVnd HVa Hs Ht (N_spec g s t) HNnd D D_pos HDc st node P En) as (st' & Es & P' & _ & Sc').
      specialize (Sc' Sc). rewrite Es. rewrite (step_eq s t node st st' Es (pre_flow st' P' Sc') (pre_excess st' P' Sc')). cbn [bind].
      rewrite (value_eq s (p_flow st') (pre_flow st' P' Sc')). apply IH; auto.
    Qed.

    Lemma excess_grid v flow : okflow flow -> grid (preflow_excess g flow v).
    Proof.
      intros O. unfold preflow_excess, cut, ncut.
      match goal with |- grid (qsum (map _ (filter ?P _)) - qsum (map _ (filter ?Q _)))%Qc =>
        destruct (cut_sum flow P O) as (_ & G1 & _); destruct (cut_sum flow Q O) as (_ & G2 & _) end.
      now apply grid_sub.
    Qed.
    Lemma preflow_eq fuel : fl_preflow_push order fuel g s t = preflow_push fuel g s t.
    Proof.
      unfold fl_preflow_push, preflow_push. destruct (negb (has_node g s)); [reflexivity|]. destruct (negb (has_node g t)); [reflexivity|].
      destruct (String.eqb s t); [reflexivity|]. cbv zeta.
      destruct (init_exact0 g s t Hi Hs Hst Hcap Hw Hshort) as (r & Er & X).
      assert (O : okflow (preflow_init_flow g s)).
      { destruct X as ((K & _) & _ & W). split; [exact K|]. split; [exact W|]. intros a Ha. apply key_In in Ha. destruct Ha as [c Hc].
        rewrite (flow0_get g s t Hi Hs Hst Hshort a c Hc). destruct (String.eqb (fst a) s); [eapply Hgrid; eauto|apply grid_0]. }
      rewrite (residual_eq _ O), Er. cbn [bind].
      assert (Ex : map (fun v => (v, fl_preflow_excess order g (preflow_init_flow g s) v)) (preflow_nodes g s t) = excess0 g s t).
      { apply map_ext. intros v. now rewrite (excess_eq v _ O). }
      rewrite Ex. apply loop_eq.
      - apply (init_pre g s t Hi Hs Ht Hst Hcap Hw Hshort r Er).
      - split; cbn [p_flow p_excess]; [apply O|]. intros v Hv. unfold ev, excess0. rewrite (dget_map (preflow_excess g (preflow_init_flow g s))) by exact Hv.
        apply (excess_grid v _ O).
    Qed.
  End Push.

  (** ** ford_fulkerson *)
  Lemma ff_update_get l d a : forall flow r flow' r', dkeys flow = dkeys arcs -> ~ In a l -> forward arcs l ->
    ff_update arcs l d flow r = Ok (flow', r') -> dget eqe a flow' = dget eqe a flow.
  Proof.
    induction l as [|[u v] l IH]; intros flow r flow' r' K Ha Fl E; cbn [ff_update] in E; [inversion E; reflexivity|].
    apply bind_ok in E. destruct E as ([b flow1] & Ef & E). apply bind_ok in E. destruct E as (r1 & Er & E). cbn [fst snd] in *.
    assert (Huv : In (u, v) (dkeys arcs)) by (apply Fl; now left).
    unfold fupdate in Ef. rewrite <- K in Huv. destruct (key_get _ eqe_spec _ _ Huv) as [x Ex]. rewrite Ex in Ef. inversion Ef; subst b flow1.
    assert (K1 : dkeys (dset eqe (u, v) (x + d)%Qc flow) = dkeys arcs) by (rewrite (dset_same_keys eqe eqe_spec); auto).
    assert (Fl' : forward arcs l) by (intros b Hb; apply Fl; now right).
    assert (Ha' : ~ In a l) by (intros H; apply Ha; now right).
    rewrite (IH _ _ flow' r' K1 Ha' Fl' E).
    rewrite (dget_dset _ eqe_spec). destruct (eqe_spec a (u, v)); [|reflexivity]. subst a. exfalso. apply Ha. now left.
  Qed.
  Lemma ff_update_eq l d : forall flow r flow' r', dkeys flow = dkeys arcs -> NoDup l -> forward arcs l -> okflow flow' ->
    ff_update arcs l d flow r = Ok (flow', r') -> fl_ff_update arcs l d flow r = Ok (flow', r').
  Proof.
    induction l as [|[u v] l IH]; intros flow r flow' r' K Nl Fl O E; cbn [ff_update] in E; [exact E|].
    apply bind_ok in E. destruct E as ([b flow1] & Ef & E). apply bind_ok in E. destruct E as (r1 & Er & E). cbn [fst snd] in *.
    assert (Huv : In (u, v) (dkeys arcs)) by (apply Fl; now left). inversion Nl as [|? ? Hni Nl']; subst.
    assert (Fl' : forward arcs l) by (intros b' Hb; apply Fl; now right).
    pose proof Ef as Ef0. unfold fupdate in Ef. rewrite <- K in Huv. destruct (key_get _ eqe_spec _ _ Huv) as [x Ex]. rewrite Ex in Ef. inversion Ef; subst b flow1.
    assert (K1 : dkeys (dset eqe (u, v) (x + d)%Qc flow) = dkeys arcs) by (rewrite (dset_same_keys eqe eqe_spec); auto).
    pose proof (ff_update_get l d (u, v) _ _ flow' r' K1 Hni Fl' E) as G.
    cbn [fl_ff_update]. rewrite (fupdate_eq _ _ _ _ _ _ Ef0) by (intros y Hy; rewrite <- G in Hy; apply (flow_safe flow' (u, v) y O Hy)). cbn [bind fst snd].
    rewrite rupdate_eq by (intros y c Hy Hc; rewrite <- G in Hy; apply (rest_safe flow' (u, v) y c O Hy Hc)).
    rewrite Er. cbn [bind]. apply IH; auto.
  Qed.

  Section Forward.
    Variables s t : string.
    Hypothesis Hs : In s (dkeys (dg_nodes g)).
    Hypothesis Ht : In t (dkeys (dg_nodes g)).
    Hypothesis Hst : s <> t.
    Hypothesis Hw : one_way arcs.

    Lemma trace_in fuel : forall flow r trace l, In l trace -> In l (snd (ff_loop fuel arcs s t flow r trace)).
    Proof.
      induction fuel as [|fuel IH]; intros flow r trace l H; cbn [ff_loop]; [exact H|].
      destruct (bfs_path s t r) as [[p0|]| |]; auto. destruct (ff_augment arcs t p0 flow r) as [[l' [flow' r']]| |]; auto.
      apply IH. apply in_or_app. now left.
    Qed.
    Lemma ff_loop_eq fuel : forall flow r trace, exact arcs flow r -> okflow flow ->
      (forall l, In l (snd (ff_loop fuel arcs s t flow r trace)) -> forward arcs l) ->
      fl_ff_loop fuel arcs s t flow r trace = ff_loop fuel arcs s t flow r trace /\
      forall flow', fst (ff_loop fuel arcs s t flow r trace) = Ok flow' -> okflow flow'.
    Proof.
      induction fuel as [|fuel IH]; intros flow r trace X O F; cbn [fl_ff_loop ff_loop] in *; [split; [reflexivity|intros ? E; discriminate E]|].
      destruct (bfs_path_spec r s t Hst) as [[Eb HS]|(q & l & Eb & Ep & Hb)]; rewrite Eb in *; [split; [reflexivity|intros f E; inversion E; subst; exact O]|].
      destruct (augment_gen arcs s t Hst (arcs_nd g Hi) flow r q l (proj1 X) Ep Hb) as (d & f1 & r1 & Em & Eu & Ea & B' & _).
      rewrite Ea in *.
      assert (Fl : forward arcs l) by (apply F, trace_in, in_or_app; right; now left).
      destruct (augment_forward arcs s t Hst (arcs_nd g Hi) (arcs_loop g Hi) Hw flow r q l X Ep Hb Fl) as (d' & f1' & r1' & Ea' & X1 & Hd & _ & (a0 & c0 & Ha0 & Hc0 & Ed) & Hf).
      rewrite Ea in Ea'. inversion Ea'; subst f1' r1'.
      assert (O1 : okflow f1).
      { destruct X1 as ((K1 & _) & _ & W1). split; [exact K1|]. split; [exact W1|]. intros a Ha. rewrite (Hf a Ha). destruct O as (_ & _ & G).
        destruct (existsb (eqe a) l); [|auto]. apply grid_add; [auto|]. rewrite Ed. apply grid_sub; [eapply Hgrid; eauto|]. apply G, key_In. eauto. }
      assert (Ef : fl_ff_augment arcs t q flow r = Ok (l, (f1, r1))).
      { unfold fl_ff_augment. rewrite Ep. cbn [bind]. destruct l as [|b l]; [inversion Hb; congruence|]. rewrite Em. cbn [bind].
        rewrite (ff_update_eq (b :: l) d flow r f1 r1 (proj1 (proj1 X)) (bpath_NoDup s r t (b :: l) Hb) Fl O1 Eu). reflexivity. }
      rewrite Ef. apply IH; auto.
    Qed.
    Lemma ff_eq fuel : (forall l, In l (snd (ford_fulkerson fuel g s t)) -> forward arcs l) ->
      fl_ford_fulkerson order fuel g s t = ford_fulkerson fuel g s t.
    Proof.
      intros F. destruct (ff_unfold g s t Hs Ht Hst Hcap fuel) as (r & Er & Eu). rewrite Eu in F. cbn [snd] in F.
      assert (O : okflow (zero_flow arcs)).
      { split; [apply zero_keys|]. split; [intros a c H; rewrite zero_fget; split; [apply Qcle_refl|eauto]|]. intros a Ha. rewrite zero_fget. apply grid_0. }
      destruct (ff_loop_eq fuel (zero_flow arcs) r [] (init_exact g Hi Hcap r Hw Er) O F) as [E1 E2].
      rewrite Eu. unfold fl_ford_fulkerson.
      assert (has_node g s = true) as -> by (destruct (has_node_spec g s); [reflexivity|contradiction]).
      assert (has_node g t = true) as -> by (destruct (has_node_spec g t); [reflexivity|contradiction]).
      cbn [negb]. destruct (eqs s t); [congruence|]. cbv zeta. change (map (fun p0 : edge * Qc => (fst p0, 0%Qc)) arcs) with (zero_flow arcs).
      rewrite (residual_eq _ O), Er, E1. destruct (ff_loop fuel arcs s t (zero_flow arcs) r []) as [[x| |] tr]; cbn [fst snd rmap] in *; try reflexivity.
      unfold rmap. cbn [bind]. now rewrite (value_eq s x (E2 x eq_refl)).
    Qed.
  End Forward.
End Grid.

(** ** ford_fulkerson with any doubles: the structure of the residual network does not depend on rounding *)
Lemma fl_rupdate_any_arcs arcs flow a u v r c x : dget eqe a arcs = Some c -> dget eqe a flow = Some x ->
  fl_rupdate arcs flow a u v r = rupdate (dset eqe a (x + rnd (c - x))%Qc arcs) flow a u v r.
Proof.
  intros Ec Ex. unfold fl_rupdate, rupdate. rewrite Ec, Ex, (dget_dset_eq _ eqe_spec).
  replace (x + rnd (c - x) - x)%Qc with (rnd (c - x)%Qc) by ring. reflexivity.
Qed.
Section Any.
  Variable g : digraph.
  Notation arcs := (dg_arcs g).
  Variables s t : string.
  Hypothesis Hi : dinv g.
  Hypothesis Hs : In s (dkeys (dg_nodes g)).
  Hypothesis Ht : In t (dkeys (dg_nodes g)).
  Hypothesis Hst : s <> t.
  Hypothesis Hcap : forall a c, In (a, c) arcs -> (0 <= c)%Qc.
  Hypothesis Hdbl : forall a c, In (a, c) arcs -> is_double c.

  Definition all_doubles (flow : list (arc * Qc)) : Prop := forall a x, dget eqe a flow = Some x -> is_double x.

  Lemma step_any u v d flow r : base arcs flow r -> all_doubles flow -> u <> v -> In (u, v) (dkeys arcs) \/ In (v, u) (dkeys arcs) ->
    exists a flow' r', fl_fupdate flow u v d = Ok (a, flow') /\ fl_rupdate arcs flow' a u v r = Ok r' /\ base arcs flow' r' /\ all_doubles flow'.
  Proof.
    intros (K & R & Sp) Dbl Hne Hin.
    assert (KI : forall a, In a (dkeys flow) <-> In a (dkeys arcs)) by (intros a; rewrite K; tauto).
    assert (U : exists a x, fl_fupdate flow u v d = Ok (a, dset eqe a (rnd x) flow) /\ In a (dkeys arcs) /\ (a = (u, v) \/ a = (v, u))).
    { unfold fl_fupdate. destruct (dget eqe (u, v) flow) as [f|] eqn:E1.
      - exists (u, v), (f + d)%Qc. split; [reflexivity|]. split; [apply KI; eapply (get_key _ eqe_spec); eauto|auto].
      - destruct (dget eqe (v, u) flow) as [f|] eqn:E2.
        + exists (v, u), (f - d)%Qc. split; [reflexivity|]. split; [apply KI; eapply (get_key _ eqe_spec); eauto|auto].
        + exfalso. destruct Hin as [H|H]; apply KI in H; destruct (key_get _ eqe_spec _ _ H); congruence. }
    destruct U as (a & x & E & Ha & Hau). destruct (key_get _ eqe_spec _ _ Ha) as [c Ec].
    exists a, (dset eqe a (rnd x) flow).
    rewrite (fl_rupdate_any_arcs arcs (dset eqe a (rnd x) flow) a u v r c (rnd x) Ec (dget_dset_eq _ eqe_spec _ _ _)).
    destruct (rupdate_spec (dset eqe a (rnd x + rnd (c - rnd x))%Qc arcs) (dset eqe a (rnd x) flow) a u v _ (rnd x) r R Hne (dget_dset_eq _ eqe_spec _ _ _) (dget_dset_eq _ eqe_spec _ _ _))
      as (r' & Er & R' & V1 & V2 & V3).
    exists r'. split; [exact E|]. split; [exact Er|]. split.
    - split; [rewrite (dset_same_keys eqe eqe_spec); [exact K|apply KI; exact Ha]|]. split; [exact R'|].
      intros p q Hpq. destruct (eqe_spec (p, q) (u, v)) as [E1|E1]; [inversion E1; subst; exact Hin|].
      destruct (eqe_spec (p, q) (v, u)) as [E2|E2]; [inversion E2; subst; tauto|]. apply Sp. now rewrite <- V3.
    - intros b y. rewrite (dget_dset _ eqe_spec). destruct (eqe_spec b a); [intros Ey; inversion Ey; apply rnd_rounds|apply Dbl].
  Qed.
  Lemma update_any d l : forall flow r, base arcs flow r -> all_doubles flow ->
    (forall u v, In (u, v) l -> u <> v /\ (In (u, v) (dkeys arcs) \/ In (v, u) (dkeys arcs))) ->
    exists flow' r', fl_ff_update arcs l d flow r = Ok (flow', r') /\ base arcs flow' r' /\ all_doubles flow'.
  Proof.
    induction l as [|[u v] l IH]; intros flow r Bs Dbl H; cbn [fl_ff_update]; [eauto|].
    destruct (H u v (or_introl eq_refl)) as [Hne Hin].
    destruct (step_any u v d flow r Bs Dbl Hne Hin) as (a & f1 & r1 & E1 & E2 & B1 & D1). rewrite E1. cbn [bind fst snd]. rewrite E2. cbn [bind].
    apply IH; auto. intros; apply H; now right.
  Qed.
  Lemma ff_loop_any fuel : forall flow r trace, base arcs flow r -> all_doubles flow ->
    (exists flow' more, fl_ff_loop fuel arcs s t flow r trace = (Ok flow', trace ++ more) /\ dkeys flow' = dkeys arcs /\ all_doubles flow') \/
    (exists more, fl_ff_loop fuel arcs s t flow r trace = (Diverges, trace ++ more) /\ length more = fuel).
  Proof.
    induction fuel as [|fuel IH]; intros flow r trace Bs Dbl; cbn [fl_ff_loop].
    - right. exists []. rewrite app_nil_r. auto.
    - destruct (bfs_path_spec r s t Hst) as [[E _]|(q & l & E & Ep & Hb)]; rewrite E.
      + left. exists flow, []. rewrite app_nil_r. split; [auto|]. split; [apply Bs|auto].
      + assert (Hl : l <> []) by (intros ->; inversion Hb; congruence).
        destruct (min_residual_spec r l None) as (d & Ed & _); [intros u v; apply (bpath_nodes s r t l Hb)|auto|].
        destruct (update_any d l flow r Bs Dbl) as (f1 & r1 & Eu & B1 & D1).
        { intros u v Hin. destruct (bpath_nodes s r t l Hb u v Hin). split; auto. apply Bs. auto. }
        assert (Ea : fl_ff_augment arcs t q flow r = Ok (l, (f1, r1))).
        { unfold fl_ff_augment. rewrite Ep. cbn [bind]. destruct l as [|a l']; [congruence|]. rewrite Ed. cbn [bind]. rewrite Eu. reflexivity. }
        rewrite Ea. destruct (IH f1 r1 (trace ++ [l]) B1 D1) as [(f2 & more & E2 & K)|(more & E2 & K)].
        * left. exists f2, (l :: more). rewrite <- app_assoc in E2. auto.
        * right. exists (l :: more). rewrite <- app_assoc in E2. simpl. auto.
  Qed.
  Lemma ff_any order fuel :
    (exists flow tr, fl_ford_fulkerson order fuel g s t = (Ok (fl_flow_value order g s flow, flow), tr) /\ dkeys flow = dkeys arcs /\ all_doubles flow) \/
    (exists tr, fl_ford_fulkerson order fuel g s t = (Diverges, tr) /\ length tr = fuel).
  Proof.
    destruct (init_residual g Hcap) as (r & Er & Bs).
    assert (E0 : fl_residual g (zero_flow arcs) = Ok r).
    { rewrite <- Er. apply residual_loop_eq. intros a c H. rewrite zero_fget. replace (c - 0)%Qc with c by ring. apply rnd_double. eauto. }
    assert (D0 : all_doubles (zero_flow arcs)).
    { intros a x E. assert (fget (zero_flow arcs) a = x) by (unfold fget; now rewrite E). rewrite zero_fget in H. subst. apply double_0. }
    unfold fl_ford_fulkerson.
    assert (has_node g s = true) as -> by (destruct (has_node_spec g s); [reflexivity|contradiction]).
    assert (has_node g t = true) as -> by (destruct (has_node_spec g t); [reflexivity|contradiction]).
    cbn [negb]. destruct (eqs s t); [congruence|]. cbv zeta. change (map (fun p0 : edge * Qc => (fst p0, 0%Qc)) arcs) with (zero_flow arcs).
    rewrite E0. destruct (ff_loop_any fuel (zero_flow arcs) r [] Bs D0) as [(f & more & E & K & Db)|(more & E & L)]; rewrite E; cbn [fst snd app].
    - left. exists f, more. split; [reflexivity|auto].
    - right. exists more. split; [reflexivity|exact L].
  Qed.
End Any.
