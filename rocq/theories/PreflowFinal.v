(** preflow_push as a whole: the initial state and the result. *)
From Coq Require Import String List Bool Arith QArith Qcanon Lia ZArith.
From Verif Require Import Py QcTac QSum QInt UndirectedModel UndirectedProofs DirectedModel DirectedSpec DirectedProofs FlowModel FlowSpec FlowTheory ResidualProofs DirectedFinal FFProofs FFFinal PreflowProofs.
Import ListNotations.
Open Scope nat_scope.
Open Scope string_scope.
Open Scope list_scope.

Section Whole.
  Variable g : digraph.
  Variables s t : string.
  Hypothesis Hi : dinv g.
  Hypothesis Hs : In s (dkeys (dg_nodes g)).
  Hypothesis Ht : In t (dkeys (dg_nodes g)).
  Hypothesis Hst : s <> t.
  Hypothesis Hcap : forall a c, In (a, c) (dg_arcs g) -> (0 <= c)%Qc.
  Hypothesis Hw : one_way (dg_arcs g).
  Hypothesis Hshort : forall v, In v (dkeys (dg_nodes g)) -> v <> t -> short v.

  Notation arcs := (dg_arcs g).
  Let flow0 := preflow_init_flow g s.
  Let V := dkeys (dg_nodes g).
  Let N := preflow_nodes g s t.

  Lemma N_spec v : In v N <-> In v V /\ v <> s /\ v <> t.
  Proof.
    unfold N, preflow_nodes. rewrite filter_In, andb_true_iff, !negb_true_iff, !String.eqb_neq. reflexivity.
  Qed.
  Lemma flow0_keys : dkeys flow0 = dkeys arcs.
  Proof. unfold flow0, preflow_init_flow, dkeys. rewrite map_map. reflexivity. Qed.
  Lemma flow0_get a c : In (a, c) arcs -> fget flow0 a = if String.eqb (fst a) s then c else 0%Qc.
  Proof.
    intros H. unfold fget.
    assert (E : dget eqe a flow0 = Some (if existsb (eqe a) (cut g (Name s)) then c else 0%Qc)).
    { apply (In_dget _ eqe_spec); [rewrite flow0_keys; apply Hi|]. unfold flow0, preflow_init_flow.
      apply (in_map (fun p => (fst p, if existsb (eqe (fst p)) (cut g (Name s)) then snd p else 0%Qc))) in H. exact H. }
    rewrite E. rewrite (cut_short g s Hi) by (apply Hshort; auto).
    destruct (existsb (eqe a) (filter (fun b => String.eqb (fst b) s) (dkeys arcs))) eqn:Ex.
    - apply existsb_exists in Ex. destruct Ex as (b & Hb & Hab). destruct (eqe_spec a b); [subst b|discriminate].
      apply filter_In in Hb. destruct Hb as [_ ->]. reflexivity.
    - destruct (eqs (fst a) s) as [Ea|]; auto. exfalso.
      assert (existsb (eqe a) (filter (fun b => String.eqb (fst b) s) (dkeys arcs)) = true); [|congruence].
      apply existsb_exists. exists a. split; [|destruct (eqe_spec a a); congruence].
      apply filter_In. split; [apply key_In; eauto|]. now apply String.eqb_eq.
  Qed.
  Lemma flow0_cap : within_capacity arcs (fget flow0).
  Proof.
    intros a c H. rewrite (flow0_get a c H). pose proof (Hcap a c H). destruct (String.eqb (fst a) s); split; auto; apply Qcle_refl.
  Qed.
  Lemma init_exact0 : exists r, compute_residual g flow0 = Ok r /\ exact arcs flow0 r.
  Proof.
    destruct (compute_residual_ok flow0 arcs (arcs_nd g Hi) Hw) with (r := [] : rnet) as (r & E & R & Vx).
    - intros a c H. now apply flow0_cap.
    - apply rok_nil.
    - exists r. split; [exact E|]. destruct (compute_residual_support _ _ _ _ rok_nil E) as (_ & Sp & _).
      split; [|split].
      + split; [apply flow0_keys|]. split; [exact R|]. intros u v H. destruct (Sp u v H) as [X|X]; auto. unfold rval in X. simpl in X. congruence.
      + intros u v. rewrite Vx. destruct (rexp arcs flow0 u v); auto.
      + apply flow0_cap.
  Qed.
  Lemma dget_map {B} (f : string -> B) l v : In v l -> sget v (map (fun v => (v, f v)) l) = Some (f v).
  Proof.
    induction l as [|x l IH]; intros H; [destruct H|]. simpl. destruct (eqs v x) as [->|Ne]; auto. destruct H; [congruence|auto].
  Qed.
  Lemma dget_map_none {B} (f : string -> B) l v : ~ In v l -> sget v (map (fun v => (v, f v)) l) = None.
  Proof.
    intros H. apply (dget_None _ eqs). unfold dkeys. rewrite map_map. cbn [fst]. now rewrite map_id.
  Qed.

  Definition height0 := map (fun v => (v, if String.eqb v s then length (dg_nodes g) else 0)) V.
  Definition excess0 := map (fun v => (v, preflow_excess g flow0 v)) N.

  Lemma hv0 v : hv height0 v = if String.eqb v s then length V else 0.
  Proof.
    unfold hv, height0. destruct (in_dec string_dec v V) as [H|H].
    - rewrite dget_map by auto. unfold V, dkeys. now rewrite map_length.
    - rewrite dget_map_none by auto. destruct (eqs v s) as [->|]; auto. contradiction.
  Qed.
  Lemma ev0 v : In v N -> ev excess0 v = (- net arcs (fget flow0) v)%Qc.
  Proof.
    intros H. unfold ev, excess0. rewrite dget_map by auto. apply N_spec in H. destruct H as (HV & H1 & H2).
    unfold preflow_excess. rewrite (cut_short g v Hi), (ncut_short g v Hi) by (apply Hshort; auto).
    unfold net. unfold inflow, outflow. change (@total) with qsum.
    assert (Ab : forall x y x' y' : Qc, x = x' -> y = y' -> (x - y = - (y' - x'))%Qc) by (intros; subst; ring).
    apply Ab; reflexivity.
  Qed.

  Lemma init_pre r : compute_residual g flow0 = Ok r -> pre arcs s t V N (mkps 0 excess0 flow0 r height0).
  Proof.
    intros Er. destruct init_exact0 as (r' & Er' & X). rewrite Er in Er'. inversion Er'; subst r'.
    split; cbn [p_flow p_residual p_excess p_height p_index]; auto.
    - unfold excess0, dkeys. rewrite map_map. cbn [fst]. apply map_id.
    - apply ev0.
    - intros v H. rewrite (ev0 v H). apply N_spec in H. destruct H as (HV & H1 & H2). 
      assert (net arcs (fget flow0) v <= 0)%Qc; [|qclra]. rewrite net_Sigma.
      assert (Hz : Sigma (map fst arcs) (fun _ => 0%Qc) = 0%Qc) by apply Sigma_zero.
      rewrite <- Hz. apply Sigma_le. intros a Ha. apply in_map_iff in Ha. destruct Ha as ([a' c] & <- & Ha). cbn [fst].
      rewrite (flow0_get a' c Ha). pose proof (Hcap _ _ Ha). destruct (eqs (fst a') s) as [E|E].
      + destruct (eqs (fst a') v); [congruence|]. unfold ind. destruct (String.eqb (snd a') v); qclra.
      + match goal with |- (?x <= 0)%Qc => replace x with 0%Qc by ring end. apply Qcle_refl.
    - unfold height0, dkeys. rewrite map_map. cbn [fst]. apply map_id.
    - rewrite hv0, String.eqb_refl. reflexivity.
    - rewrite hv0. destruct (eqs t s); [congruence|reflexivity].
    - intros u v He. rewrite !hv0. destruct (eqs u s) as [->|]; [|lia]. exfalso.
      unfold edge_in in He. destruct X as (_ & Vx & _). rewrite Vx in He. unfold rexp in He.
      destruct (dget eqe (s, v) arcs) as [c|] eqn:E1.
      + apply (dget_In _ eqe_spec) in E1. rewrite (flow0_get _ _ E1) in He. cbn [fst] in He. rewrite String.eqb_refl in He.
        destruct (qlt_spec c c); [qclra|congruence].
      + destruct (dget eqe (v, s) arcs) as [c|] eqn:E2; [|congruence].
        pose proof (get_key _ eqe_spec _ _ _ E2) as Hk. apply (arcs_loop g Hi) in Hk.
        apply (dget_In _ eqe_spec) in E2. rewrite (flow0_get _ _ E2) in He. cbn [fst] in He.
        destruct (eqs v s); [congruence|]. destruct (qlt_spec 0 0); [qclra|congruence].
    - intros v. rewrite hv0. destruct (String.eqb v s); [|lia].
      assert (length V <> 0); [|lia]. unfold V. destruct (dkeys (dg_nodes g)); [destruct Hs|discriminate].
    - lia.
    - intros i v Hlt. lia.
  Qed.

  Lemma preflow_all : N <> [] -> exists k flow inside,
    (forall fuel, k <= fuel -> preflow_push fuel g s t = Ok (net_value arcs s (fget flow), flow)) /\
    dkeys flow = dkeys arcs /\ maximum_flow arcs s t (fget flow) /\ inside s = true /\ inside t = false /\
    net_value arcs s (fget flow) = cut_capacity arcs inside.
  Proof.
    intros HNe. destruct init_exact0 as (r & Er & X). pose proof (init_pre r Er) as P.
    destruct (common_den (map snd arcs)) as (D & HD & HDc).
    assert (HDc' : forall a c, In (a, c) arcs -> isint (qz D * c)%Qc).
    { intros a c H. apply HDc. change c with (snd (a, c)). now apply in_map. }
    set (st := mkps 0 excess0 flow0 r height0) in *.
    assert (HVnd : NoDup V) by apply Hi.
    assert (HNnd : NoDup N) by (apply NoDup_filter; exact HVnd).
    assert (HVa : forall u v, In (u, v) (dkeys arcs) -> In u V /\ In v V) by (intros u v H; apply (d_arc _ Hi _ _ H)).
    assert (Fi : forall a, In a (dkeys arcs) -> isint (qz D * fget flow0 a)%Qc).
    { intros a Ha. apply key_In in Ha. destruct Ha as [c Hc]. rewrite (flow0_get a c Hc). destruct (String.eqb (fst a) s); [eauto|].
      exists 0%Z. rewrite qz_0. ring. }
    assert (Sc : scaled arcs N D st).
    { split; cbn [st p_flow p_excess]; [exact Fi|]. intros v Hv. rewrite (ev0 v Hv), net_Sigma.
      assert (Sg : forall l (f : arc -> Qc), (forall a, In a l -> isint (qz D * f a)%Qc) -> isint (qz D * Sigma l f)%Qc).
      { intros l f. induction l as [|a l IH]; intros H; [exists 0%Z; rewrite Sigma_nil, qz_0; ring|].
        rewrite Sigma_cons. replace (qz D * (f a + Sigma l f))%Qc with (qz D * f a + qz D * Sigma l f)%Qc by ring.
        apply isint_add; [apply H; now left|apply IH; intros; apply H; now right]. }
      assert (Ng : forall x, isint (qz D * x)%Qc -> isint (qz D * - x)%Qc).
      { intros x Hx. apply isint_opp in Hx. replace (qz D * - x)%Qc with (- (qz D * x))%Qc by ring. exact Hx. }
      apply Ng, Sg. intros a Ha.
      replace (qz D * ((ind (fst a =? v) - ind (snd a =? v)) * fget flow0 a))%Qc with ((ind (fst a =? v) - ind (snd a =? v)) * (qz D * fget flow0 a))%Qc by ring.
      apply isint_mul; [|apply Fi; exact Ha]. apply isint_sub; unfold ind; [destruct (fst a =? v)|destruct (snd a =? v)]; (exists 1%Z; reflexivity) || (exists 0%Z; reflexivity). }
    assert (Hex : exists w : nat, (qz D * work N st <= qz (Z.of_nat w))%Qc).
    { set (x := (qz D * work N st)%Qc). exists (Z.to_nat (Z.abs (Qnum (this x)))). rewrite Z2Nat.id by lia.
      unfold qz, Qcle. rewrite this_Q2Qc. destruct (this x) as [a b]. unfold Qle, inject_Z. cbn [Qnum Qden]. nia. }
    destruct Hex as [w Hwk].
    assert (Hl : 0 < length N) by (destruct N; [congruence|simpl; lia]).
    destruct (loop_stops arcs s t V N Hst (arcs_nd g Hi) (arcs_loop g Hi) Hw HVnd HVa Hs Ht N_spec HNnd D HD HDc' g eq_refl _ st eq_refl w Hwk _ eq_refl P Sc None)
      as (k & st' & P' & I' & K).
    { right. split; auto. }
    destruct (final_max arcs s t V N Hst (arcs_nd g Hi) (arcs_loop g Hi) Hw HVnd HVa Hs Ht N_spec HNnd st' P' I') as (C & inside & I1 & I2 & M & Vl).
    exists k, (p_flow st'), inside. split; [|split; [apply P'|auto]].
    intros fuel Hf. unfold preflow_push.
    assert (has_node g s = true) as -> by (destruct (has_node_spec g s); [reflexivity|contradiction]).
    assert (has_node g t = true) as -> by (destruct (has_node_spec g t); [reflexivity|contradiction]).
    cbn [negb]. destruct (eqs s t); [congruence|]. fold flow0. rewrite Er. cbn [bind]. cbv zeta.
    change (map (fun v => (v, if String.eqb v s then length (dg_nodes g) else 0)) (dkeys (dg_nodes g))) with height0.
    fold N. fold excess0. fold st. rewrite (K fuel Hf). f_equal. f_equal. apply value_short; auto.
  Qed.
End Whole.
