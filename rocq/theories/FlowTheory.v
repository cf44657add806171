(** Weak duality of flows and cuts, and how one arc change moves the balances. *)
From Coq Require Import String List Bool QArith Qcanon Permutation.
From Verif Require Import QcTac QSum FlowSpec.
Import ListNotations.
Open Scope string_scope.
Open Scope list_scope.
Open Scope Qc_scope.

Notation arc := (string * string)%type.

Section F.
  Variable arcs : list (arc * Qc).
  Let A := map fst arcs.

  Lemma inflow_Sigma f v : inflow arcs f v = Sigma A (fun a => ind (String.eqb (snd a) v) * f a).
  Proof. unfold inflow. fold A. change (total ?l) with (qtot l). apply Sigma_filter. Qed.
  Lemma outflow_Sigma f v : outflow arcs f v = Sigma A (fun a => ind (String.eqb (fst a) v) * f a).
  Proof. unfold outflow. fold A. change (total ?l) with (qtot l). apply Sigma_filter. Qed.

  (** outflow minus inflow *)
  Definition net (f : arc -> Qc) (v : string) : Qc := outflow arcs f v - inflow arcs f v.
  Lemma net_Sigma f v : net f v = Sigma A (fun a => (ind (String.eqb (fst a) v) - ind (String.eqb (snd a) v)) * f a).
  Proof.
    unfold net. rewrite inflow_Sigma, outflow_Sigma, <- Sigma_sub. apply Sigma_ext. intros. ring.
  Qed.
  Lemma conserved_net s t f : conserved arcs s t f <-> forall v, v <> s -> v <> t -> net f v = 0.
  Proof.
    unfold conserved, net. split; intros H v Hs Ht.
    - rewrite H; auto. ring.
    - specialize (H v Hs Ht). qclra.
  Qed.

  Definition nodes_of : list string := nodup string_dec (map fst A ++ map snd A).
  Lemma nodes_of_spec a : In a A -> In (fst a) nodes_of /\ In (snd a) nodes_of.
  Proof.
    intros H. unfold nodes_of. rewrite !nodup_In, !in_app_iff. split; [left|right]; now apply in_map.
  Qed.

  (** summing the balance over a set gives what crosses its boundary *)
  Lemma sum_net (V : list string) (f : arc -> Qc) (inside : string -> bool) : NoDup V ->
    (forall a, In a A -> In (fst a) V /\ In (snd a) V) ->
    Sigma V (fun v => ind (inside v) * net f v) =
    Sigma A (fun a => (ind (inside (fst a)) - ind (inside (snd a))) * f a).
  Proof.
    intros Hnd HV.
    rewrite (Sigma_ext V _ (fun v => Sigma A (fun a => ind (inside v) * ((ind (String.eqb (fst a) v) - ind (String.eqb (snd a) v)) * f a)))).
    2:{ intros v _. rewrite net_Sigma. now rewrite Sigma_scal. }
    rewrite Sigma_swap. apply Sigma_ext. intros a Ha. destruct (HV a Ha) as [H1 H2].
    rewrite (Sigma_ext V _ (fun v => ind (inside v) * ind (String.eqb (fst a) v) * f a - ind (inside v) * ind (String.eqb (snd a) v) * f a)) by (intros; ring).
    rewrite Sigma_sub.
    rewrite (Sigma_single V (fst a)); auto.
    2:{ intros y _ Hy. destruct (String.eqb_spec (fst a) y); [congruence|]. simpl. ring. }
    rewrite (Sigma_single V (snd a)); auto.
    2:{ intros y _ Hy. destruct (String.eqb_spec (snd a) y); [congruence|]. simpl. ring. }
    rewrite !String.eqb_refl. simpl. ring.
  Qed.

  Lemma value_across s t f (inside : string -> bool) : conserved arcs s t f -> s <> t ->
    inside s = true -> inside t = false ->
    net_value arcs s f = Sigma A (fun a => (ind (inside (fst a)) - ind (inside (snd a))) * f a).
  Proof.
    intros Hc Hne Hs Ht.
    set (V := nodup string_dec (s :: map fst A ++ map snd A)).
    assert (HV : forall a, In a A -> In (fst a) V /\ In (snd a) V).
    { intros a Ha. unfold V. rewrite !nodup_In. simpl. rewrite !in_app_iff. split; right; [left|right]; now apply in_map. }
    assert (Hnd : NoDup V) by apply NoDup_nodup.
    rewrite <- (sum_net V f inside Hnd HV).
    rewrite (Sigma_single V s); auto.
    - rewrite Hs. simpl. unfold net_value, net. ring.
    - unfold V. rewrite nodup_In. now left.
    - intros v _ Hv. rewrite conserved_net in Hc. destruct (string_dec v t) as [->|Hvt].
      + rewrite Ht. simpl. ring.
      + rewrite Hc; auto. ring.
  Qed.

  Lemma cut_Sigma inside : cut_capacity arcs inside =
    Sigma arcs (fun p => ind (inside (fst (fst p)) && negb (inside (snd (fst p)))) * snd p).
  Proof. unfold cut_capacity. change (total ?l) with (qtot l). apply Sigma_filter. Qed.

  Lemma weak_duality s t f inside : is_flow arcs s t f -> s <> t -> inside s = true -> inside t = false ->
    net_value arcs s f <= cut_capacity arcs inside.
  Proof.
    intros [Hw Hc] Hne Hs Ht. rewrite (value_across s t f inside); auto. rewrite cut_Sigma.
    unfold A. rewrite Sigma_map. apply Sigma_le. intros [a c] Hin. simpl.
    destruct (Hw a c Hin). destruct (inside (fst a)), (inside (snd a)); unfold ind; cbn [andb negb]; qclra.
  Qed.

  (** a flow whose forward arcs across a cut are full and whose backward arcs are empty *)
  Lemma tight_cut s t f inside : is_flow arcs s t f -> s <> t -> inside s = true -> inside t = false ->
    (forall u v c, In ((u, v), c) arcs -> inside u = true -> inside v = false -> f (u, v) = c) ->
    (forall u v c, In ((u, v), c) arcs -> inside u = false -> inside v = true -> f (u, v) = 0) ->
    net_value arcs s f = cut_capacity arcs inside.
  Proof.
    intros [Hw Hc] Hne Hs Ht Hf Hb. rewrite (value_across s t f inside); auto. rewrite cut_Sigma.
    unfold A. rewrite Sigma_map. apply Sigma_ext. intros [[u v] c] Hin. simpl.
    destruct (inside u) eqn:Eu, (inside v) eqn:Ev; unfold ind; cbn [andb negb]; try ring.
    - rewrite (Hf u v c Hin); auto; ring.
    - rewrite (Hb u v c Hin); auto; ring.
  Qed.

  Lemma tight_cut_max s t f inside : is_flow arcs s t f -> s <> t -> inside s = true -> inside t = false ->
    (forall u v c, In ((u, v), c) arcs -> inside u = true -> inside v = false -> f (u, v) = c) ->
    (forall u v c, In ((u, v), c) arcs -> inside u = false -> inside v = true -> f (u, v) = 0) ->
    maximum_flow arcs s t f.
  Proof.
    intros Hf Hne Hs Ht H1 H2. split; auto. intros f' Hf'.
    rewrite (tight_cut s t f inside); auto. eapply weak_duality; eauto.
  Qed.

  (** adding [d] to one arc *)
  Hypothesis A_nd : NoDup A.
  Lemma net_change f f' (a : arc) d v : In a A -> (forall b, b <> a -> f' b = f b) -> f' a = f a + d ->
    net f' v = net f v + (ind (String.eqb (fst a) v) - ind (String.eqb (snd a) v)) * d.
  Proof.
    intros Ha Ho He. rewrite !net_Sigma.
    rewrite (Sigma_change A a (fun a => (ind (String.eqb (fst a) v) - ind (String.eqb (snd a) v)) * f a)); auto.
    - rewrite He. ring.
    - intros y _ Hy. now rewrite Ho.
  Qed.
End F.
