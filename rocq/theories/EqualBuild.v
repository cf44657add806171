(** The constructor of [UndirectedGraph] (C65). *)
From Coq Require Import String Ascii List Bool Arith QArith Qcanon Lia Permutation.
From Verif Require Import Py QcTac UndirectedModel GraphSpec UndirectedSpec UndirectedProofs EqualModel EqualSpec EqualProofs.
Import ListNotations.
Open Scope nat_scope.
Open Scope string_scope.
Open Scope list_scope.

Definition ew (g : ugraph) (e : edge) : option Qc := dget eqe (sorted2 e) (ug_edges g).
Definition vw (g : ugraph) (v : string) : option Qc := sget v (ug_vertices g).
Definition same_edge (e e' : edge) : bool := eqe (sorted2 e') (sorted2 e).
Definition ends (e : edge) (v : string) : bool := String.eqb v (fst e) || String.eqb v (snd e).
Definition legalb (e : edge) : bool := negb (String.eqb (fst e) (snd e) || String.eqb (fst e) "" || String.eqb (snd e) "").
Definition default (o : option Qc) (b : bool) : option Qc := match o with Some x => Some x | None => if b then Some 0%Qc else None end.
Definition override (o : option Qc) (b : bool) (w : Qc) : option Qc := if b then Some w else o.
Definition good (g : ugraph) : Prop := inv g /\ full g.

Lemma default_or o a b : default (default o a) b = default o (a || b).
Proof. destruct o; cbn; auto. now destruct a. Qed.
Lemma default_false o : default o false = o.
Proof. now destruct o. Qed.

Lemma ensure_edge g e : good g ->
  let r := (if has_edge g e then (g, Ok tt) else add_edge g e 0%Qc) in
  if legalb e then
    exists g', r = (g', Ok tt) /\ good g' /\ (forall e', ew g' e' = default (ew g e') (same_edge e e')) /\ (forall v, vw g' v = default (vw g v) (ends e v))
  else r = (g, Raise ValueError).
Proof.
  intros [I F] r. subst r. destruct (has_edge_spec g e) as [He|He].
  - assert (L : legalb e = true /\ (forall v, ends e v = true -> exists x, vw g v = Some x)).
    { unfold legalb, ends. destruct (sorted2_cases e) as [E|E]; rewrite E in He; destruct e as [a b]; cbn [fst snd] in *; apply (i_edge _ I) in He as (Lt & N1 & N2 & V1 & V2).
      - split; [destruct (eqs a b), (eqs a ""), (eqs b ""); cbn; try congruence; subst; rewrite compare_refl in Lt; discriminate Lt|].
        intros v. destruct (eqs v a), (eqs v b); cbn; try discriminate; intros _; subst; now apply (key_get String.eqb eqs).
      - split; [destruct (eqs a b), (eqs a ""), (eqs b ""); cbn; try congruence; subst; rewrite compare_refl in Lt; discriminate Lt|].
        intros v. destruct (eqs v a), (eqs v b); cbn; try discriminate; intros _; subst; now apply (key_get String.eqb eqs). }
    destruct L as [-> L]. exists g. split; [reflexivity|]. split; [now split|]. split.
    + intros e'. unfold same_edge, ew, default. destruct (dget eqe (sorted2 e') (ug_edges g)) eqn:E; auto. destruct (eqe_spec (sorted2 e') (sorted2 e)) as [K|]; auto.
      rewrite K in E. apply (dget_None _ eqe_spec) in E. contradiction.
    + intros v. destruct (ends e v) eqn:E; [|now rewrite default_false]. destruct (L v E) as (x & ->). reflexivity.
  - pose proof (add_edge_inv g e 0%Qc I) as [I' F']. specialize (F' F). revert I' F'. unfold add_edge, legalb.
    change (qlt 0 0) with false. cbv iota. destruct (String.eqb (fst e) (snd e)); [reflexivity|]. destruct (String.eqb (fst e) ""); [reflexivity|]. destruct (String.eqb (snd e) ""); [reflexivity|].
    cbn [orb negb]. cbv iota. destruct (has_edge_spec g (sorted2 e)) as [H|_]; [rewrite sorted2_idem in H; contradiction|]. cbn [fst]. intros I' F'.
    eexists. split; [reflexivity|]. split; [now split|]. split.
    + intros e'. unfold ew, same_edge. cbn [ug_edges]. now rewrite (dget_dsetdefault _ eqe_spec).
    + intros v. unfold vw, ends. cbn [ug_vertices]. rewrite !(dget_dsetdefault _ eqs).
      destruct (sorted2_cases e) as [->| ->]; cbn [fst snd]; destruct (sget v (ug_vertices g)); cbn; auto; destruct (String.eqb v (fst e)), (String.eqb v (snd e)); reflexivity.
Qed.
Lemma ensure_vertex g v : good g ->
  exists g', (if has_vertex g v then (g, Ok tt) else add_vertex g v 0%Qc) = (g', Ok tt) /\ good g' /\
    (forall e', ew g' e' = ew g e') /\ (forall v', vw g' v' = default (vw g v') (String.eqb v' v)).
Proof.
  intros [I F]. destruct (has_vertex_spec g v) as [Hv|Hv].
  - exists g. split; [reflexivity|]. split; [now split|]. split; [reflexivity|]. intros v'. destruct (eqs v' v) as [->|]; [|now rewrite default_false].
    destruct (key_get String.eqb eqs _ _ Hv) as (x & E). unfold vw. now rewrite E.
  - pose proof (add_vertex_inv g v 0%Qc I) as [I' F']. specialize (F' F). revert I' F'. unfold add_vertex. change (qlt 0 0) with false. cbv iota.
    destruct (has_vertex_spec g v) as [|_]; [contradiction|]. cbn [fst]. intros I' F'. eexists. split; [reflexivity|]. split; [now split|]. split; [reflexivity|].
    intros v'. unfold vw. cbn [ug_vertices]. now rewrite (dget_dsetdefault _ eqs).
Qed.
Lemma put_edge g e w : good g -> ew g e <> None ->
  exists g', set_edge_weight g e w = (g', Ok tt) /\ good g' /\ (forall e', ew g' e' = override (ew g e') (same_edge e e') w) /\ (forall v, vw g' v = vw g v).
Proof.
  intros [I F] H. pose proof (set_edge_weight_inv g e w I) as [I' F']. specialize (F' F). revert I' F'. unfold set_edge_weight.
  destruct (has_edge_spec g e) as [_|N]; [|apply (dget_None _ eqe_spec) in N; contradiction]. cbn [negb fst]. intros I' F'. eexists. split; [reflexivity|]. split; [now split|]. split; [|reflexivity].
  intros e'. unfold ew, same_edge, override. cbn [ug_edges]. rewrite (dget_dset _ eqe_spec). reflexivity.
Qed.
Lemma put_vertex g v w : good g -> vw g v <> None ->
  exists g', set_vertex_weight g v w = (g', Ok tt) /\ good g' /\ (forall e', ew g' e' = ew g e') /\ (forall v', vw g' v' = override (vw g v') (String.eqb v' v) w).
Proof.
  intros [I F] H. pose proof (set_vertex_weight_inv g v w I) as [I' F']. specialize (F' F). revert I' F'. unfold set_vertex_weight.
  destruct (has_vertex_spec g v) as [_|N]; [|apply (dget_None _ eqs) in N; contradiction]. cbn [negb fst]. intros I' F'. eexists. split; [reflexivity|]. split; [now split|]. split; [reflexivity|].
  intros v'. unfold vw, override. cbn [ug_vertices]. rewrite (dget_dset _ eqs). reflexivity.
Qed.

(** * The three loops *)
Lemma fold_raise {A} (f : res ugraph -> A -> res ugraph) l x : (forall a, f (Raise x) a = Raise x) -> fold_left f l (Raise x) = Raise x.
Proof. intros H. induction l as [|a l IH]; cbn; auto. now rewrite H. Qed.

Lemma connections u cs : forall g, good g ->
  let r := fold_left (fun r c => call (fun g => if has_edge g (u, c) then (g, Ok tt) else add_edge g (u, c) 0%Qc) r) cs (Ok g) in
  if forallb (fun c => legalb (u, c)) cs then
    exists g', r = Ok g' /\ good g' /\ (forall e', ew g' e' = default (ew g e') (existsb (fun c => same_edge (u, c) e') cs)) /\
      (forall v, vw g' v = default (vw g v) (existsb (fun c => ends (u, c) v) cs))
  else r = Raise ValueError.
Proof.
  induction cs as [|c cs IH]; intros g G.
  - exists g. split; [reflexivity|]. split; [exact G|]. split; intros; cbn; now rewrite default_false.
  - cbn [fold_left forallb existsb call]. pose proof (ensure_edge g (u, c) G) as H. cbv zeta in H. destruct (legalb (u, c)).
    + destruct H as (g' & E & G' & He & Hv). rewrite E. cbn [andb]. specialize (IH g' G'). cbv zeta in IH. destruct (forallb (fun c0 => legalb (u, c0)) cs); [|exact IH].
      destruct IH as (g'' & E' & G'' & He' & Hv'). exists g''. split; [exact E'|]. split; [exact G''|]. split; intros.
      * now rewrite He', He, default_or. * now rewrite Hv', Hv, default_or.
    + rewrite H. cbn [andb]. apply fold_raise. reflexivity.
Qed.

Definition g_legal (gr : list (string * list string)) := forallb (fun vc => forallb (fun c => legalb (fst vc, c)) (snd vc)) gr.
Definition g_edge (gr : list (string * list string)) e' := existsb (fun vc => existsb (fun c => same_edge (fst vc, c) e') (snd vc)) gr.
Definition g_vertex (gr : list (string * list string)) v := existsb (fun vc => String.eqb v (fst vc) || mem v (snd vc)) gr.
Lemma existsb_ends u c cs v : existsb (fun c => ends (u, c) v) (c :: cs) = String.eqb v u || mem v (c :: cs).
Proof.
  unfold ends. cbn [fst snd]. revert c. induction cs as [|d cs IH]; intros c; cbn [existsb mem]; [now rewrite !orb_false_r|].
  specialize (IH d). cbn [existsb mem] in IH. rewrite IH. unfold mem. cbn [existsb]. destruct (String.eqb v u), (String.eqb v c), (String.eqb v d); reflexivity.
Qed.
Lemma graph_loop gr : forall g, good g ->
  if g_legal gr then
    exists g', init_graph gr (Ok g) = Ok g' /\ good g' /\ (forall e', ew g' e' = default (ew g e') (g_edge gr e')) /\ (forall v, vw g' v = default (vw g v) (g_vertex gr v))
  else init_graph gr (Ok g) = Raise ValueError.
Proof.
  induction gr as [|[u cs] gr IH]; intros g G.
  - exists g. split; [reflexivity|]. split; [exact G|]. split; intros; cbn; now rewrite default_false.
  - assert (S0 : init_graph ((u, cs) :: gr) (Ok g) = init_graph gr (match cs with
         | [] => call (fun g => if has_vertex g u then (g, Ok tt) else add_vertex g u 0%Qc) (Ok g)
         | _ => fold_left (fun r c => call (fun g => if has_edge g (u, c) then (g, Ok tt) else add_edge g (u, c) 0%Qc) r) cs (Ok g) end)) by (unfold init_graph; destruct cs; reflexivity).
    rewrite S0. clear S0. unfold g_legal, g_edge, g_vertex. cbn [forallb existsb fst snd]. fold (g_legal gr).
    assert (R : init_graph gr (Raise ValueError) = Raise ValueError).
    { apply fold_raise. intros [v [|c l]]; cbn [fst snd]; [reflexivity|]. apply fold_raise. reflexivity. }
    assert (S1 : if forallb (fun c => legalb (u, c)) cs then
       exists g', match cs with
         | [] => call (fun g => if has_vertex g u then (g, Ok tt) else add_vertex g u 0%Qc) (Ok g)
         | _ => fold_left (fun r c => call (fun g => if has_edge g (u, c) then (g, Ok tt) else add_edge g (u, c) 0%Qc) r) cs (Ok g) end = Ok g' /\ good g' /\
         (forall e', ew g' e' = default (ew g e') (existsb (fun c => same_edge (u, c) e') cs)) /\ (forall v, vw g' v = default (vw g v) (String.eqb v u || mem v cs))
       else match cs with
         | [] => call (fun g => if has_vertex g u then (g, Ok tt) else add_vertex g u 0%Qc) (Ok g)
         | _ => fold_left (fun r c => call (fun g => if has_edge g (u, c) then (g, Ok tt) else add_edge g (u, c) 0%Qc) r) cs (Ok g) end = Raise ValueError).
    { destruct cs as [|c cs].
      - cbn [forallb existsb mem call]. destruct (ensure_vertex g u G) as (g' & E & G' & He & Hv). rewrite E. exists g'. split; [reflexivity|]. split; [exact G'|]. split; intros.
        + now rewrite He, default_false. + now rewrite Hv, orb_false_r.
      - pose proof (connections u (c :: cs) g G) as H. cbv zeta in H. destruct (forallb (fun c => legalb (u, c)) (c :: cs)); [|exact H].
        destruct H as (g' & E & G' & He & Hv). exists g'. split; [exact E|]. split; [exact G'|]. split; [exact He|]. intros v. now rewrite Hv, existsb_ends. }
    destruct (forallb (fun c => legalb (u, c)) cs); cbn [andb].
    + destruct S1 as (g' & E & G' & He & Hv). rewrite E. specialize (IH g' G'). destruct (g_legal gr); [|exact IH]. destruct IH as (g'' & E' & G'' & He' & Hv').
      exists g''. split; [exact E'|]. split; [exact G''|]. split; intros.
      * rewrite He', He, default_or. reflexivity. * rewrite Hv', Hv, default_or. reflexivity.
    + rewrite S1. exact R.
Qed.

Definition e_legal (es : list (edge * Qc)) := forallb (fun x => legalb (fst x)) es.
Fixpoint e_weight (es : list (edge * Qc)) (e' : edge) (o : option Qc) : option Qc :=
  match es with [] => o | (e, w) :: es' => e_weight es' e' (override o (same_edge e e') w) end.
Definition e_vertex (es : list (edge * Qc)) v := existsb (fun x => ends (fst x) v) es.
Lemma edge_loop es : forall g, good g ->
  if e_legal es then
    exists g', init_edges es (Ok g) = Ok g' /\ good g' /\ (forall e', ew g' e' = e_weight es e' (ew g e')) /\ (forall v, vw g' v = default (vw g v) (e_vertex es v))
  else init_edges es (Ok g) = Raise ValueError.
Proof.
  induction es as [|[e w] es IH]; intros g G.
  - exists g. split; [reflexivity|]. split; [exact G|]. split; intros; cbn; auto. now rewrite default_false.
  - unfold init_edges, e_legal, e_vertex. cbn [fold_left forallb existsb fst snd]. fold (e_legal es). fold (init_edges es).
    assert (R : init_edges es (Raise ValueError) = Raise ValueError) by (apply fold_raise; reflexivity).
    cbn [call]. pose proof (ensure_edge g e G) as H. cbv zeta in H. destruct (legalb e); cbn [andb].
    + destruct H as (g1 & E & G1 & He & Hv). rewrite E. destruct (put_edge g1 e w G1) as (g2 & E2 & G2 & He2 & Hv2).
      { rewrite He. unfold same_edge. destruct (eqe_spec (sorted2 e) (sorted2 e)); [|congruence]. destruct (ew g e); discriminate. }
      cbn [call]. rewrite E2. specialize (IH g2 G2). destruct (e_legal es); [|exact IH]. destruct IH as (g3 & E3 & G3 & He3 & Hv3). exists g3. split; [exact E3|]. split; [exact G3|]. split; intros.
      * rewrite He3, He2, He. cbn [e_weight]. f_equal. unfold override. destruct (same_edge e e'); [reflexivity|]. apply default_false.
      * rewrite Hv3, Hv2, Hv, default_or. reflexivity.
    + rewrite H. cbn [call]. exact R.
Qed.
Fixpoint v_weight (vs : list (string * Qc)) (v' : string) (o : option Qc) : option Qc :=
  match vs with [] => o | (v, w) :: vs' => v_weight vs' v' (override o (String.eqb v' v) w) end.
Lemma vertex_loop vs : forall g, good g ->
  exists g', init_vertices vs (Ok g) = Ok g' /\ good g' /\ (forall e', ew g' e' = ew g e') /\ (forall v, vw g' v = v_weight vs v (vw g v)).
Proof.
  induction vs as [|[v w] vs IH]; intros g G.
  - exists g. split; [reflexivity|]. split; [exact G|]. split; intros; reflexivity.
  - unfold init_vertices. cbn [fold_left fst snd]. fold (init_vertices vs). cbn [call]. destruct (ensure_vertex g v G) as (g1 & E & G1 & He & Hv). rewrite E.
    destruct (put_vertex g1 v w G1) as (g2 & E2 & G2 & He2 & Hv2). { rewrite Hv, String.eqb_refl. destruct (vw g v); discriminate. }
    cbn [call]. rewrite E2. destruct (IH g2 G2) as (g3 & E3 & G3 & He3 & Hv3). exists g3. split; [exact E3|]. split; [exact G3|]. split; intros.
    + now rewrite He3, He2, He. + rewrite Hv3, Hv2, Hv. cbn [v_weight]. f_equal. unfold override. destruct (String.eqb v0 v); [reflexivity|]. apply default_false.
Qed.

Lemma construct_loops gr es vs :
  if g_legal gr && e_legal es then
    exists g, construct gr es vs = Ok g /\ good g /\
      (forall e, ew g e = e_weight es e (if g_edge gr e then Some 0%Qc else None)) /\
      (forall v, vw g v = v_weight vs v (if g_vertex gr v || e_vertex es v then Some 0%Qc else None))
  else construct gr es vs = Raise ValueError.
Proof.
  assert (RV : init_vertices vs (Raise ValueError) = Raise ValueError) by (apply fold_raise; reflexivity).
  assert (RE : init_edges es (Raise ValueError) = Raise ValueError) by (apply fold_raise; reflexivity).
  assert (G0 : good empty_graph) by (split; [apply inv_empty|apply full_empty]).
  unfold construct. pose proof (graph_loop gr _ G0) as H. destruct (g_legal gr); cbn [andb]; [|now rewrite H, RE].
  destruct H as (g1 & -> & G1 & He & Hv). pose proof (edge_loop es _ G1) as H. destruct (e_legal es); [|now rewrite H].
  destruct H as (g2 & -> & G2 & He2 & Hv2). destruct (vertex_loop vs _ G2) as (g3 & -> & G3 & He3 & Hv3).
  exists g3. split; [reflexivity|]. split; [exact G3|]. split; intros.
  - rewrite He3, He2, He. reflexivity. - rewrite Hv3, Hv2, Hv, default_or. reflexivity.
Qed.

(** * In the words of the specification *)
Lemma legalb_spec u v : legalb (u, v) = true <-> legal u v.
Proof. unfold legalb, legal. cbn [fst snd]. destruct (eqs u v), (eqs u ""), (eqs v ""); cbn; intuition congruence. Qed.
Lemma same_edge_spec a b u v : same_edge (a, b) (u, v) = true <-> (a, b) = (u, v) \/ (a, b) = (v, u).
Proof.
  unfold same_edge. destruct (eqe_spec (sorted2 (u, v)) (sorted2 (a, b))) as [E|E]; split; intros H; try discriminate; auto.
  - destruct (sorted2_cases (u, v)) as [X|X], (sorted2_cases (a, b)) as [Y|Y]; rewrite X, Y in E; cbn in E; injection E as -> ->; auto.
  - exfalso. apply E. destruct H as [H|H]; injection H as -> ->; [reflexivity|apply sorted2_swap].
Qed.
Lemma all_legal gr es : g_legal gr && e_legal es = true <-> forall u v, listed gr es u v -> legal u v.
Proof.
  rewrite andb_true_iff. unfold g_legal, e_legal. rewrite !forallb_forall. split.
  - intros [A B] u v [(cs & Hi & Hc)|(w & Hi)].
    + specialize (A _ Hi). cbn in A. rewrite forallb_forall in A. apply legalb_spec, A, Hc. + specialize (B _ Hi). now apply legalb_spec.
  - intros H. split.
    + intros [u cs] Hi. apply forallb_forall. intros c Hc. apply legalb_spec, H. left. exists cs. auto.
    + intros [[u v] w] Hi. apply legalb_spec, H. right. eauto.
Qed.
Lemma illegal gr es : g_legal gr && e_legal es = false -> exists u v, listed gr es u v /\ ~ legal u v.
Proof.
  intros H. apply andb_false_iff in H. unfold g_legal, e_legal in H. destruct H as [H|H].
  - assert (K : existsb (fun vc => existsb (fun c => negb (legalb (fst vc, c))) (snd vc)) gr = true).
    { induction gr as [|[u cs] gr IH]; cbn in *; [discriminate|]. apply andb_false_iff in H. apply orb_true_iff. destruct H as [H|H]; [left|right; auto].
      clear IH. induction cs as [|c cs IH]; cbn in *; [discriminate|]. destruct (legalb (u, c)); cbn in *; auto. }
    apply existsb_exists in K. destruct K as ([u cs] & Hi & K). apply existsb_exists in K. destruct K as (c & Hc & K). cbn in *. exists u, c. split; [left; eauto|].
    intros L. apply legalb_spec in L. now rewrite L in K.
  - assert (K : existsb (fun x => negb (legalb (fst x))) es = true).
    { induction es as [|[u cs] es IH]; cbn in *; [discriminate|]. destruct (legalb u); cbn in *; auto. }
    apply existsb_exists in K. destruct K as ([[u v] w] & Hi & K). exists u, v. split; [right; eauto|]. intros L. apply legalb_spec in L. cbn in K. now rewrite L in K.
Qed.
Lemma e_weight_some es e' w : e_weight es e' (Some w) <> None.
Proof. revert w. induction es as [|[e w'] es IH]; intros w; cbn; [discriminate|]. unfold override. destruct (same_edge e e'); apply IH. Qed.
Lemma e_weight_spec es u v o w : e_weight es (u, v) o = Some w <->
  last_edge_weight es u v w \/ ((forall x, ~ In ((u, v), x) es /\ ~ In ((v, u), x) es) /\ o = Some w).
Proof.
  revert o. induction es as [|[[a b] w'] es IH]; intros o; cbn [e_weight].
  - split; [auto|]. intros [(l1 & e & l2 & E & _)|[_ H]]; [destruct l1; discriminate E|exact H].
  - rewrite IH. clear IH. unfold override. pose proof (same_edge_spec a b u v) as SE. destruct (same_edge (a, b) (u, v)).
    + assert (D : (a, b) = (u, v) \/ (a, b) = (v, u)) by (apply SE; reflexivity). split.
      * intros [(l1 & e & l2 & -> & H)|[N E]]; left; [exists (((a, b), w') :: l1), e, l2; auto|]. injection E as <-. exists [], (a, b), es. auto.
      * intros [(l1 & e & l2 & E & K & H)|[N _]].
        -- destruct l1 as [|y l1]; injection E as E1 E2. ++ right. subst. auto. ++ left. exists l1, e, l2. auto.
        -- exfalso. destruct (N w') as [N1 N2]. destruct D as [D|D]; rewrite D in *; [apply N1|apply N2]; now left.
    + assert (D : (a, b) <> (u, v) /\ (a, b) <> (v, u)) by (split; intros K; assert (false = true) by (apply SE; auto); discriminate). destruct D as [D1 D2]. split.
      * intros [(l1 & e & l2 & -> & H)|[N E]]; [left; exists (((a, b), w') :: l1), e, l2; auto|]. right. split; [|exact E]. intros x. destruct (N x) as [N1 N2].
        split; intros [K|K]; auto; injection K as K1 K2 _; congruence.
      * intros [(l1 & e & l2 & E & K & H)|[N E]].
        -- destruct l1 as [|y l1]; injection E as E1 E2. ++ exfalso. subst. destruct K; congruence. ++ left. exists l1, e, l2. auto.
        -- right. split; [|exact E]. intros x. destruct (N x) as [N1 N2]. split; intros K; [apply N1|apply N2]; now right.
Qed.
Lemma v_weight_spec vs v o w : v_weight vs v o = Some w <-> last_vertex_weight vs v w \/ ((forall x, ~ In (v, x) vs) /\ o = Some w).
Proof.
  revert o. induction vs as [|[a w'] vs IH]; intros o; cbn [v_weight].
  - split; [auto|]. intros [(l1 & l2 & E & _)|[_ H]]; [destruct l1; discriminate E|exact H].
  - rewrite IH. clear IH. unfold override. destruct (eqs v a) as [->|D]; split.
    + intros [(l1 & l2 & -> & H)|[N E]]; left; [exists ((a, w') :: l1), l2; auto|]. injection E as <-. exists [], vs. auto.
    + intros [(l1 & l2 & E & H)|[N _]].
      * destruct l1 as [|y l1]; injection E as E1 E2. -- right. subst. auto. -- left. exists l1, l2. auto.
      * exfalso. apply (N w'). now left.
    + intros [(l1 & l2 & -> & H)|[N E]]; [left; exists ((a, w') :: l1), l2; auto|]. right. split; [|exact E]. intros x [K|K]; [congruence|now apply (N x)].
    + intros [(l1 & l2 & E & H)|[N E]].
      * destruct l1 as [|y l1]; injection E as E1 E2. -- congruence. -- left. exists l1, l2. auto.
      * right. split; [|exact E]. intros x K. apply (N x). now right.
Qed.
Lemma g_edge_spec gr u v : g_edge gr (u, v) = true <-> listed gr [] u v \/ listed gr [] v u.
Proof.
  unfold g_edge, listed. rewrite existsb_exists. split.
  - intros ([a cs] & Hi & H). apply existsb_exists in H. destruct H as (c & Hc & H). cbn in *. apply same_edge_spec in H. destruct H as [H|H]; injection H as -> ->; eauto 6.
  - intros [[(cs & Hi & Hc)|(w & [])]|[(cs & Hi & Hc)|(w & [])]]; eexists; (split; [exact Hi|]); apply existsb_exists; eexists; (split; [exact Hc|]); apply same_edge_spec; auto.
Qed.
Lemma named_spec gr es v : g_vertex gr v || e_vertex es v = true <-> In v (map fst gr) \/ exists u, listed gr es u v \/ listed gr es v u.
Proof.
  rewrite orb_true_iff. unfold g_vertex, e_vertex, listed. rewrite !existsb_exists. split.
  - intros [([a cs] & Hi & H)|([[a b] w] & Hi & H)]; cbn [fst snd] in H.
    + apply orb_true_iff in H. destruct H as [H|H].
      * apply String.eqb_eq in H. subst. left. now apply (in_map fst) in Hi. * destruct (mem_spec v cs); [|discriminate]. right. exists a. left. left. eauto.
    + unfold ends in H. cbn in H. apply orb_true_iff in H. destruct H as [H|H]; apply String.eqb_eq in H; subst; right; [exists b|exists a]; eauto.
  - intros [H|(u & H)].
    + apply in_map_iff in H. destruct H as ([a cs] & <- & Hi). left. exists (a, cs). split; [exact Hi|]. cbn. now rewrite String.eqb_refl.
    + destruct H as [[(cs & Hi & Hc)|(w & Hi)]|[(cs & Hi & Hc)|(w & Hi)]].
      * left. exists (u, cs). split; [exact Hi|]. cbn [fst snd]. destruct (mem_spec v cs); [apply orb_true_r|contradiction].
      * right. exists ((u, v), w). split; [exact Hi|]. unfold ends. cbn. rewrite String.eqb_refl. apply orb_true_r.
      * left. exists (v, cs). split; [exact Hi|]. cbn. now rewrite String.eqb_refl.
      * right. exists ((v, u), w). split; [exact Hi|]. unfold ends. cbn. now rewrite String.eqb_refl.
Qed.

Lemma get_ew g e w : get_edge_weight g e = Ok w <-> ew g e = Some w.
Proof. unfold get_edge_weight, has_edge, dmem, ew. destruct (dget eqe (sorted2 e) (ug_edges g)); cbn; split; congruence. Qed.
Lemma get_vw g v w : get_vertex_weight g v = Ok w <-> vw g v = Some w.
Proof. unfold get_vertex_weight, has_vertex, dmem, vw. destruct (sget v (ug_vertices g)); cbn; split; congruence. Qed.
Lemma ew_some g e : has_edge g e = true <-> exists w, ew g e = Some w.
Proof. unfold has_edge, dmem, ew. destruct (dget eqe (sorted2 e) (ug_edges g)); (split; [intros X|intros (w & X)]); [eexists; reflexivity|reflexivity|discriminate X|discriminate X]. Qed.
Lemma vw_some g e : has_vertex g e = true <-> exists w, vw g e = Some w.
Proof. unfold has_vertex, dmem, vw. destruct (sget e (ug_vertices g)); (split; [intros X|intros (w & X)]); [eexists; reflexivity|reflexivity|discriminate X|discriminate X]. Qed.
Lemma good_adjacent g u v : good g -> (adjacent (ug_graph g) u v <-> has_edge g (u, v) = true).
Proof.
  intros [I F]. rewrite <- (adjg_adjacent _ _ _ (i_nd1 _ I)). destruct (has_edge_spec g (u, v)) as [H|H]; split; intros K; auto; try discriminate.
  - destruct (sorted2_cases (u, v)) as [E|E]; rewrite E in H; [now apply F|]. apply (i_sym _ I). now apply F.
  - exfalso. apply H. now apply (i_rec _ I).
Qed.
