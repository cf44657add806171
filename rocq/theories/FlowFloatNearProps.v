(** C86: ford_fulkerson with any double precision capacities, for runs that never go backwards. *)
From Coq Require Import String List Bool Arith QArith Qcanon Lia ZArith Permutation.
From Verif Require Import Py QcTac QSum QInt MatTheory UndirectedModel UndirectedProofs DirectedModel DirectedSpec DirectedProofs FlowModel FlowSpec FlowTheory ResidualProofs DirectedFinal DirectedProps FFProofs FFFinal FFProps PreflowProofs PreflowFinal PreflowProps FloatModel DoubleSpec DoubleProofs FloatProofs FlowFloatModel FlowFloatSpec FlowFloatProofs FlowFloatNear FlowFloatProps.
Import ListNotations.
Open Scope nat_scope.
Open Scope string_scope.
Open Scope list_scope.

Lemma del_unit M : del M = error_unit M.
Proof. unfold del, error_unit. replace (pow2 (-50)) with (qz 4 * vv)%Qc by (apply Qc_is_canon; vm_compute; reflexivity). ring. Qed.
Lemma few k M : (0 <= M)%Qc -> (Z.of_nat k <= 2 ^ 49)%Z -> (kk k * (del M + del M) <= M)%Qc.
Proof.
  intros HM Hk. rewrite del_unit. unfold error_unit. assert (K : (kk k <= pow2 49)%Qc) by (rewrite pow2_int by lia; unfold kk; apply qz_le; exact Hk).
  assert (P : (0 <= pow2 (-50) * M + pow2 (-50) * M)%Qc).
  { assert (0 <= pow2 (-50) * M)%Qc by (apply qmul_nonneg; [apply Qclt_le_weak, pow2_pos|exact HM]). set (y := (pow2 (-50) * M)%Qc) in *. clearbody y. clear - H. qclra. }
  pose proof (scaled _ _ _ P K) as X. replace ((pow2 (-50) * M + pow2 (-50) * M) * pow2 49)%Qc with (pow2 49 * (pow2 (-50) + pow2 (-50)) * M)%Qc in X by ring.
  replace (pow2 49 * (pow2 (-50) + pow2 (-50)))%Qc with 1%Qc in X by (apply Qc_is_canon; vm_compute; reflexivity). rewrite Qcmult_comm. replace (1 * M)%Qc with M in X by ring. exact X.
Qed.

(** No augmenting path goes backwards and there are at most [2 ^ 49] of them: the flow returned exceeds no
    capacity by more than a unit of error, is nowhere more than two units per path below zero, loses or gains
    at an inner node at most one unit per path.  There is a cut whose arcs are full without any error, with
    nothing at all coming back, and the value of the flow differs from its capacity, so from the
    largest value of a flow, by at most one unit per path and node.  With a source named by one character the
    value reported is the value of the flow up to five units times the square of the number of arcs, whatever
    the order of the sums. *)
Theorem C86_forward_runs_near :
  forall order g s t fuel M value flow paths, network g s t -> no_antiparallel (dg_arcs g) -> double_capacities (dg_arcs g) ->
    (0 <= M)%Qc -> (forall a c, In (a, c) (dg_arcs g) -> (c <= M)%Qc) ->
    fl_ford_fulkerson order fuel g s t = (Ok (value, flow), paths) -> never_backwards g paths -> (Z.of_nat (length paths) <= 2 ^ 49)%Z ->
    let k := length paths in let n := length (dg_nodes g) in let m := length (dg_arcs g) in let e := error_unit M in
    exists f inside, denotes flow f /\ map fst flow = map fst (dg_arcs g) /\
      (forall a c, In (a, c) (dg_arcs g) -> (- times (2 * k) e <= f a /\ f a <= c + e)%Qc) /\
      (forall v, v <> s -> v <> t -> (qabs (outflow (dg_arcs g) f v - inflow (dg_arcs g) f v) <= times k e)%Qc) /\
      inside s = true /\ inside t = false /\
      (forall u v c, In ((u, v), c) (dg_arcs g) -> inside u = true -> inside v = false -> f (u, v) = c) /\
      (forall u v c, In ((u, v), c) (dg_arcs g) -> inside u = false -> inside v = true -> f (u, v) = 0%Qc) /\
      (qabs (net_value (dg_arcs g) s f - cut_capacity (dg_arcs g) inside) <= times (n * k) e)%Qc /\
      (forall f', is_flow (dg_arcs g) s t f' -> (net_value (dg_arcs g) s f' <= net_value (dg_arcs g) s f + times (n * k) e)%Qc) /\
      (short s -> some_order order -> (Z.of_nat m <= 2 ^ 49)%Z -> (qabs (value - net_value (dg_arcs g) s f) <= times (5 * (m * m)) e)%Qc).
Proof.
  intros order g s t fuel M value flow paths [H1 H2 H3 H4 H5] Hw Hd HM Hle E F Hk k n m e. apply digraph_state_inv in H1. apply is_node_key in H2, H3.
  destruct (fl_near g s t H1 H2 H3 H4 H5 Hd Hw order fuel M value flow paths HM Hle E) as (K & Db & Ev & Bd & Cn & inside & I1 & I2 & F1 & F2 & I3).
  { now apply never_forward. } { now apply few. }
  pose proof Bd as Bd0. rewrite del_unit in Bd, Cn, I3. fold e in Bd, Cn, I3. fold k in Bd, Cn, I3. fold n in I3. unfold kk in *.
  exists (fget flow), inside. split; [apply denotes_self; rewrite_nodup K; apply H1|]. split; [exact K|].
  assert (T2 : times (2 * k) e = (qz (Z.of_nat k) * (e + e))%Qc) by (unfold times; rewrite Nat2Z.inj_mul, qz_mul; change (qz (Z.of_nat 2)) with (1 + 1)%Qc; ring).
  assert (Tn : times (n * k) e = (qz (Z.of_nat n) * (qz (Z.of_nat k) * e))%Qc) by (unfold times; rewrite Nat2Z.inj_mul, qz_mul; ring).
  rewrite T2, Tn. split; [exact Bd|]. split; [exact Cn|]. split; [exact I1|]. split; [exact I2|]. split; [exact F1|]. split; [exact F2|]. split; [exact I3|]. split.
  { intros f' Hf. pose proof (weak_duality (dg_arcs g) s t f' inside Hf H4 I1 I2) as W. apply qabs_le in I3. destruct I3 as [I3 _].
  set (a := net_value (dg_arcs g) s f') in *. set (b := net_value (dg_arcs g) s (fget flow)) in *. set (c := cut_capacity (dg_arcs g) inside) in *. set (x := (qz (Z.of_nat n) * (qz (Z.of_nat k) * e))%Qc) in *. clearbody a b c x. clear - W I3. qclra. }
  intros Hsh Ho Hm. rewrite Ev. replace (times (5 * (m * m)) e) with (kk (5 * (m * m)) * del M)%Qc by (unfold times, kk, e; now rewrite del_unit).
  apply (value_near g s H1 Hsh order Ho M HM Hm). intros a Ha. split; [apply Db|]. apply key_In in Ha. destruct Ha as [c Hc]. destruct (Bd0 a c Hc) as [B1 B2].
  pose proof (few (length paths) M HM Hk) as Fw. unfold kk in Fw. pose proof (Hle a c Hc) as L1. destruct (scaled_m M HM) as (P1 & P2 & _). unfold del in *. rewrite qz4 in *.
  assert (Q : (Q2Qc (1 # 8) * M * qz 8 = M)%Qc) by (replace (Q2Qc (1 # 8) * M * qz 8)%Qc with (Q2Qc (1 # 8) * qz 8 * M)%Qc by ring; replace (Q2Qc (1 # 8) * qz 8)%Qc with 1%Qc by (apply Qc_is_canon; reflexivity); ring).
  replace (qz 8) with (1 + 1 + 1 + 1 + 1 + 1 + 1 + 1)%Qc in Q by (apply Qc_is_canon; reflexivity).
  set (y := (vv * M)%Qc) in *. set (z := (Q2Qc (1 # 8) * M)%Qc) in *. set (w := (qz (Z.of_nat (length paths)) * ((1 + 1 + 1 + 1) * y + (1 + 1 + 1 + 1) * y))%Qc) in *. set (x := fget flow a) in *.
  apply qabs_le. clearbody y z w x. clear - B1 B2 Fw L1 P1 P2 Q HM. split; qclra.
Qed.
Print Assumptions C86_forward_runs_near.

(** In the narrow networks of C24 no path ever goes backwards, whatever the doubles and the rounding. *)
Theorem C86_narrow_never_backwards :
  forall order g s t fuel, network g s t -> no_antiparallel (dg_arcs g) -> narrow g s t -> double_capacities (dg_arcs g) ->
    never_backwards g (snd (fl_ford_fulkerson order fuel g s t)).
Proof.
  intros order g s t fuel [H1 H2 H3 H4 H5] Hw Hc Hd. apply digraph_state_inv in H1. apply is_node_key in H2, H3. apply never_forward.
  apply (fl_narrow g s t H1 H2 H3 H4 H5 Hd Hw).
  destruct Hc as [Hc|Hc]; [left|right]; intros v q q' N1 N2 A1 A2; apply is_arc_key in A1, A2; eauto.
Qed.
Print Assumptions C86_narrow_never_backwards.

(** the network of C86_capacity_exceeded_refuted meets the hypotheses, with capacities at most 1 *)
Example C86_near_nontrivial : network brim_graph "s" "t" /\ no_antiparallel (dg_arcs brim_graph) /\ narrow brim_graph "s" "t" /\ double_capacities (dg_arcs brim_graph) /\
  (forall a c, In (a, c) (dg_arcs brim_graph) -> (c <= 1)%Qc) /\
  exists value flow paths, fl_ford_fulkerson (@rev arc) 10 brim_graph "s" "t" = (Ok (value, flow), paths) /\ never_backwards brim_graph paths /\ length paths = 2.
Proof.
  assert (Hn : network brim_graph "s" "t") by small_network brim.
  assert (Hw : no_antiparallel (dg_arcs brim_graph)) by (apply one_wayb_ok; vm_compute; reflexivity).
  assert (Hc : narrow brim_graph "s" "t").
  { left. intros v q q' N1 N2 A1 A2. apply is_arc_key in A1, A2. vm_compute in A1, A2.
    repeat (destruct A1 as [A1|A1]; [inversion A1; subst|]); try contradiction; repeat (destruct A2 as [A2|A2]; [inversion A2; subst|]); try contradiction; congruence. }
  assert (E : dg_arcs brim_graph = brim) by (vm_compute; reflexivity).
  assert (Hd : double_capacities (dg_arcs brim_graph)) by (rewrite E; intros a c H; apply decimals_double; apply (in_map snd) in H; unfold brim in H; cbn [map snd In] in *; tauto).
  split; [exact Hn|]. split; [exact Hw|]. split; [exact Hc|]. split; [exact Hd|]. split.
  { rewrite E. intros a c H. unfold brim in H. repeat (destruct H as [H|H]; [inversion H; subst; vm_compute; discriminate|]). destruct H. }
  pose proof (C86_narrow_never_backwards (@rev arc) brim_graph "s" "t" 10 Hn Hw Hc Hd) as F.
  assert (Ck : match fl_ford_fulkerson (@rev arc) 10 brim_graph "s" "t" with (Ok _, paths) => length paths = 2 | _ => False end) by (vm_compute; reflexivity).
  destruct (fl_ford_fulkerson (@rev arc) 10 brim_graph "s" "t") as [[[value flow]| |] paths] eqn:Ef; [|destruct Ck|destruct Ck].
  exists value, flow, paths. split; [reflexivity|]. split; [exact F|exact Ck].
Qed.
