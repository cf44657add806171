(** C86: ford_fulkerson with any double precision capacities stops, for runs that never go backwards. *)
From Coq Require Import String List Bool Arith QArith Qcanon Lia ZArith Permutation.
From Verif Require Import Py QcTac QSum QInt MatTheory UndirectedModel UndirectedProofs DirectedModel DirectedSpec DirectedProofs FlowModel FlowSpec FlowTheory ResidualProofs DirectedFinal DirectedProps FFProofs FFFinal FFProps PreflowProofs PreflowFinal PreflowProps FloatModel DoubleSpec DoubleProofs FloatProofs FlowFloatModel FlowFloatSpec FlowFloatProofs FlowFloatNear FlowFloatProps FlowFloatNearProps FlowFloatStop.
Import ListNotations.
Open Scope nat_scope.
Open Scope string_scope.
Open Scope list_scope.

(** A run in which no path goes backwards returns after at most [m (2 m + 3)] augmenting paths, where [m] is
    the number of arcs.  The bound does not depend on the capacities, which may be any doubles. *)
Theorem C86_forward_runs_stop :
  forall order g s t fuel, network g s t -> no_antiparallel (dg_arcs g) -> double_capacities (dg_arcs g) ->
    let m := length (dg_arcs g) in
    m * (2 * m + 3) < fuel -> never_backwards g (snd (fl_ford_fulkerson order fuel g s t)) ->
    exists value flow paths, fl_ford_fulkerson order fuel g s t = (Ok (value, flow), paths) /\ length paths <= m * (2 * m + 3).
Proof.
  intros order g s t fuel [H1 H2 H3 H4 H5] Hw Hd m Hf F. apply digraph_state_inv in H1. apply is_node_key in H2, H3.
  apply (fl_stops g s t H1 H2 H3 H4 H5 Hd Hw order fuel Hf). now apply never_forward.
Qed.
Print Assumptions C86_forward_runs_stop.

(** In the narrow networks of C24, whose run never goes backwards, ford_fulkerson therefore always returns,
    and what it returns is a maximum flow up to the errors of C86_forward_runs_near. *)
Theorem C86_narrow_networks_near :
  forall order g s t fuel M, network g s t -> no_antiparallel (dg_arcs g) -> narrow g s t -> double_capacities (dg_arcs g) ->
    (0 <= M)%Qc -> (forall a c, In (a, c) (dg_arcs g) -> (c <= M)%Qc) ->
    let n := length (dg_nodes g) in let m := length (dg_arcs g) in let k := m * (2 * m + 3) in let e := error_unit M in
    k < fuel -> (Z.of_nat k <= 2 ^ 49)%Z ->
    exists value flow paths f, fl_ford_fulkerson order fuel g s t = (Ok (value, flow), paths) /\ denotes flow f /\
      (forall a c, In (a, c) (dg_arcs g) -> (- times (2 * k) e <= f a /\ f a <= c + e)%Qc) /\
      (forall v, v <> s -> v <> t -> (qabs (outflow (dg_arcs g) f v - inflow (dg_arcs g) f v) <= times k e)%Qc) /\
      (forall f', is_flow (dg_arcs g) s t f' -> (net_value (dg_arcs g) s f' <= net_value (dg_arcs g) s f + times (n * k) e)%Qc) /\
      (short s -> some_order order -> (qabs (value - net_value (dg_arcs g) s f) <= times (5 * (m * m)) e)%Qc).
Proof.
  intros order g s t fuel M Hn Hw Hc Hd HM Hle n m k e Hf Hk.
  pose proof (C86_narrow_never_backwards order g s t fuel Hn Hw Hc Hd) as F.
  destruct (C86_forward_runs_stop order g s t fuel Hn Hw Hd Hf F) as (value & flow & paths & E & L). rewrite E in F. cbn [snd] in F. fold m in L. fold k in L.
  destruct (C86_forward_runs_near order g s t fuel M value flow paths Hn Hw Hd HM Hle E F) as (f & inside & D & _ & B & C & _ & _ & _ & _ & _ & O & V).
  { eapply Z.le_trans; [|exact Hk]. apply inj_le. exact L. }
  fold n in O. fold m in V. fold e in B, C, O, V.
  assert (He : (0 <= e)%Qc) by (unfold e, error_unit; apply qmul_nonneg; [apply Qclt_le_weak, pow2_pos|exact HM]).
  assert (T : forall i j, i <= j -> (times i e <= times j e)%Qc).
  { intros i j Hij. unfold times. rewrite (Qcmult_comm (qz (Z.of_nat i))), (Qcmult_comm (qz (Z.of_nat j))). apply scaled; [exact He|]. apply qz_le. apply inj_le. exact Hij. }
  exists value, flow, paths, f. split; [exact E|]. split; [exact D|]. split; [|split; [|split]].
  - intros a c Ha. destruct (B a c Ha) as [B1 B2]. split; [|exact B2].
    pose proof (T (2 * length paths) (2 * k) ltac:(apply Nat.mul_le_mono_l; exact L)) as Q.
    set (x := times (2 * length paths) e) in *. set (y := times (2 * k) e) in *. set (z := f a) in *. clearbody x y z. clear - B1 Q. qclra.
  - intros v N1 N2. eapply Qcle_trans; [apply C; auto|]. apply T. exact L.
  - intros f' Hf'. eapply Qcle_trans; [apply O; exact Hf'|].
    pose proof (T (n * length paths) (n * k) ltac:(apply Nat.mul_le_mono_l; exact L)) as Q.
    set (x := times (n * length paths) e) in *. set (y := times (n * k) e) in *. set (z := net_value (dg_arcs g) s f) in *. clearbody x y z. clear - Q. qclra.
  - intros S1 S2. apply V; auto. eapply Z.le_trans; [|exact Hk]. apply inj_le. unfold k. fold m.
    rewrite <- (Nat.mul_1_r m) at 1. apply Nat.mul_le_mono_l. rewrite Nat.add_comm. cbn [Nat.add]. apply le_n_S, Nat.le_0_l.
Qed.
Print Assumptions C86_narrow_networks_near.

(** the network of C86_capacity_exceeded_refuted, where a flow passes its capacity, meets the hypotheses *)
Example C86_stop_nontrivial :
  let m := length (dg_arcs brim_graph) in
  network brim_graph "s" "t" /\ no_antiparallel (dg_arcs brim_graph) /\ narrow brim_graph "s" "t" /\ double_capacities (dg_arcs brim_graph) /\
  (forall a c, In (a, c) (dg_arcs brim_graph) -> (c <= 1)%Qc) /\ 0 < m /\ (Z.of_nat (m * (2 * m + 3)) <= 2 ^ 49)%Z.
Proof.
  destruct C86_near_nontrivial as (H1 & H2 & H3 & H4 & H5 & _). cbv zeta. repeat (split; [assumption|]). split; [vm_compute; lia|vm_compute; discriminate].
Qed.
