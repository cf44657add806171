(** Vocabulary for C19-C21: consistency of the three dictionaries of a digraph, stated on
    association lists only. *)
From Coq Require Import String List QArith Qcanon.
Import ListNotations.
Open Scope nat_scope.

Section Dictionaries.
  Variable graph : list (string * list string).
  Variable arcs : list ((string * string) * Qc).
  Variable nodes : list (string * Qc).

  Definition is_node (v : string) : Prop := exists w, In (v, w) nodes.
  (** [v] is in the adjacency set stored for [u] *)
  Definition points_to (u v : string) : Prop := exists s, In (u, s) graph /\ In v s.
  Definition is_arc (u v : string) : Prop := exists w, In ((u, v), w) arcs.

  Record dconsistent : Prop := {
    dc_keys : NoDup (map fst graph) /\ NoDup (map fst arcs) /\ NoDup (map fst nodes);
    dc_sets : forall u s, In (u, s) graph -> NoDup s;
    dc_adjacency : forall u v, points_to u v <-> is_arc u v;
    dc_loops : forall u v, is_arc u v -> u <> v;
    dc_endpoints : forall u v, is_arc u v -> is_node u /\ is_node v;
    dc_domain : forall v, In v (map fst graph) <-> is_node v }.
End Dictionaries.

(** a one-character name *)
Definition short (v : string) : Prop := String.length v = 1.
