(** Vocabulary for C09-C18: consistency of the three public dictionaries [graph], [edges],
    [vertices] of an undirected graph.  Stated on association lists only. *)
From Coq Require Import String List QArith Qcanon.
Import ListNotations.
Open Scope nat_scope.

Section Dictionaries.
  Variable graph : list (string * list string).
  Variable edges : list ((string * string) * Qc).
  Variable vertices : list (string * Qc).

  Definition is_vertex (v : string) : Prop := exists w, In (v, w) vertices.
  (** [v] is in the adjacency set stored for [u] *)
  Definition adjacent (u v : string) : Prop := exists s, In (u, s) graph /\ In v s.
  (** an edge joining [u] and [v] is recorded, in either orientation *)
  Definition is_edge (u v : string) : Prop :=
    (exists w, In ((u, v), w) edges) \/ (exists w, In ((v, u), w) edges).

  (** everything a reader of the three dictionaries relies on, except that recorded edges
      are also in the adjacency sets *)
  Record weakly_consistent : Prop := {
    wc_keys : NoDup (map fst graph) /\ NoDup (map fst edges) /\ NoDup (map fst vertices);
    wc_sets : forall u s, In (u, s) graph -> NoDup s;
    wc_symmetric : forall u v, adjacent u v -> adjacent v u;
    wc_recorded : forall u v, adjacent u v -> is_edge u v;
    wc_sorted : forall u v w, In ((u, v), w) edges -> String.compare u v = Lt;
    wc_nonempty : forall u v w, In ((u, v), w) edges -> u <> ""%string /\ v <> ""%string;
    wc_endpoints : forall u v w, In ((u, v), w) edges -> is_vertex u /\ is_vertex v;
    wc_domain : forall v, In v (map fst graph) <-> is_vertex v }.

  Definition consistent : Prop :=
    weakly_consistent /\ forall u v, is_edge u v -> adjacent u v.
End Dictionaries.
