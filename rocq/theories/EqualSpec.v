(** Vocabulary for C65 and C66. *)
From Coq Require Import String Ascii List QArith Qcanon.
From Verif Require Import Py UndirectedModel GraphSpec UndirectedSpec.
Import ListNotations.
Open Scope nat_scope.
Open Scope string_scope.

(** two graphs show the same vertices, edges, weights and adjacencies *)
Definition same_graph (g1 g2 : ugraph) : Prop :=
  (forall v, get_vertex_weight g1 v = get_vertex_weight g2 v) /\
  (forall e, get_edge_weight g1 e = get_edge_weight g2 e) /\
  (forall u v, adjacent (ug_graph g1) u v <-> adjacent (ug_graph g2) u v).

(** a character occurs in a name *)
Fixpoint occurs (c : ascii) (s : string) : Prop :=
  match s with EmptyString => False | String d s' => c = d \/ occurs c s' end.
(** names without the characters that the printed form uses as separators *)
Definition plain (s : string) : Prop := ~ occurs ":" s /\ ~ occurs "-" s /\ ~ occurs (ascii_of_nat 10) s.

(** a set of edges [T] joins the vertices [vs] without a cycle *)
Definition joined (T : list (string * string)) (u v : string) : Prop := In (u, v) T \/ In (v, u) T.
Definition spanning_tree (T : list (string * string)) (vs : list string) : Prop :=
  connected (joined T) vs /\ acyclic (joined T).

(** the arguments of the constructor name the edge from [u] to [v] *)
Definition listed (gr : list (string * list string)) (es : list ((string * string) * Qc)) (u v : string) : Prop :=
  (exists cs, In (u, cs) gr /\ In v cs) \/ (exists w, In ((u, v), w) es).
(** an edge can join [u] and [v]: distinct, nonempty names *)
Definition legal (u v : string) : Prop := u <> v /\ u <> "" /\ v <> "".
(** [w] is the last weight given for the edge between [u] and [v], in either orientation *)
Definition last_edge_weight (es : list ((string * string) * Qc)) (u v : string) (w : Qc) : Prop :=
  exists l1 e l2, es = (l1 ++ (e, w) :: l2)%list /\ (e = (u, v) \/ e = (v, u)) /\
    forall w', ~ In ((u, v), w') l2 /\ ~ In ((v, u), w') l2.
Definition last_vertex_weight (vs : list (string * Qc)) (v : string) (w : Qc) : Prop :=
  exists l1 l2, vs = (l1 ++ (v, w) :: l2)%list /\ forall w', ~ In (v, w') l2.
