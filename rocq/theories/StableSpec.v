(** Stable sets of a graph given by its dictionaries [edges] and [vertices], and vectors that
    describe a set of vertices. *)
From Coq Require Import String List Bool Arith QArith Qcanon.
Import ListNotations.
Open Scope nat_scope.

(** a set of vertices, none of which are joined *)
Definition stable_set (joined : string -> string -> Prop) (vertices : list (string * Qc)) (T : list string) : Prop :=
  (forall v, In v T -> exists w, In (v, w) vertices) /\
  (forall u v, In u T -> In v T -> ~ joined u v).

Definition member (v : string) (T : list string) : bool := existsb (String.eqb v) T.
(** total weight of the vertices in the set *)
Fixpoint weight (vertices : list (string * Qc)) (T : list string) : Qc :=
  match vertices with
  | [] => 0%Qc
  | (v, w) :: rest => ((if member v T then w else 0) + weight rest T)%Qc
  end.

(** a numbering of the vertices from 0 *)
Definition numbers (mapping : list (string * nat)) (vertices : list (string * Qc)) : Prop :=
  NoDup (map fst mapping) /\ NoDup (map snd mapping) /\
  (forall v, In v (map fst mapping) <-> exists w, In (v, w) vertices) /\
  (forall i, In i (map snd mapping) <-> i < length vertices).
(** [x] has a 1 for each vertex in the set and a 0 for each other vertex *)
Definition indicates (mapping : list (string * nat)) (x : list Qc) (T : list string) : Prop :=
  length x = length mapping /\
  forall v i, In (v, i) mapping -> nth i x 0%Qc = if member v T then 1%Qc else 0%Qc.
(** every edge joins the two sides *)
Definition two_sided (joined : string -> string -> Prop) (side : string -> bool) : Prop := forall u v, joined u v -> side u <> side v.
