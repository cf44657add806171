(** Graph-theoretic vocabulary, over an arbitrary adjacency relation on names.
    Independent of every model. *)
From Coq Require Import String List.
Import ListNotations.

Section Graph.
  Variable adj : string -> string -> Prop.

  (** [walk n u v]: a walk of [n] steps from [u] to [v] *)
  Inductive walk : nat -> string -> string -> Prop :=
  | walk_nil v : walk 0 v v
  | walk_snoc n u v w : walk n u v -> adj v w -> walk (S n) u w.

  Definition reachable (u v : string) : Prop := exists n, walk n u v.

  (** [n] is the distance from [u] to [v] *)
  Definition distance (u v : string) (n : nat) : Prop :=
    walk n u v /\ forall m, walk m u v -> n <= m.

  Definition connected (vs : list string) : Prop :=
    forall u v, In u vs -> In v vs -> reachable u v.

  (** consecutive entries are adjacent *)
  Fixpoint chain (l : list string) : Prop :=
    match l with
    | a :: (b :: _) as l' => adj a b /\ chain l'
    | _ => True
    end.

  (** a simple cycle: at least three distinct vertices, consecutive ones adjacent, and the last
      adjacent to the first *)
  Definition cycle (a : string) (l : list string) : Prop :=
    NoDup (a :: l) /\ 2 <= length l /\ chain (a :: l) /\ adj (last l a) a.

  Definition acyclic : Prop := forall a l, ~ cycle a l.

  (** [l] is a depth-first order from its head: each later vertex is a neighbour of the last
      earlier vertex that still had an unlisted neighbour *)
  Definition depth_first_order (l : list string) : Prop :=
    forall pre v post, l = pre ++ v :: post -> pre <> [] ->
      exists p1 u p2, pre = p1 ++ u :: p2 /\ adj u v /\
        forall x y, In x p2 -> adj x y -> In y pre.
End Graph.
