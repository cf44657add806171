(** Vocabulary for C21-C27: flows in a capacitated digraph, given as a list of arcs with
    capacities.  Independent of every model. *)
From Coq Require Import String List Bool QArith Qcanon.
Import ListNotations.
Open Scope string_scope.
Open Scope list_scope.
Open Scope Qc_scope.

Section Flow.
  (** the arcs with their capacities *)
  Variable arcs : list ((string * string) * Qc).

  Definition total (l : list Qc) : Qc := fold_right Qcplus 0 l.

  Definition inflow (f : string * string -> Qc) (v : string) : Qc :=
    total (map f (filter (fun a => String.eqb (snd a) v) (map fst arcs))).
  Definition outflow (f : string * string -> Qc) (v : string) : Qc :=
    total (map f (filter (fun a => String.eqb (fst a) v) (map fst arcs))).

  Definition within_capacity (f : string * string -> Qc) : Prop :=
    forall a c, In (a, c) arcs -> 0 <= f a /\ f a <= c.
  Definition conserved (s t : string) (f : string * string -> Qc) : Prop :=
    forall v, v <> s -> v <> t -> inflow f v = outflow f v.
  Definition is_flow (s t : string) (f : string * string -> Qc) : Prop :=
    within_capacity f /\ conserved s t f.
  Definition net_value (s : string) (f : string * string -> Qc) : Qc := outflow f s - inflow f s.
  Definition maximum_flow (s t : string) (f : string * string -> Qc) : Prop :=
    is_flow s t f /\ forall f', is_flow s t f' -> net_value s f' <= net_value s f.

  (** capacity of the arcs leaving the set of the nodes satisfying [inside] *)
  Definition cut_capacity (inside : string -> bool) : Qc :=
    total (map snd (filter (fun p => inside (fst (fst p)) && negb (inside (snd (fst p)))) arcs)).

  Definition no_antiparallel : Prop := forall u v, In (u, v) (map fst arcs) -> ~ In (v, u) (map fst arcs).
  Definition nonnegative_capacities : Prop := forall a c, In (a, c) arcs -> 0 <= c.

  (** the value of [f] in the residual network, from [u] to [v] (no antiparallel arcs) *)
  Definition residual_value (f : string * string -> Qc) (u v : string) (x : Qc) : Prop :=
    0 < x /\ ((exists c, In ((u, v), c) arcs /\ x = c - f (u, v)) \/
              (exists c, In ((v, u), c) arcs /\ x = f (v, u))).
End Flow.
