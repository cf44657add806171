(** Heap-level model of [UndirectedGraph], for the property about [copy] (C17): the adjacency
    sets are mutable objects addressed by references, so two graphs may share them. *)
From Coq Require Import String List Bool Arith QArith Qcanon.
From Verif Require Import Py QcTac UndirectedModel.
Import ListNotations.
Open Scope nat_scope.
Open Scope string_scope.
Open Scope list_scope.

(** the heap: address [i] holds the [i]-th set *)
Definition heap := list (list string).

(** a graph object; the values of [_graph] are references (_undirected.py:38-40) *)
Record hgraph := mkhg {
  hg_graph : list (string * nat);
  hg_edges : list (edge * Qc);
  hg_vertices : list (string * Qc) }.

Definition hread (H : heap) (r : nat) : list string := nth r H [].
Fixpoint hwrite (H : heap) (r : nat) (s : list string) : heap :=
  match H, r with
  | [], _ => []
  | _ :: H', 0 => s :: H'
  | t :: H', S r' => t :: hwrite H' r' s
  end.

(** what the public [graph], [edges], [vertices] properties show *)
Definition view (H : heap) (g : hgraph) : ugraph :=
  mkug (map (fun p => (fst p, hread H (snd p))) (hg_graph g)) (hg_edges g) (hg_vertices g).

(** [self._graph.setdefault(u, set()).add(v)] *)
Definition h_adj_add (u v : string) (H : heap) (d : list (string * nat)) : heap * list (string * nat) :=
  match dget String.eqb u d with
  | Some r => (hwrite H r (set_add v (hread H r)), d)
  | None => (H ++ [[v]], d ++ [(u, length H)])
  end.

(** _undirected.py:105-136 *)
Definition h_add_edge (H : heap) (g : hgraph) (e : edge) (weight : Qc) : heap * hgraph * res unit :=
  if qlt weight 0 then (H, g, Raise ValueError)
  else if String.eqb (fst e) (snd e) then (H, g, Raise ValueError)
  else if String.eqb (fst e) "" || String.eqb (snd e) "" then (H, g, Raise ValueError)
  else
    let e := sorted2 e in
    if dmem eqe (sorted2 e) (hg_edges g) then (H, g, Raise ValueError)
    else
      let '(H1, d1) := h_adj_add (fst e) (snd e) H (hg_graph g) in
      let '(H2, d2) := h_adj_add (snd e) (fst e) H1 d1 in
      (H2, mkhg d2 (dsetdefault eqe e weight (hg_edges g))
            (dsetdefault String.eqb (snd e) 0%Qc (dsetdefault String.eqb (fst e) 0%Qc (hg_vertices g))),
       Ok tt).

Definition h_adj_remove (H : heap) (d : list (string * nat)) (u v : string) : heap * res unit :=
  match dget String.eqb u d with
  | None => (H, Raise KeyError)
  | Some r => match set_remove v (hread H r) with
              | Ok s => (hwrite H r s, Ok tt)
              | Raise x => (H, Raise x)
              | Diverges => (H, Diverges)
              end
  end.

(** _undirected.py:138-143 *)
Definition h_remove_edge (H : heap) (g : hgraph) (e : edge) : heap * hgraph * res unit :=
  if negb (dmem eqe (sorted2 e) (hg_edges g)) then (H, g, Raise ValueError)
  else
    match h_adj_remove H (hg_graph g) (fst e) (snd e) with
    | (H1, Ok _) => match h_adj_remove H1 (hg_graph g) (snd e) (fst e) with (H2, r) => (H2, g, r) end
    | (H1, r) => (H1, g, r)
    end.

(** _undirected.py:162-182 *)
Definition h_add_vertex (H : heap) (g : hgraph) (v : string) (weight : Qc) : heap * hgraph * res unit :=
  if qlt weight 0 then (H, g, Raise ValueError)
  else if dmem String.eqb v (hg_vertices g) then (H, g, Raise ValueError)
  else
    match dget String.eqb v (hg_graph g) with
    | Some _ => (H, mkhg (hg_graph g) (hg_edges g) (dsetdefault String.eqb v weight (hg_vertices g)), Ok tt)
    | None => (H ++ [[]], mkhg (hg_graph g ++ [(v, length H)]) (hg_edges g)
                 (dsetdefault String.eqb v weight (hg_vertices g)), Ok tt)
    end.

(** _undirected.py:204-214 *)
Definition h_set_edge_weight (H : heap) (g : hgraph) (e : edge) (weight : Qc) : heap * hgraph * res unit :=
  if negb (dmem eqe (sorted2 e) (hg_edges g)) then (H, g, Raise ValueError)
  else (H, mkhg (hg_graph g) (dset eqe (sorted2 e) weight (hg_edges g)) (hg_vertices g), Ok tt).
Definition h_set_vertex_weight (H : heap) (g : hgraph) (v : string) (weight : Qc) : heap * hgraph * res unit :=
  if negb (dmem String.eqb v (hg_vertices g)) then (H, g, Raise ValueError)
  else (H, mkhg (hg_graph g) (hg_edges g) (dset String.eqb v weight (hg_vertices g)), Ok tt).

Definition hstep (H : heap) (g : hgraph) (o : uop) : heap * hgraph * res unit :=
  match o with
  | AddEdge e w => h_add_edge H g e w
  | RemoveEdge e => h_remove_edge H g e
  | AddVertex v w => h_add_vertex H g v w
  | SetEdgeWeight e w => h_set_edge_weight H g e w
  | SetVertexWeight v w => h_set_vertex_weight H g v w
  end.

Fixpoint hrun (H : heap) (g : hgraph) (h : list uop) : heap * hgraph :=
  match h with
  | [] => (H, g)
  | o :: h' => let '(H', g', _) := hstep H g o in hrun H' g' h'
  end.

(** _undirected.py:535-551 [copy]: each dictionary is copied with [dict.copy] (lines 722, 736,
    749), which copies the references stored in [_graph], not the sets. *)
Definition h_copy (g : hgraph) : hgraph := mkhg (hg_graph g) (hg_edges g) (hg_vertices g).

(** the layout of one graph: distinct keys, and one valid cell of its own per vertex *)
Definition dwf (H : heap) (d : list (string * nat)) : Prop :=
  NoDup (dkeys d) /\ NoDup (map snd d) /\ (forall u r, In (u, r) d -> r < length H).

(** the calls that change the adjacency set of [u] *)
Definition touches (u : string) (o : uop) : Prop :=
  match o with
  | AddEdge e _ | RemoveEdge e => u = fst e \/ u = snd e
  | _ => False
  end.

(** interleaved calls on the original ([true]) and the copy ([false]) *)
Fixpoint hrun2 (H : heap) (o c : hgraph) (h : list (bool * uop)) : heap * hgraph * hgraph :=
  match h with
  | [] => (H, o, c)
  | (true, x) :: h' => let '(H', o', _) := hstep H o x in hrun2 H' o' c h'
  | (false, x) :: h' => let '(H', c', _) := hstep H c x in hrun2 H' o c' h'
  end.
Definition calls_on (who : bool) (h : list (bool * uop)) : list uop :=
  map snd (filter (fun p => Bool.eqb (fst p) who) h).

