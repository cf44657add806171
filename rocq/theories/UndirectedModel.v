(** Model of pytimize/graphs/_undirected.py (class [UndirectedGraph]).
    A set is a duplicate-free list.  Where Python enumerates a set, the model takes an
    enumeration oracle [enum] (the [k]-th enumeration of the run may return any order).
    The graph-theoretic notions live in GraphSpec.v; no property is stated here. *)
From Coq Require Import String List Bool Arith QArith Qcanon.
From Verif Require Import Py QcTac.
Import ListNotations.
Open Scope nat_scope.
Open Scope string_scope.
Open Scope list_scope.

Definition edge := (string * string)%type.

Definition eqe (a b : edge) : bool := String.eqb (fst a) (fst b) && String.eqb (snd a) (snd b).

(** [x in s] for a set of names *)
Definition mem (x : string) (s : list string) : bool := existsb (String.eqb x) s.
(** [s.add(x)] *)
Definition set_add (x : string) (s : list string) : list string := if mem x s then s else s ++ [x].
(** [s.remove(x)]: KeyError if absent *)
Definition set_remove (x : string) (s : list string) : res (list string) :=
  if mem x s then Ok (filter (fun y => negb (String.eqb x y)) s) else Raise KeyError.
(** [set(str)]: the set of the characters of a string *)
Definition chars (s : string) : list string :=
  nodup string_dec (map (fun c => String c EmptyString) (list_ascii_of_string s)).

(** [tuple(sorted(edge))] (code point order) *)
Definition sorted2 (e : edge) : edge :=
  match String.compare (fst e) (snd e) with Gt => (snd e, fst e) | _ => e end.

(** [sorted(s)] *)
Fixpoint insert (x : string) (l : list string) : list string :=
  match l with
  | [] => [x]
  | y :: l' => if String.leb x y then x :: l else y :: insert x l'
  end.
Definition sorted (l : list string) : list string := fold_right insert [] l.

(** _undirected.py:38-40 the three dictionaries *)
Record ugraph := mkug {
  ug_graph : list (string * list string);
  ug_edges : list (edge * Qc);
  ug_vertices : list (string * Qc) }.

Definition empty_graph : ugraph := mkug [] [] [].

(** _undirected.py:145-160 *)
Definition has_edge (g : ugraph) (e : edge) : bool := dmem eqe (sorted2 e) (ug_edges g).
(** _undirected.py:187-202 *)
Definition has_vertex (g : ugraph) (v : string) : bool := dmem String.eqb v (ug_vertices g).
(** _undirected.py:600-610 *)
Definition is_empty (g : ugraph) : bool := match ug_vertices g with [] => true | _ => false end.

(** [self._graph.setdefault(u, set()).add(v)] (lines 132-133) *)
Definition adj_add (u v : string) (d : list (string * list string)) :=
  dset String.eqb u
    (set_add v (match dget String.eqb u d with Some s => s | None => [] end)) d.

(** _undirected.py:105-136 [add_edge] *)
Definition add_edge (g : ugraph) (e : edge) (weight : Qc) : ugraph * res unit :=
  if qlt weight 0 then (g, Raise ValueError)
  else if String.eqb (fst e) (snd e) then (g, Raise ValueError)
  else if String.eqb (fst e) "" || String.eqb (snd e) "" then (g, Raise ValueError)
  else
    let e := sorted2 e in
    if has_edge g e then (g, Raise ValueError)
    else
      (mkug (adj_add (snd e) (fst e) (adj_add (fst e) (snd e) (ug_graph g)))
            (dsetdefault eqe e weight (ug_edges g))
            (dsetdefault String.eqb (snd e) 0%Qc (dsetdefault String.eqb (fst e) 0%Qc (ug_vertices g))),
       Ok tt).

(** one [self._graph[u].remove(v)] (lines 142-143) *)
Definition adj_remove (u v : string) (g : ugraph) : ugraph * res unit :=
  match dget String.eqb u (ug_graph g) with
  | None => (g, Raise KeyError)
  | Some s =>
    match set_remove v s with
    | Ok s' => (mkug (dset String.eqb u s' (ug_graph g)) (ug_edges g) (ug_vertices g), Ok tt)
    | Raise x => (g, Raise x)
    | Diverges => (g, Diverges)
    end
  end.

(** _undirected.py:138-143 [remove_edge] *)
Definition remove_edge (g : ugraph) (e : edge) : ugraph * res unit :=
  if negb (has_edge g e) then (g, Raise ValueError)
  else
    match adj_remove (fst e) (snd e) g with
    | (g1, Ok _) => adj_remove (snd e) (fst e) g1
    | r => r
    end.

(** _undirected.py:162-182 [add_vertex] *)
Definition add_vertex (g : ugraph) (v : string) (weight : Qc) : ugraph * res unit :=
  if qlt weight 0 then (g, Raise ValueError)
  else if has_vertex g v then (g, Raise ValueError)
  else (mkug (dsetdefault String.eqb v [] (ug_graph g)) (ug_edges g)
             (dsetdefault String.eqb v weight (ug_vertices g)), Ok tt).

(** _undirected.py:204-208 [set_edge_weight] *)
Definition set_edge_weight (g : ugraph) (e : edge) (weight : Qc) : ugraph * res unit :=
  if negb (has_edge g e) then (g, Raise ValueError)
  else (mkug (ug_graph g) (dset eqe (sorted2 e) weight (ug_edges g)) (ug_vertices g), Ok tt).

(** _undirected.py:210-214 [set_vertex_weight] *)
Definition set_vertex_weight (g : ugraph) (v : string) (weight : Qc) : ugraph * res unit :=
  if negb (has_vertex g v) then (g, Raise ValueError)
  else (mkug (ug_graph g) (ug_edges g) (dset String.eqb v weight (ug_vertices g)), Ok tt).

(** _undirected.py:216-234 [get_edge_weight] *)
Definition get_edge_weight (g : ugraph) (e : edge) : res Qc :=
  if negb (has_edge g e) then Raise ValueError
  else match dget eqe (sorted2 e) (ug_edges g) with Some w => Ok w | None => Raise KeyError end.

(** _undirected.py:236-254 [get_vertex_weight] *)
Definition get_vertex_weight (g : ugraph) (v : string) : res Qc :=
  if negb (has_vertex g v) then Raise ValueError
  else match dget String.eqb v (ug_vertices g) with Some w => Ok w | None => Raise KeyError end.

(** sequencing of calls inside the constructor: an exception aborts it *)
Definition call (f : ugraph -> ugraph * res unit) (r : res ugraph) : res ugraph :=
  match r with
  | Ok g => match f g with (g', Ok _) => Ok g' | (_, Raise x) => Raise x | (_, Diverges) => Diverges end
  | r => r
  end.

(** _undirected.py:43-54 *)
Definition init_graph (d : list (string * list string)) (r : res ugraph) : res ugraph :=
  fold_left (fun r vc =>
    match snd vc with
    | [] => call (fun g => if has_vertex g (fst vc) then (g, Ok tt) else add_vertex g (fst vc) 0%Qc) r
    | cs => fold_left (fun r c =>
              call (fun g => if has_edge g (fst vc, c) then (g, Ok tt) else add_edge g (fst vc, c) 0%Qc) r) cs r
    end) d r.

(** _undirected.py:56-61 *)
Definition init_edges (d : list (edge * Qc)) (r : res ugraph) : res ugraph :=
  fold_left (fun r ew =>
    call (fun g => set_edge_weight g (fst ew) (snd ew))
      (call (fun g => if has_edge g (fst ew) then (g, Ok tt) else add_edge g (fst ew) 0%Qc) r)) d r.

(** _undirected.py:63-68 *)
Definition init_vertices (d : list (string * Qc)) (r : res ugraph) : res ugraph :=
  fold_left (fun r vw =>
    call (fun g => set_vertex_weight g (fst vw) (snd vw))
      (call (fun g => if has_vertex g (fst vw) then (g, Ok tt) else add_vertex g (fst vw) 0%Qc) r)) d r.

(** _undirected.py:14-68 [__init__]; [None] and the empty dictionary behave alike *)
Definition construct (graph : list (string * list string)) (edges : list (edge * Qc))
    (vertices : list (string * Qc)) : res ugraph :=
  init_vertices vertices (init_edges edges (init_graph graph (Ok empty_graph))).

(** client histories of mutating calls *)
Inductive uop :=
| AddEdge (e : edge) (w : Qc) | RemoveEdge (e : edge) | AddVertex (v : string) (w : Qc)
| SetEdgeWeight (e : edge) (w : Qc) | SetVertexWeight (v : string) (w : Qc).

Definition ustep (g : ugraph) (o : uop) : ugraph * res unit :=
  match o with
  | AddEdge e w => add_edge g e w
  | RemoveEdge e => remove_edge g e
  | AddVertex v w => add_vertex g v w
  | SetEdgeWeight e w => set_edge_weight g e w
  | SetVertexWeight v w => set_vertex_weight g v w
  end.

Fixpoint urun (g : ugraph) (h : list uop) : ugraph :=
  match h with [] => g | o :: h' => urun (fst (ustep g o)) h' end.

(** _undirected.py:390-396 [cut] once [vertices] is a set *)
Definition cut_set (g : ugraph) (vertices : list string) : list edge :=
  filter (fun x => (mem (fst x) vertices && negb (mem (snd x) vertices))
                || (mem (snd x) vertices && negb (mem (fst x) vertices)))
         (dkeys (ug_edges g)).

(** _undirected.py:387-388: a name is turned into the set of its characters *)
Definition cut_name (g : ugraph) (v : string) : list edge := cut_set g (chars v).

(** _undirected.py:612-628 *)
Definition degree_set (g : ugraph) (vertices : list string) : nat := length (cut_set g vertices).
Definition degree_name (g : ugraph) (v : string) : nat := length (cut_name g v).

(** _undirected.py:480-489 the traversal loop; [srt] is [sorted(_, key=order)].
    [visited] is kept in visiting order, which is the order of the [yield]s. *)
Fixpoint traverse_loop (fuel : nat) (srt : list string -> list string) (g : ugraph)
    (queue visited : list string) : res (list string) :=
  match fuel with
  | 0 => Diverges
  | S fuel' =>
    match queue with
    | [] => Ok visited
    | current :: queue' =>
      if mem current visited then traverse_loop fuel' srt g queue' visited
      else
        match dget String.eqb current (ug_graph g) with
        | None => Raise KeyError
        | Some s => traverse_loop fuel' srt g (queue' ++ srt s) (visited ++ [current])
        end
    end
  end.

(** fuel: number of queue insertions that can ever happen, plus slack *)
Definition traverse_fuel (g : ugraph) : nat :=
  2 + list_sum (map (fun p => length (snd p)) (ug_graph g)).

(** _undirected.py:436-489 [list(traverse(start, method, order))].
    The function is a generator: the [return iter(vertices)] of method "rng" ends the
    iteration without yielding anything. *)
Definition traverse (g : ugraph) (start method : string) (srt : list string -> list string)
    : res (list string) :=
  if negb (has_vertex g start) then Raise ValueError
  else if String.eqb method "rng" then Ok []
  else traverse_loop (traverse_fuel g) srt g [start] [].

(** _undirected.py:430-434 *)
Definition dfs (g : ugraph) (start : string) : res (list string) := traverse g start "dfs" sorted.
Definition bfs (g : ugraph) (start : string) : res (list string) := traverse g start "bfs" sorted.

(** _undirected.py:491-504 [is_connected] *)
Definition is_connected (g : ugraph) : res bool :=
  match ug_vertices g with
  | [] => Ok false
  | (v, _) :: _ => do l <- bfs g v ; Ok (Nat.eqb (length l) (length (ug_vertices g)))
  end.

(** the oracle for set enumeration order: the [k]-th enumeration during the call *)
Definition oracle := nat -> list string -> list string.

(** _undirected.py:522-529 inner loop of [is_cyclic]; [inl true] = [return True] *)
Fixpoint cyclic_inner (fuel : nat) (enum : oracle) (k : nat) (g : ugraph) (queue visited : list string)
    : res (bool * nat * list string) :=
  match fuel with
  | 0 => Diverges
  | S fuel' =>
    match queue with
    | [] => Ok (false, k, visited)
    | current :: queue' =>
      if mem current visited then Ok (true, k, visited)
      else
        match dget String.eqb current (ug_graph g) with
        | None => Raise KeyError
        | Some s => cyclic_inner fuel' enum (S k) g (queue' ++ enum k s) (visited ++ [current])
        end
    end
  end.

(** _undirected.py:518-533 outer loop of [is_cyclic] *)
Fixpoint cyclic_outer (fuel : nat) (enum : oracle) (k : nat) (g : ugraph) (unexplored : list string) : res bool :=
  match fuel with
  | 0 => Diverges
  | S fuel' =>
    match enum k unexplored with
    | [] => Ok false
    | v :: _ =>
      do r <- cyclic_inner (2 + length (ug_vertices g)) enum (S k) g [v] [] ;
      match r with
      | (true, _, _) => Ok true
      | (false, k', visited) =>
        cyclic_outer fuel' enum k' g (filter (fun x => negb (mem x visited)) unexplored)
      end
    end
  end.

(** _undirected.py:506-533 [is_cyclic] *)
Definition is_cyclic (enum : oracle) (g : ugraph) : res bool :=
  cyclic_outer (1 + length (ug_vertices g)) enum 0 g (dkeys (ug_vertices g)).

(** _undirected.py:680-689 loop of [is_tree] *)
Fixpoint tree_loop (fuel : nat) (enum : oracle) (k : nat) (g : ugraph) (queue visited : list string) : res bool :=
  match fuel with
  | 0 => Diverges
  | S fuel' =>
    match queue with
    | [] => Ok (Nat.eqb (length visited) (length (ug_vertices g)))
    | current :: queue' =>
      if mem current visited then Ok false
      else
        match dget String.eqb current (ug_graph g) with
        | None => Raise KeyError
        | Some s =>
          let visited' := visited ++ [current] in
          tree_loop fuel' enum (S k) g
            (queue' ++ enum k (filter (fun x => negb (mem x visited')) s)) visited'
        end
    end
  end.

(** _undirected.py:663-689 [is_tree] *)
Definition is_tree (enum : oracle) (g : ugraph) : res bool :=
  match ug_vertices g with
  | [] => Ok false
  | (v, _) :: _ => tree_loop (2 + length (ug_vertices g)) enum 0 g [v] []
  end.

(** _undirected.py:89-103 [__eq__]: dictionaries and sets compare without order *)
Definition dict_eqb {K V} (eqk : K -> K -> bool) (eqv : V -> V -> bool) (a b : list (K * V)) : bool :=
  Nat.eqb (length a) (length b) &&
  forallb (fun p => match dget eqk (fst p) b with Some v => eqv (snd p) v | None => false end) a.
Definition set_eqb (a b : list string) : bool :=
  forallb (fun x => mem x b) a && forallb (fun x => mem x a) b.
Definition ugraph_eq (g1 g2 : ugraph) : bool :=
  dict_eqb String.eqb set_eqb (ug_graph g2) (ug_graph g1) &&
  dict_eqb eqe qeq (ug_edges g2) (ug_edges g1) &&
  dict_eqb String.eqb qeq (ug_vertices g2) (ug_vertices g1).

(** _undirected.py:694-709 [_hash_edge] *)
Definition hash_edge (a b : string) : string :=
  match String.compare a b with Gt => (b ++ "-" ++ a)%string | _ => (a ++ "-" ++ b)%string end.

(** [s[i]] on a string *)
Definition char_at (s : string) (i : nat) : res string :=
  match String.get i s with Some c => Ok (String c EmptyString) | None => Raise IndexError end.

(** _undirected.py:273-286 one pass over the entries of an adjacency set, inside
    [shortest_path].  An entry [edge] is a vertex name, so [edge[0]], [edge[1]] are
    characters, and [edge[1] - ...] subtracts a number from a string (TypeError). *)
Fixpoint sp_scan (entries visited : list string) (vertex : string) : res unit :=
  match entries with
  | [] => Ok tt
  | e :: rest =>
    do c0 <- char_at e 0 ;
    if negb (mem c0 visited) then
      do c1 <- char_at e 1 ; Raise TypeError
    else sp_scan rest visited vertex
  end.

(** _undirected.py:256-306 [shortest_path].  When [start <> end] the first iteration of the
    while loop already raises: the scan of [visited = {start}] raises as above, or selects no
    edge and [best_edge[1]] subscripts None.  [best_slack] and [potential] never get a value. *)
Definition shortest_path (enum : oracle) (g : ugraph) (start finish : string) : res (list edge) :=
  if negb (dmem String.eqb start (ug_graph g)) then Raise ValueError
  else if negb (dmem String.eqb finish (ug_graph g)) then Raise ValueError
  else if mem finish [start] then Ok []
  else
    match dget String.eqb start (ug_graph g) with
    | None => Raise KeyError
    | Some s =>
      do _ <- sp_scan (enum 0 s) [start] start ;
      Raise TypeError
    end.

(** _undirected.py:308-320 [formulate_shortest_path]: [self.vertices] is a dict, which has no
    [remove] method, so line 319 raises; the rest of the function is unreachable. *)
Definition formulate_shortest_path (g : ugraph) (start finish : string) : res unit :=
  if negb (dmem String.eqb start (ug_graph g)) then Raise ValueError
  else if negb (dmem String.eqb finish (ug_graph g)) then Raise ValueError
  else Raise AttributeError.

(** _undirected.py:553-598 [partition]: [self._graph[current]] is a set, which has no [items]
    method, so the first vertex popped raises; only the empty graph returns. *)
Definition partition (g : ugraph) : res (list ugraph) :=
  match ug_vertices g with
  | [] => Ok []
  | (v, _) :: _ =>
    match dget String.eqb v (ug_graph g) with None => Raise KeyError | Some _ => Raise AttributeError end
  end.

(** _undirected.py:633-661 [minimum_spanning_tree]: no body; returns None when connected *)
Definition minimum_spanning_tree (g : ugraph) : res (option ugraph) :=
  do c <- is_connected g ; if negb c then Raise ValueError else Ok None.
