(** Model of pytimize/graphs/_directed.py (class [DirectedGraph]) without the two flow
    algorithms, which are in FlowModel.v.
    A set is a duplicate-free list; nothing here depends on the order of enumeration of a set. *)
From Coq Require Import String List Bool Arith QArith Qcanon.
From Verif Require Import Py QcTac UndirectedModel.
Import ListNotations.
Open Scope nat_scope.
Open Scope string_scope.
Open Scope list_scope.

(** an arc is an ordered pair of names, [edge] of UndirectedModel.v *)
Notation arc := edge (only parsing).

(** _directed.py:31-33 the three dictionaries *)
Record digraph := mkdg {
  dg_graph : list (string * list string);
  dg_arcs : list (arc * Qc);
  dg_nodes : list (string * Qc) }.

Definition empty_digraph : digraph := mkdg [] [] [].

(** _directed.py:232-247 *)
Definition has_node (g : digraph) (v : string) : bool := dmem String.eqb v (dg_nodes g).
(** _directed.py:249-264 *)
Definition has_arc (g : digraph) (a : arc) : bool := dmem eqe a (dg_arcs g).

(** _directed.py:63-67 *)
Definition set_arc_weight (g : digraph) (a : arc) (w : Qc) : digraph * res unit :=
  if negb (has_arc g a) then (g, Raise ValueError)
  else (mkdg (dg_graph g) (dset eqe a w (dg_arcs g)) (dg_nodes g), Ok tt).

(** _directed.py:69-73 *)
Definition set_node_weight (g : digraph) (v : string) (w : Qc) : digraph * res unit :=
  if negb (has_node g v) then (g, Raise ValueError)
  else (mkdg (dg_graph g) (dg_arcs g) (dset String.eqb v w (dg_nodes g)), Ok tt).

(** _directed.py:119-136 *)
Definition add_node (g : digraph) (v : string) (demand : Qc) : digraph * res unit :=
  if has_node g v then (g, Raise ValueError)
  else (mkdg (dsetdefault String.eqb v [] (dg_graph g)) (dg_arcs g)
             (dsetdefault String.eqb v demand (dg_nodes g)), Ok tt).

(** the [demands] argument of [add_arc]: None, a number, or a pair of numbers
    (tuples of another length are left out) *)
Inductive demands := DNone | DNum (x : Qc) | DPair (x y : Qc).
(** [bool(demands)] *)
Definition truthy (d : demands) : bool :=
  match d with DNone => false | DNum x => negb (qeq x 0) | DPair _ _ => true end.
(** [demands[i] if demands else 0]: subscripting a number is a TypeError *)
Definition demand_at (d : demands) (i : bool) : res Qc :=
  if truthy d then match d with DPair x y => Ok (if i then y else x) | _ => Raise TypeError end
  else Ok 0%Qc.

(** [self.add_node(node, demands[i] if demands else 0)] *)
Definition add_node_demand (g : digraph) (v : string) (d : demands) (i : bool) : digraph * res unit :=
  match demand_at d i with
  | Ok x => add_node g v x
  | Raise e => (g, Raise e)
  | Diverges => (g, Diverges)
  end.

(** _directed.py:75-117 [add_arc].  The arc is recorded (lines 100-101) before the demands are
    looked at, so a raising call can leave it behind. *)
Definition add_arc (g : digraph) (a : arc) (w : Qc) (d : demands) : digraph * res unit :=
  if has_arc g a then (g, Raise ValueError)
  else if String.eqb (fst a) (snd a) then (g, Raise ValueError)
  else
    let g1 := mkdg (adj_add (fst a) (snd a) (dg_graph g)) (dsetdefault eqe a w (dg_arcs g)) (dg_nodes g) in
    let a_exists := has_node g1 (fst a) in
    let b_exists := has_node g1 (snd a) in
    if negb a_exists && negb b_exists then
      if truthy d && match d with DPair _ _ => false | _ => true end then (g1, Raise TypeError)
      else
        match add_node_demand g1 (fst a) d false with
        | (g2, Ok _) => add_node_demand g2 (snd a) d true
        | r => r
        end
    else if negb a_exists then add_node_demand g1 (fst a) d false
    else if negb b_exists then add_node_demand g1 (snd a) d true
    else (g1, Ok tt).

(** argument of the cut functions: a name (turned into the set of its characters by
    [set(nodes)]) or a collection of names *)
Inductive nodes_arg := Name (v : string) | Nodes (s : list string).
Definition node_set (n : nodes_arg) : list string :=
  match n with Name v => chars v | Nodes s => s end.

(** _directed.py:183-205 *)
Definition cut (g : digraph) (n : nodes_arg) : list arc :=
  let s := node_set n in
  filter (fun a => mem (fst a) s && negb (mem (snd a) s)) (dkeys (dg_arcs g)).
(** _directed.py:207-230 (returns a list, in dictionary order) *)
Definition ncut (g : digraph) (n : nodes_arg) : list arc :=
  let s := node_set n in
  filter (fun a => mem (snd a) s && negb (mem (fst a) s)) (dkeys (dg_arcs g)).
(** _directed.py:266-317 *)
Definition indegree (g : digraph) (n : nodes_arg) : nat := length (ncut g n).
Definition outdegree (g : digraph) (n : nodes_arg) : nat := length (cut g n).
Definition connections (g : digraph) (n : nodes_arg) : nat := indegree g n + outdegree g n.

(** [del self._graph[v]; del self._nodes[v]] (lines 161-162, 165-166) *)
Definition del_node (g : digraph) (v : string) : digraph * res unit :=
  if negb (dmem String.eqb v (dg_graph g)) then (g, Raise KeyError)
  else
    let g1 := mkdg (ddel String.eqb v (dg_graph g)) (dg_arcs g) (dg_nodes g) in
    if negb (dmem String.eqb v (dg_nodes g)) then (g1, Raise KeyError)
    else (mkdg (dg_graph g1) (dg_arcs g1) (ddel String.eqb v (dg_nodes g)), Ok tt).

(** _directed.py:139-166 [remove_arc] *)
Definition remove_arc (g : digraph) (a : arc) (remove_nodes : bool) : digraph * res unit :=
  if negb (has_arc g a) then (g, Raise ValueError)
  else
    let g1 := mkdg (dg_graph g) (ddel eqe a (dg_arcs g)) (dg_nodes g) in
    match dget String.eqb (fst a) (dg_graph g1) with
    | None => (g1, Raise KeyError)
    | Some s =>
      match set_remove (snd a) s with
      | Ok s' =>
        let g2 := mkdg (dset String.eqb (fst a) s' (dg_graph g1)) (dg_arcs g1) (dg_nodes g1) in
        if remove_nodes then
          match (if Nat.eqb (connections g2 (Name (fst a))) 0 then del_node g2 (fst a) else (g2, Ok tt)) with
          | (g3, Ok _) =>
            if Nat.eqb (connections g3 (Name (snd a))) 0 then del_node g3 (snd a) else (g3, Ok tt)
          | r => r
          end
        else (g2, Ok tt)
      | Raise e => (g1, Raise e)
      | Diverges => (g1, Diverges)
      end
    end.

(** an exception inside the constructor aborts it *)
Definition dcall (f : digraph -> digraph * res unit) (r : res digraph) : res digraph :=
  match r with
  | Ok g => match f g with (g', Ok _) => Ok g' | (_, Raise x) => Raise x | (_, Diverges) => Diverges end
  | r => r
  end.

(** _directed.py:35-47 *)
Definition dinit_graph (d : list (string * list string)) (r : res digraph) : res digraph :=
  fold_left (fun r vc =>
    match snd vc with
    | [] => dcall (fun g => if has_node g (fst vc) then (g, Ok tt) else add_node g (fst vc) 0%Qc) r
    | cs => fold_left (fun r c =>
              dcall (fun g => if has_arc g (fst vc, c) then (g, Ok tt) else add_arc g (fst vc, c) 0%Qc DNone) r) cs r
    end) d r.
(** _directed.py:49-54 *)
Definition dinit_arcs (d : list (arc * Qc)) (r : res digraph) : res digraph :=
  fold_left (fun r aw =>
    dcall (fun g => set_arc_weight g (fst aw) (snd aw))
      (dcall (fun g => if has_arc g (fst aw) then (g, Ok tt) else add_arc g (fst aw) (snd aw) DNone) r)) d r.
(** _directed.py:56-61 *)
Definition dinit_nodes (d : list (string * Qc)) (r : res digraph) : res digraph :=
  fold_left (fun r vw =>
    dcall (fun g => set_node_weight g (fst vw) (snd vw))
      (dcall (fun g => if has_node g (fst vw) then (g, Ok tt) else add_node g (fst vw) 0%Qc) r)) d r.
(** _directed.py:7-61 [__init__]; [None] and the empty dictionary behave alike *)
Definition dconstruct (graph : list (string * list string)) (arcs : list (arc * Qc))
    (nodes : list (string * Qc)) : res digraph :=
  dinit_nodes nodes (dinit_arcs arcs (dinit_graph graph (Ok empty_digraph))).

(** client histories of mutating calls *)
Inductive dop :=
| AddArc (a : arc) (w : Qc) (d : demands) | AddNode (v : string) (w : Qc)
| RemoveArc (a : arc) (remove_nodes : bool)
| SetArcWeight (a : arc) (w : Qc) | SetNodeWeight (v : string) (w : Qc).

Definition dstep (g : digraph) (o : dop) : digraph * res unit :=
  match o with
  | AddArc a w d => add_arc g a w d
  | AddNode v w => add_node g v w
  | RemoveArc a b => remove_arc g a b
  | SetArcWeight a w => set_arc_weight g a w
  | SetNodeWeight v w => set_node_weight g v w
  end.
Fixpoint drun (g : digraph) (h : list dop) : digraph :=
  match h with [] => g | o :: h' => drun (fst (dstep g o)) h' end.

(** residual networks: node -> endpoint -> value *)
Definition rnet := list (string * list (string * Qc)).
(** [residual.setdefault(u, {})[v] = x] *)
Definition rset (u v : string) (x : Qc) (r : rnet) : rnet :=
  dset String.eqb u (dset String.eqb v x (match dget String.eqb u r with Some d => d | None => [] end)) r.
(** [flow.get(arc, 0)] *)
Definition fget (flow : list (arc * Qc)) (a : arc) : Qc :=
  match dget eqe a flow with Some x => x | None => 0%Qc end.

(** _directed.py:335-353 [_compute_residual] *)
Fixpoint compute_residual_loop (arcs : list (arc * Qc)) (flow : list (arc * Qc)) (r : rnet) : res rnet :=
  match arcs with
  | [] => Ok r
  | (a, capacity) :: rest =>
    let value := fget flow a in
    if qlt capacity value then Raise ArithmeticError
    else
      let r1 := if qlt value capacity then rset (fst a) (snd a) (capacity - value)%Qc r else r in
      let r2 := if qlt 0 value then rset (snd a) (fst a) value r1 else r1 in
      compute_residual_loop rest flow r2
  end.
Definition compute_residual (g : digraph) (flow : list (arc * Qc)) : res rnet :=
  compute_residual_loop (dg_arcs g) flow [].

(** _directed.py:327-331: the inner dictionaries flattened into one keyed by pairs *)
Definition flatten_residual (r : rnet) : list (arc * Qc) :=
  fold_left (fun acc p => fold_left (fun acc q => dset eqe (fst p, fst q) (snd q) acc) (snd p) acc) r [].

(** _directed.py:319-333 [create_residual] *)
Definition create_residual (g : digraph) (flow : list (arc * Qc)) : res digraph :=
  if existsb (fun p => negb (dmem eqe (fst p) (dg_arcs g)) || qlt (snd p) 0) flow then Raise ValueError
  else if existsb (fun p => qlt (snd p) 0) (dg_arcs g) then Raise ValueError
  else do r <- compute_residual g flow ; dconstruct [] (flatten_residual r) [].
