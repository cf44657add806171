(** Model of the flow algorithms of pytimize/graphs/_directed.py: [_bfs_path],
    [ford_fulkerson] and [preflow_push].  Numbers are exact rationals. *)
From Coq Require Import String List Bool Arith QArith Qcanon.
From Verif Require Import Py QcTac UndirectedModel DirectedModel.
Import ListNotations.
Open Scope nat_scope.
Open Scope string_scope.
Open Scope list_scope.

(** [sum(...)] *)
Definition qsum (l : list Qc) : Qc := fold_right Qcplus 0%Qc l.

(** [residual[u][v]] *)
Definition rget (u v : string) (r : rnet) : res Qc :=
  match dget String.eqb u r with
  | None => Raise KeyError
  | Some d => match dget String.eqb v d with None => Raise KeyError | Some x => Ok x end
  end.
(** [if residual[u][v] == 0: del residual[u][v]] *)
Definition rdel_zero (u v : string) (r : rnet) : res rnet :=
  do x <- rget u v r ;
  if qeq x 0 then
    match dget String.eqb u r with
    | None => Raise KeyError
    | Some d => Ok (dset String.eqb u (ddel String.eqb v d) r)
    end
  else Ok r.
(** [if len(residual[u]) == 0: del residual[u]] *)
Definition rdel_empty (u : string) (r : rnet) : res rnet :=
  match dget String.eqb u r with
  | None => Raise KeyError
  | Some [] => Ok (ddel String.eqb u r)
  | Some _ => Ok r
  end.

(** _directed.py:543-556 and 425-438: record the state of [arc] in the residual network, in
    direction [u] -> [v], then drop zero entries and empty dictionaries *)
Definition rupdate (arcs flow : list (arc * Qc)) (a : arc) (u v : string) (r : rnet) : res rnet :=
  match dget eqe a arcs, dget eqe a flow with
  | Some capacity, Some value =>
    let r1 := rset u v (capacity - value)%Qc r in
    let r2 := rset v u value r1 in
    do r3 <- rdel_zero u v r2 ;
    do r4 <- rdel_zero v u r3 ;
    do r5 <- rdel_empty u r4 ;
    rdel_empty v r5
  | _, _ => Raise KeyError
  end.

(** _directed.py:535-541 and 411-420: [flow[arc] += d] on the arc [(u, v)], or
    [flow[arc] -= d] on [(v, u)]; returns the arc used as well *)
Definition fupdate (flow : list (arc * Qc)) (u v : string) (d : Qc) : res (arc * list (arc * Qc)) :=
  match dget eqe (u, v) flow with
  | Some f => Ok ((u, v), dset eqe (u, v) (f + d)%Qc flow)
  | None =>
    match dget eqe (v, u) flow with
    | Some f => Ok ((v, u), dset eqe (v, u) (f - d)%Qc flow)
    | None => Raise KeyError
    end
  end.

(** _directed.py:473-483 the scan of one node's endpoints; [inl]: the target was found *)
Fixpoint bfs_scan (endpoints : list string) (current target : string)
    (parent : list (string * string)) (seen queue : list string)
    : (list (string * string)) + (list (string * string) * list string * list string) :=
  match endpoints with
  | [] => inr (parent, seen, queue)
  | e :: rest =>
    if mem e seen then bfs_scan rest current target parent seen queue
    else
      let parent' := dset String.eqb e current parent in
      if String.eqb e target then inl parent'
      else bfs_scan rest current target parent' (seen ++ [e]) (queue ++ [e])
  end.

(** _directed.py:470-485 *)
Fixpoint bfs_loop (fuel : nat) (r : rnet) (target : string)
    (parent : list (string * string)) (seen queue : list string) : res (option (list (string * string))) :=
  match fuel with
  | 0 => Diverges
  | S fuel' =>
    match queue with
    | [] => Ok None
    | current :: queue' =>
      match bfs_scan (dkeys (match dget String.eqb current r with Some d => d | None => [] end))
              current target parent seen queue' with
      | inl p => Ok (Some p)
      | inr (p, s, q) => bfs_loop fuel' r target p s q
      end
    end
  end.
(** fuel for the search: each node enters the queue once *)
Definition bfs_fuel (r : rnet) : nat := 2 + list_sum (map (fun p => length (snd p)) r).
(** _directed.py:465-485 [_bfs_path] *)
Definition bfs_path (source target : string) (r : rnet) : res (option (list (string * string))) :=
  bfs_loop (bfs_fuel r) r target [] [source] [source].

(** the pairs [(u, v)] visited by the loops of lines 522-529 and 531-559:
    [u = path[sink]; v = sink; while u is not None: ...; v = u; u = path.get(u, None)] *)
Fixpoint path_arcs (fuel : nat) (path : list (string * string)) (v : string) : res (list (string * string)) :=
  match fuel with
  | 0 => Diverges
  | S fuel' =>
    match dget String.eqb v path with
    | None => Ok []
    | Some u => do l <- path_arcs fuel' path u ; Ok ((u, v) :: l)
    end
  end.

(** lines 524-529: the smallest residual on the path; [None] is [math.inf] *)
Fixpoint min_residual (l : list (string * string)) (r : rnet) (m : option Qc) : res (option Qc) :=
  match l with
  | [] => Ok m
  | (u, v) :: l' =>
    do x <- rget u v r ;
    min_residual l' r (Some (match m with None => x | Some y => qmin y x end))
  end.

(** lines 534-559.  The residual entries are written as [u] -> [v] whichever direction the arc
    has: for a backward step the two entries end up exchanged. *)
Fixpoint ff_update (arcs : list (arc * Qc)) (l : list (string * string)) (d : Qc)
    (flow : list (arc * Qc)) (r : rnet) : res (list (arc * Qc) * rnet) :=
  match l with
  | [] => Ok (flow, r)
  | (u, v) :: l' =>
    do af <- fupdate flow u v d ;
    do r' <- rupdate arcs (snd af) (fst af) u v r ;
    ff_update arcs l' d (snd af) r'
  end.

(** one pass of the loop of lines 521-561; [path[sink]] exists when the search succeeded *)
Definition ff_augment (arcs : list (arc * Qc)) (sink : string) (path : list (string * string))
    (flow : list (arc * Qc)) (r : rnet) : res (list (string * string) * (list (arc * Qc) * rnet)) :=
  do l <- path_arcs (2 + length path) path sink ;
  match l with
  | [] => Raise KeyError
  | _ =>
    do m <- min_residual l r None ;
    match m with
    | None => Raise KeyError
    | Some d => do fr <- ff_update arcs l d flow r ; Ok (l, fr)
    end
  end.

(** lines 519-561.  Next to the flow, the model returns the list of augmenting paths (as the
    pairs visited, from the sink backwards), also when the fuel runs out; the code does not
    keep it. *)
Fixpoint ff_loop (fuel : nat) (arcs : list (arc * Qc)) (source sink : string)
    (flow : list (arc * Qc)) (r : rnet) (trace : list (list (string * string)))
    : res (list (arc * Qc)) * list (list (string * string)) :=
  match fuel with
  | 0 => (Diverges, trace)
  | S fuel' =>
    match bfs_path source sink r with
    | Ok None => (Ok flow, trace)
    | Ok (Some path) =>
      match ff_augment arcs sink path flow r with
      | Ok (l, (flow', r')) => ff_loop fuel' arcs source sink flow' r' (trace ++ [l])
      | Raise e => (Raise e, trace)
      | Diverges => (Diverges, trace)
      end
    | Raise e => (Raise e, trace)
    | Diverges => (Diverges, trace)
    end
  end.

(** lines 563-564 and 460-461 *)
Definition flow_value (g : digraph) (source : string) (flow : list (arc * Qc)) : Qc :=
  (qsum (map (fget flow) (cut g (Name source))) - qsum (map (fget flow) (ncut g (Name source))))%Qc.

(** _directed.py:487-566 [ford_fulkerson], with a bound on the number of augmentations *)
Definition ford_fulkerson (fuel : nat) (g : digraph) (source sink : string)
    : res (Qc * list (arc * Qc)) * list (list (string * string)) :=
  if negb (has_node g source) then (Raise ValueError, [])
  else if negb (has_node g sink) then (Raise ValueError, [])
  else if String.eqb source sink then (Raise ValueError, [])
  else
    let flow := map (fun p => (fst p, 0%Qc)) (dg_arcs g) in
    match compute_residual g flow with
    | Ok r =>
      let ft := ff_loop fuel (dg_arcs g) source sink flow r [] in
      (rmap (fun f => (flow_value g source f, f)) (fst ft), snd ft)
    | Raise e => (Raise e, [])
    | Diverges => (Diverges, [])
    end.

(** * preflow_push *)

Record pstate := mkps {
  p_index : nat;
  p_excess : list (string * Qc);
  p_flow : list (arc * Qc);
  p_residual : rnet;
  p_height : list (string * nat) }.

(** [height[v]], [excess[v]] *)
Definition hget (v : string) (h : list (string * nat)) : res nat :=
  match dget String.eqb v h with Some x => Ok x | None => Raise KeyError end.
Definition eget (v : string) (e : list (string * Qc)) : res Qc :=
  match dget String.eqb v e with Some x => Ok x | None => Raise KeyError end.

(** lines 407-408: the first endpoint one level below *)
Fixpoint find_push (endpoints : list (string * Qc)) (h : list (string * nat)) (hn : nat)
    : res (option (string * Qc)) :=
  match endpoints with
  | [] => Ok None
  | (e, value) :: rest =>
    do he <- hget e h ;
    if Nat.eqb (S he) hn then Ok (Some (e, value)) else find_push rest h hn
  end.

(** lines 449-452: [min] over the heights of the endpoints; [None] is [math.inf] *)
Fixpoint min_height (endpoints : list (string * Qc)) (h : list (string * nat)) (m : option nat) : res (option nat) :=
  match endpoints with
  | [] => Ok m
  | (e, _) :: rest =>
    do he <- hget e h ;
    min_height rest h (Some (match m with None => he | Some x => Nat.min he x end))
  end.

(** lines 409-444 one push *)
Definition push (arcs : list (arc * Qc)) (source sink node endpoint : string) (value : Qc) (st : pstate)
    : res pstate :=
  do ex <- eget node (p_excess st) ;
  let push_value := qmin ex value in
  do af <- fupdate (p_flow st) node endpoint push_value ;
  (** lines 422-423: swapped back when the arc is reversed, so this is always the arc's own
      direction *)
  let '(u, v) := fst af in
  do r <- rupdate arcs (snd af) (fst af) u v (p_residual st) ;
  let e1 := if negb (String.eqb node source) && negb (String.eqb node sink)
            then dset String.eqb node (ex - push_value)%Qc (p_excess st) else p_excess st in
  if negb (String.eqb endpoint source) && negb (String.eqb endpoint sink) then
    do x <- eget endpoint e1 ;
    Ok (mkps 0 (dset String.eqb endpoint (x + push_value)%Qc e1) (snd af) r (p_height st))
  else Ok (mkps 0 e1 (snd af) r (p_height st)).

(** lines 401-458 one iteration of the while loop, at [node = nodes[index]].  A node with
    positive excess whose residual dictionary is empty would get height [inf]; such entries
    are always deleted (lines 434-438), and the model raises KeyError there. *)
Definition preflow_step (arcs : list (arc * Qc)) (source sink node : string) (st : pstate) : res pstate :=
  do ex <- eget node (p_excess st) ;
  if qlt 0 ex then
    match dget String.eqb node (p_residual st) with
    | None => Raise KeyError
    | Some endpoints =>
      do hn <- hget node (p_height st) ;
      do fp <- find_push endpoints (p_height st) hn ;
      match fp with
      | Some (endpoint, value) => push arcs source sink node endpoint value st
      | None =>
        do m <- min_height endpoints (p_height st) None ;
        match m with
        | None => Raise KeyError
        | Some x => Ok (mkps 0 (p_excess st) (p_flow st) (p_residual st)
                             (dset String.eqb node (S x) (p_height st)))
        end
      end
    end
  else Ok (mkps (S (p_index st)) (p_excess st) (p_flow st) (p_residual st) (p_height st)).

(** lines 401-461; [value] is assigned in the loop body only *)
Fixpoint preflow_loop (fuel : nat) (g : digraph) (source sink : string) (nodes : list string)
    (value : option Qc) (st : pstate) : res (Qc * list (arc * Qc)) :=
  match fuel with
  | 0 => Diverges
  | S fuel' =>
    match nth_error nodes (p_index st) with
    | None => match value with None => Raise UnboundLocalError | Some x => Ok (x, p_flow st) end
    | Some node =>
      do st' <- preflow_step (dg_arcs g) source sink node st ;
      preflow_loop fuel' g source sink nodes (Some (flow_value g source (p_flow st'))) st'
    end
  end.

(** lines 385-399 *)
Definition preflow_init_flow (g : digraph) (source : string) : list (arc * Qc) :=
  map (fun p => (fst p, if existsb (eqe (fst p)) (cut g (Name source)) then snd p else 0%Qc)) (dg_arcs g).
Definition preflow_nodes (g : digraph) (source sink : string) : list string :=
  filter (fun v => negb (String.eqb v source) && negb (String.eqb v sink)) (dkeys (dg_nodes g)).
Definition preflow_excess (g : digraph) (flow : list (arc * Qc)) (v : string) : Qc :=
  (qsum (map (fget flow) (ncut g (Name v))) - qsum (map (fget flow) (cut g (Name v))))%Qc.

(** _directed.py:355-463 [preflow_push], with a bound on the number of loop iterations *)
Definition preflow_push (fuel : nat) (g : digraph) (source sink : string) : res (Qc * list (arc * Qc)) :=
  if negb (has_node g source) then Raise ValueError
  else if negb (has_node g sink) then Raise ValueError
  else if String.eqb source sink then Raise ValueError
  else
    let flow := preflow_init_flow g source in
    do r <- compute_residual g flow ;
    let nodes := preflow_nodes g source sink in
    let height := map (fun v => (v, if String.eqb v source then length (dg_nodes g) else 0)) (dkeys (dg_nodes g)) in
    let excess := map (fun v => (v, preflow_excess g flow v)) nodes in
    preflow_loop fuel g source sink nodes None (mkps 0 excess flow r height).
