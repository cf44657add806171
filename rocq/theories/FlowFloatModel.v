(** Model of [_compute_residual], [ford_fulkerson] and [preflow_push] of pytimize/graphs/_directed.py on
    double precision capacities: every addition and subtraction is rounded to nearest, ties to even
    ([rnd], FloatModel.v).  FlowModel.v is the same code on exact numbers; comparisons, [min] and the
    searches do not round and are taken from there.  Simplifications: no overflow, one zero.  The code sums
    over sets of arcs, in the order in which the set is iterated; [order] is that order. *)
From Coq Require Import String List Bool Arith QArith Qcanon.
From Verif Require Import Py QcTac UndirectedModel DirectedModel FlowModel FloatModel.
Import ListNotations.
Open Scope nat_scope.
Open Scope string_scope.
Open Scope list_scope.

(** [sum(...)]: from 0, left to right (Python before 3.12; later versions carry a correction term) *)
Definition fl_sum (l : list Qc) : Qc := fold_left (fun s x => rnd (s + x)%Qc) l 0%Qc.

(** _directed.py:335-353 [_compute_residual] *)
Fixpoint fl_residual_loop (arcs : list (arc * Qc)) (flow : list (arc * Qc)) (r : rnet) : res rnet :=
  match arcs with
  | [] => Ok r
  | (a, capacity) :: rest =>
    let value := fget flow a in
    if qlt capacity value then Raise ArithmeticError
    else
      let r1 := if qlt value capacity then rset (fst a) (snd a) (rnd (capacity - value)%Qc) r else r in
      let r2 := if qlt 0 value then rset (snd a) (fst a) value r1 else r1 in
      fl_residual_loop rest flow r2
  end.
Definition fl_residual (g : digraph) (flow : list (arc * Qc)) : res rnet := fl_residual_loop (dg_arcs g) flow [].

(** _directed.py:543-556 and 425-438 *)
Definition fl_rupdate (arcs flow : list (arc * Qc)) (a : arc) (u v : string) (r : rnet) : res rnet :=
  match dget eqe a arcs, dget eqe a flow with
  | Some capacity, Some value =>
    let r1 := rset u v (rnd (capacity - value)%Qc) r in
    let r2 := rset v u value r1 in
    do r3 <- rdel_zero u v r2 ;
    do r4 <- rdel_zero v u r3 ;
    do r5 <- rdel_empty u r4 ;
    rdel_empty v r5
  | _, _ => Raise KeyError
  end.
(** _directed.py:535-541 and 411-420 *)
Definition fl_fupdate (flow : list (arc * Qc)) (u v : string) (d : Qc) : res (arc * list (arc * Qc)) :=
  match dget eqe (u, v) flow with
  | Some f => Ok ((u, v), dset eqe (u, v) (rnd (f + d)%Qc) flow)
  | None =>
    match dget eqe (v, u) flow with
    | Some f => Ok ((v, u), dset eqe (v, u) (rnd (f - d)%Qc) flow)
    | None => Raise KeyError
    end
  end.

(** lines 563-564 and 460-461 *)
Definition fl_flow_value (order : list arc -> list arc) (g : digraph) (source : string) (flow : list (arc * Qc)) : Qc :=
  rnd (fl_sum (map (fget flow) (order (cut g (Name source)))) - fl_sum (map (fget flow) (order (ncut g (Name source)))))%Qc.

(** lines 534-559 *)
Fixpoint fl_ff_update (arcs : list (arc * Qc)) (l : list (string * string)) (d : Qc)
    (flow : list (arc * Qc)) (r : rnet) : res (list (arc * Qc) * rnet) :=
  match l with
  | [] => Ok (flow, r)
  | (u, v) :: l' =>
    do af <- fl_fupdate flow u v d ;
    do r' <- fl_rupdate arcs (snd af) (fst af) u v r ;
    fl_ff_update arcs l' d (snd af) r'
  end.
(** one pass of the loop of lines 521-561 *)
Definition fl_ff_augment (arcs : list (arc * Qc)) (sink : string) (path : list (string * string))
    (flow : list (arc * Qc)) (r : rnet) : res (list (string * string) * (list (arc * Qc) * rnet)) :=
  do l <- path_arcs (2 + length path) path sink ;
  match l with
  | [] => Raise KeyError
  | _ =>
    do m <- min_residual l r None ;
    match m with
    | None => Raise KeyError
    | Some d => do fr <- fl_ff_update arcs l d flow r ; Ok (l, fr)
    end
  end.
(** lines 519-561, with the list of augmenting paths as in [ff_loop] *)
Fixpoint fl_ff_loop (fuel : nat) (arcs : list (arc * Qc)) (source sink : string)
    (flow : list (arc * Qc)) (r : rnet) (trace : list (list (string * string)))
    : res (list (arc * Qc)) * list (list (string * string)) :=
  match fuel with
  | 0 => (Diverges, trace)
  | S fuel' =>
    match bfs_path source sink r with
    | Ok None => (Ok flow, trace)
    | Ok (Some path) =>
      match fl_ff_augment arcs sink path flow r with
      | Ok (l, (flow', r')) => fl_ff_loop fuel' arcs source sink flow' r' (trace ++ [l])
      | Raise e => (Raise e, trace)
      | Diverges => (Diverges, trace)
      end
    | Raise e => (Raise e, trace)
    | Diverges => (Diverges, trace)
    end
  end.
(** _directed.py:487-566 [ford_fulkerson] *)
Definition fl_ford_fulkerson (order : list arc -> list arc) (fuel : nat) (g : digraph) (source sink : string)
    : res (Qc * list (arc * Qc)) * list (list (string * string)) :=
  if negb (has_node g source) then (Raise ValueError, [])
  else if negb (has_node g sink) then (Raise ValueError, [])
  else if String.eqb source sink then (Raise ValueError, [])
  else
    let flow := map (fun p => (fst p, 0%Qc)) (dg_arcs g) in
    match fl_residual g flow with
    | Ok r =>
      let ft := fl_ff_loop fuel (dg_arcs g) source sink flow r [] in
      (rmap (fun f => (fl_flow_value order g source f, f)) (fst ft), snd ft)
    | Raise e => (Raise e, [])
    | Diverges => (Diverges, [])
    end.

(** lines 409-444 one push *)
Definition fl_push (arcs : list (arc * Qc)) (source sink node endpoint : string) (value : Qc) (st : pstate)
    : res pstate :=
  do ex <- eget node (p_excess st) ;
  let push_value := qmin ex value in
  do af <- fl_fupdate (p_flow st) node endpoint push_value ;
  let '(u, v) := fst af in
  do r <- fl_rupdate arcs (snd af) (fst af) u v (p_residual st) ;
  let e1 := if negb (String.eqb node source) && negb (String.eqb node sink)
            then dset String.eqb node (rnd (ex - push_value)%Qc) (p_excess st) else p_excess st in
  if negb (String.eqb endpoint source) && negb (String.eqb endpoint sink) then
    do x <- eget endpoint e1 ;
    Ok (mkps 0 (dset String.eqb endpoint (rnd (x + push_value)%Qc) e1) (snd af) r (p_height st))
  else Ok (mkps 0 e1 (snd af) r (p_height st)).
(** lines 401-458 one iteration of the while loop *)
Definition fl_preflow_step (arcs : list (arc * Qc)) (source sink node : string) (st : pstate) : res pstate :=
  do ex <- eget node (p_excess st) ;
  if qlt 0 ex then
    match dget String.eqb node (p_residual st) with
    | None => Raise KeyError
    | Some endpoints =>
      do hn <- hget node (p_height st) ;
      do fp <- find_push endpoints (p_height st) hn ;
      match fp with
      | Some (endpoint, value) => fl_push arcs source sink node endpoint value st
      | None =>
        do m <- min_height endpoints (p_height st) None ;
        match m with
        | None => Raise KeyError
        | Some x => Ok (mkps 0 (p_excess st) (p_flow st) (p_residual st)
                             (dset String.eqb node (S x) (p_height st)))
        end
      end
    end
  else Ok (mkps (S (p_index st)) (p_excess st) (p_flow st) (p_residual st) (p_height st)).
(** lines 401-461 *)
Fixpoint fl_preflow_loop (order : list arc -> list arc) (fuel : nat) (g : digraph) (source sink : string) (nodes : list string)
    (value : option Qc) (st : pstate) : res (Qc * list (arc * Qc)) :=
  match fuel with
  | 0 => Diverges
  | S fuel' =>
    match nth_error nodes (p_index st) with
    | None => match value with None => Raise UnboundLocalError | Some x => Ok (x, p_flow st) end
    | Some node =>
      do st' <- fl_preflow_step (dg_arcs g) source sink node st ;
      fl_preflow_loop order fuel' g source sink nodes (Some (fl_flow_value order g source (p_flow st'))) st'
    end
  end.
(** lines 395-399 *)
Definition fl_preflow_excess (order : list arc -> list arc) (g : digraph) (flow : list (arc * Qc)) (v : string) : Qc :=
  rnd (fl_sum (map (fget flow) (order (ncut g (Name v)))) - fl_sum (map (fget flow) (order (cut g (Name v)))))%Qc.
(** _directed.py:355-463 [preflow_push] *)
Definition fl_preflow_push (order : list arc -> list arc) (fuel : nat) (g : digraph) (source sink : string) : res (Qc * list (arc * Qc)) :=
  if negb (has_node g source) then Raise ValueError
  else if negb (has_node g sink) then Raise ValueError
  else if String.eqb source sink then Raise ValueError
  else
    let flow := preflow_init_flow g source in
    do r <- fl_residual g flow ;
    let nodes := preflow_nodes g source sink in
    let height := map (fun v => (v, if String.eqb v source then length (dg_nodes g) else 0)) (dkeys (dg_nodes g)) in
    let excess := map (fun v => (v, fl_preflow_excess order g flow v)) nodes in
    fl_preflow_loop order fuel g source sink nodes None (mkps 0 excess flow r height).
