(** Model of UndirectedGraph.formulate_max_stable_set, pytimize/graphs/_undirected.py:398-431. *)
From Coq Require Import String List Bool Arith ZArith QArith Qcanon.
From Verif Require Import Py QcTac MatModel LinearModel IntegerModel UndirectedModel.
Import ListNotations.
Open Scope nat_scope.
Open Scope string_scope.
Open Scope list_scope.

(** [np.vstack((A, row))]: a one-dimensional array counts as one row; rows of another length
    raise ValueError *)
Definition vstack (A : array) (row : list Qc) : res array :=
  match A with
  | Vec v => if Nat.eqb (length v) (length row) then Ok (Mat (length row) [v; row]) else Raise ValueError
  | Mat n rows => if Nat.eqb n (length row) then Ok (Mat n (rows ++ [row])) else Raise ValueError
  end.
(** [A[1:]] *)
Definition drop_first (A : array) : array :=
  match A with Vec v => Vec (tl v) | Mat n rows => Mat n (tl rows) end.
(** [d[key]] *)
Definition lookup {V} (k : string) (d : list (string * V)) : res V :=
  match dget String.eqb k d with Some v => Ok v | None => Raise KeyError end.

(** _undirected.py:402 [{vertex: i for i, vertex in enumerate(self._vertices)}] *)
Definition numbering (vertices : list (string * Qc)) : list (string * nat) :=
  fold_left (fun d p => dset String.eqb (fst p) (snd p) d)
    (combine (dkeys vertices) (seq 0 (length vertices))) [].
(** _undirected.py:408-410 *)
Definition edge_row (columns : nat) (mapping : list (string * nat)) (e : edge) : res (list Qc) :=
  do i <- lookup (fst e) mapping ;
  do j <- lookup (snd e) mapping ;
  Ok (set_at (set_at (repeat 0%Qc columns) i 1%Qc) j 1%Qc).
(** _undirected.py:407-411 *)
Fixpoint stack_edges (columns : nat) (mapping : list (string * nat)) (es : list edge) (A : array) : res array :=
  match es with
  | [] => Ok A
  | e :: es' => do row <- edge_row columns mapping e ; do A' <- vstack A row ; stack_edges columns mapping es' A'
  end.
(** _undirected.py:418-419 *)
Fixpoint set_costs (mapping : list (string * nat)) (items : list (string * Qc)) (c : list Qc) : res (list Qc) :=
  match items with
  | [] => Ok c
  | (v, w) :: rest => do i <- lookup v mapping ; set_costs mapping rest (set_at c i w)
  end.
(** _undirected.py:422-426; the right-hand side is extended alongside the matrix *)
Fixpoint stack_units (columns : nat) (is : list nat) (A : array) (b : list Qc) : res (array * list Qc) :=
  match is with
  | [] => Ok (A, b)
  | i :: is' => do A' <- vstack A (set_at (repeat 0%Qc columns) i 1%Qc) ; stack_units columns is' A' (b ++ [1%Qc])
  end.

(** _undirected.py:398-428; [junk] is what [np.empty] finds in memory, one number per column *)
Definition formulate_max_stable_set (junk : nat -> Qc) (g : ugraph) : res (option (ip * list (string * nat))) :=
  if is_empty g then Ok None
  else
    let mapping := numbering (ug_vertices g) in
    let rows := length (ug_edges g) in
    let columns := length mapping in
    do A <- stack_edges columns mapping (dkeys (ug_edges g)) (Vec (map junk (seq 0 columns))) ;
    let A := drop_first A in
    let b := repeat 1%Qc rows in
    let inequalities := repeat "<=" (rows + columns) in
    do c <- set_costs mapping (ug_vertices g) (repeat 0%Qc columns) ;
    do Ab <- stack_units columns (seq 0 columns) A b ;
    do p <- integer_program (Nd (fst Ab)) (Nd (Vec (snd Ab))) (Nd (Vec c)) 0%Qc "max" (Some inequalities) None None None ;
    Ok (Some (p, mapping)).
