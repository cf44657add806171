(** Model of LinearProgram.is_feasible_basic_solution, is_canonical_form_for, optimal_value and
    random, pytimize/programs/_linear.py.  ([is_basic_solution] and [is_basis_feasible] are in
    LinearModel.v.) *)
From Coq Require Import String List Bool Arith ZArith QArith Qcanon Qround.
From Verif Require Import Py QcTac ComparatorModel MatModel LinearModel.
Import ListNotations.
Open Scope nat_scope.
Open Scope string_scope.
Open Scope list_scope.

(** [bool(n == self._c)], the truth value of the array of comparisons of a number with the costs:
    numpy raises ValueError for two or more entries, and takes the empty array as false *)
Definition array_truth (n : nat) (c : list Qc) : res bool :=
  match c with
  | [] => Ok false
  | [v] => Ok (qeq (qz (Z.of_nat n)) v)
  | _ => Raise ValueError
  end.
(** _linear.py:606-628 [is_feasible_basic_solution] of a one-dimensional array [x]: line 623 passes
    the costs where the number of variables is meant *)
Definition is_feasible_basic_solution (p : lp) (x : list Qc) (basis : list Z) : res bool :=
  do ok <- array_truth (length x) (lc p) ;
  if ok then
    if forallb (fun v => cc_ge v 0) x then is_basic_solution p x basis else Ok false
  else Raise ValueError.

(** _linear.py:1795-1815 [__convert_indices(indices, 0, n)]; with [n = 0] there is no upper bound *)
Definition convert_indices (n : nat) (indices : list Z) : res (list nat) :=
  if existsb (fun i => (i - 1 <? 0)%Z || (negb (Nat.eqb n 0) && (Z.of_nat n <=? i - 1)%Z)) indices
  then Raise IndexError
  else Ok (to_array_indexing indices).
(** indexing an array of length [n] with the list [l] *)
Definition in_range (n : nat) (l : list nat) : res unit :=
  if forallb (fun i => Nat.ltb i n) l then Ok tt else Raise IndexError.
(** [np.allclose(M, np.eye(k))] for [M] of shape (k, n), with numpy's broadcasting *)
Definition allclose_eye (n k : nat) (M : list (list Qc)) : res bool :=
  if Nat.eqb n k || Nat.eqb n 1 || Nat.eqb k 1 then
    Ok (forallb (fun i => forallb (fun j =>
          np_isclose (ent M i (if Nat.eqb n 1 then 0 else j))
                     (if Nat.eqb i (if Nat.eqb k 1 then 0 else j) then 1%Qc else 0%Qc))
        (seq 0 (if Nat.eqb n 1 then k else n))) (seq 0 k))
  else Raise ValueError.
(** _linear.py:519-543 [is_canonical_form_for]: line 535 converts the indices and [is_basis] converts
    them again; line 540 takes rows of [A] *)
Definition is_canonical_form_for (p : lp) (basis : list Z) : res bool :=
  do B <- convert_indices (cols p) basis ;
  do b1 <- is_basis p (map Z.of_nat B) ;
  do _ <- in_range (rows p) B ;
  do b2 <- allclose_eye (cols p) (length B) (map (fun i => nth i (lA p) []) B) ;
  do _ <- in_range (cols p) B ;
  Ok (b1 && b2 && forallb (fun i => np_isclose (at_ (lc p) i) 0) B).

(** _linear.py:545-551 [optimal_value] *)
Definition optimal_value (fuel : nat) (p : lp) : lp * res (option Qc) :=
  let '(p', r) := solve fuel p in
  (p', do s <- r ;
       match s with
       | Some x => do v <- evaluate p' x ; Ok (Some v)
       | None => Ok None
       end).

(** [np.round(x, 2)]: to the nearest multiple of 1/100, ties to the even one *)
Definition rint (x : Qc) : Z :=
  let h := (x + Q2Qc (1 # 2))%Qc in
  let f := Qfloor (this h) in
  if qeq (qz f) h && Z.odd f then (f - 1)%Z else f.
Definition round2 (x : Qc) : Qc := (qz (rint (x * qz 100)) * Q2Qc (1 # 100))%Qc.
(** _linear.py:148-188 [random].  The numbers that the generators return are arguments: [uA], [ub],
    [uc] in [-1, 1], [uz] in [0, 1), and the choices made.  Simplification: numbers are exact. *)
Inductive symbol := CEq | CLe | CGe.
Definition symbol_text (s : symbol) : string := match s with CEq => "=" | CLe => "<=" | CGe => ">=" end.
Definition random (columns : nat) (magnitude : Qc) (uA : list (list Qc)) (ub uc : list Qc) (uz : Qc) (negative_z minimum : bool)
    (symbols : list symbol) (signs : list Z) : res lp :=
  let A := map (map (fun u => round2 (u * magnitude))) uA in
  let b := map (fun u => round2 (u * magnitude)) ub in
  let c := map (fun u => round2 (u * magnitude)) uc in
  let z := round2 (uz * magnitude * (if negative_z then - (1) else 1))%Qc in
  let free := flat_map (fun i => if Z.eqb (nth i signs 1%Z) (-1) then [Z.of_nat (S i)] else []) (seq 0 columns) in
  let negative := flat_map (fun i => if Z.eqb (nth i signs 1%Z) 0 then [Z.of_nat (S i)] else []) (seq 0 columns) in
  linear_program (Nd (Mat columns A)) (Nd (Vec b)) (Nd (Vec c)) z (if minimum then "min" else "max")
    (Some (map symbol_text symbols)) (Some free) (Some negative).
