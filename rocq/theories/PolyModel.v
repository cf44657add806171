(** Model of LinearProgram.graph_polyhedron, pytimize/programs/_linear.py:1371-1490.
    The result is the list of points handed to matplotlib.  Simplification: numbers are exact, so
    np.linalg.solve is exact and raises exactly for singular matrices, and the order by polar angle
    is the exact one. *)
From Coq Require Import String List Bool Arith ZArith QArith Qcanon Qround.
From Verif Require Import Py QcTac ComparatorModel MatModel LinearModel.
Import ListNotations.
Open Scope nat_scope.
Open Scope string_scope.
Open Scope list_scope.

Definition point := (Qc * Qc)%type.
(** the points drawn, the end of the process by [exit()], or an exception *)
Inductive drawing := Drawn (points : list point) | Exits | Fails (e : exn).

(** storing a number in an array of integers: the fraction is cut off *)
Definition trunc (q : Qc) : Qc := if qlt q 0 then (- qz (Qfloor (this (- q))))%Qc else qz (Qfloor (this q)).

(** a line of [copy_A] with its entry of [copy_b], lines 1395-1401 *)
Definition line := (Qc * Qc * Qc)%type.
Definition boundary_lines (p : lp) (limit : Qc) : list line :=
  map (fun ab => (at_ (fst ab) 0, at_ (fst ab) 1, snd ab)) (combine (lA p) (lb p)) ++
  [(1%Qc, 0%Qc, limit); (1%Qc, 0%Qc, (- limit)%Qc); (0%Qc, 1%Qc, limit); (0%Qc, 1%Qc, (- limit)%Qc)].
(** lines 1403-1407 *)
Definition with_bounds (d : list (nat * string)) : list (nat * string) :=
  let n := length d in
  dset Nat.eqb (n + 3) ">=" (dset Nat.eqb (n + 2) "<=" (dset Nat.eqb (n + 1) ">=" (dset Nat.eqb n "<=" d))).
(** lines 1474-1477 *)
Definition without_bounds (n : nat) (d : list (nat * string)) : list (nat * string) :=
  ddel Nat.eqb n (ddel Nat.eqb (n + 1) (ddel Nat.eqb (n + 2) (ddel Nat.eqb (n + 3) d))).

(** lines 1420-1435 for one pair of lines: the arrays [A] and [b] hold integers *)
Definition intersection (l k : line) : option (res point) :=
  let '(a1, a2, b) := (trunc (fst (fst l)), trunc (snd (fst l)), trunc (snd l)) in
  let '(c1, c2, d) := (trunc (fst (fst k)), trunc (snd (fst k)), trunc (snd k)) in
  if (qeq a1 0 && qeq c1 0) || (qeq a2 0 && qeq c2 0) then None
  else
    let det := (a1 * c2 - a2 * c1)%Qc in
    Some (if qeq det 0 then Raise LinAlgError
          else Ok ((b * c2 - a2 * d) / det, (a1 * d - b * c1) / det)%Qc).
(** lines 1417-1419 *)
Definition pairs (ls : list line) : list (line * line) :=
  let o := (0%Qc, 0%Qc, 0%Qc) in
  flat_map (fun i => flat_map (fun j => if Nat.ltb i j then [(nth i ls o, nth j ls o)] else []) (seq 0 (length ls))) (seq 0 (length ls)).
Fixpoint intersections (ps : list (line * line)) : res (list point) :=
  match ps with
  | [] => Ok []
  | (l, k) :: ps' =>
    match intersection l k with
    | None => intersections ps'
    | Some r => do pt <- r ; do pts <- intersections ps' ; Ok (pt :: pts)
    end
  end.
(** lines 1441-1455 *)
Definition valid_point (d : list (nat * string)) (ls : list line) (pt : point) : bool :=
  forallb (fun i =>
    let '(a1, a2, b) := nth i ls (0%Qc, 0%Qc, 0%Qc) in
    let value := (fst pt * a1 + snd pt * a2)%Qc in
    match dget Nat.eqb i d with
    | Some s => if String.eqb s "<=" then negb (qlt b value && negb (math_isclose value b))
                else if String.eqb s ">=" then negb (qlt value b && negb (math_isclose value b))
                else true
    | None => true
    end) (seq 0 (length ls)).

(** lines 1461-1469: comparison of [math.atan2(y, x)] *)
Definition half (v : point) : nat :=
  let '(x, y) := v in
  if qlt y 0 then 0 else if qlt 0 y then 2 else if qlt x 0 then 3 else 1.
Definition angle_le (u v : point) : bool :=
  if Nat.ltb (half u) (half v) then true
  else if Nat.ltb (half v) (half u) then false
  else if Nat.eqb (half u) 0 || Nat.eqb (half u) 2 then qle 0 (fst u * snd v - snd u * fst v)
  else true.
Definition total_of (l : list Qc) : Qc := fold_right Qcplus 0%Qc l.
Definition centroid (pts : list point) : point :=
  (total_of (map fst pts) / qz (Z.of_nat (length pts)), total_of (map snd pts) / qz (Z.of_nat (length pts)))%Qc.
Definition from (c : point) (v : point) : point := (fst v - fst c, snd v - snd c)%Qc.
(** list.sort with a key is stable *)
Fixpoint insert_angle (c v : point) (l : list point) : list point :=
  match l with
  | [] => [v]
  | w :: l' => if angle_le (from c v) (from c w) then v :: l else w :: insert_angle c v l'
  end.
Definition sort_angle (c : point) (l : list point) : list point := fold_right (insert_angle c) [] l.

(** lines 1371-1490; the first component is the program afterwards *)
Definition graph_polyhedron (p : lp) (limit : Qc) : lp * drawing :=
  let set d := mklp (lA p) (lb p) (lc p) (lz p) (lobj p) d (lsef p) (lfree p) (lneg p) in
  if negb (Nat.eqb (cols p) 2) then (p, Fails ArithmeticError)
  else if negb (Nat.eqb (length (lineq p)) (length (lb p))) then (p, Fails ArithmeticError)
  else if negb (forallb (fun e => String.eqb (snd e) "<=") (lineq p)) && negb (forallb (fun e => String.eqb (snd e) ">=") (lineq p))
    then (p, Fails ArithmeticError)
  else
    let ls := boundary_lines p (qabs limit) in
    let d := with_bounds (lineq p) in
    match intersections (pairs ls) with
    | Raise e => (set d, Fails e)
    | Diverges => (set d, Fails ValueError)
    | Ok candidates =>
      match filter (valid_point d ls) candidates with
      | [] => (set d, Exits)
      | pt :: pts =>
        let sorted := sort_angle (centroid (pt :: pts)) (pt :: pts) in
        (set (without_bounds (length (lineq p)) d), Drawn (sorted ++ firstn 1 sorted))
      end
    end.
