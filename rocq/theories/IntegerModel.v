(** Model of pytimize/programs/_integer.py, class IntegerProgram: the linear program it extends and
    the list of integral variables.  [is_feasible] (204-206) is the one of LinearProgram;
    [cutting_plane] (147-157) is unimplemented and returns None. *)
From Coq Require Import String List Bool Arith ZArith QArith Qcanon Qround.
From Verif Require Import Py QcTac QSum ComparatorModel MatModel LinearModel.
Import ListNotations.
Open Scope nat_scope.
Open Scope string_scope.
Open Scope list_scope.

(** _integer.py:12-31; the attribute [_integral_variables] is stored as given *)
Record ip := mkip { program_of : lp; integral_variables : option (list Z) }.
Definition integer_program (A b c : source) (z : Qc) (objective : string)
    (inequalities : option (list string)) (free neg : option (list Z)) (integral : option (list Z)) : res ip :=
  do p <- linear_program A b c z objective inequalities free neg ;
  Ok (mkip p integral).

(** _integer.py:184-202 [relax] *)
Definition relax (p : lp) : res lp :=
  linear_program (Nd (Mat (cols p) (lA p))) (Nd (Vec (lb p))) (Nd (Vec (lc p))) (lz p) (lobj p)
    (Some (inequalities p)) (Some (free_variables p)) (Some (negative_variables p)).

(** _integer.py:89-95 the variables that are looked at; the test compares the position, which counts
    from 0 *)
Definition looked_at (integral : option (list Z)) (i : nat) : bool :=
  match integral with None => true | Some l => existsb (Z.eqb (Z.of_nat i)) l end.
(** _integer.py:86-98, 143: the first of them with a fractional value; [position] is always [i] *)
Fixpoint first_fraction (integral : option (list Z)) (i : nat) (x : list Qc) : option nat :=
  match x with
  | [] => None
  | v :: x' => if looked_at integral i && negb (is_integer v) then Some i else first_fraction integral (S i) x'
  end.
Definition floor (x : Qc) : Z := Qfloor (this x).
Definition ceil (x : Qc) : Z := Qceiling (this x).
(** _integer.py:104-105 *)
Definition unit_row (n i : nat) : list Qc := map (fun j => if Nat.eqb j i then 1%Qc else 0%Qc) (seq 0 n).
(** _integer.py:98-111, 116-120: the program of a branch; signs of variables are not passed on *)
Definition child (p : lp) (i : nat) (s : string) (k : Z) : res lp :=
  linear_program (Nd (Mat (cols p) (lA p ++ [unit_row (cols p) i]))) (Nd (Vec (lb p ++ [qz k]))) (Nd (Vec (lc p))) (lz p) (lobj p)
    (Some (inequalities p ++ [s])) None None.
(** _integer.py:124-141 *)
Definition better (objective : string) (lower higher : option (list Qc * Qc)) : option (list Qc * Qc) :=
  match lower, higher with
  | None, None => None
  | None, _ => higher
  | _, None => lower
  | Some l, Some h =>
    if String.eqb objective "max" then if qlt (snd l) (snd h) then higher else lower
    else if qlt (snd l) (snd h) then higher else lower
  end.
(** _integer.py:58-145 [__branch]; [depth] bounds the recursion, [fuel] the loops of [solve] *)
Fixpoint branch (depth fuel : nat) (integral : option (list Z)) (p : lp) : res (option (list Qc * Qc)) :=
  match depth with
  | 0 => Diverges
  | S depth' =>
    let '(p, r) := solve fuel p in
    do solution <- r ;
    match solution with
    | None => Ok None
    | Some x =>
      do opt_value <- evaluate p x ;
      match first_fraction integral 0 x with
      | None => Ok (Some (x, opt_value))
      | Some i =>
        do lower <- child p i "<=" (floor (nth i x 0%Qc)) ;
        do lower_result <- branch depth' fuel integral lower ;
        do higher <- child p i ">=" (ceil (nth i x 0%Qc)) ;
        do higher_result <- branch depth' fuel integral higher ;
        Ok (better (lobj p) lower_result higher_result)
      end
    end
  end.
(** _integer.py:41-56 [branch_and_bound] *)
Definition branch_and_bound (depth fuel : nat) (p : ip) : res (option (list Qc)) :=
  do q <- relax (program_of p) ;
  do r <- branch depth fuel (integral_variables p) q ;
  Ok (match r with None => None | Some (x, _) => Some x end).
