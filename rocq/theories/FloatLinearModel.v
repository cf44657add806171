(** Tests and values of linear programs in double precision with overflow, infinities and nan:
    LinearProgram.evaluate, is_feasible, verify_infeasibility, verify_unboundedness and verify_optimality
    of pytimize/programs/_linear.py.  DoubleModel.v is the same code without overflow and with finite
    arguments.  The order in which numpy adds up a product is not fixed, so these are relations:
    [ff_... p x r] means that [r] is a possible result.  Simplification: the numbers of the program are
    finite, all arrays are float64. *)
From Coq Require Import String List Bool Arith ZArith QArith Qcanon Permutation.
From Verif Require Import Py QcTac ComparatorModel MatModel LinearModel DoubleSpec DoubleModel FloatModel.
Import ListNotations.
Open Scope nat_scope.
Open Scope string_scope.
Open Scope list_scope.

(** a product and a sum with a single rounding at the end *)
Definition f_fma (a x v : fnum) : fnum :=
  match a, x, v with
  | Fin a', Fin x', Fin v' => to_float (a' * x' + v')
  | Fin _, Fin _, _ => v
  | _, _, _ => f_add (f_mul a x) v
  end.
(** the [@] of two vectors (numpy, BLAS): the products are added in any order and grouping, each product
    rounded or fused with the addition that uses it *)
Inductive ff_summed : list (fnum * fnum) -> fnum -> Prop :=
| ff_nothing : ff_summed [] (Fin 0)
| ff_product a x : ff_summed [(a, x)] (f_mul a x)
| ff_parts l l1 l2 v1 v2 : Permutation l (l1 ++ l2) -> l1 <> [] -> l2 <> [] -> ff_summed l1 v1 -> ff_summed l2 v2 -> ff_summed l (f_add v1 v2)
| ff_fused l a x l1 v : Permutation l ((a, x) :: l1) -> l1 <> [] -> ff_summed l1 v -> ff_summed l (f_fma a x v).
Definition ff_dot (u v : list fnum) (r : fnum) : Prop := ff_summed (combine u v) r.
(** the numbers of the program *)
Definition fins (l : list Qc) : list fnum := map Fin l.
Definition entry (l : list fnum) (i : nat) : fnum := nth i l NaN.

(** _comparator.py:54-70 as boolean functions *)
Definition fl_ge (value test : fnum) : bool := fl_comparator test value || f_le test value.
Definition fl_le (value test : fnum) : bool := fl_comparator test value || f_le value test.
Definition fl_lt (value test : fnum) : bool := negb (fl_comparator test value) && f_lt value test.
(** math.isclose(a, b), rel_tol=1e-09, abs_tol=0.0: equal numbers are close, an infinity is close to
    nothing else, and otherwise abs(b - a) <= abs(rel_tol * b) or abs(b - a) <= abs(rel_tol * a) or
    abs(b - a) <= 0.0 *)
Definition f_infinite (v : fnum) : bool := match v with PInf | NInf => true | _ => false end.
Definition math_rel : fnum := to_float (Q2Qc (1 # 1000000000)).
Definition fl_math_isclose (a b : fnum) : bool :=
  if f_eq a b then true
  else if f_infinite a || f_infinite b then false
  else let diff := f_abs (f_sub b a) in
    f_le diff (f_abs (f_mul math_rel b)) || f_le diff (f_abs (f_mul math_rel a)) || f_le diff (Fin 0).

(** _linear.py:1492-1512 [evaluate] *)
Definition ff_evaluate (p : lp) (x : list fnum) (r : fnum) : Prop :=
  length x = cols p /\ exists v, ff_dot (fins (lc p)) x v /\ r = f_add v (Fin (lz p)).
(** _linear.py:1299-1369 [is_feasible]; [ax] are the entries of A @ x *)
Definition ff_is_feasible (p : lp) (x : list fnum) (r : bool) : Prop :=
  length x = cols p /\ exists ax : nat -> fnum,
    (forall i, i < rows p -> ff_dot (fins (nth i (lA p) [])) x (ax i)) /\
    r = if lsef p then
          forallb (fun j => fl_ge (entry x j) (Fin 0)) (seq 0 (length x)) && forallb (fun i => fl_isclose (ax i) (Fin (at_ (lb p) i))) (seq 0 (rows p))
        else
          forallb (fun i => if inb i (lneg p) then f_le (entry x i) (Fin 0)
                            else if inb i (lfree p) then true else f_le (Fin 0) (entry x i)) (seq 0 (length x))
          && forallb (fun i =>
               match dget Nat.eqb i (lineq p) with
               | Some s => negb (String.eqb s "<=" && f_lt (Fin (at_ (lb p) i)) (ax i)) && negb (String.eqb s ">=" && f_lt (ax i) (Fin (at_ (lb p) i)))
               | None => fl_math_isclose (ax i) (Fin (at_ (lb p) i))
               end) (seq 0 (rows p)).
(** _linear.py:1196-1224 [verify_infeasibility] of a program in SEF *)
Definition ff_verify_infeasibility (p : lp) (y : list fnum) (r : bool) : Prop :=
  lsef p = true /\ length y = rows p /\ exists (ya : nat -> fnum) (yb : fnum),
    (forall j, j < cols p -> ff_dot y (fins (f_column (lA p) j)) (ya j)) /\ ff_dot y (fins (lb p)) yb /\
    r = forallb (fun j => fl_ge (ya j) (Fin 0)) (seq 0 (cols p)) && fl_lt yb (Fin 0).
(** _linear.py:1226-1268 [verify_unboundedness] of a program in SEF *)
Definition ff_verify_unboundedness (p : lp) (x d : list fnum) (r : bool) : Prop :=
  lsef p = true /\ length d = cols p /\ exists (feas : bool) (cd : fnum) (ad : nat -> fnum),
    ff_is_feasible p x feas /\ ff_dot (fins (lc p)) d cd /\ (forall i, i < rows p -> ff_dot (fins (nth i (lA p) [])) d (ad i)) /\
    r = if negb feas then false else if fl_le cd (Fin 0) then false
        else if negb (forallb (fun i => fl_isclose (ad i) (Fin 0)) (seq 0 (rows p))) then false
        else forallb (fun j => fl_ge (entry d j) (Fin 0)) (seq 0 (cols p)).
(** _linear.py:1270-1297 [verify_optimality] of a program in SEF *)
Definition ff_verify_optimality (p : lp) (y : list fnum) (r : bool) : Prop :=
  lsef p = true /\ length y = rows p /\ exists ya : nat -> fnum,
    (forall j, j < cols p -> ff_dot y (fins (f_column (lA p) j)) (ya j)) /\
    r = forallb (fun j => fl_le (f_sub (Fin (at_ (lc p) j)) (ya j)) (Fin 0)) (seq 0 (cols p)).
