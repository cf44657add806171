(** Tests and values of linear programs in double precision: LinearProgram.evaluate, is_feasible,
    verify_infeasibility, verify_unboundedness and verify_optimality of pytimize/programs/_linear.py with
    every operation rounded.  The functions of LinearModel.v are the same code on exact numbers.
    The order in which numpy adds up a product is not fixed, so these are relations: [f p x r] means
    that [r] is a possible result.  Simplifications: no overflow, all arrays are float64. *)
From Coq Require Import String List Bool Arith ZArith QArith Qcanon Permutation.
From Verif Require Import Py QcTac QSum QInt ComparatorModel MatModel LinearModel DoubleSpec.
Import ListNotations.
Open Scope nat_scope.
Open Scope string_scope.
Open Scope list_scope.

(** the [@] of two vectors (numpy, BLAS): the products are added in any order and grouping, each product
    rounded or fused with the addition that uses it *)
Inductive summed : list (Qc * Qc) -> Qc -> Prop :=
| sum_nothing : summed [] 0%Qc
| sum_product a x r : rounds (a * x) r -> summed [(a, x)] r
| sum_parts l l1 l2 v1 v2 r : Permutation l (l1 ++ l2) -> l1 <> [] -> l2 <> [] -> summed l1 v1 -> summed l2 v2 -> rounds (v1 + v2) r -> summed l r
| sum_fused l a x l1 v r : Permutation l ((a, x) :: l1) -> l1 <> [] -> summed l1 v -> rounds (a * x + v) r -> summed l r.
Definition f_dot (u v : list Qc) (r : Qc) : Prop := summed (combine u v) r.

(** _comparator.py:26 with the literal 1.0e-10 read as a double *)
Definition f_close_to_zero (value : Qc) (r : bool) : Prop := exists t, rounds tol_zero t /\ r = qlt (qabs value) t.
(** _comparator.py:54-68 [is_close_compare(value, ">=", 0)], [is_close_compare(value, "<=", 0)] and
    [is_close_compare(value, "<", 0)] *)
Definition f_ge0 (value : Qc) (r : bool) : Prop := exists c, f_close_to_zero value c /\ r = c || qle 0 value.
Definition f_le0 (value : Qc) (r : bool) : Prop := exists c, f_close_to_zero value c /\ r = c || qle value 0.
Definition f_lt0 (value : Qc) (r : bool) : Prop := exists c, f_close_to_zero value c /\ r = negb c && qlt value 0.
(** numpy.isclose(a, b): abs(a - b) <= atol + rtol * abs(b) *)
Definition f_np_isclose (a b : Qc) (r : bool) : Prop :=
  exists diff rtol atol m s, rounds (a - b) diff /\ rounds np_rtol rtol /\ rounds np_atol atol /\ rounds (rtol * qabs b) m /\ rounds (atol + m) s /\
    r = qle (qabs diff) s.
(** math.isclose(a, b): a == b or abs(b - a) <= abs(rel_tol * b) or abs(b - a) <= abs(rel_tol * a) or
    abs(b - a) <= 0.0 *)
Definition f_math_isclose (a b : Qc) (r : bool) : Prop :=
  exists diff t m1 m2, rounds (b - a) diff /\ rounds (Q2Qc (1 # 1000000000)) t /\ rounds (t * b) m1 /\ rounds (t * a) m2 /\
    r = qeq a b || qle (qabs diff) (qabs m1) || qle (qabs diff) (qabs m2) || qle (qabs diff) 0.

(** _linear.py:1492-1512 [evaluate] *)
Definition f_evaluate (p : lp) (x : list Qc) (r : Qc) : Prop :=
  length x = cols p /\ exists v, f_dot (lc p) x v /\ rounds (v + lz p) r.
(** _linear.py:1299-1369 [is_feasible]; [ge], [ax] and [close] are the intermediate results *)
Definition f_is_feasible (p : lp) (x : list Qc) (r : bool) : Prop :=
  length x = cols p /\ exists (ge : nat -> bool) (ax : nat -> Qc) (close : nat -> bool),
    (forall i, i < rows p -> f_dot (nth i (lA p) []) x (ax i)) /\
    if lsef p then
      (forall j, j < cols p -> f_ge0 (at_ x j) (ge j)) /\ (forall i, i < rows p -> f_np_isclose (ax i) (at_ (lb p) i) (close i)) /\
      r = forallb ge (seq 0 (length x)) && forallb close (seq 0 (rows p))
    else
      (forall i, i < rows p -> f_math_isclose (ax i) (at_ (lb p) i) (close i)) /\
      r = forallb (fun i => if inb i (lneg p) then qle (at_ x i) 0
                            else if inb i (lfree p) then true else qle 0 (at_ x i)) (seq 0 (length x))
        && forallb (fun i =>
             match dget Nat.eqb i (lineq p) with
             | Some s => negb (String.eqb s "<=" && qlt (at_ (lb p) i) (ax i)) && negb (String.eqb s ">=" && qlt (ax i) (at_ (lb p) i))
             | None => close i
             end) (seq 0 (rows p)).
(** column [j] of a matrix *)
Definition f_column (M : list (list Qc)) (j : nat) : list Qc := map (fun row => at_ row j) M.
(** _linear.py:1196-1224 [verify_infeasibility] of a program in SEF *)
Definition f_verify_infeasibility (p : lp) (y : list Qc) (r : bool) : Prop :=
  lsef p = true /\ length y = rows p /\ exists (ya : nat -> Qc) (yb : Qc) (ge : nat -> bool) (lt : bool),
    (forall j, j < cols p -> f_dot y (f_column (lA p) j) (ya j)) /\ f_dot y (lb p) yb /\
    (forall j, j < cols p -> f_ge0 (ya j) (ge j)) /\ f_lt0 yb lt /\ r = forallb ge (seq 0 (cols p)) && lt.
(** _linear.py:1226-1268 [verify_unboundedness] of a program in SEF *)
Definition f_verify_unboundedness (p : lp) (x d : list Qc) (r : bool) : Prop :=
  lsef p = true /\ length d = cols p /\ exists (feas : bool) (cd : Qc) (le : bool) (ad : nat -> Qc) (close ge : nat -> bool),
    f_is_feasible p x feas /\ f_dot (lc p) d cd /\ f_le0 cd le /\ (forall i, i < rows p -> f_dot (nth i (lA p) []) d (ad i)) /\
    (forall i, i < rows p -> f_np_isclose (ad i) 0 (close i)) /\ (forall j, j < cols p -> f_ge0 (at_ d j) (ge j)) /\
    r = if negb feas then false else if le then false else if negb (forallb close (seq 0 (rows p))) then false else forallb ge (seq 0 (cols p)).
(** _linear.py:1270-1297 [verify_optimality] of a program in SEF *)
Definition f_verify_optimality (p : lp) (y : list Qc) (r : bool) : Prop :=
  lsef p = true /\ length y = rows p /\ exists (ya test : nat -> Qc) (le : nat -> bool),
    (forall j, j < cols p -> f_dot y (f_column (lA p) j) (ya j)) /\ (forall j, j < cols p -> rounds (at_ (lc p) j - ya j) (test j)) /\
    (forall j, j < cols p -> f_le0 (test j) (le j)) /\ r = forallb le (seq 0 (cols p)).
