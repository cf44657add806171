(** Model of pytimize/utilities/_comparator.py.
    Simplification: floats are exact rationals ([Qc]); nan and infinities are left out
    (the one call with [test = inf] is modelled where it occurs, in the simplex ratio test). *)
From Coq Require Import QArith Qcanon List Bool String ZArith Qround.
From Verif Require Import Py QcTac.
Import ListNotations.
Open Scope Qc_scope.

(** _comparator.py:26 the literal [1.0e-10] *)
Definition tol_zero : Qc := Q2Qc (1 # 10000000000).
(** numpy.isclose defaults: rtol=1e-05, atol=1e-08 (used at _comparator.py:55) *)
Definition np_rtol : Qc := Q2Qc (1 # 100000).
Definition np_atol : Qc := Q2Qc (1 # 100000000).

(** _comparator.py:9-26 [is_close_to_zero] (scalar) *)
Definition is_close_to_zero (value : Qc) : bool := qlt (qabs value) tol_zero.

(** numpy.isclose(a, b) on scalars: |a - b| <= atol + rtol * |b| *)
Definition np_isclose (a b : Qc) : bool :=
  qle (qabs (a - b)) (np_atol + np_rtol * qabs b).

(** _comparator.py:54-56 the local [comparator] *)
Definition comparator (test value : Qc) : bool :=
  if qeq test 0 then is_close_to_zero value else np_isclose value test.

(** _comparator.py:28-70 [is_close_compare], scalar [value] *)
Definition is_close_compare (value : Qc) (comparison : string) (test : Qc) : res bool :=
  if String.eqb comparison ">=" then Ok (comparator test value || qle test value)
  else if String.eqb comparison ">" then Ok (negb (comparator test value) && qlt test value)
  else if String.eqb comparison "<=" then Ok (comparator test value || qle value test)
  else if String.eqb comparison "<" then Ok (negb (comparator test value) && qlt value test)
  else Raise ValueError.

(** boolean reading of the four legal operators, used by the other models *)
Definition cc_ge (value test : Qc) : bool := comparator test value || qle test value.
Definition cc_gt (value test : Qc) : bool := negb (comparator test value) && qlt test value.
Definition cc_le (value test : Qc) : bool := comparator test value || qle value test.
Definition cc_lt (value test : Qc) : bool := negb (comparator test value) && qlt value test.

(** _comparator.py:28-70 [is_close_compare], array [value]: elementwise, then [.all()] *)
Definition is_close_compare_array (value : list Qc) (comparison : string) (test : Qc) : res bool :=
  if String.eqb comparison ">=" then Ok (forallb (fun v => comparator test v || qle test v) value)
  else if String.eqb comparison ">" then Ok (forallb (fun v => negb (comparator test v) && qlt test v) value)
  else if String.eqb comparison "<=" then Ok (forallb (fun v => comparator test v || qle v test) value)
  else if String.eqb comparison "<" then Ok (forallb (fun v => negb (comparator test v) && qlt v test) value)
  else Raise ValueError.

(** Python [int(x)] for x >= 0 *)
Definition int_of (x : Qc) : Qc := Q2Qc (inject_Z (Qfloor (this x))).

(** _comparator.py:95-100 [is_integer], scalar *)
Definition is_integer (value : Qc) : bool :=
  let value := qabs value in
  let value := value - int_of value in
  if qlt (Q2Qc (1 # 2)) value then is_close_to_zero (1 - value)
  else is_close_to_zero value.

(** _comparator.py:89-94 [is_integer], one-dimensional array *)
Fixpoint is_integer_array (value : list Qc) : bool :=
  match value with
  | [] => true
  | entry :: rest => if negb (is_integer entry) then false else is_integer_array rest
  end.

(** _comparator.py:103-119 and 122-138 *)
Definition is_negative (value : Qc) : bool := cc_lt value 0.
Definition is_positive (value : Qc) : bool := cc_gt value 0.
Definition is_negative_array (value : list Qc) : res bool := is_close_compare_array value "<" 0.
Definition is_positive_array (value : list Qc) : res bool := is_close_compare_array value ">" 0.
