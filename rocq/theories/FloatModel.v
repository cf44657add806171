(** Model of pytimize/utilities/_comparator.py on double precision numbers (IEEE 754 binary64), with every
    operation rounded to nearest, ties to even, and with overflow, infinities and nan.  ComparatorModel.v
    is the same code on exact numbers.  Simplification: the two zeros are one number; no operation used
    here tells them apart. *)
From Coq Require Import String List Bool Arith ZArith QArith Qcanon Qround.
From Verif Require Import Py QcTac ComparatorModel LinearModel BasicModel DoubleSpec.
Import ListNotations.
Open Scope nat_scope.
Open Scope string_scope.
Open Scope list_scope.

Inductive fnum := Fin (x : Qc) | PInf | NInf | NaN.

(** the largest [k] with [2 ^ k <= x], for [x > 0] *)
Definition floor_log2 (x : Qc) : Z :=
  let k := (Z.log2 (Qnum (this x)) - Z.log2 (Zpos (Qden (this x))))%Z in
  if qle (pow2 k) x then k else (k - 1)%Z.
(** rounding to a significand of 53 bits, ties to even ([rint] is the nearest integer, ties to even) *)
Definition rnd_pos (x : Qc) : Qc :=
  let e := Z.max (floor_log2 x - 52) (-1074) in (qz (rint (x * pow2 (- e))) * pow2 e)%Qc.
Definition rnd (x : Qc) : Qc := if qeq x 0 then 0%Qc else if qlt x 0 then (- rnd_pos (- x))%Qc else rnd_pos x.
(** the largest finite number; results beyond it are infinite *)
Definition max_double : Qc := (qz (2 ^ 53 - 1) * pow2 971)%Qc.
Definition to_float (x : Qc) : fnum :=
  let y := rnd x in if qlt max_double y then PInf else if qlt y (- max_double) then NInf else Fin y.

(** [abs(v)], [-v], [a + b], [a - b], [a * b] *)
Definition f_abs (v : fnum) : fnum := match v with Fin x => Fin (qabs x) | NInf => PInf | _ => v end.
Definition f_opp (v : fnum) : fnum := match v with Fin x => Fin (- x)%Qc | NInf => PInf | PInf => NInf | NaN => NaN end.
Definition f_add (a b : fnum) : fnum :=
  match a, b with
  | NaN, _ | _, NaN => NaN
  | Fin x, Fin y => to_float (x + y)
  | PInf, NInf | NInf, PInf => NaN
  | PInf, _ | _, PInf => PInf
  | NInf, _ | _, NInf => NInf
  end.
Definition f_sub (a b : fnum) : fnum := f_add a (f_opp b).
Definition f_times_inf (x : Qc) (i : fnum) : fnum := if qeq x 0 then NaN else if qlt x 0 then f_opp i else i.
Definition f_mul (a b : fnum) : fnum :=
  match a, b with
  | NaN, _ | _, NaN => NaN
  | Fin x, Fin y => to_float (x * y)
  | Fin x, i => f_times_inf x i
  | i, Fin x => f_times_inf x i
  | PInf, i => i
  | NInf, i => f_opp i
  end.
(** [a < b], [a <= b], [a == b]: false when one of them is nan *)
Definition f_lt (a b : fnum) : bool :=
  match a, b with
  | Fin x, Fin y => qlt x y
  | NInf, Fin _ | NInf, PInf | Fin _, PInf => true
  | _, _ => false
  end.
Definition f_le (a b : fnum) : bool :=
  match a, b with
  | Fin x, Fin y => qle x y
  | NInf, Fin _ | NInf, PInf | Fin _, PInf | NInf, NInf | PInf, PInf => true
  | _, _ => false
  end.
Definition f_eq (a b : fnum) : bool :=
  match a, b with Fin x, Fin y => qeq x y | NInf, NInf | PInf, PInf => true | _, _ => false end.
Definition f_finite (v : fnum) : bool := match v with Fin _ => true | _ => false end.
(** [int(v)]: ValueError for nan; OverflowError, a subclass of ArithmeticError, for an infinity *)
Definition f_int (v : fnum) : res Z :=
  match v with
  | Fin x => Ok (if qlt x 0 then (- Qfloor (this (- x)%Qc))%Z else Qfloor (this x))
  | NaN => Raise ValueError
  | _ => Raise ArithmeticError
  end.

(** _comparator.py:26 [is_close_to_zero] (scalar) *)
Definition fl_close_to_zero (value : fnum) : bool := f_lt (f_abs value) (to_float tol_zero).
(** numpy.isclose(a, b): [abs(a - b) <= atol + rtol * abs(b)] when both are finite, otherwise [a == b] *)
Definition fl_isclose (a b : fnum) : bool :=
  if f_finite a && f_finite b then f_le (f_abs (f_sub a b)) (f_add (to_float np_atol) (f_mul (to_float np_rtol) (f_abs b)))
  else f_eq a b.
(** _comparator.py:54-56 the local [comparator] *)
Definition fl_comparator (test value : fnum) : bool :=
  if f_eq test (Fin 0) then fl_close_to_zero value else fl_isclose value test.
(** _comparator.py:28-70 [is_close_compare], one entry *)
Definition fl_entry (comparison : string) (test value : fnum) : res bool :=
  if String.eqb comparison ">=" then Ok (fl_comparator test value || f_le test value)
  else if String.eqb comparison ">" then Ok (negb (fl_comparator test value) && f_lt test value)
  else if String.eqb comparison "<=" then Ok (fl_comparator test value || f_le value test)
  else if String.eqb comparison "<" then Ok (negb (fl_comparator test value) && f_lt value test)
  else Raise ValueError.
Definition fl_compare (value : fnum) (comparison : string) (test : fnum) : res bool := fl_entry comparison test value.
(** _comparator.py:28-70 [is_close_compare], array [value]: elementwise, then [.all()] *)
Definition fl_compare_array (value : list fnum) (comparison : string) (test : fnum) : res bool :=
  if String.eqb comparison ">=" then Ok (forallb (fun v => fl_comparator test v || f_le test v) value)
  else if String.eqb comparison ">" then Ok (forallb (fun v => negb (fl_comparator test v) && f_lt test v) value)
  else if String.eqb comparison "<=" then Ok (forallb (fun v => fl_comparator test v || f_le v test) value)
  else if String.eqb comparison "<" then Ok (forallb (fun v => negb (fl_comparator test v) && f_lt v test) value)
  else Raise ValueError.
(** _comparator.py:95-100 [is_integer], scalar *)
Definition fl_is_integer (value : fnum) : res bool :=
  let value := f_abs value in
  do n <- f_int value ;
  let value := f_sub value (to_float (qz n)) in
  if f_lt (Fin (Q2Qc (1 # 2))) value then Ok (fl_close_to_zero (f_sub (Fin 1) value))
  else Ok (fl_close_to_zero value).
(** _comparator.py:89-94 [is_integer], one-dimensional array *)
Fixpoint fl_is_integer_array (value : list fnum) : res bool :=
  match value with
  | [] => Ok true
  | entry :: rest => do r <- fl_is_integer entry ; if negb r then Ok false else fl_is_integer_array rest
  end.
(** _comparator.py:103-119 and 122-138 *)
Definition fl_is_negative (value : fnum) : res bool := fl_compare value "<" (Fin 0).
Definition fl_is_positive (value : fnum) : res bool := fl_compare value ">" (Fin 0).
