(** Model of pytimize/formulations/linear: expressions, comparisons, objectives, formulations.
    LinearEquation objects are mutable, so they live in a heap; a value refers to them by location.
    Simplifications: numbers are exact rationals of type int or float (numpy scalars, which the code
    does not recognise, are left out); [x[key]] is taken for integers only (tuples and slices are
    stored as keys by the code); operands of any other type are left out, except [None], which the
    multiplication of two expressions returns. *)
From Coq Require Import String List Bool Arith ZArith QArith Qcanon.
From Verif Require Import Py QcTac QSum MatModel LinearModel.
Import ListNotations.
Open Scope nat_scope.
Open Scope string_scope.
Open Scope list_scope.

(** _equation.py:10-13 the attributes [_terms] and [_constant] *)
Record equation := mkequation { eterms : list (nat * Qc); econstant : Qc }.
Definition heap := list equation.
Inductive val := VNum (q : Qc) | VVar (key : nat) | VEq (l : nat) | VNone.
Definition get (h : heap) (l : nat) : equation := nth l h (mkequation [] 0%Qc).
Fixpoint upd (h : heap) (l : nat) (e : equation) : heap :=
  match h, l with
  | [], _ => []
  | _ :: h', 0 => e :: h'
  | d :: h', S l' => d :: upd h' l' e
  end.
Definition alloc (h : heap) (e : equation) : heap * nat := (h ++ [e], length h).
(** _variable.py:92-94 [Variable.equation]: a new object *)
Definition of_variable (k : nat) (q : Qc) : equation := mkequation [(k, q)] 0%Qc.
(** _variable.py:7-18 [x[key]] *)
Definition item (h : heap) (i : Z) : heap * res val :=
  if (i <=? 0)%Z then (h, Raise ValueError)
  else let '(h, l) := alloc h (of_variable (Z.to_nat (i - 1)) 1%Qc) in (h, Ok (VEq l)).

(** * Arithmetic *)
(** _equation.py:27-30, 33-36 [setdefault(label, 0)], [+= coefficient] *)
Definition bump (d : list (nat * Qc)) (k : nat) (q : Qc) : list (nat * Qc) :=
  let d := dsetdefault Nat.eqb k 0%Qc d in
  dset Nat.eqb k (match dget Nat.eqb k d with Some w => (w + q)%Qc | None => q end) d.
(** _equation.py:25-38 [LinearEquation.__add__]; when the two operands are the same object every
    label is still visited once *)
Definition add_to (h : heap) (l : nat) (other : val) : heap :=
  let e := get h l in
  match other with
  | VEq m => upd h l (mkequation (fold_left (fun d kq => bump d (fst kq) (snd kq)) (eterms (get h m)) (eterms e)) (econstant e))
  | VNum q => upd h l (mkequation (eterms e) (econstant e + q)%Qc)
  | VVar k => upd h l (mkequation (bump (eterms e) k 1%Qc) (econstant e))
  | VNone => h
  end.
Definition scale (q : Qc) (e : equation) : equation := mkequation (map (fun kc => (fst kc, (snd kc * q)%Qc)) (eterms e)) (econstant e).
Definition minus (e : equation) : equation := mkequation (map (fun kc => (fst kc, (- snd kc)%Qc)) (eterms e)) (econstant e).
(** _equation.py:15-20 [__neg__], _variable.py:50-51 *)
Definition vneg (h : heap) (a : val) : heap * res val :=
  match a with
  | VNum q => (h, Ok (VNum (- q)%Qc))
  | VEq l => (upd h l (minus (get h l)), Ok (VEq l))
  | VVar k => let '(h, l) := alloc h (of_variable k (- (1))%Qc) in (h, Ok (VEq l))
  | VNone => (h, Raise TypeError)
  end.
(** _equation.py:22-23 [__pos__], _variable.py:47-48 *)
Definition vpos (h : heap) (a : val) : heap * res val :=
  match a with
  | VNum q => (h, Ok (VNum q))
  | VEq l => (h, Ok (VEq l))
  | VVar k => let '(h, l) := alloc h (of_variable k 1%Qc) in (h, Ok (VEq l))
  | VNone => (h, Raise TypeError)
  end.
(** _equation.py:25-44, _variable.py:53-60: [a + b], with the reflected methods *)
Definition vadd_ (h : heap) (a b : val) : heap * res val :=
  match a, b with
  | VEq l, _ => (add_to h l b, Ok (VEq l))
  | VVar k, _ => let '(h, l) := alloc h (of_variable k 1%Qc) in (add_to h l b, Ok (VEq l))
  | VNum q, VNum r => (h, Ok (VNum (q + r)%Qc))
  | _, VEq l => (add_to h l a, Ok (VEq l))
  | _, VVar k => let '(h, l) := alloc h (of_variable k 1%Qc) in (add_to h l a, Ok (VEq l))
  | _, _ => (h, Raise TypeError)
  end.
(** _equation.py:46-53, _variable.py:62-69: [a - b] is [a + -b], or [-b + a] when reflected *)
Definition vsub_ (h : heap) (a b : val) : heap * res val :=
  match a, b with
  | VNum q, VNum r => (h, Ok (VNum (q - r)%Qc))
  | VNum _, VNone | VNone, VNum _ | VNone, VNone => (h, Raise TypeError)
  | VEq _, _ | VVar _, _ => match vneg h b with (h, Ok b) => vadd_ h a b | r => r end
  | _, _ => match vneg h b with (h, Ok b) => vadd_ h b a | r => r end
  end.
(** _equation.py:55-67, _variable.py:37-45: [a * b]; anything but a number gives [None] *)
Definition vmul (h : heap) (a b : val) : heap * res val :=
  match a, b with
  | VNum q, VNum r => (h, Ok (VNum (q * r)%Qc))
  | VEq l, VNum q | VNum q, VEq l => (upd h l (scale q (get h l)), Ok (VEq l))
  | VVar k, VNum q | VNum q, VVar k => let '(h, l) := alloc h (of_variable k q) in (h, Ok (VEq l))
  | VEq _, _ | VVar _, _ | _, VEq _ | _, VVar _ => (h, Ok VNone)
  | _, _ => (h, Raise TypeError)
  end.

(** an expression as the user writes it; [Use l] is a name bound to an existing LinearEquation,
    [Var k] a name bound to a Variable *)
Inductive expr :=
| Num (q : Qc) | Var (k : nat) | Item (i : Z) | Use (l : nat)
| Neg (e : expr) | Pos (e : expr) | Add (e f : expr) | Sub (e f : expr) | Mul (e f : expr).
Definition binary (f : heap -> val -> val -> heap * res val) (r : heap * res val) (k : heap -> heap * res val) : heap * res val :=
  match r with
  | (h, Ok a) => match k h with (h, Ok b) => f h a b | r => r end
  | r => r
  end.
(** Python evaluates operands from left to right *)
Fixpoint eval (e : expr) (h : heap) : heap * res val :=
  match e with
  | Num q => (h, Ok (VNum q))
  | Var k => (h, Ok (VVar k))
  | Item i => item h i
  | Use l => (h, Ok (VEq l))
  | Neg e => match eval e h with (h, Ok a) => vneg h a | r => r end
  | Pos e => match eval e h with (h, Ok a) => vpos h a | r => r end
  | Add e f => binary vadd_ (eval e h) (eval f)
  | Sub e f => binary vsub_ (eval e h) (eval f)
  | Mul e f => binary vmul (eval e h) (eval f)
  end.

(** * Comparisons *)
(** [LinearConstraint], [VariableConstraint], or a truth value *)
Inductive constraint :=
| Linear (coefficients : list Qc) (inequality : string) (constant : Qc)
| Signs (positive negative : option (list Z))
| Truth (b : bool).
(** _equation.py:115-125 [coefficients] *)
Fixpoint put (v : list Qc) (i : nat) (x : Qc) : list Qc :=
  match v, i with
  | [], _ => []
  | _ :: v', 0 => x :: v'
  | y :: v', S i' => y :: put v' i' x
  end.
Definition coefficients (e : equation) : option (list Qc) :=
  match eterms e with
  | [] => None
  | _ => Some (fold_left (fun v kq => put v (fst kq) (snd kq)) (eterms e) (repeat 0%Qc (S (list_max (map fst (eterms e))))))
  end.
(** _utilities.py:6-19 [pad_right]; lengths are never negative *)
Definition pad_right (v : option (list Qc)) (n : nat) : res (list Qc) :=
  match v with
  | None => Ok (repeat 0%Qc n)
  | Some v => if Nat.ltb n (length v) then Raise ValueError else Ok (v ++ repeat 0%Qc (n - length v))
  end.
(** _equation.py:92-109 [_broadcast_subtract] *)
Definition broadcast_subtract (u v : option (list Qc)) : res (option (list Qc)) :=
  match u, v with
  | None, _ => Ok v
  | _, None => Ok u
  | Some u, Some v =>
    let v := vopp v in
    if Nat.eqb (length u) (length v) then Ok (Some (vadd u v))
    else
      let '(u, v) := if Nat.ltb (length v) (length u) then (v, u) else (u, v) in
      do u <- pad_right (Some u) (length v) ; Ok (Some (vadd v u))
  end.
(** _equation.py:78-90 [_generate_constraint] with a LinearEquation *)
Definition generate (e : equation) (inequality : string) (other : equation) : res constraint :=
  do v <- broadcast_subtract (coefficients e) (coefficients other) ;
  match v with
  | None => Raise ValueError
  | Some v => Ok (Linear v inequality (econstant other - econstant e)%Qc)
  end.
(** _equation.py:81-82: numbers are wrapped; a Variable has no attribute [constant] *)
Definition generate_with (h : heap) (e : equation) (inequality : string) (other : val) : res constraint :=
  match other with
  | VNum q => generate e inequality (mkequation [] q)
  | VEq m => generate e inequality (get h m)
  | VVar _ | VNone => Raise AttributeError
  end.
Inductive comparison_ := Le | Ge | Eq_.
Definition symbol (c : comparison_) : string := match c with Le => "<=" | Ge => ">=" | Eq_ => "=" end.
Definition mirror (c : comparison_) : comparison_ := match c with Le => Ge | Ge => Le | Eq_ => Eq_ end.
(** _variable.py:71-90: comparing a Variable with 0 by <= or >= is a sign constraint *)
Definition compare_variable (h : heap) (c : comparison_) (k : nat) (other : val) : res constraint :=
  match c, other with
  | Le, VNum q => if Qc_eq_bool q 0 then Ok (Signs None (Some [Z.of_nat (S k)])) else generate_with h (of_variable k 1%Qc) "<=" other
  | Ge, VNum q => if Qc_eq_bool q 0 then Ok (Signs (Some [Z.of_nat (S k)]) None) else generate_with h (of_variable k 1%Qc) ">=" other
  | _, _ => generate_with h (of_variable k 1%Qc) (symbol c) other
  end.
Definition compare_numbers (c : comparison_) (q r : Qc) : bool :=
  match c with Le => Qle_bool q r | Ge => Qle_bool r q | Eq_ => Qc_eq_bool q r end.
(** [a <= b], [a >= b], [a == b]; no comparison changes an existing object *)
Definition compare (h : heap) (c : comparison_) (a b : val) : res constraint :=
  match a, b with
  | VEq l, _ => generate_with h (get h l) (symbol c) b
  | VVar k, _ => compare_variable h c k b
  | VNum q, VNum r => Ok (Truth (compare_numbers c q r))
  | _, VEq l => generate_with h (get h l) (symbol (mirror c)) a
  | _, VVar k => compare_variable h (mirror c) k a
  | VNone, VNone => match c with Eq_ => Ok (Truth true) | _ => Raise TypeError end
  | _, _ => match c with Eq_ => Ok (Truth false) | _ => Raise TypeError end
  end.
(** _variable.py:20-30 [x <= other], [x >= other] for the class [x] itself; [==] is identity *)
Definition compare_all (c : comparison_) (q : Qc) : res constraint :=
  match c with
  | Eq_ => Ok (Truth false)
  | _ => if negb (Qc_eq_bool q 0) then Raise ValueError else Ok (match c with Le => Signs None (Some []) | _ => Signs (Some []) None end)
  end.

(** * Objectives and formulations *)
(** _objective.py:12-15, 59-70 [minimize], [maximize]: coefficients, constant, kind.
    A Variable has no attribute [coefficients]. *)
Record objective := mkobjective { oc : option (list Qc); oz : Qc; okind : string }.
Definition optimise (kind : string) (h : heap) (a : val) : res objective :=
  match a with
  | VNum q => Ok (mkobjective None q kind)
  | VEq l => Ok (mkobjective (coefficients (get h l)) (econstant (get h l)) kind)
  | VVar _ | VNone => Raise AttributeError
  end.
(** _abstract.py:10-28 *)
Record formulation := mkformulation {
  fA : list (list Qc);
  fb : list Qc;
  fc : list Qc;
  fz : Qc;
  fkind : string;
  fineq : list string;
  fneg : list Z;
  fpos : list Z;
  fprogram : option lp;
  frecompile : bool }.
Fixpoint linear_parts (cs : list constraint) : res (list (list Qc * string * Qc)) :=
  match cs with
  | [] => Ok []
  | Linear v s q :: cs' => do l <- linear_parts cs' ; Ok ((v, s, q) :: l)
  | _ => Raise AttributeError
  end.
Fixpoint pad_all (l : list (list Qc)) (n : nat) : res (list (list Qc)) :=
  match l with
  | [] => Ok []
  | v :: l' => do v <- pad_right (Some v) n ; do l <- pad_all l' n ; Ok (v :: l)
  end.
(** _objective.py:21-41 [subject_to]; [max] of nothing raises ValueError *)
Definition subject_to (o : objective) (cs : list constraint) : res formulation :=
  do l <- linear_parts cs ;
  match l with
  | [] => Raise ValueError
  | _ =>
    let n := list_max (map (fun vsq => length (fst (fst vsq))) l) in
    do A <- pad_all (map (fun vsq => fst (fst vsq)) l) n ;
    do c <- pad_right (oc o) n ;
    Ok (mkformulation A (map snd l) c (oz o) (okind o) (map (fun vsq => snd (fst vsq)) l) [] [] None false)
  end.
(** _abstract.py:82-87 [_add_variable_constraint] *)
Definition add_signs (n : nat) (source : option (list Z)) (target : list Z) : list Z :=
  match source with
  | None => target
  | Some [] => target ++ map (fun i => Z.of_nat (S i)) (seq 0 n)
  | Some l => target ++ l
  end.
Definition set_signs (f : formulation) (pos neg : list Z) : formulation :=
  mkformulation (fA f) (fb f) (fc f) (fz f) (fkind f) (fineq f) neg pos (fprogram f) (frecompile f).
Definition set_recompile (f : formulation) : formulation :=
  mkformulation (fA f) (fb f) (fc f) (fz f) (fkind f) (fineq f) (fneg f) (fpos f) (fprogram f) true.
(** _abstract.py:37-43 the loop of [where] *)
Fixpoint add_all_signs (f : formulation) (cs : list constraint) : formulation * res unit :=
  match cs with
  | [] => (f, Ok tt)
  | Signs pos neg :: cs' =>
    add_all_signs (set_signs f (add_signs (length (fc f)) pos (fpos f)) (add_signs (length (fc f)) neg (fneg f))) cs'
  | _ => (f, Raise AttributeError)
  end.
(** _abstract.py:36-58 [where] *)
Definition where_ (f : formulation) (cs : list constraint) : formulation * res unit :=
  match add_all_signs f cs with
  | (f, Ok tt) =>
    if negb (nodupbz (fpos f)) || negb (nodupbz (fneg f)) then (f, Raise ValueError)
    else if existsb (fun i => existsb (Z.eqb i) (fneg f)) (fpos f) then (f, Raise ValueError)
    else (set_recompile f, Ok tt)
  | r => r
  end.
(** _abstract.py:60-67, 69-76 [whereAllPositive], [whereAllNegative] *)
Definition where_all (positive : bool) (f : formulation) : formulation * res unit :=
  if Nat.ltb 0 (length (fneg f) + length (fpos f)) then (f, Raise ValueError)
  else
    let n := length (fc f) in
    (set_recompile (if positive then set_signs f (add_signs n (Some []) (fpos f)) (fneg f)
                    else set_signs f (fpos f) (add_signs n (Some []) (fneg f))), Ok tt).
(** _abstract.py:78-80 [extend] *)
Definition extend (f : formulation) : formulation := set_recompile f.
(** _abstract.py:91-106 the LinearProgram built by [program] *)
Definition compile (f : formulation) : res lp :=
  let free := filter (fun i => negb (existsb (Z.eqb i) (fneg f ++ fpos f))) (map (fun i => Z.of_nat (S i)) (seq 0 (length (fc f)))) in
  linear_program (Nd (Mat (length (fc f)) (fA f))) (Nd (Vec (fb f))) (Nd (Vec (fc f))) (fz f) (fkind f)
    (Some (fineq f)) (Some free) (Some (fneg f)).
(** _abstract.py:89-109 [program], with its cache *)
Definition program (f : formulation) : formulation * res lp :=
  match fprogram f, frecompile f with
  | Some p, false => (f, Ok p)
  | _, _ =>
    match compile f with
    | Ok p => (mkformulation (fA f) (fb f) (fc f) (fz f) (fkind f) (fineq f) (fneg f) (fpos f) (Some p) false, Ok p)
    | r => (f, r)
    end
  end.
