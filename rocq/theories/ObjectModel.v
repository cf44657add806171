(** Model of the parts of pytimize/programs/_linear.py and _integer.py in which a program is an
    object of a class: comparison with ==, the methods an IntegerProgram inherits, its printed form
    and the two methods without a result. *)
From Coq Require Import String List Bool Arith ZArith QArith Qcanon.
From Verif Require Import Py QcTac ComparatorModel MatModel LinearModel IntegerModel TextModel.
Import ListNotations.
Open Scope nat_scope.
Open Scope string_scope.
Open Scope list_scope.

(** ** _linear.py:393-405 [__eq__] *)

(** What numpy does where its releases differ: [u == v] for arrays whose shapes cannot be broadcast
    (False before 1.25, ValueError since), and the truth value of an empty array (False before 2.2,
    ValueError since). *)
Record numpy := mknumpy { mismatch : res bool; empty_truth : res bool }.

(** [u == v] along one axis: the length of the result, if the two lengths can be broadcast *)
Definition broadcast (m n : nat) : option nat :=
  if Nat.eqb m n then Some m else if Nat.eqb m 1 then Some n else if Nat.eqb n 1 then Some m else None.
(** [bool(u == v)] for arrays of the given shapes; [first] compares the first entries *)
Definition truth (np : numpy) (size : option nat) (first : bool) : res bool :=
  match size with
  | None => mismatch np
  | Some 0 => empty_truth np
  | Some 1 => Ok first
  | Some _ => Raise ValueError
  end.
Definition qeq (x y : Qc) : bool := if Qc_eq_dec x y then true else false.
Definition eq_vec (np : numpy) (u v : list Qc) : res bool :=
  truth np (broadcast (length u) (length v)) (qeq (at_ u 0) (at_ v 0)).
(** [n], [n'] are the numbers of columns *)
Definition eq_mat (np : numpy) (n n' : nat) (A A' : list (list Qc)) : res bool :=
  truth np (match broadcast (length A) (length A'), broadcast n n' with Some r, Some c => Some (r * c) | _, _ => None end)
    (qeq (at_ (nth 0 A []) 0) (at_ (nth 0 A' []) 0)).
(** == of two dicts with unique keys *)
Definition dict_eq (d d' : list (nat * string)) : bool :=
  Nat.eqb (length d) (length d') &&
  forallb (fun kv => match dget Nat.eqb (fst kv) d' with Some s => String.eqb s (snd kv) | None => false end) d.
Fixpoint list_eq (l l' : list nat) : bool :=
  match l, l' with
  | [], [] => true
  | x :: l, y :: l' => Nat.eqb x y && list_eq l l'
  | _, _ => false
  end.
(** The truth value of [p == q]; [and] evaluates the truth value of each operand in turn and stops
    at the first false one.  (What is returned then is that operand, possibly an array with the
    single entry False.) *)
Definition program_eq (np : numpy) (p q : lp) : res bool :=
  do a <- eq_mat np (cols q) (cols p) (lA q) (lA p) ;
  if negb a then Ok false else
  do b <- eq_vec np (lb q) (lb p) ;
  if negb b then Ok false else
  do c <- eq_vec np (lc q) (lc p) ;
  if negb c then Ok false else
  Ok (qeq (lz q) (lz p) && String.eqb (lobj q) (lobj p) && dict_eq (lineq q) (lineq p) &&
      list_eq (lfree q) (lfree p) && list_eq (lneg q) (lneg p) && Bool.eqb (lsef q) (lsef p)).

(** ** _linear.py:1630-1639 [is_solution_optimal]: [None] is Python's None *)
Definition is_solution_optimal (p : lp) (x : list Qc) : res (option bool) :=
  do _ <- is_feasible p x ; Ok None.

(** ** Objects of the two classes *)

Inductive object := Linear (p : lp) | Integer (p : ip).
Definition base (o : object) : lp := match o with Linear p => p | Integer p => program_of p end.
(** the same object with other attributes of the base class *)
Definition with_base (o : object) (p : lp) : object :=
  match o with Linear _ => Linear p | Integer i => Integer (mkip p (integral_variables i)) end.

(** The methods with a parameter [in_place], and [copy], [dual], [auxiliary]; none of them is
    overridden in _integer.py. *)
Inductive call :=
| Copy                                                             (* _linear.py:1537-1557 *)
| AddConstraint (a : source) (op : string) (v : Qc)                (* 407-460 *)
| AddVariable (c : Qc) (column : option (list Qc)) (free neg : bool) (* 462-517 *)
| ToSef                                                            (* 1559-1628 *)
| ToCanonicalForm (B : list Z)                                     (* 741-778 *)
| SimplexIteration (B : list Z)                                    (* 1113-1194; the program handed back *)
| Dual                                                             (* 822-872 *)
| Auxiliary.                                                       (* 874-903 *)

(** what the method does to the attributes of the base class *)
Definition effect (p : lp) (m : call) : res lp :=
  match m with
  | Copy => Ok p
  | AddConstraint a op v => do _ <- snd (add_constraint p a op v) ; Ok (fst (add_constraint p a op v))
  | AddVariable c column free neg => do _ <- snd (add_variable p c column free neg) ; Ok (fst (add_variable p c column free neg))
  | ToSef => Ok (fst (to_sef p))
  | ToCanonicalForm B => to_canonical_form p B
  | SimplexIteration B => do _ <- simplex_iteration p B ; Ok (simplex_iteration_program p B)
  | Dual => Ok (dual p)
  | Auxiliary => auxiliary p
  end.
(** the program object returned: with [in_place] the object itself, otherwise a LinearProgram (1547,
    862 and 903 call the constructor of the base class); [Copy], [Dual], [Auxiliary] have no
    parameter [in_place] *)
Definition returned (in_place : bool) (o : object) (m : call) : res object :=
  do p <- effect (base o) m ;
  match m with
  | Copy | Dual | Auxiliary => Ok (Linear p)
  | _ => Ok (if in_place then with_base o p else Linear p)
  end.

(** _integer.py:204-206 and inherited: [is_feasible], [evaluate], [solve] of an integer program *)
Definition object_is_feasible (o : object) (x : list Qc) : res bool := is_feasible (base o) x.
Definition object_solve (fuel : nat) (o : object) : res (option (list Qc)) := snd (solve fuel (base o)).
(** _integer.py:147-157 [cutting_plane] (body is [pass]) *)
Definition cutting_plane (p : ip) : res (option (list Qc)) := Ok None.

(** ** Printed form *)

(** str.rstrip("\n") *)
Fixpoint lstrip_newlines (t : text) : text :=
  match t with c :: t' => if Z.eqb c 10 then lstrip_newlines t' else t | [] => [] end.
Definition rstrip_newlines (t : text) : text := rev (lstrip_newlines (rev t)).
(** _integer.py:33-39 [__repr__]; 8712 is the sign for membership *)
Definition integer_repr (p : ip) : res text :=
  do t <- TextModel.repr (program_of p) ;
  Ok (rstrip_newlines t ++ match integral_variables p with None => lit "x " ++ [8712%Z] ++ lit " Z" | Some _ => [] end).
