(** Model of pytimize/programs/_unconstrained.py.  Functions are total functions of rational vectors;
    numbers are exact.  A starting point is a float ndarray, an ndarray of integers or a Python list; the methods
    assign to it in place, so they also give the final contents of the caller's object. *)
From Coq Require Import String List Bool Arith ZArith QArith Qcanon.
From Verif Require Import Py QcTac QSum MatModel.
Import ListNotations.
Open Scope nat_scope.
Open Scope string_scope.
Open Scope list_scope.

Definition vector := list Qc.
(** _unconstrained.py:25-28: the negated function of line 26 is overwritten in line 27 *)
Record up := mkup { target : vector -> Qc; minimize : bool }.
Definition unconstrained_program (f : vector -> Qc) (objective : string) : up :=
  mkup f (String.eqb objective "min").

(** [AnIntArray whole]: an ndarray of an integer dtype; [whole] says that [alpha] is a Python int and
    that [df] gives integer arrays for integer arrays.  The numbers are not bounded; [p] is a float. *)
Inductive container := AnArray | AList | AnIntArray (whole : bool).
Definition scale (a : Qc) (v : vector) : vector := map (Qcmult a) v.
(** [x + v] for an ndarray [v]; broadcasting of vectors of length 1 is not modelled *)
Definition plus (x v : vector) : res vector := if Nat.eqb (length x) (length v) then Ok (vadd x v) else Raise ValueError.
(** [x += v] for an ndarray [v]: a list is extended by the entries; to an integer array only integers
    can be added ([floating]: the dtype of [v] is a floating one), numpy raises UFuncTypeError, a
    TypeError, before anything is written *)
Definition iadd (k : container) (floating : bool) (x v : vector) : res vector :=
  match k with
  | AnArray => plus x v
  | AList => Ok (x ++ v)
  | AnIntArray whole => if whole && negb floating then plus x v else Raise TypeError
  end.
(** [-x] *)
Definition neg (k : container) (x : vector) : res vector :=
  match k with AList => Raise TypeError | _ => Ok (vopp x) end.
(** [np.linalg.norm(g) <= t] *)
Definition norm_le (g : vector) (t : Qc) : bool := qle 0 t && qle (dot g g) (t * t)%Qc.
(** [x if self._minimize else -x] *)
Definition answer (p : up) (k : container) (x : vector) : res vector := if minimize p then Ok x else neg k x.

(** _unconstrained.py:72-73 *)
Fixpoint backtrack (fuel : nat) (f : vector -> Qc) (x d : vector) (slope a c p : Qc) : res Qc :=
  do y <- plus x (scale a d) ;
  if qlt (f x + c * a * slope)%Qc (f y) then match fuel with 0 => Diverges | S fuel' => backtrack fuel' f x d slope (a * p)%Qc c p end
  else Ok a.
(** whether line 73 is executed at least once, which makes [a] a float *)
Definition reduced (f : vector -> Qc) (x d : vector) (slope alpha c p : Qc) : bool :=
  match backtrack 0 f x d slope alpha c p with Ok _ => false | _ => true end.
(** _unconstrained.py:68-80; the first component is the final contents of the caller's [x] *)
Fixpoint descend (iterations fuel : nat) (q : up) (k : container) (x : vector) (df : vector -> vector) (alpha c p tolerance : Qc) : vector * res vector :=
  match iterations with
  | 0 => (x, answer q k x)
  | S iterations' =>
    let d := vopp (df x) in
    match backtrack fuel (target q) x d (dot (df x) d) alpha c p with
    | Ok a =>
      match iadd k (reduced (target q) x d (dot (df x) d) alpha c p) x (scale a d) with
      | Ok x' => if norm_le (df x') tolerance then (x', answer q k x') else descend iterations' fuel q k x' df alpha c p tolerance
      | Raise e => (x, Raise e)
      | Diverges => (x, Diverges)
      end
    | Raise e => (x, Raise e)
    | Diverges => (x, Diverges)
    end
  end.
(** _unconstrained.py:30-80; [max_iteration] is the value of [int(max_iteration)] *)
Definition steepest_descent (fuel : nat) (q : up) (k : container) (x : vector) (df : vector -> vector) (alpha c p tolerance : Qc) (max_iteration : Z) : vector * res vector :=
  descend (Z.to_nat max_iteration) fuel q k x df alpha c p tolerance.

(** [np.linalg.solve(H, v)] *)
Definition lin_solve (H : list vector) (v : vector) : res vector :=
  if negb (forallb (fun r => Nat.eqb (length r) (length H)) H) then Raise LinAlgError
  else if negb (Nat.eqb (length v) (length H)) then Raise ValueError
  else do X <- minv H ; Ok (mulmv X v).
(** _unconstrained.py:112-119; the result of [np.linalg.solve] is floating *)
Fixpoint newton (iterations : nat) (q : up) (k : container) (x : vector) (df : vector -> vector) (d2f : vector -> list vector) (tolerance : Qc) : vector * res vector :=
  match iterations with
  | 0 => (x, answer q k x)
  | S iterations' =>
    match lin_solve (d2f x) (vopp (df x)) with
    | Ok d =>
      match iadd k true x d with
      | Ok x' => if norm_le (df x') tolerance then (x', answer q k x') else newton iterations' q k x' df d2f tolerance
      | Raise e => (x, Raise e)
      | Diverges => (x, Diverges)
      end
    | Raise e => (x, Raise e)
    | Diverges => (x, Diverges)
    end
  end.
(** _unconstrained.py:82-119 *)
Definition newton_method (q : up) (k : container) (x : vector) (df : vector -> vector) (d2f : vector -> list vector) (tolerance : Qc) (max_iteration : Z) : vector * res vector :=
  newton (Z.to_nat max_iteration) q k x df d2f tolerance.
