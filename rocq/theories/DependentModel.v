(** Model of LinearProgram.__remove_dependent_rows, pytimize/programs/_linear.py:1948-2011, which is
    reached from outside as _LinearProgram__remove_dependent_rows.  Numbers are exact. *)
From Coq Require Import String List Bool Arith ZArith QArith Qcanon.
From Verif Require Import Py QcTac MatModel LinearModel.
Import ListNotations.
Open Scope nat_scope.

Definition matrix := list (list Qc).
(** _linear.py:1966 [np.c_[A, b]]; a ValueError when the numbers of rows differ *)
Definition augmented (A : matrix) (b : list Qc) : res matrix :=
  if Nat.eqb (length A) (length b) then Ok (map (fun rv => fst rv ++ [snd rv]) (combine A b)) else Raise ValueError.
(** _linear.py:1979-1996 the loop over the columns from [col] on, for rows [r] (number i) and [s]
    (number j) *)
Fixpoint duplicate (col : nat) (multiple : Qc) (r s : list Qc) : bool :=
  match r, s with
  | x :: r', y :: s' =>
    if math_isclose x 0 then
      if math_isclose y 0 then duplicate (S col) multiple r' s' else false
    else if math_isclose y 0 then false
    else if Nat.eqb col 0 then duplicate (S col) (x / y)%Qc r' s'
    else if negb (math_isclose (x / y)%Qc multiple) then false
    else duplicate (S col) multiple r' s'
  | _, _ => true
  end.
(** _linear.py:2000 [arr[j, :].fill(0)] *)
Definition fill_zero (arr : matrix) (j : nat) : matrix :=
  map (fun r => let v := nth r arr [] in if Nat.eqb r j then map (fun _ => 0%Qc) v else v) (seq 0 (length arr)).
(** _linear.py:1977-2000 *)
Definition check_pair (arr : matrix) (i j : nat) : matrix :=
  if duplicate 0 0%Qc (nth i arr []) (nth j arr []) then fill_zero arr j else arr.
(** _linear.py:1972-1975, 1970-2000 *)
Definition check_row (m : nat) (arr : matrix) (i : nat) : matrix :=
  fold_left (fun arr j => if Nat.leb j i then arr else check_pair arr i j) (seq 0 m) arr.
Definition check_all (arr : matrix) : matrix := fold_left (check_row (length arr)) (seq 0 (length arr)) arr.
(** [np.count_nonzero(row) == 0] *)
Definition all_zero (r : list Qc) : bool := forallb (fun x => qeq x 0) r.
(** [np.delete(arr, k, 0)] *)
Definition delete_row (k : nat) (arr : matrix) : matrix := firstn k arr ++ skipn (S k) arr.
(** _linear.py:2002-2006 *)
Definition delete_zero_rows (arr : matrix) : matrix :=
  let m := length arr in
  fold_left (fun new i => if all_zero (nth (m - 1 - i) arr []) then delete_row (m - 1 - i) new else new) (seq 0 m) arr.
(** _linear.py:2008-2011: the last column is [b] *)
Definition split_last (arr : matrix) : matrix * list Qc := (map (@removelast Qc) arr, map (fun r => last r 0%Qc) arr).
(** _linear.py:1948-2011 *)
Definition remove_dependent_rows (A : matrix) (b : list Qc) : res (matrix * list Qc) :=
  do arr <- augmented A b ; Ok (split_last (delete_zero_rows (check_all arr))).
