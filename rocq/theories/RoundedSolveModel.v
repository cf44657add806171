(** two_phase_simplex and solve of pytimize/programs/_linear.py when numpy's results carry rounding errors.
    As in RoundedModel.v the methods are relations: every result of numpy.linalg.inv and of [@], the value
    computed by evaluate and every difference of two entries on the way back from the standard form is any
    number within [e] of the exact one.  auxiliary and to_sef only copy, negate and insert 0, 1 and -1, so
    they are the exact functions of LinearModel.v.  The tests of determinants in is_basis may go either way. *)
From Coq Require Import String List Bool Arith ZArith QArith Qcanon.
From Verif Require Import Py QcTac QSum ComparatorModel MatModel DetTheory LinearModel RoundedModel.
Import ListNotations.
Open Scope nat_scope.
Open Scope string_scope.
Open Scope list_scope.

(** _linear.py:1492-1513 [evaluate] *)
Definition r_evaluate (e : Qc) (p : lp) (x : list Qc) (v : Qc) : Prop := length x = cols p /\ within e v (dot (lc p) x + lz p)%Qc.
(** _linear.py:993-1030: the basis that starts the second phase.  [basis] is the one of the first phase and
    [x] its point.  If is_basis rejects [basis], it is completed: the columns where [x] is not close to zero
    and some of the others.  The order in which the candidates are tried is not modelled. *)
Definition r_start (p : lp) (x : list Qc) (basis B : list Z) : Prop :=
  (r_is_basis p basis /\ B = basis) \/
  let positive := map S (filter (fun i => negb (is_close_to_zero (at_ x i))) (seq 0 (cols p))) in
  let zero_set := map S (filter (fun i => is_close_to_zero (at_ x i)) (seq 0 (cols p))) in
  length positive < rows p /\
  ((exists chosen, length chosen = rows p - length positive /\ (forall i, In i chosen -> In i zero_set) /\
      B = map Z.of_nat (sort (positive ++ chosen)) /\ r_is_basis p B) \/
   B = map Z.of_nat positive).
(** _linear.py:958-1037 [two_phase_simplex], when it returns *)
Definition r_two_phase (e : Qc) (p : lp) (r : outcome) : Prop :=
  exists a0 x basis cert v, auxiliary p = Ok a0 /\
  let a := fst (to_sef a0) in
  r_simplex e a (map Z.of_nat (seq (S (cols p)) (rows p))) (Some x, Some basis, cert) /\ r_evaluate e a x v /\
  if is_close_to_zero v then exists B, r_start p x basis B /\ r_simplex e p B r
  else exists X y, let B := to_array_indexing basis in
    r_inv e (transpose (rows p) (columns_of B (lA a))) X /\ r_mulmv e X (take B (lc a)) y /\ r = (None, None, CVec (flip_y (lb p) y)).

(** _linear.py:944-948: the two parts of every free variable are subtracted *)
Fixpoint r_merge (e : Qc) (i : nat) (concat : list nat) (x r : list Qc) : Prop :=
  match concat with
  | [] => r = x
  | f :: concat' =>
    let index := f - i in
    exists v, within e v (at_ x index - at_ x (S index))%Qc /\ r_merge e (S i) concat' (delete_at (S index) (set_at x index v)) r
  end.
(** _linear.py:940-951 the way back *)
Definition r_back (e : Qc) (rv : reverse) (x r : list Qc) : Prop :=
  let x1 := if Nat.ltb 0 (r_drop rv) then firstn (length x - r_drop rv) x else x in
  exists x2, r_merge e 0 (r_concat rv) x1 x2 /\ r = fold_left (fun x i => neg_at i x) (r_negative rv) x2.
(** _linear.py:905-956 [solve], when it returns.  If is_basis accepts the columns after the first [rows], simplex
    is started there; it may raise ArithmeticError, because of a determinant or a negative entry, and then the
    result is None. *)
Definition r_solve (e : Qc) (p : lp) (o : option (list Qc)) : Prop :=
  if lsef p then exists r, r_two_phase e p r /\ o = fst (fst r)
  else
    let '(sef, rev) := to_sef p in
    let candidate := map Z.of_nat (seq (S (rows sef)) (cols sef - rows sef)) in
    exists o',
      ((rows sef <= cols sef /\ r_is_basis sef candidate /\ (o' = None \/ exists r, r_simplex e sef candidate r /\ o' = fst (fst r))) \/
       (exists r, r_two_phase e sef r /\ o' = fst (fst r))) /\
      match o', rev with
      | Some x, Some rv => exists x', r_back e rv x x' /\ o = Some x'
      | _, _ => o = o'
      end.
