(** Heap-level model of LinearProgram, for C44: the arrays [A], [b], [c] are mutable objects that
    programs and callers may share.  pytimize/programs/_linear.py and _integer.py:184-202.
    The Python lists and dictionaries of a program are never shared: the constructor builds new ones
    (lines 76-125, 1793), [copy] copies them (1551-1553), [dual] builds new ones (834-858).
    Simplification: two arrays are either the same array, or transposed views of each other
    ([dual] takes [self._A.T]), or separate; other overlapping views are not modelled. *)
From Coq Require Import String List Bool Arith ZArith QArith Qcanon.
From Verif Require Import Py QcTac QSum ComparatorModel MatModel LinearModel IntegerModel.
Import ListNotations.
Open Scope nat_scope.
Open Scope string_scope.
Open Scope list_scope.

(** address [r] holds the [r]-th array *)
Definition heap := list array.
Fixpoint hwrite (H : heap) (r : nat) (a : array) : heap :=
  match H, r with
  | [], _ => []
  | _ :: H', 0 => a :: H'
  | x :: H', S r' => x :: hwrite H' r' a
  end.
Definition hget (H : heap) (r : nat) : array := nth r H (Vec []).

(** a program object: addresses of [_A], [_b], [_c]; [oT]: [_A] is the transposed view *)
Record pobj := mkobj {
  oA : nat; oT : bool; ob : nat; oc : nat;
  oz : Qc; oobj : string; oineq : list (nat * string); osef : bool; ofree : list nat; oneg : list nat }.

Definition read_vec (H : heap) (r : nat) : list Qc := match hget H r with Vec v => v | Mat _ _ => [] end.
Definition read_mat (H : heap) (r : nat) (T : bool) : list (list Qc) :=
  match hget H r with Mat n M => if T then transpose n M else M | Vec _ => [] end.
(** number of columns of the view *)
Definition read_cols (H : heap) (r : nat) (T : bool) : nat :=
  match hget H r with Mat n M => if T then length M else n | Vec _ => 0 end.
Definition write_vec (H : heap) (r : nat) (v : list Qc) : heap := hwrite H r (Vec v).
(** assignment to the entries of a view *)
Definition write_mat (H : heap) (r : nat) (T : bool) (M : list (list Qc)) : heap :=
  hwrite H r (match hget H r with Mat n M0 => Mat n (if T then transpose (length M0) M else M) | Vec v => Vec v end).

(** what the public properties show *)
Definition load (H : heap) (o : pobj) : lp :=
  mklp (read_mat H (oA o) (oT o)) (read_vec H (ob o)) (read_vec H (oc o)) (oz o) (oobj o) (oineq o) (osef o) (ofree o) (oneg o).

(** an object whose three arrays are new *)
Definition fresh (H : heap) (p : lp) : heap * pobj :=
  (H ++ [Mat (cols p) (lA p); Vec (lb p); Vec (lc p)],
   mkobj (length H) false (S (length H)) (S (S (length H))) (lz p) (lobj p) (lineq p) (lsef p) (lfree p) (lneg p)).

(** _linear.py:1537-1557 [copy] *)
Definition h_copy (H : heap) (o : pobj) : heap * pobj := fresh H (load H o).

(** [self._b[negative_indices] *= -1; self._A[negative_indices] *= -1] (lines 1077-1078, 1108-1109,
    1150-1151), where [negative_indices] are the negative positions of [b0] *)
Definition h_flip (b0 : list Qc) (H : heap) (o : pobj) : heap :=
  let H1 := write_vec H (ob o) (flip_y b0 (read_vec H (ob o))) in
  write_mat H1 (oA o) (oT o) (flip_A b0 (read_mat H1 (oA o) (oT o))).

(** _linear.py:1559-1628 [to_sef], in place *)
Definition h_to_sef (H : heap) (o : pobj) : heap * pobj :=
  if osef o then (H, o)
  else
    (* 1588: [self._c = -self._c] is a new array *)
    let '(H1, c1) := if String.eqb (oobj o) "min" then (H ++ [Vec (vopp (read_vec H (oc o)))], length H) else (H, oc o) in
    (* 1599-1601: entries of [_A] and [_c] are assigned *)
    let H2 := write_mat H1 (oA o) (oT o) (map (fun r => fold_left (fun r i => neg_at i r) (oneg o) r) (read_mat H1 (oA o) (oT o))) in
    let H3 := write_vec H2 c1 (fold_left (fun c i => neg_at i c) (oneg o) (read_vec H2 c1)) in
    (* 1605-1623: a new [_A] and [_c] for every free variable and inequality *)
    let '(A3, c3, concat) := split_free 0 (ofree o) (read_mat H3 (oA o) (oT o)) (read_vec H3 c1) [] in
    let b := read_vec H3 (ob o) in
    let '(A4, c4) := add_slacks (seq 0 (length b)) (oineq o) A3 c3 in
    let rebound := negb (Nat.eqb (length (ofree o)) 0) || existsb (fun i => dmem Nat.eqb i (oineq o)) (seq 0 (length b)) in
    if rebound then
      (H3 ++ [Mat (length c4) A4; Vec c4], mkobj (length H3) false (ob o) (S (length H3)) (oz o) "max" [] true [] [])
    else (H3, mkobj (oA o) (oT o) (ob o) c1 (oz o) "max" [] true [] []).

(** _linear.py:741-820 [to_canonical_form], in place: all three arrays are new *)
Definition h_canonical (H : heap) (o : pobj) (basis : list Z) : heap * pobj * res unit :=
  match to_canonical_form (load H o) basis with
  | Ok q => (fresh H q, Ok tt)
  | Raise e => (H, o, Raise e)
  | Diverges => (H, o, Diverges)
  end.

(** _linear.py:407-460, in place: a new [_A] and [_b] *)
Definition h_add_constraint (H : heap) (o : pobj) (coefficients : source) (inequality : string) (value : Qc) : heap * pobj * res unit :=
  match add_constraint (load H o) coefficients inequality value with
  | (q, Ok _) =>
    (H ++ [Mat (cols q) (lA q); Vec (lb q)],
     mkobj (length H) false (S (length H)) (oc o) (lz q) (lobj q) (lineq q) (lsef q) (lfree q) (lneg q), Ok tt)
  | (_, r) => (H, o, r)
  end.

(** _linear.py:462-517, in place: a new [_A] and [_c]; the lists are extended first *)
Definition h_add_variable (H : heap) (o : pobj) (coefficient : Qc) (column : option (list Qc)) (free negative : bool) : heap * pobj * res unit :=
  match add_variable (load H o) coefficient column free negative with
  | (q, Ok _) =>
    (H ++ [Mat (cols q) (lA q); Vec (lc q)],
     mkobj (length H) false (ob o) (S (length H)) (lz q) (lobj q) (lineq q) (lsef q) (lfree q) (lneg q), Ok tt)
  | (q, r) => (H, mkobj (oA o) (oT o) (ob o) (oc o) (oz o) (oobj o) (oineq o) (lsef q) (lfree q) (lneg q), r)
  end.

(** _linear.py:1156-1194 [simplex_iteration] after the canonical form *)
Definition pivot (q : lp) (B : list nat) : res iter :=
  do x <- basic_solution q B ;
  let N := filter (fun i => negb (inb i B)) (seq 0 (cols q)) in
  if forallb (fun v => cc_le v 0) (take N (lc q)) then
    if existsb is_negative x then Raise ArithmeticError else Ok (Optimal x B q)
  else
    match find (fun i => is_positive (at_ (lc q) i)) N with
    | None => Raise TypeError
    | Some k =>
      let Ak := map (fun r => at_ r k) (lA q) in
      if forallb (fun v => cc_le v 0) Ak then Ok (Unbounded x B q)
      else
        match ratio_test 0 (lb q) Ak None None with
        | None => Raise TypeError
        | Some leave => Ok (Next (sort (remove_first (nth leave B 0) B ++ [k])) q)
        end
    end.
(** _linear.py:1113-1194 [simplex_iteration], in place: rows are negated in the arrays, then all
    three arrays are new *)
Definition h_iteration (H : heap) (o : pobj) (basis : list Z) : heap * pobj * res iter :=
  if negb (osef o) then (H, o, Raise ArithmeticError)
  else
    match is_basis (load H o) basis with
    | Raise e => (H, o, Raise e)
    | Diverges => (H, o, Diverges)
    | Ok false => (H, o, Raise ValueError)
    | Ok true =>
      let B := sort (to_array_indexing basis) in
      let H1 := h_flip (read_vec H (ob o)) H o in
      match canonical (load H1 o) B with
      | Raise e => (H1, o, Raise e)
      | Diverges => (H1, o, Diverges)
      | Ok q => (fresh H1 q, pivot q B)
      end
    end.

(** _linear.py:1039-1111 [simplex]; the iterations work on copies *)
Definition h_simplex (fuel : nat) (H : heap) (o : pobj) (basis : list Z) : heap * res outcome :=
  if negb (osef o) then (H, Raise ArithmeticError)
  else
    let b0 := read_vec H (ob o) in
    let H1 := h_flip b0 H o in
    let q := load H1 o in
    match (do it <- simplex_loop fuel q basis ; simplex_result b0 q it) with
    | Ok r => (h_flip b0 H1 o, Ok r)
    | Raise e => (H1, Raise e)
    | Diverges => (H1, Diverges)
    end.

(** _linear.py:982-1030 [two_phase_simplex] up to the final call of [simplex] on the program itself:
    the basis to start from, or the certificate of infeasibility.  Works on new arrays only (the
    auxiliary program copies [_A] and [_b], lines 895-896). *)
Definition phase_one (fuel : nat) (p : lp) : res (list Z + outcome) :=
  do aux0 <- auxiliary p ;
  let aux := fst (to_sef aux0) in
  match simplex fuel aux (map Z.of_nat (seq (S (cols p)) (rows p))) with
  | (_, Raise e) => Raise e
  | (_, Diverges) => Diverges
  | (aux', Ok (Some x, Some basis, _)) =>
    do v <- evaluate aux' x ;
    if is_close_to_zero v then
      do ok <- is_basis p basis ;
      if ok then Ok (inl basis)
      else
        let positive := map S (filter (fun i => negb (is_close_to_zero (at_ x i))) (seq 0 (cols p))) in
        let zero_set := map S (filter (fun i => is_close_to_zero (at_ x i)) (seq 0 (cols p))) in
        let size := rows p - length positive in
        let start := map (fun i => (i, [nth i zero_set 0])) (seq 0 (S (length zero_set) - size)) in
        if Nat.leb (rows p) (length positive) then Raise IndexError
        else
          do r <- complete_basis fuel p positive zero_set size (rev start) ;
          match r with Some B => Ok (inl (map Z.of_nat B)) | None => Ok (inl (map Z.of_nat positive)) end
    else
      let B := to_array_indexing basis in
      do X <- minv (transpose (rows p) (columns_of B (lA aux'))) ;
      Ok (inr (None, None, CVec (flip_y (lb p) (mulmv X (take B (lc aux'))))))
  | (_, Ok _) => Raise ValueError
  end.
Definition h_two_phase (fuel : nat) (H : heap) (o : pobj) : heap * res outcome :=
  match phase_one fuel (load H o) with
  | Raise e => (H, Raise e)
  | Diverges => (H, Diverges)
  | Ok (inl B) => h_simplex fuel H o B
  | Ok (inr r) => (H, Ok r)
  end.
(** _linear.py:905-956 [solve]: on the program itself when it is in SEF, on a copy otherwise *)
Definition h_solve (fuel : nat) (H : heap) (o : pobj) : heap * res (option (list Qc)) :=
  if osef o then let '(H', r) := h_two_phase fuel H o in (H', rmap (fun o => fst (fst o)) r)
  else (H, snd (solve fuel (load H o))).

(** _linear.py:822-872 [dual]: the arrays are those of the program *)
Definition h_dual (H : heap) (o : pobj) : pobj :=
  let d := dual (load H o) in
  mkobj (oA o) (negb (oT o)) (oc o) (ob o) (lz d) (lobj d) (lineq d) (lsef d) (lfree d) (lneg d).

(** an argument of the constructor: an array of the caller (or the transposed view of one), or a list *)
Inductive harg := Ref (r : nat) (T : bool) | Val (l : list item).
Definition arg_source (H : heap) (a : harg) : source :=
  match a with
  | Ref r T => Nd (match hget H r with Mat n M => if T then Mat (length M) (transpose n M) else Mat n M | Vec v => Vec v end)
  | Val l => PyList l
  end.
(** the address used: that of the caller's array, or of a new one.  Arrays of floats only: others
    are converted, which makes a new array (line 1667). *)
Definition arg_cell (H : heap) (a : harg) (new : array) : heap * (nat * bool) :=
  match a with Ref r T => (H, (r, T)) | Val _ => (H ++ [new], (length H, false)) end.
(** _linear.py:21-145 [__init__] *)
Definition h_new (H : heap) (A b c : harg) (z : Qc) (objective : string)
    (inequalities : option (list string)) (free neg : option (list Z)) : heap * res pobj :=
  match linear_program (arg_source H A) (arg_source H b) (arg_source H c) z objective inequalities free neg with
  | Raise e => (H, Raise e)
  | Diverges => (H, Diverges)
  | Ok p =>
    let '(H1, (rA, T)) := arg_cell H A (Mat (cols p) (lA p)) in
    let '(H2, (rb, _)) := arg_cell H1 b (Vec (lb p)) in
    let '(H3, (rc, _)) := arg_cell H2 c (Vec (lc p)) in
    (H3, Ok (mkobj rA T rb rc (lz p) (lobj p) (lineq p) (lsef p) (lfree p) (lneg p)))
  end.
(** _integer.py:184-202 [relax]: the constructor is given the program's own arrays *)
Definition h_relax (H : heap) (o : pobj) : heap * res pobj :=
  h_new H (Ref (oA o) (oT o)) (Ref (ob o) false) (Ref (oc o) false) (oz o) (oobj o)
    (Some (inequalities (load H o))) (Some (free_variables (load H o))) (Some (negative_variables (load H o))).

(** _linear.py:2014-2047: the properties [A], [b] and [c] return the program's own arrays; [h_set] is
    the caller's assignment to all entries of one of them ([p.A[:] = a]).  Simplification: arrays of
    another shape, which numpy broadcasts or refuses, change nothing here. *)
Inductive field := FieldA | FieldB | FieldC.
Definition h_set (H : heap) (o : pobj) (f : field) (a : array) : heap :=
  match f, a with
  | FieldA, Mat n M =>
    if Nat.eqb n (read_cols H (oA o) (oT o)) && Nat.eqb (length M) (length (read_mat H (oA o) (oT o))) && forallb (fun r => Nat.eqb (length r) n) M
    then write_mat H (oA o) (oT o) M else H
  | FieldB, Vec v => if Nat.eqb (length v) (length (read_vec H (ob o))) then write_vec H (ob o) v else H
  | FieldC, Vec v => if Nat.eqb (length v) (length (read_vec H (oc o))) then write_vec H (oc o) v else H
  | _, _ => H
  end.

(** * Histories *)

Record state := mkstate { sheap : heap; sobjs : list pobj }.

Inductive hop :=
| HArray (a : array)                      (* the caller makes an array *)
| HWrite (r : nat) (a : array)            (* the caller assigns the entries of an array *)
| HNew (A b c : harg) (z : Qc) (objective : string) (inequalities : option (list string)) (free neg : option (list Z))
| HCopy (i : nat)
| HSef (i : nat) (in_place : bool)
| HCanonical (i : nat) (basis : list Z) (in_place : bool)
| HConstraint (i : nat) (coefficients : source) (inequality : string) (value : Qc) (in_place : bool)
| HVariable (i : nat) (coefficient : Qc) (column : option (list Qc)) (free negative in_place : bool)
| HIteration (i : nat) (basis : list Z) (in_place : bool)
| HSimplex (fuel : nat) (i : nat) (basis : list Z)
| HTwoPhase (fuel : nat) (i : nat)
| HSolve (fuel : nat) (i : nat)
| HSet (i : nat) (f : field) (a : array)  (* the caller assigns the entries of the array a property returns *)
| HDual (i : nat)
| HRelax (i : nat).

Definition same_shape (a a' : array) : bool :=
  match a, a' with
  | Vec v, Vec v' => Nat.eqb (length v) (length v')
  | Mat n M, Mat n' M' => Nat.eqb n n' && Nat.eqb (length M) (length M') && forallb (fun r => Nat.eqb (length r) n) M'
  | _, _ => false
  end.
Definition array_ok (a : array) : bool :=
  match a with Vec _ => true | Mat n M => forallb (fun r => Nat.eqb (length r) n) M end.
Fixpoint set_obj (l : list pobj) (i : nat) (o : pobj) : list pobj :=
  match l, i with [], _ => [] | _ :: l', 0 => o :: l' | x :: l', S i' => x :: set_obj l' i' o end.

(** an operation with the parameter [in_place]: on the object itself, or on a copy that becomes a new
    object (the copy is kept here even when the operation raises) *)
Definition on (s : state) (i : nat) (in_place : bool) (f : heap -> pobj -> heap * pobj) : state :=
  match nth_error (sobjs s) i with
  | None => s
  | Some o =>
    if in_place then let '(H, o') := f (sheap s) o in mkstate H (set_obj (sobjs s) i o')
    else let '(H1, o1) := h_copy (sheap s) o in
         let '(H, o') := f H1 o1 in mkstate H (sobjs s ++ [o'])
  end.
Definition added (s : state) (r : heap * res pobj) : state :=
  match r with (H, Ok o) => mkstate H (sobjs s ++ [o]) | (H, _) => mkstate H (sobjs s) end.
Definition valid_ref (H : heap) (a : harg) : bool := match a with Ref r _ => Nat.ltb r (length H) | Val _ => true end.

Definition hstep (s : state) (x : hop) : state :=
  match x with
  | HArray a => if array_ok a then mkstate (sheap s ++ [a]) (sobjs s) else s
  | HWrite r a => if same_shape (hget (sheap s) r) a then mkstate (hwrite (sheap s) r a) (sobjs s) else s
  | HNew A b c z objective ineq free neg =>
    if valid_ref (sheap s) A && valid_ref (sheap s) b && valid_ref (sheap s) c
    then added s (h_new (sheap s) A b c z objective ineq free neg) else s
  | HCopy i => on s i false (fun H o => (H, o))
  | HSef i ip => on s i ip h_to_sef
  | HCanonical i B ip => on s i ip (fun H o => fst (h_canonical H o B))
  | HConstraint i a q v ip => on s i ip (fun H o => fst (h_add_constraint H o a q v))
  | HVariable i k col f n ip => on s i ip (fun H o => fst (h_add_variable H o k col f n))
  | HIteration i B ip => on s i ip (fun H o => fst (h_iteration H o B))
  | HSimplex fuel i B => on s i true (fun H o => (fst (h_simplex fuel H o B), o))
  | HTwoPhase fuel i => on s i true (fun H o => (fst (h_two_phase fuel H o), o))
  | HSolve fuel i => on s i true (fun H o => (fst (h_solve fuel H o), o))
  | HSet i f a => on s i true (fun H o => (h_set H o f a, o))
  | HDual i =>
    match nth_error (sobjs s) i with Some o => mkstate (sheap s) (sobjs s ++ [h_dual (sheap s) o]) | None => s end
  | HRelax i =>
    match nth_error (sobjs s) i with Some o => added s (h_relax (sheap s) o) | None => s end
  end.
Definition hrun (s : state) (l : list hop) : state := fold_left hstep l s.
Definition initial : state := mkstate [] [].
