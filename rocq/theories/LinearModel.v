(** Model of pytimize/programs/_linear.py, class LinearProgram.
    Simplifications: numbers are exact rationals; numpy's det, inv and @ are exact
    (MatModel.v); the explanatory steps ([show_steps], [_steps]) are left out; printing and
    plotting are left out.  Aliasing of arrays is treated separately (LinearHeap.v); here a
    program is a value and an in-place method returns the new state. *)
From Coq Require Import String List Bool Arith ZArith QArith Qcanon.
From Verif Require Import Py QcTac QSum ComparatorModel MatModel.
Import ListNotations.
Open Scope nat_scope.
Open Scope string_scope.
Open Scope list_scope.

(** * Arrays given by the caller *)

(** an ndarray with a numeric dtype, one- or two-dimensional; [n] is the number of columns *)
Inductive array := Vec (v : list Qc) | Mat (n : nat) (rows : list (list Qc)).
(** the items of a Python list: a number of type int or float, a list of cells, or anything else *)
Inductive cell := CNum (q : Qc) | CList | COther.
Inductive item := INum (q : Qc) | IRow (l : list cell) | IOther.
(** an ndarray, a Python list, or anything else *)
Inductive source := Nd (a : array) | PyList (l : list item) | SOther.

Fixpoint all_num (l : list cell) : option (list Qc) :=
  match l with
  | [] => Some []
  | CNum q :: l' => match all_num l' with Some v => Some (q :: v) | None => None end
  | _ => None
  end.
Fixpoint items_vec (l : list item) : option (list Qc) :=
  match l with
  | [] => Some []
  | INum q :: l' => match items_vec l' with Some v => Some (q :: v) | None => None end
  | _ => None
  end.
Fixpoint items_mat (n : nat) (l : list item) : option (list (list Qc)) :=
  match l with
  | [] => Some []
  | IRow r :: l' =>
    if Nat.eqb (length r) n then
      match all_num r, items_mat n l' with Some v, Some m => Some (v :: m) | _, _ => None end
    else None
  | _ => None
  end.
(** _linear.py:1653-1691 [__to_ndarray].  A list mixing numbers and lists passes the checks and
    is then rejected by np.array with the same exception. *)
Definition to_ndarray (s : source) : res array :=
  match s with
  | Nd a => Ok a
  | PyList l =>
    match items_vec l with
    | Some v => Ok (Vec v)
    | None =>
      match l with
      | IRow r :: _ => match items_mat (length r) l with Some m => Ok (Mat (length r) m) | None => Raise ValueError end
      | _ => Raise ValueError
      end
    end
  | SOther => Raise ValueError
  end.

(** * The program *)

Record lp := mklp {
  lA : list (list Qc);
  lb : list Qc;
  lc : list Qc;
  lz : Qc;
  lobj : string;
  lineq : list (nat * string);
  lsef : bool;
  lfree : list nat;
  lneg : list nat }.

(** [self._A.shape] *)
Definition rows (p : lp) : nat := length (lA p).
Definition cols (p : lp) : nat := length (lc p).

Definition inb (i : nat) (l : list nat) : bool := existsb (Nat.eqb i) l.

(** list.sort() *)
Fixpoint insert_sorted (x : nat) (l : list nat) : list nat :=
  match l with
  | [] => [x]
  | y :: l' => if Nat.leb x y then x :: l else y :: insert_sorted x l'
  end.
Fixpoint sort (l : list nat) : list nat :=
  match l with [] => [] | x :: l' => insert_sorted x (sort l') end.

Fixpoint nodupb (l : list nat) : bool :=
  match l with [] => true | x :: l' => negb (inb x l') && nodupb l' end.
Fixpoint nodupbz (l : list Z) : bool :=
  match l with [] => true | x :: l' => negb (existsb (Z.eqb x) l') && nodupbz l' end.

(** _linear.py:95-109 the checks of one index list; indices are 1-based *)
Definition check_indices (n : nat) (l : list Z) : bool :=
  nodupbz l && forallb (fun i => (1 <=? i)%Z && (i <=? Z.of_nat n)%Z) l.
(** _linear.py:1788-1793 [__to_array_indexing] of checked indices *)
Definition to_array_indexing (l : list Z) : list nat := map (fun i => Z.to_nat (i - 1)) l.
(** _linear.py:1781-1786 [__to_math_indexing] *)
Definition to_math_indexing (l : list nat) : list Z := map (fun i => Z.of_nat (S i)) l.

Definition opt_list {A} (o : option (list A)) : list A := match o with Some l => l | None => [] end.

(** _linear.py:120-128 *)
Fixpoint read_inequalities (i : nat) (l : list string) : res (list (nat * string)) :=
  match l with
  | [] => Ok []
  | s :: l' =>
    if String.eqb s ">=" || String.eqb s "<=" then
      do d <- read_inequalities (S i) l' ; Ok ((i, s) :: d)
    else if String.eqb s "=" then read_inequalities (S i) l'
    else Raise ValueError
  end.

(** _linear.py:140-143 *)
Definition sef_of (ineq : list (nat * string)) (free neg : list nat) (objective : string) : bool :=
  Nat.eqb (length ineq + length free + length neg) 0 && String.eqb objective "max".

(** _linear.py:21-145 [__init__] *)
Definition linear_program (A b c : source) (z : Qc) (objective : string)
    (inequalities : option (list string)) (free neg : option (list Z)) : res lp :=
  do A <- to_ndarray A ;
  do b <- to_ndarray b ;
  do c <- to_ndarray c ;
  match A, b, c with
  | Mat n A, Vec b, Vec c =>
    if negb (Nat.eqb (length b) (length A)) || negb (Nat.eqb (length c) n) then Raise ValueError
    else if negb (check_indices n (opt_list free)) then Raise ValueError
    else if negb (check_indices n (opt_list neg)) then Raise ValueError
    else if existsb (fun i => existsb (Z.eqb i) (opt_list neg)) (opt_list free) then Raise ValueError
    else
      do d <- match inequalities with
              | None => Ok []
              | Some l => if Nat.eqb (length l) (length b) then read_inequalities 0 l else Raise ValueError
              end ;
      if String.eqb objective "min" || String.eqb objective "max" then
        let fv := sort (to_array_indexing (opt_list free)) in
        let nv := sort (to_array_indexing (opt_list neg)) in
        Ok (mklp A b c z objective d (sef_of d fv nv objective) fv nv)
      else Raise ValueError
  | _, _, _ => Raise ValueError
  end.

(** _linear.py:2061-2118 the properties [inequalities], [free_variables], [negative_variables],
    [positive_variables] *)
Definition inequalities (p : lp) : list string :=
  map (fun i => match dget Nat.eqb i (lineq p) with Some s => s | None => "=" end) (seq 0 (length (lb p))).
Definition free_variables (p : lp) : list Z := to_math_indexing (lfree p).
Definition negative_variables (p : lp) : list Z := to_math_indexing (lneg p).
Definition positive_variables (p : lp) : list Z :=
  to_math_indexing (filter (fun i => negb (inb i (lneg p)) && negb (inb i (lfree p))) (seq 0 (cols p))).

(** _linear.py:407-460 [add_constraint], in place *)
Definition add_constraint (p : lp) (coefficients : source) (inequality : string) (value : Qc) : lp * res unit :=
  match to_ndarray coefficients with
  | Ok (Vec a) =>
    if negb (Nat.eqb (length a) (cols p)) then (p, Raise ValueError)
    else if negb (existsb (String.eqb inequality) ["="; ">="; "<="]) then (p, Raise ValueError)
    else
      let strict := String.eqb inequality ">=" || String.eqb inequality "<=" in
      (mklp (lA p ++ [a]) (lb p ++ [value]) (lc p) (lz p) (lobj p)
            (if strict then dset Nat.eqb (rows p) inequality (lineq p) else lineq p)
            (if strict then false else lsef p) (lfree p) (lneg p), Ok tt)
  | Ok (Mat _ _) => (p, Raise ValueError)
  | Raise e => (p, Raise e)
  | Diverges => (p, Diverges)
  end.

(** np.c_[M, column] *)
Definition append_column (M : list (list Qc)) (column : list Qc) : list (list Qc) :=
  map (fun rv => fst rv ++ [snd rv]) (combine M column).

(** _linear.py:462-517 [add_variable], in place; [column] is a list of numbers.  The sign lists
    are extended (lines 504-509) before numpy checks the length of the column. *)
Definition add_variable (p : lp) (coefficient : Qc) (column : option (list Qc)) (free negative : bool) : lp * res unit :=
  if free && negative then (p, Raise ValueError)
  else
    let fv := if free then lfree p ++ [cols p] else lfree p in
    let nv := if free then lneg p else if negative then lneg p ++ [cols p] else lneg p in
    let sef := if free || negative then false else lsef p in
    let p1 := mklp (lA p) (lb p) (lc p) (lz p) (lobj p) (lineq p) sef fv nv in
    let column := match column with Some v => v | None => repeat 0%Qc (rows p) end in
    if Nat.eqb (length column) (rows p) then
      (mklp (append_column (lA p) column) (lb p) (lc p ++ [coefficient]) (lz p) (lobj p) (lineq p) sef fv nv, Ok tt)
    else (p1, Raise ValueError).

(** * Bases *)

(** _linear.py:645-655 [is_basis]; [basis] is 1-based.  [max([])] raises ValueError. *)
Definition is_basis (p : lp) (basis : list Z) : res bool :=
  if negb (Nat.eqb (rows p) (length basis)) then Ok false
  else if Nat.eqb (length basis) 0 then Raise ValueError
  else if negb (forallb (fun i => (1 <=? i)%Z && (i <=? Z.of_nat (cols p))%Z) basis) then Ok false
  else Ok (negb (is_close_to_zero (mdet (columns_of (sort (to_array_indexing basis)) (lA p))))).

(** _linear.py:1707-1714: zeros, then the components at the sorted positions *)
Fixpoint set_at (v : list Qc) (i : nat) (x : Qc) : list Qc :=
  match v, i with
  | [], _ => []
  | _ :: v', 0 => x :: v'
  | y :: v', S i' => y :: set_at v' i' x
  end.
Definition scatter (n : nat) (basis : list nat) (components : list Qc) : list Qc :=
  fold_left (fun s iv => set_at s (fst iv) (snd iv)) (combine basis components) (repeat 0%Qc n).
(** _linear.py:1693-1714 [__compute_basic_solution]; [basis] is 0-based *)
Definition basic_solution (p : lp) (basis : list nat) : res (list Qc) :=
  do X <- minv (columns_of basis (lA p)) ;
  Ok (scatter (cols p) (sort basis) (mulmv X (lb p))).
(** _linear.py:718-739 [compute_basic_solution] *)
Definition compute_basic_solution (p : lp) (basis : list Z) : res (list Qc) :=
  do ok <- is_basis p basis ;
  if ok then basic_solution p (to_array_indexing basis) else Raise ArithmeticError.
(** _linear.py:699-716 [is_basis_feasible] *)
Definition is_basis_feasible (p : lp) (basis : list Z) : res bool :=
  do ok <- is_basis p basis ;
  if ok then do x <- compute_basic_solution p basis ; Ok (forallb (fun v => cc_ge v 0) x) else Ok false.

(** numpy.allclose *)
Definition allclose (u v : list Qc) : bool := forallb (fun ab => np_isclose (fst ab) (snd ab)) (combine u v).

(** _linear.py:553-604 [is_basic_solution] *)
Definition is_basic_solution (p : lp) (x : list Qc) (basis : list Z) : res bool :=
  if negb (lsef p) then Raise ArithmeticError
  else if negb (Nat.eqb (length x) (cols p)) then Raise ValueError
  else
    do ok <- is_basis p basis ;
    if ok then
      Ok (forallb (fun i => inb i (to_array_indexing basis) || is_close_to_zero (at_ x i)) (seq 0 (cols p))
          && allclose (mulmv (lA p) x) (lb p))
    else Raise ValueError.

(** _linear.py:780-820 [__to_canonical_form]; [basis] is 0-based *)
Definition canonical (p : lp) (basis : list nat) : res lp :=
  let Ab := columns_of basis (lA p) in
  let cb := take basis (lc p) in
  do X <- minv Ab ;
  let y := mulmv (transpose (rows p) X) cb in
  Ok (mklp (mulmm (cols p) X (lA p)) (mulmv X (lb p)) (vsub (lc p) (mulvm (cols p) y (lA p)))
           (dot y (lb p) + lz p)%Qc (lobj p) (lineq p) (lsef p) (lfree p) (lneg p)).
(** _linear.py:741-778 [to_canonical_form] *)
Definition to_canonical_form (p : lp) (basis : list Z) : res lp :=
  if negb (lsef p) then Raise ArithmeticError
  else
    do ok <- is_basis p basis ;
    if ok then canonical p (to_array_indexing basis) else Raise ValueError.

(** * Duals and auxiliary programs *)

(** _linear.py:822-872 [dual] *)
Definition dual (p : lp) : lp :=
  let mx := String.eqb (lobj p) "max" in
  let fv := filter (fun i => negb (dmem Nat.eqb i (lineq p))) (seq 0 (length (lb p))) in
  let nv := filter (fun i => match dget Nat.eqb i (lineq p) with
                             | Some s => (String.eqb s ">=" && mx) || (String.eqb s "<=" && String.eqb (lobj p) "min")
                             | None => false
                             end) (seq 0 (length (lb p))) in
  let d := flat_map (fun i =>
             if inb i (lneg p) then [(i, if mx then "<=" else ">=")]
             else if inb i (lfree p) then []
             else [(i, if mx then ">=" else "<=")]) (seq 0 (cols p)) in
  let objective := if mx then "min" else "max" in
  mklp (transpose (cols p) (lA p)) (lc p) (lb p) 0%Qc objective d (sef_of d fv nv objective) fv nv.

(** [A[negative_indices] *= -1; b[negative_indices] *= -1] with
    [negative_indices = np.where(b < 0)] *)
Definition flip_b (b : list Qc) : list Qc := map (fun v => if qlt v 0 then (- v)%Qc else v) b.
Definition flip_A (b : list Qc) (A : list (list Qc)) : list (list Qc) :=
  map (fun rv => if qlt (snd rv) 0 then vopp (fst rv) else fst rv) (combine A b).
(** negate the entries at the rows where [b] is negative *)
Definition flip_y (b : list Qc) (y : list Qc) : list Qc :=
  map (fun yv => if qlt (snd yv) 0 then (- fst yv)%Qc else fst yv) (combine y b).

(** _linear.py:874-903 [auxiliary] *)
Definition auxiliary (p : lp) : res lp :=
  if negb (lsef p) then Raise ArithmeticError
  else
    let m := rows p in
    let A := map (fun ir => snd ir ++ mkvec m (fun j => if Nat.eqb (fst ir) j then 1%Qc else 0%Qc))
                 (combine (seq 0 m) (flip_A (lb p) (lA p))) in
    Ok (mklp A (flip_b (lb p)) (repeat 0%Qc (cols p) ++ repeat 1%Qc m) 0%Qc "min" [] false [] []).

(** * Standard equality form *)

(** [self._reverse_sef] *)
Record reverse := mkrev { r_drop : nat; r_concat : list nat; r_negative : list nat }.

(** [v[i] *= -1], [A[:, i] *= -1] *)
Definition neg_at (i : nat) (v : list Qc) : list Qc := set_at v i (- at_ v i)%Qc.
(** np.insert(v, i, x), and the same for a column *)
Definition insert_at (i : nat) (x : Qc) (v : list Qc) : list Qc := firstn i v ++ x :: skipn i v.

(** _linear.py:1605-1610 *)
Fixpoint split_free (i : nat) (free : list nat) (A : list (list Qc)) (c : list Qc) (concat : list nat)
    : list (list Qc) * list Qc * list nat :=
  match free with
  | [] => (A, c, concat)
  | f :: free' =>
    let index := f + i in
    split_free (S i) free'
      (map (fun r => insert_at (S index) (- at_ r index)%Qc r) A)
      (insert_at (S index) (- at_ c index)%Qc c) (concat ++ [index])
  end.
(** _linear.py:1614-1623 *)
Fixpoint add_slacks (is : list nat) (ineq : list (nat * string)) (A : list (list Qc)) (c : list Qc)
    : list (list Qc) * list Qc :=
  match is with
  | [] => (A, c)
  | i :: is' =>
    match dget Nat.eqb i ineq with
    | None => add_slacks is' ineq A c
    | Some operator =>
      let e := if String.eqb operator ">=" then Qcopp 1%Qc else if String.eqb operator "<=" then 1%Qc else 0%Qc in
      add_slacks is' ineq
        (map (fun kr => snd kr ++ [if Nat.eqb (fst kr) i then e else 0%Qc]) (combine (seq 0 (length A)) A))
        (c ++ [0%Qc])
    end
  end.
(** _linear.py:1559-1628 [to_sef], in place; with the record kept for the way back.  The constant
    [z] is not negated for a minimisation problem. *)
Definition to_sef (p : lp) : lp * option reverse :=
  if lsef p then (p, None)
  else
    let c1 := if String.eqb (lobj p) "min" then vopp (lc p) else lc p in
    let A2 := map (fun r => fold_left (fun r i => neg_at i r) (lneg p) r) (lA p) in
    let c2 := fold_left (fun c i => neg_at i c) (lneg p) c1 in
    let '(A3, c3, concat) := split_free 0 (lfree p) A2 c2 [] in
    let '(A4, c4) := add_slacks (seq 0 (length (lb p))) (lineq p) A3 c3 in
    (mklp A4 (lb p) c4 (lz p) "max" [] true [] [], Some (mkrev (length (lineq p)) concat (lneg p))).

(** np.delete(v, i) *)
Definition delete_at (i : nat) (v : list Qc) : list Qc := firstn i v ++ skipn (S i) v.
(** _linear.py:945-948 *)
Fixpoint merge_free (i : nat) (concat : list nat) (x : list Qc) : list Qc :=
  match concat with
  | [] => x
  | f :: concat' =>
    let index := f - i in
    merge_free (S i) concat' (delete_at (S index) (set_at x index (at_ x index - at_ x (S index))%Qc))
  end.
(** _linear.py:941-951 the way back *)
Definition from_sef (r : reverse) (x : list Qc) : list Qc :=
  let x1 := if Nat.ltb 0 (r_drop r) then firstn (length x - r_drop r) x else x in
  fold_left (fun x i => neg_at i x) (r_negative r) (merge_free 0 (r_concat r) x1).

(** * Simplex *)

Inductive iter :=
| Optimal (x : list Qc) (basis : list nat) (p : lp)
| Unbounded (x : list Qc) (basis : list nat) (p : lp)
| Next (basis : list nat) (p : lp).

(** _linear.py:1182-1188 the ratio test; [None] is [math.inf]: np.isclose(ratio, inf) is False *)
Fixpoint ratio_test (i : nat) (b Ak : list Qc) (t : option Qc) (leave : option nat) : option nat :=
  match b, Ak with
  | bi :: b', a :: Ak' =>
    if is_positive a then
      let ratio := (bi / a)%Qc in
      if match t with None => true | Some t => cc_lt ratio t end
      then ratio_test (S i) b' Ak' (Some ratio) (Some i)
      else ratio_test (S i) b' Ak' t leave
    else ratio_test (S i) b' Ak' t leave
  | _, _ => leave
  end.

(** list.remove *)
Fixpoint remove_first (x : nat) (l : list nat) : list nat :=
  match l with [] => [] | y :: l' => if Nat.eqb x y then l' else y :: remove_first x l' end.

Definition negate_rows (p : lp) : lp :=
  mklp (flip_A (lb p) (lA p)) (flip_b (lb p)) (lc p) (lz p) (lobj p) (lineq p) (lsef p) (lfree p) (lneg p).

(** _linear.py:1113-1194 [simplex_iteration]; the result's bases are 0-based *)
Definition simplex_iteration (p : lp) (basis : list Z) : res iter :=
  if negb (lsef p) then Raise ArithmeticError
  else
    do ok <- is_basis p basis ;
    if negb ok then Raise ValueError
    else
      let B := sort (to_array_indexing basis) in
      do q <- canonical (negate_rows p) B ;
      do x <- basic_solution q B ;
      let N := filter (fun i => negb (inb i B)) (seq 0 (cols q)) in
      if forallb (fun v => cc_le v 0) (take N (lc q)) then
        if existsb is_negative x then Raise ArithmeticError else Ok (Optimal x B q)
      else
        match find (fun i => is_positive (at_ (lc q) i)) N with
        | None => Raise TypeError
        | Some k =>
          let Ak := map (fun r => at_ r k) (lA q) in
          if forallb (fun v => cc_le v 0) Ak then Ok (Unbounded x B q)
          else
            match ratio_test 0 (lb q) Ak None None with
            | None => Raise TypeError
            | Some leave => Ok (Next (sort (remove_first (nth leave B 0) B ++ [k])) q)
            end
        end.

(** the program after [simplex_iteration(basis, in_place=True)]: nothing has changed when the call
    is refused; otherwise the rows with a negative right-hand side have been negated and the
    program has been put in the canonical form of the given basis, also when line 1162 raises *)
Definition simplex_iteration_program (p : lp) (basis : list Z) : lp :=
  if negb (lsef p) then p
  else
    match is_basis p basis with
    | Ok true =>
      match canonical (negate_rows p) (sort (to_array_indexing basis)) with
      | Ok q => q
      | _ => negate_rows p
      end
    | _ => p
    end.

(** _linear.py:1083-1088 *)
Fixpoint simplex_loop (fuel : nat) (p : lp) (basis : list Z) : res iter :=
  match fuel with
  | 0 => Diverges
  | S fuel' =>
    do it <- simplex_iteration p basis ;
    match it with
    | Next B _ => simplex_loop fuel' p (to_math_indexing B)
    | it => Ok it
    end
  end.

Inductive certificate := CVec (y : list Qc) | CPair (x d : list Qc).
Definition outcome := (option (list Qc) * option (list Z) * certificate)%type.

(** np.argmax(c > 0) *)
Fixpoint argmax_pos (i : nat) (c : list Qc) : nat :=
  match c with [] => 0 | v :: c' => if qlt 0 v then i else argmax_pos (S i) c' end.

(** _linear.py:1090-1106; [b] is the right-hand side before the rows were negated *)
Definition simplex_result (b : list Qc) (p : lp) (it : iter) : res outcome :=
  match it with
  | Optimal x B _ =>
    do X <- minv (transpose (rows p) (columns_of B (lA p))) ;
    Ok (Some x, Some (to_math_indexing B), CVec (flip_y b (mulmv X (take B (lc p)))))
  | Unbounded x B q =>
    let k := argmax_pos 0 (lc q) in
    let d := fold_left (fun s iv => set_at s (fst iv) (snd iv))
               (combine B (map (fun r => - at_ r k)%Qc (lA q))) (repeat 0%Qc (cols p)) in
    Ok (None, None, CPair x (set_at d k 1%Qc))
  | Next _ _ => Raise TypeError
  end.

(** _linear.py:1039-1111 [simplex], with a bound on the number of iterations.  The rows with a
    negative right-hand side are negated in place and negated back (lines 1108-1109) only when
    no exception occurs in between. *)
Definition simplex (fuel : nat) (p : lp) (basis : list Z) : lp * res outcome :=
  if negb (lsef p) then (p, Raise ArithmeticError)
  else
    let q := negate_rows p in
    match (do it <- simplex_loop fuel q basis ; simplex_result (lb p) q it) with
    | Ok r => (mklp (map (fun rv => if qlt (snd rv) 0 then vopp (fst rv) else fst rv) (combine (lA q) (lb p)))
                    (map (fun vv => if qlt (snd vv) 0 then (- fst vv)%Qc else fst vv) (combine (lb q) (lb p)))
                    (lc q) (lz q) (lobj q) (lineq q) (lsef q) (lfree q) (lneg q), Ok r)
    | Raise e => (q, Raise e)
    | Diverges => (q, Diverges)
    end.

(** * Evaluation and verification *)

(** _linear.py:1492-1512 [evaluate] *)
Definition evaluate (p : lp) (x : list Qc) : res Qc :=
  if Nat.eqb (length x) (cols p) then Ok (dot (lc p) x + lz p)%Qc else Raise ValueError.

(** math.isclose with the default tolerances *)
Definition math_isclose (a b : Qc) : bool :=
  qle (qabs (a - b)) (Q2Qc (1 # 1000000000) * qmax (qabs a) (qabs b))%Qc.

(** _linear.py:1299-1369 [is_feasible] *)
Definition is_feasible (p : lp) (x : list Qc) : res bool :=
  if negb (Nat.eqb (length x) (cols p)) then Raise ValueError
  else if lsef p then
    Ok (forallb (fun v => cc_ge v 0) x && allclose (mulmv (lA p) x) (lb p))
  else
    Ok (forallb (fun i => if inb i (lneg p) then qle (at_ x i) 0
                          else if inb i (lfree p) then true else qle 0 (at_ x i)) (seq 0 (length x))
        && forallb (fun i =>
             let value := dot (nth i (lA p) []) x in
             match dget Nat.eqb i (lineq p) with
             | Some s => negb (String.eqb s "<=" && qlt (at_ (lb p) i) value)
                         && negb (String.eqb s ">=" && qlt value (at_ (lb p) i))
             | None => math_isclose value (at_ (lb p) i)
             end) (seq 0 (rows p))).

(** _linear.py:1514-1535 [value_of] *)
Definition value_of (p : lp) (x : list Qc) : res Qc :=
  do ok <- is_feasible p x ; if ok then evaluate p x else Raise ValueError.

(** _linear.py:1196-1224 [verify_infeasibility]; [@] raises ValueError on a size mismatch *)
Definition verify_infeasibility (p : lp) (y : list Qc) : res bool :=
  if negb (lsef p) then Raise ArithmeticError
  else if negb (Nat.eqb (length y) (rows p)) then Raise ValueError
  else Ok (forallb (fun v => cc_ge v 0) (mulvm (cols p) y (lA p)) && is_negative (dot y (lb p))).

(** _linear.py:1226-1268 [verify_unboundedness] *)
Definition verify_unboundedness (p : lp) (x d : list Qc) : res bool :=
  if negb (lsef p) then Raise ArithmeticError
  else
    do ok <- is_feasible p x ;
    if negb ok then Ok false
    else if negb (Nat.eqb (length d) (cols p)) then Raise ValueError
    else if cc_le (dot (lc p) d) 0 then Ok false
    else if negb (forallb (fun v => np_isclose v 0) (mulmv (lA p) d)) then Ok false
    else Ok (forallb (fun v => cc_ge v 0) d).

(** _linear.py:1270-1297 [verify_optimality] *)
Definition verify_optimality (p : lp) (y : list Qc) : res bool :=
  if negb (lsef p) then Raise ArithmeticError
  else if negb (Nat.eqb (length y) (rows p)) then Raise ValueError
  else Ok (forallb (fun v => cc_le v 0) (vsub (lc p) (mulvm (cols p) y (lA p)))).

(** * Two-phase simplex and solve *)

(** _linear.py:1013-1029 the search for a completion of the positive columns to a basis: a
    depth-first walk over increasing lists of positions in [zero_set]; the last entry pushed is
    the first one popped.  [None]: the queue ran empty. *)
Fixpoint complete_basis (fuel : nat) (p : lp) (p_basis zero_set : list nat) (size : nat)
    (queue : list (nat * list nat)) : res (option (list nat)) :=
  match fuel with
  | 0 => Diverges
  | S fuel' =>
    match queue with
    | [] => Ok None
    | (i, current) :: queue' =>
      if Nat.eqb (length current) size then
        let candidate := sort (p_basis ++ current) in
        do ok <- is_basis p (map Z.of_nat candidate) ;
        if ok then Ok (Some candidate) else complete_basis fuel' p p_basis zero_set size queue'
      else
        let next := map (fun j => (j, current ++ [nth j zero_set 0])) (seq (S i) (length zero_set - S i)) in
        complete_basis fuel' p p_basis zero_set size (rev next ++ queue')
    end
  end.

(** _linear.py:958-1037 [two_phase_simplex]; the solution lists of lines 1001-1005 are 1-based.
    With as many positive columns as rows, line 1011 reads past the end of [zero_set]. *)
Definition two_phase_simplex (fuel : nat) (p : lp) : lp * res outcome :=
  match auxiliary p with
  | Raise e => (p, Raise e)
  | Diverges => (p, Diverges)
  | Ok aux0 =>
    let aux := fst (to_sef aux0) in
    match simplex fuel aux (map Z.of_nat (seq (S (cols p)) (rows p))) with
    | (_, Raise e) => (p, Raise e)
    | (_, Diverges) => (p, Diverges)
    | (aux', Ok (solution, basis, _)) =>
      match solution, basis with
      | Some x, Some basis =>
        match evaluate aux' x with
        | Raise e => (p, Raise e)
        | Diverges => (p, Diverges)
        | Ok v =>
          if is_close_to_zero v then
            match is_basis p basis with
            | Raise e => (p, Raise e)
            | Diverges => (p, Diverges)
            | Ok true => simplex fuel p basis
            | Ok false =>
              let positive := map S (filter (fun i => negb (is_close_to_zero (at_ x i))) (seq 0 (cols p))) in
              let zero_set := map S (filter (fun i => is_close_to_zero (at_ x i)) (seq 0 (cols p))) in
              let size := rows p - length positive in
              let start := map (fun i => (i, [nth i zero_set 0])) (seq 0 (S (length zero_set) - size)) in
              if Nat.leb (rows p) (length positive) then (p, Raise IndexError) else
              match complete_basis fuel p positive zero_set size (rev start) with
              | Raise e => (p, Raise e)
              | Diverges => (p, Diverges)
              | Ok (Some B) => simplex fuel p (map Z.of_nat B)
              | Ok None => simplex fuel p (map Z.of_nat positive)
              end
            end
          else
            let B := to_array_indexing basis in
            match minv (transpose (rows p) (columns_of B (lA aux'))) with
            | Raise e => (p, Raise e)
            | Diverges => (p, Diverges)
            | Ok X => (p, Ok (None, None, CVec (flip_y (lb p) (mulmv X (take B (lc aux'))))))
            end
        end
      | _, _ => (p, Raise ValueError)
      end
    end
  end.

(** _linear.py:905-956 [solve].  For a program that is not in SEF the work is done on a copy. *)
Definition solve (fuel : nat) (p : lp) : lp * res (option (list Qc)) :=
  if lsef p then
    let '(p', r) := two_phase_simplex fuel p in (p', rmap (fun o => fst (fst o)) r)
  else
    let '(sef, rev) := to_sef p in
    let candidate := map Z.of_nat (seq (S (rows sef)) (cols sef - rows sef)) in
    let back := fun o : option (list Qc) =>
      match o, rev with Some x, Some r => Some (from_sef r x) | o, _ => o end in
    let first :=
      if Nat.leb (rows sef) (cols sef) then
        match is_basis sef candidate with
        | Raise e => Some (Raise e)
        | Diverges => Some Diverges
        | Ok false => None
        | Ok true =>
          match snd (simplex fuel sef candidate) with
          | Ok (x, _, _) => Some (Ok (back x))
          | Raise ArithmeticError => Some (Ok None)
          | Raise e => Some (Raise e)
          | Diverges => Some Diverges
          end
        end
      else None in
    match first with
    | Some r => (p, r)
    | None => (p, rmap (fun o => back (fst (fst o))) (snd (two_phase_simplex fuel sef)))
    end.
