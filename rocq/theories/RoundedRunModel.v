(** Runs of simplex, two_phase_simplex and solve of pytimize/programs/_linear.py when numpy's results carry
    rounding errors: every test, every exception and the number of iterations.  RoundedModel.v and
    RoundedSolveModel.v only say what is known when a method returns, with the tests of the determinants and
    the choice of the leaving variable left open; here they are followed.  [run_... e p B o] means that [o] may
    be the outcome when numpy.linalg.det, numpy.linalg.inv, [@] and [/] are off by at most [e].
    Simplifications: all numbers are finite; numpy.linalg.inv returns a matrix and does not raise LinAlgError;
    the comparisons of _comparator.py are the exact ones. *)
From Coq Require Import String List Bool Arith ZArith QArith Qcanon.
From Verif Require Import Py QcTac QSum ComparatorModel MatModel DetTheory LinearModel RoundedModel RoundedSolveModel.
Import ListNotations.
Open Scope nat_scope.
Open Scope string_scope.
Open Scope list_scope.

(** _linear.py:645-655 [is_basis]: the sizes, the indices, and the computed determinant *)
Definition run_is_basis (e : Qc) (p : lp) (basis : list Z) (o : res bool) : Prop :=
  if negb (Nat.eqb (rows p) (length basis)) then o = Ok false
  else if Nat.eqb (length basis) 0 then o = Raise ValueError
  else if negb (forallb (fun i => (1 <=? i)%Z && (i <=? Z.of_nat (cols p))%Z) basis) then o = Ok false
  else exists d, within e d (mdet (columns_of (sort (to_array_indexing basis)) (lA p))) /\ o = Ok (negb (is_close_to_zero d)).
(** _linear.py:1176-1187: the ratio test on the computed quotients *)
Fixpoint run_ratio (e : Qc) (i : nat) (b Ak : list Qc) (t : option Qc) (leave : option nat) (o : option nat) : Prop :=
  match b, Ak with
  | bi :: b', a :: Ak' =>
    if is_positive a then
      exists ratio, within e ratio (bi / a)%Qc /\
        if match t with None => true | Some t => cc_lt ratio t end
        then run_ratio e (S i) b' Ak' (Some ratio) (Some i) o
        else run_ratio e (S i) b' Ak' t leave o
    else run_ratio e (S i) b' Ak' t leave o
  | _, _ => o = leave
  end.
(** _linear.py:1113-1194 [simplex_iteration]; the bases of the result are 0-based *)
Definition run_iteration (e : Qc) (p : lp) (basis : list Z) (o : res iter) : Prop :=
  if negb (lsef p) then o = Raise ArithmeticError
  else
    exists ok, run_is_basis e p basis ok /\
    match ok with
    | Raise x => o = Raise x
    | Diverges => False
    | Ok false => o = Raise ValueError
    | Ok true =>
      let B := sort (to_array_indexing basis) in
      exists q x, r_canonical e (negate_rows p) B q /\ r_basic_solution e q B x /\
      let N := filter (fun i => negb (inb i B)) (seq 0 (cols q)) in
      if forallb (fun v => cc_le v 0) (take N (lc q)) then
        o = if existsb is_negative x then Raise ArithmeticError else Ok (Optimal x B q)
      else
        match find (fun i => is_positive (at_ (lc q) i)) N with
        | None => o = Raise TypeError
        | Some k =>
          let Ak := map (fun r => at_ r k) (lA q) in
          if forallb (fun v => cc_le v 0) Ak then o = Ok (Unbounded x B q)
          else
            exists leave, run_ratio e 0 (lb q) Ak None None leave /\
            o = match leave with
                | None => Raise TypeError
                | Some leave => Ok (Next (sort (remove_first (nth leave B 0) B ++ [k])) q)
                end
        end
    end.
(** _linear.py:1083-1088; [n] is the number of iterations *)
Inductive run_loop (e : Qc) (p : lp) : list Z -> nat -> res iter -> Prop :=
| run_last basis o : run_iteration e p basis o -> match o with Ok (Next _ _) => False | _ => True end -> run_loop e p basis 1 o
| run_step basis B q n o : run_iteration e p basis (Ok (Next B q)) -> run_loop e p (to_math_indexing B) n o -> run_loop e p basis (S n) o.
(** _linear.py:1083-1088: the loop is never left *)
Definition run_loops (e : Qc) (p : lp) (basis : list Z) : Prop :=
  exists s : nat -> list Z, s 0 = basis /\ forall i, exists B q, run_iteration e p (s i) (Ok (Next B q)) /\ s (S i) = to_math_indexing B.
(** _linear.py:1039-1111 [simplex] ends after [n] iterations *)
Definition run_simplex (e : Qc) (p : lp) (basis : list Z) (n : nat) (o : res outcome) : Prop :=
  if negb (lsef p) then n = 0 /\ o = Raise ArithmeticError
  else exists oi, run_loop e (negate_rows p) basis n oi /\
    match oi with
    | Ok it => exists r, r_result e (lb p) (negate_rows p) it r /\ o = Ok r
    | Raise x => o = Raise x
    | Diverges => False
    end.
(** ... or does not end *)
Definition simplex_hangs (e : Qc) (p : lp) (basis : list Z) : Prop := lsef p = true /\ run_loops e (negate_rows p) basis.

(** _linear.py:1013-1029 the search for a completion of the positive columns to a basis *)
Inductive run_complete (e : Qc) (p : lp) (p_basis zero_set : list nat) (size : nat) : list (nat * list nat) -> res (option (list nat)) -> Prop :=
| run_empty : run_complete e p p_basis zero_set size [] (Ok None)
| run_found i current queue : length current = size ->
    run_is_basis e p (map Z.of_nat (sort (p_basis ++ current))) (Ok true) ->
    run_complete e p p_basis zero_set size ((i, current) :: queue) (Ok (Some (sort (p_basis ++ current))))
| run_error i current queue x : length current = size ->
    run_is_basis e p (map Z.of_nat (sort (p_basis ++ current))) (Raise x) ->
    run_complete e p p_basis zero_set size ((i, current) :: queue) (Raise x)
| run_rejected i current queue o : length current = size ->
    run_is_basis e p (map Z.of_nat (sort (p_basis ++ current))) (Ok false) ->
    run_complete e p p_basis zero_set size queue o ->
    run_complete e p p_basis zero_set size ((i, current) :: queue) o
| run_longer i current queue o : length current <> size ->
    run_complete e p p_basis zero_set size (rev (map (fun j => (j, current ++ [nth j zero_set 0])) (seq (S i) (length zero_set - S i))) ++ queue) o ->
    run_complete e p p_basis zero_set size ((i, current) :: queue) o.
(** _linear.py:993-1030: what starts the second phase, [Raise] if it is not reached *)
Definition run_start (e : Qc) (p : lp) (x : list Qc) (basis : list Z) (o : res (list Z)) : Prop :=
  exists ok, run_is_basis e p basis ok /\
  match ok with
  | Raise y => o = Raise y
  | Diverges => False
  | Ok true => o = Ok basis
  | Ok false =>
    let positive := map S (filter (fun i => negb (is_close_to_zero (at_ x i))) (seq 0 (cols p))) in
    let zero_set := map S (filter (fun i => is_close_to_zero (at_ x i)) (seq 0 (cols p))) in
    let size := rows p - length positive in
    let start := map (fun i => (i, [nth i zero_set 0])) (seq 0 (S (length zero_set) - size)) in
    if Nat.leb (rows p) (length positive) then o = Raise IndexError
    else exists c, run_complete e p positive zero_set size (rev start) c /\
      o = match c with
          | Ok (Some B) => Ok (map Z.of_nat B)
          | Ok None => Ok (map Z.of_nat positive)
          | Raise y => Raise y
          | Diverges => Diverges
          end
  end.
(** _linear.py:958-1037 [two_phase_simplex] ends after [n] iterations of simplex *)
Definition run_two_phase (e : Qc) (p : lp) (n : nat) (o : res outcome) : Prop :=
  match auxiliary p with
  | Raise x => n = 0 /\ o = Raise x
  | Diverges => False
  | Ok a0 =>
    let a := fst (to_sef a0) in
    exists n1 o1, run_simplex e a (map Z.of_nat (seq (S (cols p)) (rows p))) n1 o1 /\
    match o1 with
    | Raise x => n = n1 /\ o = Raise x
    | Diverges => False
    | Ok (Some x, Some basis, _) =>
      if Nat.eqb (length x) (cols a) then
        exists v, within e v (dot (lc a) x + lz a)%Qc /\
        if is_close_to_zero v then
          exists start, run_start e p x basis start /\
          match start with
          | Raise y => n = n1 /\ o = Raise y
          | Diverges => False
          | Ok B => exists n2, run_simplex e p B n2 o /\ n = n1 + n2
          end
        else n = n1 /\ exists X y, let B := to_array_indexing basis in
          r_inv e (transpose (rows p) (columns_of B (lA a))) X /\ r_mulmv e X (take B (lc a)) y /\ o = Ok (None, None, CVec (flip_y (lb p) y))
      else n = n1 /\ o = Raise ValueError
    | Ok _ => n = n1 /\ o = Raise ValueError
    end
  end.
(** ... or does not end.  The search of lines 1013-1029 always ends (see the proofs), so it must be a phase. *)
Definition two_phase_hangs (e : Qc) (p : lp) : Prop :=
  exists a0, auxiliary p = Ok a0 /\
  let a := fst (to_sef a0) in let first := map Z.of_nat (seq (S (cols p)) (rows p)) in
  (simplex_hangs e a first \/
   exists n1 x basis cert v B, run_simplex e a first n1 (Ok (Some x, Some basis, cert)) /\ within e v (dot (lc a) x + lz a)%Qc /\
     is_close_to_zero v = true /\ run_start e p x basis (Ok B) /\ simplex_hangs e p B).

(** _linear.py:905-956 [solve] ends *)
Definition run_solve (e : Qc) (p : lp) (o : res (option (list Qc))) : Prop :=
  if lsef p then exists n r, run_two_phase e p n r /\ o = rmap (fun r => fst (fst r)) r
  else
    let '(sef, rev) := to_sef p in
    let candidate := map Z.of_nat (seq (S (rows sef)) (cols sef - rows sef)) in
    let back := fun (s : option (list Qc)) (o : res (option (list Qc))) =>
      match s, rev with
      | Some x, Some rv => exists x', r_back e rv x x' /\ o = Ok (Some x')
      | _, _ => o = Ok s
      end in
    let two_phase := exists n r, run_two_phase e sef n r /\
      match r with Ok r => back (fst (fst r)) o | Raise x => o = Raise x | Diverges => False end in
    if Nat.leb (rows sef) (cols sef) then
      exists ok, run_is_basis e sef candidate ok /\
      match ok with
      | Raise x => o = Raise x
      | Diverges => False
      | Ok true => exists n r, run_simplex e sef candidate n r /\
          match r with
          | Ok r => back (fst (fst r)) o
          | Raise ArithmeticError => o = Ok None
          | Raise x => o = Raise x
          | Diverges => False
          end
      | Ok false => two_phase
      end
    else two_phase.
(** ... or does not end *)
Definition solve_hangs (e : Qc) (p : lp) : Prop :=
  if lsef p then two_phase_hangs e p
  else
    let sef := fst (to_sef p) in
    let candidate := map Z.of_nat (seq (S (rows sef)) (cols sef - rows sef)) in
    if Nat.leb (rows sef) (cols sef) then
      (run_is_basis e sef candidate (Ok true) /\ simplex_hangs e sef candidate) \/ (run_is_basis e sef candidate (Ok false) /\ two_phase_hangs e sef)
    else two_phase_hangs e sef.
