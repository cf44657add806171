(** Model of the steps recorded by LinearProgram: parsers/_description.py, the attribute [_steps],
    [__append_to_steps], [__format_steps], [clear_steps], and the methods of
    pytimize/programs/_linear.py with a parameter [show_steps].
    An object is a program together with its recorded steps; a method is a function on objects that
    returns the object as it is left behind, also when an exception is raised.  A text is the list of
    its code points.  Simplification: how numpy prints an array is not modelled; the text shown for
    an array (str and the clean-up of lines 49-55) is an arbitrary function [array_text]. *)
From Coq Require Import String Ascii List Bool Arith ZArith QArith Qcanon.
From Verif Require Import Py QcTac ComparatorModel MatModel LinearModel TextModel.
Import ListNotations.
Open Scope nat_scope.
Open Scope string_scope.
Open Scope list_scope.

(** one entry of [_steps]: {"key": key, "text": text} *)
Record step := mkstep { skey : string; stext : text }.

(** * The descriptors *)
(** _description.py:3-41 [_steps]; a descriptor is given by its pieces around the holes {} *)
Definition nl : text := [10%Z].
Definition descriptors : list (string * list text) :=
  [("1.01", [lit "Convert to Canonical Form for Base Indices of "; []]);
   ("1.02", [lit "Basis:" ++ nl; []]);
   ("1.03", [lit "Corresponding Coefficient Entries: "; []]);
   ("1.04", [lit "Basis Inverse:" ++ nl; []]);
   ("1.05", [lit "y Vector:" ++ nl; []]);
   ("2.01", [lit "Is "; lit " Feasible?"]);
   ("2.02", [[]; lit " is Feasible:"]);
   ("2.03", [lit "* P is in SEF"]);
   ("2.04", [lit "* All Entries of "; lit " is Nonnegative"]);
   ("2.05", [lit "* Constraints are Satisfied (Ax = b)"]);
   ("2.06", [[]; lit " is Not Feasible:"]);
   ("2.07", [lit "* Some Entries of "; lit " are Negative"]);
   ("2.08", [lit "* Constraints are Not Satisfied (Ax " ++ [8800%Z] ++ lit " b)"]);
   ("2.09", [lit "* Entry at Index "; lit " is Negative"]);
   ("2.10", [lit "* Entry at Index "; lit " is Not a Free Variable"]);
   ("2.11", [lit "* "; lit " " ++ [8226%Z] ++ lit " "; lit " = "; lit " and "; lit " is Not " ++ [8804%Z] ++ lit " "; []]);
   ("2.12", [lit "* "; lit " " ++ [8226%Z] ++ lit " "; lit " = "; lit " and "; lit " is Not " ++ [8805%Z] ++ lit " "; []]);
   ("2.13", [lit "* "; lit " " ++ [8226%Z] ++ lit " "; lit " = "; lit " and "; lit " is Not " ++ [8800%Z] ++ lit " "; []]);
   ("2.14", [lit "* Constraints are Satisfied"]);
   ("2.15", [lit "* All Entries are Either Nonnegative or is a Free Variable"]);
   ("3.01", [lit "Convert to SEF"]);
   ("3.02", [lit "Take Negative of Coefficient Vector to Set Objective to Maximization"]);
   ("3.03", [[]; lit " => "; []]);
   ("3.04", [lit "Free Variables at Index x"]);
   ("4.01", [lit "Is "; lit " A Basic Solution"]);
   ("4.02", [lit "Column "; lit " Is Not a Zero"]);
   ("4.03", [lit "Ax " ++ [8800%Z] ++ lit " b"]);
   ("4.04", [[]; lit " is A Basic Solution for Basis "; []]);
   ("4.05", [[]; lit " is Not A Basic Solution for Basis "; []]);
   ("4.06", [lit "Ax = b"]);
   ("4.07", [lit "Columns of Basis are Zero"]);
   ("5.01", [[]; []]);
   ("5.02", [lit "Iteration "; lit " ================================="]);
   ("5.03", [lit "Solution: "; []]);
   ("5.04", [lit "Optimal Basis: "; []]);
   ("5.05", [lit "The Program is Unbounded"]);
   ("5.06", [lit "Optimality Certificate: "; []])].

(** [descriptor.format( *arguments )]: superfluous arguments are ignored, a missing one is an
    IndexError *)
Fixpoint fill (pieces : list text) (arguments : list text) : res text :=
  match pieces with
  | [] => Ok []
  | [t] => Ok t
  | t :: pieces' =>
    match arguments with
    | [] => Raise IndexError
    | a :: arguments' => do r <- fill pieces' arguments' ; Ok (t ++ a ++ r)
    end
  end.

(** the arguments that occur: arrays, lists of integers, integers, programs, and the characters of
    a bare key *)
Inductive arg := AArr (a : array) | AInts (l : list Z) | AInt (n : Z) | AProg (p : lp) | AChar (c : Z).

Definition sint_text (n : Z) : text := if Z.ltb n 0 then lit "-" ++ int_text (- n) else int_text n.
(** [str] of a list of integers *)
Definition ints_text (l : list Z) : text := lit "[" ++ join (lit ", ") (map sint_text l) ++ lit "]".

Section Steps.
Variable array_text : array -> text.

Definition arg_text (a : arg) : res text :=
  match a with
  | AArr a => Ok (array_text a)
  | AInts l => Ok (ints_text l)
  | AInt n => Ok (sint_text n)
  | AProg p => repr p
  | AChar c => Ok [c]
  end.
(** _description.py:46-58 [render_descriptor] *)
Definition render (key : string) (arguments : list arg) : res text :=
  match dget String.eqb key descriptors with
  | None => Raise KeyError
  | Some pieces => do ts <- mapM arg_text arguments ; fill pieces ts
  end.

(** * Objects *)
Definition obj := (lp * list step)%type.
Definition M (A : Type) := obj -> obj * res A.
Definition ret {A} (x : A) : M A := fun o => (o, Ok x).
Definition lift {A} (r : res A) : M A := fun o => (o, r).
Definition mbind {A B} (m : M A) (f : A -> M B) : M B :=
  fun o => let '(o', r) := m o in match r with Ok x => f x o' | Raise e => (o', Raise e) | Diverges => (o', Diverges) end.
Definition prog : M lp := fun o => (o, Ok (fst o)).
Definition put (p : lp) : M unit := fun o => ((p, snd o), Ok tt).
(** [self.copy()...]: the work is done on a copy with the same program and steps, which is returned *)
Definition on_copy {A} (m : M A) : M (A * obj) :=
  fun o => let '(o', r) := m o in (o, match r with Ok x => Ok (x, o') | Raise e => Raise e | Diverges => Diverges end).

(** _linear.py:1735-1765 [__append_to_steps] of one entry *)
Inductive entry := Key (key : string) | With (key : string) (arguments : list arg).
(** line 1751/1763: [list(entity[1:])] of a bare key are its characters after the first *)
Definition entry_key (e : entry) : string := match e with Key k => k | With k _ => k end.
Definition entry_args (e : entry) : list arg := match e with Key k => map AChar (tl (lit k)) | With _ l => l end.
Definition append (e : entry) : M unit :=
  mbind (lift (render (entry_key e) (entry_args e))) (fun t o => ((fst o, snd o ++ [mkstep (entry_key e) t]), Ok tt)).
Fixpoint append_all (es : list entry) : M unit :=
  match es with [] => ret tt | e :: es' => mbind (append e) (fun _ => append_all es') end.
(** [show_steps and self.__append_to_steps(...)] *)
Definition say (show : bool) (es : list entry) : M unit := if show then append_all es else ret tt.

Local Notation "'let*' x := m 'in' k" := (mbind m (fun x => k)) (at level 200, x binder, m at level 200, k at level 200, right associativity).

(** * The methods *)

(** _linear.py:1299-1369 [is_feasible] *)
Definition is_feasible_s (show : bool) (x : list Qc) : M bool :=
  let* p := prog in
  if negb (Nat.eqb (length x) (cols p)) then lift (Raise ValueError)
  else
    let X := AArr (Vec x) in
    let* _ := say show [With "2.01" [X]] in
    if lsef p then
      let nonnegative := forallb (fun v => cc_ge v 0) x in
      let satisfied := allclose (mulmv (lA p) x) (lb p) in
      let feasible := nonnegative && satisfied in
      let* _ := say (show && feasible) [With "2.02" [X]; Key "2.03"; With "2.04" [X]; Key "2.05"] in
      let* _ := say (show && negb feasible)
                  ([With "2.06" [X]; Key "2.03"] ++ (if negb nonnegative then [With "2.07" [X]] else []) ++
                   (if negb satisfied then [Key "2.08"] else [])) in
      ret feasible
    else
      let feasible :=
        forallb (fun i => if inb i (lneg p) then qle (at_ x i) 0
                          else if inb i (lfree p) then true else qle 0 (at_ x i)) (seq 0 (length x))
        && forallb (fun i =>
             let value := MatModel.dot (nth i (lA p) []) x in
             match dget Nat.eqb i (lineq p) with
             | Some s => negb (String.eqb s "<=" && qlt (at_ (lb p) i) value)
                         && negb (String.eqb s ">=" && qlt value (at_ (lb p) i))
             | None => math_isclose value (at_ (lb p) i)
             end) (seq 0 (rows p)) in
      let* _ := say (show && feasible) [With "2.02" [X]; Key "2.14"; Key "2.15"] in
      ret feasible.

(** lines 588-592: the loop over the columns outside the basis *)
Fixpoint check_columns (show : bool) (B : list nat) (x : list Qc) (is : list nat) (result : bool) : M bool :=
  match is with
  | [] => ret result
  | i :: is' =>
    if negb (inb i B) && negb (is_close_to_zero (at_ x i)) then
      let* _ := say show [With "4.02" [AInt (Z.of_nat i + 1)]] in check_columns show B x is' false
    else check_columns show B x is' result
  end.
(** _linear.py:553-604 [is_basic_solution]; the basis shown last is 0-based *)
Definition is_basic_solution_s (show : bool) (x : list Qc) (basis : list Z) : M bool :=
  let* p := prog in
  if negb (lsef p) then lift (Raise ArithmeticError)
  else if negb (Nat.eqb (length x) (cols p)) then lift (Raise ValueError)
  else
    let* ok := lift (is_basis p basis) in
    if negb ok then lift (Raise ValueError)
    else
      let* _ := say show [With "4.01" [AInts basis]] in
      let B := to_array_indexing basis in
      let* columns := check_columns show B x (seq 0 (cols p)) true in
      let satisfied := allclose (mulmv (lA p) x) (lb p) in
      let* _ := say (show && negb satisfied) [Key "4.03"] in
      let result := columns && satisfied in
      let shown := [AArr (Vec x); AInts (map Z.of_nat B)] in
      let* _ := say (show && negb result) [With "4.05" shown] in
      let* _ := say (show && result) [Key "4.06"; Key "4.07"; With "4.04" shown] in
      ret result.

(** _linear.py:780-820 [__to_canonical_form], in place; [basis] is 0-based *)
Definition canonical_s (show : bool) (basis : list nat) : M unit :=
  let* p := prog in
  let Ab := columns_of basis (lA p) in
  let cb := take basis (lc p) in
  let* X := lift (minv Ab) in
  let y := mulmv (transpose (rows p) X) cb in
  let m := length basis in
  let* _ := say show [With "1.02" [AArr (Mat m Ab)]; With "1.03" [AArr (Vec cb)]; With "1.04" [AArr (Mat m X)]; With "1.05" [AArr (Vec y)]] in
  put (mklp (mulmm (cols p) X (lA p)) (mulmv X (lb p)) (vsub (lc p) (mulvm (cols p) y (lA p)))
            (MatModel.dot y (lb p) + lz p)%Qc (lobj p) (lineq p) (lsef p) (lfree p) (lneg p)).
(** _linear.py:741-778 [to_canonical_form], in place *)
Definition to_canonical_form_s (show : bool) (basis : list Z) : M unit :=
  let* p := prog in
  if negb (lsef p) then lift (Raise ArithmeticError)
  else
    let* _ := say show [With "1.01" [AInts basis]] in
    let* ok := lift (is_basis p basis) in
    if ok then canonical_s show (to_array_indexing basis) else lift (Raise ValueError).

(** _linear.py:1559-1628 [to_sef], in place *)
Definition to_sef_s (show : bool) : M (option reverse) :=
  let* p := prog in
  if lsef p then ret None
  else
    let* _ := say show [Key "3.01"] in
    let* _ := say (show && String.eqb (lobj p) "min") [Key "3.02"; With "3.03" [AArr (Vec (vopp (vopp (lc p)))); AArr (Vec (vopp (lc p)))]] in
    let '(q, r) := to_sef p in
    let* _ := put q in ret r.

(** _linear.py:1113-1194 [simplex_iteration], in place; the bases of the result are 0-based *)
Definition simplex_iteration_s (show : bool) (basis : list Z) : M iter :=
  let* p := prog in
  if negb (lsef p) then lift (Raise ArithmeticError)
  else
    let* ok := lift (is_basis p basis) in
    if negb ok then lift (Raise ValueError)
    else
      let* _ := put (negate_rows p) in
      let B := sort (to_array_indexing basis) in
      let* _ := canonical_s show B in
      let* q := prog in
      let* x := lift (basic_solution q B) in
      let N := filter (fun i => negb (inb i B)) (seq 0 (cols q)) in
      if forallb (fun v => cc_le v 0) (take N (lc q)) then
        if existsb is_negative x then lift (Raise ArithmeticError) else ret (Optimal x B q)
      else
        match find (fun i => is_positive (at_ (lc q) i)) N with
        | None => lift (Raise TypeError)
        | Some k =>
          let Ak := map (fun r => at_ r k) (lA q) in
          if forallb (fun v => cc_le v 0) Ak then ret (Unbounded x B q)
          else
            match ratio_test 0 (lb q) Ak None None with
            | None => lift (Raise TypeError)
            | Some leave => ret (Next (sort (remove_first (nth leave B 0) B ++ [k])) q)
            end
        end.

Definition updated (it : iter) : lp := match it with Optimal _ _ q | Unbounded _ _ q | Next _ q => q end.
(** _linear.py:1083-1088; every iteration runs on a copy *)
Fixpoint simplex_loop_s (show : bool) (fuel : nat) (counter : Z) (basis : list Z) : M iter :=
  match fuel with
  | 0 => lift Diverges
  | S fuel' =>
    let* r := on_copy (simplex_iteration_s show basis) in
    let counter := (counter + 1)%Z in
    let* _ := say show [With "5.02" [AInt counter]] in
    let* _ := say show [With "5.01" [AProg (fst (snd r))]] in
    match fst r with
    | Next B _ => simplex_loop_s show fuel' counter (to_math_indexing B)
    | it => ret it
    end
  end.
(** _linear.py:1039-1111 [simplex] *)
Definition simplex_s (show : bool) (fuel : nat) (basis : list Z) : M outcome :=
  let* p := prog in
  if negb (lsef p) then lift (Raise ArithmeticError)
  else
    let q := negate_rows p in
    let* _ := put q in
    let* _ := say show [With "5.02" [AInt 0]] in
    let* _ := say show [With "5.01" [AProg q]] in
    let* it := simplex_loop_s show fuel 0 basis in
    let* r := lift (simplex_result (lb p) q it) in
    let* _ := match r with
              | (Some x, Some B, CVec y) =>
                  let* _ := say show [With "5.03" [AArr (Vec x)]] in
                  let* _ := say show [With "5.04" [AInts B]] in
                  say show [With "5.06" [AArr (Vec y)]]
              | _ => say show [Key "5.05"]
              end in
    let* _ := put (mklp (map (fun rv => if qlt (snd rv) 0 then vopp (fst rv) else fst rv) (combine (lA q) (lb p)))
                        (map (fun vv => if qlt (snd vv) 0 then (- fst vv)%Qc else fst vv) (combine (lb q) (lb p)))
                        (lc q) (lz q) (lobj q) (lineq q) (lsef q) (lfree q) (lneg q)) in
    ret r.

(** work on another object *)
Definition on_object {A} (o : obj) (m : M A) : M (A * lp) :=
  lift (let '(o', r) := m o in match r with Ok x => Ok (x, fst o') | Raise e => Raise e | Diverges => Diverges end).
(** _linear.py:958-1037 [two_phase_simplex]; line 992 runs simplex on the auxiliary program, which
    has its own steps, with the default [show_steps=True] *)
Definition two_phase_simplex_s (show : bool) (fuel : nat) : M outcome :=
  let* p := prog in
  let* aux0 := lift (auxiliary p) in
  let* r := on_object (aux0, [])
    (let* _ := to_sef_s show in simplex_s true fuel (map Z.of_nat (seq (S (cols p)) (rows p)))) in
  let aux' := snd r in
  match fst r with
  | (Some x, Some basis, _) =>
    let* v := lift (evaluate aux' x) in
    if is_close_to_zero v then
      let* ok := lift (is_basis p basis) in
      if ok then simplex_s show fuel basis
      else
        let positive := map S (filter (fun i => negb (is_close_to_zero (at_ x i))) (seq 0 (cols p))) in
        let zero_set := map S (filter (fun i => is_close_to_zero (at_ x i)) (seq 0 (cols p))) in
        let size := rows p - length positive in
        let start := map (fun i => (i, [nth i zero_set 0])) (seq 0 (S (length zero_set) - size)) in
        if Nat.leb (rows p) (length positive) then lift (Raise IndexError)
        else
          let* c := lift (complete_basis fuel p positive zero_set size (rev start)) in
          simplex_s show fuel (map Z.of_nat (match c with Some B => B | None => positive end))
    else
      let B := to_array_indexing basis in
      let* X := lift (minv (transpose (rows p) (columns_of B (lA aux')))) in
      ret (None, None, CVec (flip_y (lb p) (mulmv X (take B (lc aux')))))
  | _ => lift (Raise ValueError)
  end.

(** [try: ... except ArithmeticError: return None] *)
Definition catch {A} (m : M A) : M (option A) :=
  fun o => let '(o', r) := m o in
    (o', match r with Ok x => Ok (Some x) | Raise ArithmeticError => Ok None | Raise e => Raise e | Diverges => Diverges end).
(** _linear.py:905-956 [solve]: for a program in SEF line 921 calls two_phase_simplex with the default
    [show_steps=True]; otherwise the work is done on the copy made by to_sef *)
Definition solve_s (show : bool) (fuel : nat) : M (option (list Qc)) :=
  let* p := prog in
  if lsef p then
    let* r := two_phase_simplex_s true fuel in ret (fst (fst r))
  else
    let* r := on_copy
      (let* rev := to_sef_s show in
       let* sef := prog in
       let back := fun o : option (list Qc) => match o, rev with Some x, Some r => Some (from_sef r x) | o, _ => o end in
       let two_phase := let* r := two_phase_simplex_s show fuel in ret (back (fst (fst r))) in
       let candidate := map Z.of_nat (seq (S (rows sef)) (cols sef - rows sef)) in
       if Nat.leb (rows sef) (cols sef) then
         let* ok := lift (is_basis sef candidate) in
         if ok then
           let* r := catch (simplex_s show fuel candidate) in
           match r with Some (x, _, _) => ret (back x) | None => ret None end
         else two_phase
       else two_phase) in
    ret (fst r).

(** _linear.py:1226-1268 [verify_unboundedness] and 1514-1535 [value_of]: lines 1259 and 1532 call
    is_feasible with the default [show_steps=True] *)
Definition verify_unboundedness_s (show : bool) (x d : list Qc) : M bool :=
  let* p := prog in
  if negb (lsef p) then lift (Raise ArithmeticError)
  else
    let* ok := is_feasible_s true x in
    if negb ok then ret false
    else if negb (Nat.eqb (length d) (cols p)) then lift (Raise ValueError)
    else if cc_le (MatModel.dot (lc p) d) 0 then ret false
    else if negb (forallb (fun v => np_isclose v 0) (mulmv (lA p) d)) then ret false
    else ret (forallb (fun v => cc_ge v 0) d).
Definition value_of_s (x : list Qc) : M Qc :=
  let* p := prog in
  let* ok := is_feasible_s true x in
  if ok then lift (evaluate p x) else lift (Raise ValueError).

(** _linear.py:1641-1651 [clear_steps]; [copy] (1537-1557) copies the steps.  Not in place, line 1647
    calls the method again, not in place.  [fuel] bounds the depth of the calls. *)
Fixpoint clear_steps (fuel : nat) (in_place : bool) : M obj :=
  match fuel with
  | 0 => lift Diverges
  | S fuel' =>
    if in_place then fun o => ((fst o, []), Ok (fst o, []))
    else let* r := on_copy (clear_steps fuel' false) in ret (fst r)
  end.

End Steps.

(** * Texts *)
(** str.isspace *)
Definition is_space (c : Z) : bool :=
  (Z.leb 9 c && Z.leb c 13) || (Z.leb 28 c && Z.leb c 32) || Z.eqb c 133 || Z.eqb c 160 || Z.eqb c 5760 ||
  (Z.leb 8192 c && Z.leb c 8202) || Z.eqb c 8232 || Z.eqb c 8233 || Z.eqb c 8239 || Z.eqb c 8287 || Z.eqb c 12288.
Fixpoint strip_left (t : text) : text :=
  match t with [] => [] | c :: t' => if is_space c then strip_left t' else t end.
Definition strip (t : text) : text := rev (strip_left (rev (strip_left t))).
(** _linear.py:1768-1779 [__format_steps], the property [steps_string] *)
Definition steps_string (o : obj) : text :=
  strip (fold_left (fun previous current => previous ++ nl ++ stext current) (snd o) []).
