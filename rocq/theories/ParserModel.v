(** Model of pytimize/parsers/_graph.py and pytimize/parsers/_linear.py, with the part of Python's
    [re] module they use.  Characters are the code points 0..255; the character classes below are
    the ones of [re] on them. *)
From Coq Require Import String Ascii List Bool Arith ZArith QArith Qcanon Lia.
From Verif Require Import Py.
Import ListNotations.
Open Scope nat_scope.
Open Scope list_scope.

Definition text := list ascii.
Definition between (a b : nat) (c : ascii) : bool := Nat.leb a (nat_of_ascii c) && Nat.leb (nat_of_ascii c) b.
(** [\d], [\w], [\s] *)
Definition digit : ascii -> bool := between 48 57.
Definition word (c : ascii) : bool :=
  between 48 57 c || between 65 90 c || between 95 95 c || between 97 122 c || between 170 170 c || between 178 179 c ||
  between 181 181 c || between 185 186 c || between 188 190 c || between 192 214 c || between 216 246 c || between 248 255 c.
Definition space (c : ascii) : bool := between 9 13 c || between 28 32 c || between 133 133 c || between 160 160 c.
Definition newline : ascii := ascii_of_nat 10.

(** * Regular expressions *)
(** [Skip] is an optional capturing group that took no part (reported as the empty string);
    [Eol] is [$]: the end, or before a final newline.  [^] at the start adds nothing to [match]. *)
Inductive re :=
| Chr (p : ascii -> bool)
| Eps
| Cat (a b : re)
| Alt (a b : re)
| Star (a : re)
| Grp (a : re)
| Skip
| Eol.
Definition plus (a : re) : re := Cat a (Star a).
Definition opt (a : re) : re := Alt a Eps.
Definition lit (c : ascii) : re := Chr (Ascii.eqb c).

(** All the ways to match a prefix, in the order in which the backtracking matcher tries them: the
    captured groups and what is left of the text. *)
Definition caught := (list text * text)%type.
Definition also (c : list text) (r : caught) : caught := (c ++ fst r, snd r).
Fixpoint star (f : text -> list caught) (n : nat) (s : text) : list caught :=
  match n with
  | 0 => [([], s)]
  | S n' =>
    flat_map (fun r => if Nat.ltb (length (snd r)) (length s) then map (also (fst r)) (star f n' (snd r)) else []) (f s) ++ [([], s)]
  end.
Fixpoint run (r : re) (s : text) : list caught :=
  match r with
  | Chr p => match s with c :: s' => if p c then [([], s')] else [] | [] => [] end
  | Eps => [([], s)]
  | Cat a b => flat_map (fun r => map (also (fst r)) (run b (snd r))) (run a s)
  | Alt a b => run a s ++ run b s
  | Star a => star (run a) (length s) s
  | Grp a => map (fun r => (firstn (length s - length (snd r)) s :: fst r, snd r)) (run a s)
  | Skip => [([[]], s)]
  | Eol => match s with [] => [([], s)] | [c] => if Ascii.eqb c newline then [([], s)] else [] | _ => [] end
  end.
(** [pattern.match(s) is not None] *)
Definition matches (r : re) (s : text) : bool := match run r s with [] => false | _ => true end.
(** [pattern.findall(s)]: the captured groups of the successive leftmost matches *)
Fixpoint findall (r : re) (fuel : nat) (s : text) : list (list text) :=
  match fuel with
  | 0 => []
  | S fuel' =>
    match run r s with
    | (c, s') :: _ =>
      c :: (if Nat.ltb (length s') (length s) then findall r fuel' s' else match s with [] => [] | _ :: s'' => findall r fuel' s'' end)
    | [] => match s with [] => [] | _ :: s'' => findall r fuel' s'' end
    end
  end.

(** * Numbers: [int] of a string of digits, [float] of digits with an optional fraction (the float is
    taken to be the exact decimal number) *)
Definition digit_value (c : ascii) : nat := nat_of_ascii c - 48.
Definition int_of (s : text) : nat := fold_left (fun n c => 10 * n + digit_value c) s 0.
Fixpoint before_dot (s : text) : text := match s with [] => [] | c :: s' => if Ascii.eqb c "." then [] else c :: before_dot s' end.
Fixpoint after_dot (s : text) : text := match s with [] => [] | c :: s' => if Ascii.eqb c "." then s' else after_dot s' end.
Definition float_of (s : text) : Qc :=
  (Q2Qc (inject_Z (Z.of_nat (int_of (before_dot s)))) +
   Q2Qc (inject_Z (Z.of_nat (int_of (after_dot s)))) / Q2Qc (inject_Z (10 ^ Z.of_nat (length (after_dot s)))))%Qc.

(** * GraphParser *)
Definition number : re := Cat (plus (Chr digit)) (opt (Cat (lit ".") (plus (Chr digit)))).
Definition several (a : re) : re := Cat a (Cat (Star (Cat (Chr space) a)) Eol).
(** _graph.py:31-38 the four validations *)
Definition validation_one : re := several (Cat (Chr word) (Chr word)).
Definition validation_two : re := several (Cat (plus (Chr word)) (Cat (lit "-") (plus (Chr word)))).
Definition validation_three : re := several (Cat (Chr word) (Cat (Chr word) (Cat (lit ":") number))).
Definition validation_four : re := several (Cat (plus (Chr word)) (Cat (lit "-") (Cat (plus (Chr word)) (Cat (lit ":") number)))).
(** _graph.py:15-22 the four terms *)
Definition term_one : re := Cat (Grp (Chr word)) (Grp (Chr word)).
Definition term_two : re := Cat (Grp (plus (Chr word))) (Cat (lit "-") (Grp (plus (Chr word)))).
Definition term_three : re := Cat (Grp (Chr word)) (Cat (Grp (Chr word)) (Cat (lit ":") (Grp number))).
Definition term_four : re := Cat (Grp (plus (Chr word))) (Cat (lit "-") (Cat (Grp (plus (Chr word))) (Cat (lit ":") (Grp number)))).
(** _graph.py:30-50 [GraphParser.get_expression_type] *)
Definition get_expression_type (s : text) : Z :=
  if matches validation_one s then 0%Z
  else if matches validation_two s then 1%Z
  else if matches validation_three s then 2%Z
  else if matches validation_four s then 3%Z
  else (-1)%Z.
(** _graph.py:24-25 [info[0]], [info[1]], [float(info[2])] *)
Definition edge_of (weighted : bool) (info : list text) : string * string * Qc :=
  (string_of_list_ascii (nth 0 info []), string_of_list_ascii (nth 1 info []), if weighted then float_of (nth 2 info []) else 0%Qc).
(** _graph.py:7-27 [GraphParser.parse] *)
Definition parse_graph (expression : string) : res (list (string * string * Qc)) :=
  let s := list_ascii_of_string expression in
  let parse_type := get_expression_type s in
  if (parse_type =? -1)%Z then Raise ValueError
  else
    let term := if (parse_type =? 0)%Z then term_one else if (parse_type =? 1)%Z then term_two
                else if (parse_type =? 2)%Z then term_three else term_four in
    Ok (map (edge_of (1 <? parse_type)%Z) (findall term (S (length s)) s)).

(** * LinearParser *)
(** _linear.py:45 the class [[+|-]] contains the bar *)
Definition joint (c : ascii) : bool := Ascii.eqb c "+" || Ascii.eqb c "|" || Ascii.eqb c "-".
Definition summand : re := Cat number (Cat (lit "x") (Cat (lit "_") (plus (Chr digit)))).
(** _linear.py:44-47 [LinearParser.validate_expression] *)
Definition linear_validation : re := Cat (opt (lit "-")) (Cat summand (Cat (Star (Cat (Chr joint) summand)) Eol)).
Definition validate_expression (s : text) : bool := matches linear_validation s.
(** _linear.py:11 *)
Definition linear_term : re :=
  Cat (Alt (Grp (Alt (lit "+") (lit "-"))) Skip) (Cat (Grp number) (Cat (lit "x") (Cat (lit "_") (Grp (plus (Chr digit)))))).
(** _linear.py:13-24 the loop over the terms: [data] and [length] *)
Fixpoint collect (infos : list (list text)) (data : list (Z * Qc)) (length : Z) : res (list (Z * Qc) * Z) :=
  match infos with
  | [] => Ok (data, length)
  | info :: infos' =>
    let index := (Z.of_nat (int_of (nth 2 info [])) - 1)%Z in
    if dmem Z.eqb index data then Raise PlainException
    else
      let value := float_of (nth 1 info []) in
      let value := match nth 0 info [] with ["-"%char] => (- value)%Qc | _ => value end in
      collect infos' (dset Z.eqb index value data) (if (index >? length)%Z then index else length)
  end.
Fixpoint put (v : list Qc) (i : nat) (x : Qc) : list Qc :=
  match v, i with
  | [], _ => []
  | _ :: v', 0 => x :: v'
  | y :: v', S i' => y :: put v' i' x
  end.
(** _linear.py:28-29 [result[0, key] = value]; numpy counts negative keys from the end *)
Fixpoint fill (data : list (Z * Qc)) (v : list Qc) : res (list Qc) :=
  match data with
  | [] => Ok v
  | (key, value) :: data' =>
    let n := Z.of_nat (length v) in
    let i := (if key <? 0 then key + n else key)%Z in
    if (i <? 0)%Z || (n <=? i)%Z then Raise IndexError
    else fill data' (put v (Z.to_nat i) value)
  end.
(** _linear.py:9-33 [LinearParser.parse]; the result is the single row of the (1, n) array.
    [np.full] refuses a negative size. *)
Definition parse_linear (expression : string) (size : option Z) : res (list Qc) :=
  let s := list_ascii_of_string expression in
  if validate_expression s then
    do r <- collect (findall linear_term (S (length s)) s) [] 0%Z ;
    let n := match size with None => (snd r + 1)%Z | Some n => n end in
    if (n <? 0)%Z then Raise ValueError else fill (fst r) (repeat 0%Qc (Z.to_nat n))
  else Raise PlainException.
(** _linear.py:35-41 [LinearParser.parse_multiple]: the rows are computed and dropped; [None] is what a
    function without a return statement returns *)
Fixpoint parse_multiple (expressions : list string) (size : option Z) : res (option (list (list Qc))) :=
  match expressions with
  | [] => Ok None
  | expression :: expressions' =>
    if validate_expression (list_ascii_of_string expression) then
      do _ <- parse_linear expression size ;
      parse_multiple expressions' size
    else Raise PlainException
  end.
