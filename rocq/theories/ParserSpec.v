(** What the parsed texts look like, independently of regular expressions. *)
From Coq Require Import String Ascii List Bool Arith ZArith QArith Qcanon Lia.
From Verif Require Import ParserModel.
Import ListNotations.
Open Scope nat_scope.
Open Scope list_scope.

(** decimal numbers: digits, or digits, a dot and digits *)
Record decimal := mkdecimal { whole : text; fraction : option text }.
Definition digits (t : text) : Prop := t <> [] /\ forall c, In c t -> digit c = true.
Definition decimal_ok (d : decimal) : Prop := digits (whole d) /\ match fraction d with None => True | Some f => digits f end.
Definition decimal_text (d : decimal) : text := whole d ++ match fraction d with None => [] | Some f => "."%char :: f end.
(** the number a list of digits stands for, most significant first *)
Fixpoint digits_value (t : text) : nat :=
  match t with [] => 0 | c :: t' => (nat_of_ascii c - 48) * 10 ^ length t' + digits_value t' end.
Definition decimal_value (d : decimal) : Qc :=
  (Q2Qc (inject_Z (Z.of_nat (digits_value (whole d)))) +
   match fraction d with None => 0 | Some f => Q2Qc (inject_Z (Z.of_nat (digits_value f))) / Q2Qc (inject_Z (10 ^ Z.of_nat (length f))) end)%Qc.

(** * Edge lists *)
Record entry := mkentry { left : text; right : text; weight : decimal }.
Definition name (t : text) : Prop := t <> [] /\ forall c, In c t -> word c = true.
Inductive notation := Short | Long | ShortWeighted | LongWeighted.
Definition short_name (t : text) : Prop := name t /\ length t = 1.
(** [ab], [a-b], [ab:w], [a-b:w] *)
Definition written (k : notation) (e : entry) (t : text) : Prop :=
  match k with
  | Short => short_name (left e) /\ short_name (right e) /\ t = left e ++ right e
  | Long => name (left e) /\ name (right e) /\ t = left e ++ "-"%char :: right e
  | ShortWeighted => short_name (left e) /\ short_name (right e) /\ decimal_ok (weight e) /\ t = left e ++ right e ++ ":"%char :: decimal_text (weight e)
  | LongWeighted => name (left e) /\ name (right e) /\ decimal_ok (weight e) /\ t = left e ++ "-"%char :: right e ++ ":"%char :: decimal_text (weight e)
  end.
(** at least one text, single white-space characters in between *)
Inductive spaced : list text -> text -> Prop :=
| spaced_one t : spaced [t] t
| spaced_more t c ts s : space c = true -> spaced ts s -> spaced (t :: ts) (t ++ c :: s).
Definition in_notation (k : notation) (es : list entry) (s : text) : Prop :=
  exists ts s', Forall2 (written k) es ts /\ spaced ts s' /\ (s = s' \/ s = s' ++ [newline]).
Definition edge (k : notation) (e : entry) : string * string * Qc :=
  (string_of_list_ascii (left e), string_of_list_ascii (right e),
   match k with Short | Long => 0%Qc | ShortWeighted | LongWeighted => decimal_value (weight e) end).
Definition notation_number (k : notation) : Z := match k with Short => 0 | Long => 1 | ShortWeighted => 2 | LongWeighted => 3 end.

(** * Linear expressions *)
(** the sign that joins a term to what stands before it *)
Inductive sign := Plus | Minus | Bar.
Definition sign_text (g : sign) : ascii := match g with Plus => "+" | Minus => "-" | Bar => "|" end.
Record summand_ := mksummand { coefficient : decimal; position : text }.
Definition summand_ok (t : summand_) : Prop := decimal_ok (coefficient t) /\ digits (position t).
Definition summand_text (t : summand_) : text := decimal_text (coefficient t) ++ "x"%char :: "_"%char :: position t.
(** an optional minus, a term, and signed terms *)
Record expression := mkexpression { negative : bool; first : summand_; others : list (sign * summand_) }.
Definition expression_ok (e : expression) : Prop := summand_ok (first e) /\ forall g t, In (g, t) (others e) -> summand_ok t.
Definition expression_text (e : expression) : text :=
  (if negative e then ["-"%char] else []) ++ summand_text (first e) ++ flat_map (fun gt => sign_text (fst gt) :: summand_text (snd gt)) (others e).
(** the terms in order: index and signed coefficient; a bar counts as a plus *)
Definition index_of (t : summand_) : nat := digits_value (position t).
Definition terms (e : expression) : list (nat * Qc) :=
  (index_of (first e), if negative e then (- decimal_value (coefficient (first e)))%Qc else decimal_value (coefficient (first e))) ::
  map (fun gt => (index_of (snd gt), match fst gt with Minus => (- decimal_value (coefficient (snd gt)))%Qc | _ => decimal_value (coefficient (snd gt)) end)) (others e).
(** a text that is an expression, up to a final newline *)
Definition accepted (e : expression) (s : text) : Prop := expression_ok e /\ (s = expression_text e \/ s = expression_text e ++ [newline]).
Definition largest (ts : list (nat * Qc)) : nat := list_max (map fst ts).
(** entry i - 1 is the coefficient of x_i, every other entry is 0 *)
Definition placed (ts : list (nat * Qc)) (r : list Qc) : Prop :=
  (forall i v, In (i, v) ts -> 1 <= i /\ i <= length r /\ nth (i - 1) r 0%Qc = v) /\
  (forall j, (forall v, ~ In (S j, v) ts) -> nth j r 0%Qc = 0%Qc).
(** where numpy puts the coefficient of x_i in a row of n entries: x_0 counts from the end *)
Definition lands (n i : nat) : nat := match i with 0 => n - 1 | S i' => i' end.
(** entry j after all assignments, in the order of the terms: the last one that lands there, or 0 *)
Definition entry_after (ts : list (nat * Qc)) (n j : nat) : Qc :=
  fold_left (fun x iv => if Nat.eqb (lands n (fst iv)) j then snd iv else x) ts 0%Qc.
