(** Model of the printed form of a linear program: LinearProgram._format_number and __repr__,
    pytimize/programs/_linear.py:190-391, with parsers/_symbol.py.
    A text is the list of its code points.  Simplification: numbers are exact rationals, so that
    [math.floor(math.log(x, 10))] and [round] are exact and the shortest text of a rounded number
    shows exactly its digits. *)
From Coq Require Import String Ascii List Bool Arith ZArith QArith Qcanon Qround.
From Verif Require Import Py QcTac ComparatorModel LinearModel BasicModel.
Import ListNotations.
Open Scope nat_scope.
Open Scope string_scope.
Open Scope list_scope.

Definition text := list Z.
(** a literal of the source *)
Definition lit (s : string) : text := map (fun a => Z.of_nat (nat_of_ascii a)) (list_ascii_of_string s).
Definition dot : Z := 46%Z.
Definition digit_code (d : Z) : Z := (48 + d)%Z.

(** [str] of a nonnegative integer *)
Fixpoint digs (fuel : nat) (n : Z) : list Z :=
  match fuel with
  | O => [n]
  | S f => if Z.ltb n 10 then [n] else digs f (n / 10) ++ [(n mod 10)%Z]
  end.
Definition int_text (n : Z) : text := map digit_code (digs (Z.to_nat (Z.log2 n)) n).
(** exactly [k] digits *)
Fixpoint padded (k : nat) (n : Z) : list Z :=
  match k with O => [] | S k' => padded k' (n / 10) ++ [(n mod 10)%Z] end.
Definition pow10 (k : nat) : Z := (10 ^ Z.of_nat k)%Z.

(** [str(round(x, k))] where [round] gives n / 10^k: no superfluous zeros, at least one decimal *)
Fixpoint strip_zeros (l : list Z) : list Z :=
  match l with
  | [] => []
  | d :: l' => match strip_zeros l' with [] => if Z.eqb d 0 then [] else [d] | r => d :: r end
  end.
Definition fixed_text (n : Z) (k : nat) : text :=
  let frac := strip_zeros (padded k (n mod pow10 k)) in
  int_text (n / pow10 k) ++ [dot] ++ map digit_code (match frac with [] => [0%Z] | _ => frac end).

(** x * 10^e *)
Definition shift (x : Qc) (e : Z) : Qc := (if Z.ltb e 0 then x / qz (10 ^ (- e)) else x * qz (10 ^ e))%Qc.
(** [math.floor(math.log(x, 10))], x > 0 *)
Fixpoint log_below (fuel k : nat) (x : Qc) : Z :=
  match fuel with
  | O => (- Z.of_nat k)%Z
  | S f => if qle 1 (shift x (Z.of_nat k)) then (- Z.of_nat k)%Z else log_below f (S k) x
  end.
Definition floor_log10 (x : Qc) : Z :=
  if qlt x 1 then log_below (Pos.size_nat (Qden (this x))) 1 x
  else (Z.of_nat (length (digs (Z.to_nat (Z.log2 (Qfloor (this x)))) (Qfloor (this x)))) - 1)%Z.
(** ["{:.3e}".format(x)], x > 0 *)
Definition sci_text (x : Qc) : text :=
  let e := floor_log10 x in
  let r := rint (shift x (3 - e)) in
  let '(r, e) := if Z.eqb r 10000 then (1000%Z, (e + 1)%Z) else (r, e) in
  map digit_code (padded 1 (r / 1000)) ++ [dot] ++ map digit_code (padded 3 (r mod 1000)) ++
  lit "e" ++ (if Z.ltb e 0 then lit "-" else lit "+") ++
  (if Z.ltb (Z.abs e) 100 then map digit_code (padded 2 (Z.abs e)) else int_text (Z.abs e)).

(** lines 216-230 *)
Definition magnitude_text (m : Qc) : text :=
  if is_close_to_zero m then lit "0."
  else if qlt (qz 10000000000) m then sci_text m
  else if is_integer m then int_text (rint m) ++ [dot]
  else if qlt m 1 then
    let precision := (Z.abs (floor_log10 m) + 3)%Z in
    let n := rint (shift m precision) in
    if qlt m (Q2Qc (1 # 10000)) then sci_text (shift (qz n) (- precision)) else fixed_text n (Z.to_nat precision)
  else fixed_text (rint (shift m 3)) 3.
(** [text.split(".")] *)
Fixpoint split_dots (t : text) : list text :=
  match t with
  | [] => [[]]
  | c :: t' => if Z.eqb c dot then [] :: split_dots t' else match split_dots t' with w :: ws => (c :: w) :: ws | [] => [[c]] end
  end.
(** lines 190-236 [_format_number] *)
Definition format_number (x : Qc) : res (text * nat * nat) :=
  let body := magnitude_text (qabs x) in
  let t := if is_negative x then lit "-" ++ body else body in
  match map (@length Z) (split_dots t) with
  | [i; d] => Ok (t, i, d)
  | _ => Raise ValueError
  end.

(** parsers/_symbol.py *)
Definition subscript (t : text) : text := map (fun c => if Z.leb 48 c && Z.leb c 57 then (8320 + (c - 48))%Z else c) t.
Fixpoint join (sep : text) (l : list text) : text :=
  match l with [] => [] | [t] => t | t :: l' => t ++ sep ++ join sep l' end.
Definition spaces (n : nat) : text := repeat 32%Z n.

Fixpoint mapM {A B} (f : A -> res B) (l : list A) : res (list B) :=
  match l with [] => Ok [] | x :: l' => do y <- f x ; do ys <- mapM f l' ; Ok (y :: ys) end.

Definition printed := (text * nat * nat)%type.
Definition ptext (x : printed) : text := fst (fst x).
Definition pint (x : printed) : nat := snd (fst x).
Definition pdec (x : printed) : nat := snd x.
(** lines 287-300: widths of the columns, and the same for b *)
Definition widest (f : printed -> nat) (l : list printed) : nat := fold_left (fun w x => Nat.max (f x) w) l 0.
(** [entry[-d:]], d > 0 *)
Definition last_chars (d : nat) (t : text) : text := skipn (length t - d) t.
(** lines 323-337 and 358-373: a number in its column *)
Definition cell (ints decs : nat) (x : printed) : text :=
  spaces (ints - pint x) ++ firstn (pint x + 1) (ptext x) ++
  (if Nat.eqb (pdec x) 0 then spaces decs else last_chars (pdec x) (ptext x) ++ spaces (decs - pdec x)).
(** the cells of a row, two spaces between them *)
Definition row_cells (widths : list (nat * nat)) (r : list printed) : text :=
  join (spaces 2) (map (fun wx => cell (fst (fst wx)) (snd (fst wx)) (snd wx)) (combine widths r)).
(** lines 317-376 for one row *)
Definition row_text (p : lp) (widths : list (nat * nat)) (bwidth : nat * nat) (i : nat) (r : list printed) (y : printed) : text :=
  lit "[" ++ row_cells widths r ++ lit "]" ++ (if Nat.eqb i (rows p / 2) then lit "x    " else lit "     ") ++
  (match dget Nat.eqb i (lineq p) with Some s => if String.eqb s ">=" then [8805%Z] else [8804%Z] | None => lit "=" end) ++ lit "   " ++
  lit "[" ++ cell (fst bwidth) (snd bwidth) y ++ lit "]" ++ [10%Z].
(** lines 378-391 *)
Definition signs_text (p : lp) : text :=
  let negative := lneg p in
  let positive := positive_variables p in
  let name (i : Z) := lit "x" ++ int_text i in
  (if Nat.eqb (length negative) (cols p) then lit "x " ++ [8804%Z] ++ lit " 0" ++ [10%Z]
   else if Nat.ltb 0 (length negative) then subscript (join (lit ", ") (map (fun i => name (Z.of_nat (S i))) negative)) ++ lit " " ++ [8804%Z] ++ lit " 0" ++ [10%Z]
   else []) ++
  (if Nat.eqb (length positive) (cols p) then lit "x " ++ [8805%Z] ++ lit " 0" ++ [10%Z]
   else if Nat.ltb 0 (length positive) then subscript (join (lit ", ") (map name positive)) ++ lit " " ++ [8805%Z] ++ lit " 0" ++ [10%Z]
   else []).
(** lines 238-391 [__repr__] *)
Definition repr (p : lp) : res text :=
  do cs <- mapM format_number (lc p) ;
  do zt <- (if is_close_to_zero (lz p) then Ok []
            else do zn <- format_number (qabs (lz p)) ;
                 Ok (lit " " ++ (if is_negative (lz p) then lit "-" else lit "+") ++ lit " " ++ ptext zn)) ;
  do A <- mapM (mapM format_number) (lA p) ;
  do b <- mapM format_number (lb p) ;
  let widths := map (fun j => (widest pint (map (fun r => nth j r ([], 0, 0)) A), widest pdec (map (fun r => nth j r ([], 0, 0)) A))) (seq 0 (cols p)) in
  let bwidth := (widest pint b, widest pdec b) in
  let lines := concat (map (fun iry => row_text p widths bwidth (fst iry) (fst (snd iry)) (snd (snd iry))) (combine (seq 0 (rows p)) (combine A b))) in
  if Nat.eqb (rows p) 0 then Raise UnboundLocalError   (* [positive] is assigned in the loop over the rows *)
  else Ok ((if String.eqb (lobj p) "min" then lit "Min [" else lit "Max [") ++ join (lit " ") (map ptext cs) ++ lit "]x" ++ zt ++
           [10%Z] ++ lit "Subject To:" ++ [10%Z; 10%Z] ++ lines ++ signs_text p).
