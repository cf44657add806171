(** Reading the printed form of a program: what a person makes of the text, independently of how
    pytimize writes it. *)
From Coq Require Import String Ascii List Bool Arith ZArith QArith Qcanon.
From Verif Require Import Py QcTac LinearModel LinearSpec TextModel.
Import ListNotations.
Open Scope nat_scope.
Open Scope string_scope.
Open Scope list_scope.

(** * Texts *)
(** the pieces between occurrences of a character *)
Fixpoint split_on (c : Z) (t : text) : list text :=
  match t with
  | [] => [[]]
  | a :: t' => if Z.eqb a c then [] :: split_on c t' else match split_on c t' with w :: ws => (a :: w) :: ws | [] => [[a]] end
  end.
(** before and after the first occurrence of a character *)
Fixpoint cut (c : Z) (t : text) : option (text * text) :=
  match t with
  | [] => None
  | a :: t' => if Z.eqb a c then Some ([], t') else match cut c t' with Some (u, v) => Some (a :: u, v) | None => None end
  end.
Definition words (t : text) : list text := filter (fun w => match w with [] => false | _ => true end) (split_on 32 t).
Definition lines (t : text) : list text := split_on 10 t.
Fixpoint starts_with (u t : text) : bool :=
  match u, t with [], _ => true | a :: u', b :: t' => Z.eqb a b && starts_with u' t' | _, _ => false end.

(** * Numbers: -12.5, 3., 1.235e-05 *)
Fixpoint decimal (n : Z) (t : text) : option Z :=
  match t with
  | [] => Some n
  | c :: t' => if Z.leb 48 c && Z.leb c 57 then decimal (10 * n + (c - 48)) t' else None
  end.
Definition ten_to (e : Z) : Qc := if Z.ltb e 0 then (1 / qz (10 ^ (- e)))%Qc else qz (10 ^ e).
Definition read_exponent (t : text) : option Z :=
  match t with
  | c :: t' => if Z.eqb c 43 (* + *) then decimal 0 t'
               else if Z.eqb c 45 (* - *) then match decimal 0 t' with Some n => Some (- n)%Z | None => None end
               else None
  | [] => None
  end.
Definition read_unsigned (t : text) : option Qc :=
  match cut 46 (* . *) t with
  | None => None
  | Some (whole, rest) =>
    let '(fraction, exponent) := match cut 101 (* e *) rest with Some (f, e) => (f, read_exponent e) | None => (rest, Some 0%Z) end in
    match decimal 0 whole, decimal 0 fraction, exponent with
    | Some w, Some f, Some e => Some ((qz w + qz f * ten_to (- Z.of_nat (length fraction))) * ten_to e)%Qc
    | _, _, _ => None
    end
  end.
Definition read_number (t : text) : option Qc :=
  match t with
  | 45%Z :: t' => match read_unsigned t' with Some v => Some (- v)%Qc | None => None end
  | _ => read_unsigned t
  end.
Fixpoint read_numbers (l : list text) : option (list Qc) :=
  match l with
  | [] => Some []
  | t :: l' => match read_number t, read_numbers l' with Some v, Some vs => Some (v :: vs) | _, _ => None end
  end.

(** what may be shown for a number: zero for a number below the tolerance, otherwise a number with
    a relative error of at most 1/2000; three decimals are shown exactly up to 10^10 *)
Definition shown_as (v x : Qc) : Prop :=
  ((qabs x < Q2Qc (1 # 10000000000))%Qc -> v = 0%Qc) /\
  ((Q2Qc (1 # 10000000000) <= qabs x)%Qc -> (qabs (v - x) <= qabs x * Q2Qc (1 # 2000))%Qc) /\
  ((exists z, x * qz 1000 = qz z)%Qc -> (qabs x <= qz 10000000000)%Qc -> v = x).

(** * Programs *)
(** Max [1. -2.5]x + 3. *)
Definition read_objective (t : text) : option (bool * list Qc * Qc) :=
  let sense := if starts_with (lit "Max [") t then Some true else if starts_with (lit "Min [") t then Some false else None in
  match sense, cut 93 (* ] *) (skipn 5 t) with
  | Some m, Some (c, rest) =>
    match read_numbers (words c) with
    | Some cs =>
      match words rest with
      | [_] => Some (m, cs, 0%Qc)
      | [_; s; n] => match read_number n with
                     | Some v => if Z.eqb (hd 0%Z s) 43 then Some (m, cs, v) else Some (m, cs, (- v)%Qc)
                     | None => None
                     end
      | _ => None
      end
    | None => None
    end
  | _, _ => None
  end.
(** [ 1.   2.5]x    =   [3.] *)
Definition read_row (t : text) : option (list Qc * relation * Qc) :=
  match cut 93 (skipn 1 t) with
  | Some (entries, rest) =>
    match cut 91 (* [ *) rest with
    | Some (middle, after) =>
      match cut 93 after with
      | Some (value, _) =>
        let r := last (words middle) [] in
        match read_numbers (words entries), read_numbers (words value) with
        | Some row, Some [v] =>
          Some (row, if Z.eqb (hd 0%Z r) 8804 then AtMost else if Z.eqb (hd 0%Z r) 8805 then AtLeast else Equal, v)
        | _, _ => None
        end
      | None => None
      end
    | None => None
    end
  | None => None
  end.
Fixpoint read_rows (l : list text) : option (list (list Qc * relation * Qc)) :=
  match l with
  | [] => Some []
  | t :: l' => match read_row t, read_rows l' with Some r, Some rs => Some (r :: rs) | _, _ => None end
  end.
(** x₁, x₁₂ ≤ 0: the word x stands for all variables *)
Definition subscript_value (w : text) : Z :=
  fold_left (fun n c => if Z.leb 8320 c && Z.leb c 8329 then (10 * n + (c - 8320))%Z else n) w 0%Z.
Definition names (w : text) (j : nat) : bool :=
  match w with [_] => true | _ => Z.eqb (subscript_value w) (Z.of_nat (S j)) end.
Definition line_names (symbol : Z) (j : nat) (t : text) : bool :=
  match cut symbol t with Some (u, _) => existsb (fun w => names w j) (words u) | None => false end.
Definition read_sign (l : list text) (j : nat) : sign :=
  if existsb (line_names 8804 j) l then Nonpositive else if existsb (line_names 8805 j) l then Nonnegative else Unrestricted.

Definition row_line (t : text) : bool := match t with c :: _ => Z.eqb c 91 | [] => false end.
Definition read_program (t : text) : option problem :=
  match lines t with
  | objective :: _ :: _ :: rest =>
    match read_objective objective, read_rows (filter row_line rest) with
    | Some (m, c, z), Some rs =>
      Some (mkproblem (map (fun r => fst (fst r)) rs) (map snd rs) c z m (map (fun r => snd (fst r)) rs)
              (map (read_sign (filter (fun u => negb (row_line u)) rest)) (seq 0 (length c))))
    | _, _ => None
    end
  | _ => None
  end.

(** [P] shows the problem [R]: the same sense, sizes, relations and signs, and every number as
    [shown_as] allows *)
Definition shows (P R : problem) : Prop :=
  maximise P = maximise R /\ relations P = relations R /\ signs P = signs R /\
  Forall2 (Forall2 shown_as) (coefficients P) (coefficients R) /\ Forall2 shown_as (rhs P) (rhs R) /\
  Forall2 shown_as (costs P) (costs R) /\ shown_as (constant P) (constant R).
(** every number has at most three decimals and is at most 10^10 in absolute value *)
Definition short (x : Qc) : Prop := (exists z, x * qz 1000 = qz z)%Qc /\ (qabs x <= qz 10000000000)%Qc.
Definition short_problem (R : problem) : Prop :=
  Forall (Forall short) (coefficients R) /\ Forall short (rhs R) /\ Forall short (costs R) /\ short (constant R).
