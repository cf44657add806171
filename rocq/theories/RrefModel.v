(** Model of pytimize/programs/_linear.py: is_in_rref and to_rref.  Arithmetic is exact. *)
From Coq Require Import List Bool Arith ZArith QArith Qcanon.
From Verif Require Import Py QcTac QInt QSum MatModel.
Import ListNotations.
Open Scope nat_scope.

Definition matrix := list (list Qc).
(** [math.isclose(a, b)]: relative tolerance 1e-9, absolute tolerance 0 *)
Definition isclose (a b : Qc) : bool := qle (qabs (a - b)) (Q2Qc (1 # 1000000000) * qmax (qabs a) (qabs b))%Qc.
(** the same for two ints *)
Definition isclose_int (a b : nat) : bool := isclose (qz (Z.of_nat a)) (qz (Z.of_nat b)).
(** [arr[i, j]] of an array with [n] columns *)
Definition read (n : nat) (M : matrix) (i j : nat) : res Qc :=
  if Nat.ltb i (length M) && Nat.ltb j n then Ok (ent M i j) else Raise IndexError.
(** [arr[[i, k]] = arr[[k, i]]] *)
Definition swap_rows (M : matrix) (i k : nat) : matrix :=
  map (fun r => nth (if Nat.eqb r i then k else if Nat.eqb r k then i else r) M []) (seq 0 (length M)).
(** _linear.py:1919-1931: returns the array and the column reached *)
Fixpoint find_pivot (fuel n : nat) (M : matrix) (row col i : nat) : res (matrix * nat) :=
  match fuel with
  | 0 => Diverges
  | S fuel' =>
    do a <- read n M row col ;
    if negb (isclose a 0) then Ok (M, col)
    else if isclose_int (i + row) (length M) then
      if isclose_int (S col) n then Ok (M, S col) else find_pivot fuel' n M row (S col) 0
    else
      do b <- read n M (row + i) col ;
      if negb (isclose b 0) then Ok (swap_rows M row (row + i), col)
      else find_pivot fuel' n M row col (S i)
  end.
(** _linear.py:1938-1939 *)
Definition divide_row (M : matrix) (row : nat) (num : Qc) : matrix :=
  map (fun r => let v := nth r M [] in if Nat.eqb r row then map (fun x => (x / num)%Qc) v else v) (seq 0 (length M)).
(** _linear.py:1942-1945; only the other rows are assigned, so they are treated at once *)
Definition eliminate (M : matrix) (row col : nat) : matrix :=
  map (fun r => let v := nth r M [] in
    if Nat.eqb r row then v
    else let multiple := (ent M r col / ent M row col)%Qc in vsub v (map (fun x => (x * multiple)%Qc) (nth row M []))) (seq 0 (length M)).
(** _linear.py:1914-1949: [rows] rows are left, [row] is the present one *)
Fixpoint reduce (fuel n rows : nat) (M : matrix) (row col : nat) : res matrix :=
  match rows with
  | 0 => Ok M
  | S rows' =>
    do a <- read n M row col ;
    do s <- (if isclose a 1 then Ok (M, Some col)
             else do f <- find_pivot fuel n M row col 0 ;
                  if isclose_int (snd f) n then Ok (fst f, None)
                  else do num <- read n (fst f) row (snd f) ; Ok (divide_row (fst f) row num, Some (snd f))) ;
    match snd s with
    | None => Ok (fst s)
    | Some c =>
      let M' := eliminate (fst s) row c in
      if isclose_int (S c) n then Ok M' else reduce fuel n rows' M' (S row) (S c)
    end
  end.
(** _linear.py:1895-1951; [n] is [arr.shape[1]] *)
Definition to_rref (fuel n : nat) (M : matrix) : res matrix := reduce fuel n (length M) M 0 0.

(** what the inner loop over [col] finds in a row, _linear.py:1867-1889: [None] for [return False],
    otherwise the final value of row_has_leading_one *)
Fixpoint scan_row (M : matrix) (has_zero_row : bool) (row : nat) (cols : list nat) : option bool :=
  match cols with
  | [] => Some false
  | col :: cols' =>
    if isclose (ent M row col) 0 then scan_row M has_zero_row row cols'
    else if has_zero_row then None
    else if isclose (ent M row col) 1 then
      if forallb (fun r => Nat.eqb r row || isclose (ent M r col) 0) (seq 0 (length M)) then Some true else None
    else None
  end.
Fixpoint scan_rows (n : nat) (M : matrix) (has_zero_row : bool) (rows : list nat) : bool :=
  match rows with
  | [] => true
  | row :: rows' =>
    match scan_row M has_zero_row row (seq 0 n) with
    | None => false
    | Some leading => scan_rows n M (has_zero_row || negb leading) rows'
    end
  end.
(** _linear.py:1849-1893, 2168-2178 *)
Definition is_in_rref (n : nat) (M : matrix) : bool := scan_rows n M false (seq 0 (length M)).
