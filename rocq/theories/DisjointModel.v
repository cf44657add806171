(** Model of pytimize/utilities/_disjoint.py.
    A call takes the object state and returns the state after the call together with the
    outcome, so what a raising call leaves behind is visible. *)
From Coq Require Import String List Bool Arith.
From Verif Require Import Py.
Import ListNotations.

(** _disjoint.py:9-10 the two dictionaries [_set] and [_rank] *)
Record dsu := mkdsu { parent : list (string * string); rank : list (string * nat) }.

Notation sget := (dget String.eqb).
Notation sset := (dset String.eqb).
Notation smem := (dmem String.eqb).

(** [len(items) == len(set(items))] of _disjoint.py:6 *)
Fixpoint has_dup (l : list string) : bool :=
  match l with
  | [] => false
  | x :: l' => existsb (String.eqb x) l' || has_dup l'
  end.

(** _disjoint.py:12-14 the constructor's loop *)
Definition init_loop (items : list string) : dsu :=
  fold_left (fun s item =>
    mkdsu (dsetdefault String.eqb item item (parent s)) (dsetdefault String.eqb item 0 (rank s)))
    items (mkdsu [] []).

(** _disjoint.py:5-14 [__init__] *)
Definition dsu_init (items : list string) : res dsu :=
  if has_dup items then Raise ValueError else Ok (init_loop items).

(** _disjoint.py:16-30 [find]; the recursion is fuelled *)
Fixpoint find_fuel (n : nat) (s : dsu) (search : string) : dsu * res string :=
  match n with
  | 0 => (s, Diverges)
  | S n' =>
    match sget search (parent s) with
    | None => (s, Raise ValueError)
    | Some p =>
      if String.eqb p search then (s, Ok search)
      else
        match find_fuel n' s p with
        | (s', Ok r) => (mkdsu (sset search r (parent s')) (rank s'), Ok r)
        | (s', e) => (s', e)
        end
    end
  end.

(** Fuel: one unit per dictionary entry, plus one.  [find_fuel_enough] (DisjointProofs)
    shows that in reachable states any larger amount gives the same result. *)
Definition find (s : dsu) (search : string) : dsu * res string :=
  find_fuel (S (length (parent s))) s search.

(** [self._rank[x]], KeyError if absent (unreachable, see the invariant) *)
Definition rank_of (s : dsu) (x : string) : nat :=
  match sget x (rank s) with Some k => k | None => 0 end.

(** _disjoint.py:32-48 [union] *)
Definition union (s : dsu) (set_one set_two : string) : dsu * res unit :=
  if negb (smem set_one (parent s)) || negb (smem set_two (parent s)) then (s, Raise ValueError)
  else
    match find s set_one with
    | (s1, Ok parent_one) =>
      match find s1 set_two with
      | (s2, Ok parent_two) =>
        if String.eqb parent_one parent_two then (s2, Ok tt)
        else if rank_of s2 parent_one <? rank_of s2 parent_two then
          (mkdsu (sset parent_one parent_two (parent s2)) (rank s2), Ok tt)
        else if rank_of s2 parent_two <? rank_of s2 parent_one then
          (mkdsu (sset parent_two parent_one (parent s2)) (rank s2), Ok tt)
        else
          (mkdsu (sset parent_two parent_one (parent s2))
                 (sset parent_one (S (rank_of s2 parent_one)) (rank s2)), Ok tt)
      | (s2, Raise e) => (s2, Raise e)
      | (s2, Diverges) => (s2, Diverges)
      end
    | (s1, Raise e) => (s1, Raise e)
    | (s1, Diverges) => (s1, Diverges)
    end.

(** Client histories: a sequence of public calls. *)
Inductive op := Find (x : string) | Union (x y : string).

Definition step (s : dsu) (o : op) : dsu * res (option string) :=
  match o with
  | Find x => match find s x with (s', r) => (s', rmap Some r) end
  | Union x y => match union s x y with (s', r) => (s', rmap (fun _ => None) r) end
  end.

Fixpoint run (s : dsu) (h : list op) : dsu :=
  match h with [] => s | o :: h' => run (fst (step s o)) h' end.

(** what the client sees during the history *)
Fixpoint answers (s : dsu) (h : list op) : list (res (option string)) :=
  match h with [] => [] | o :: h' => snd (step s o) :: answers (fst (step s o)) h' end.
