(** Which programs and arrays the operations of a history are applied to. *)
From Coq Require Import String List Bool Arith ZArith QArith Qcanon.
From Verif Require Import Py LinearModel LinearHeap.
Import ListNotations.
Open Scope nat_scope.

(** the program an operation is called on *)
Definition receiver (x : hop) : option nat :=
  match x with
  | HArray _ | HWrite _ _ | HNew _ _ _ _ _ _ _ _ => None
  | HCopy i | HSef i _ | HCanonical i _ _ | HConstraint i _ _ _ _ | HVariable i _ _ _ _ _ | HIteration i _ _
  | HSimplex _ i _ | HTwoPhase _ i | HSolve _ i | HSet i _ _ | HDual i | HRelax i => Some i
  end.
(** the arrays a caller writes to or passes to the constructor *)
Definition arg_ref (a : harg) : list nat := match a with Ref r _ => [r] | Val _ => [] end.
Definition arrays (x : hop) : list nat :=
  match x with
  | HWrite r _ => [r]
  | HNew A b c _ _ _ _ _ => arg_ref A ++ arg_ref b ++ arg_ref c
  | _ => []
  end.
(** copy, and the operations called with [in_place] false *)
Definition makes_copy (x : hop) (i : nat) : Prop :=
  match x with
  | HCopy j => j = i
  | HSef j ip | HCanonical j _ ip | HConstraint j _ _ _ ip | HVariable j _ _ _ _ ip | HIteration j _ ip => j = i /\ ip = false
  | _ => False
  end.
(** the program number [i] as its public properties show it *)
Definition shows (s : state) (i : nat) : option lp := option_map (load (sheap s)) (nth_error (sobjs s) i).
(** a state a caller can reach *)
Definition heap_state (s : state) : Prop := exists l, s = hrun initial l.

(** ** The same operations on values *)
(** _linear.py:1113-1194: what [simplex_iteration] leaves in the program it is called on *)
Definition iterated (p : lp) (B : list Z) : lp :=
  if negb (lsef p) then p
  else
    match is_basis p B with
    | Ok true => match canonical (negate_rows p) (sort (to_array_indexing B)) with Ok q => q | _ => negate_rows p end
    | _ => p
    end.
(** the program with the entries of one array replaced *)
Definition assigned (p : lp) (f : field) (a : array) : lp :=
  match f, a with
  | FieldA, Mat n M =>
    if Nat.eqb n (cols p) && Nat.eqb (length M) (rows p) && forallb (fun r => Nat.eqb (length r) n) M
    then mklp M (lb p) (lc p) (lz p) (lobj p) (lineq p) (lsef p) (lfree p) (lneg p) else p
  | FieldB, Vec v =>
    if Nat.eqb (length v) (length (lb p)) then mklp (lA p) v (lc p) (lz p) (lobj p) (lineq p) (lsef p) (lfree p) (lneg p) else p
  | FieldC, Vec v =>
    if Nat.eqb (length v) (length (lc p)) then mklp (lA p) (lb p) v (lz p) (lobj p) (lineq p) (lsef p) (lfree p) (lneg p) else p
  | _, _ => p
  end.
(** the program an operation leaves when it works in place, or returns when it works on a copy *)
Definition effect (x : hop) (p : lp) : lp :=
  match x with
  | HSef _ _ => fst (to_sef p)
  | HCanonical _ B _ => match to_canonical_form p B with Ok q => q | _ => p end
  | HConstraint _ a q v _ => fst (add_constraint p a q v)
  | HVariable _ k col f n _ => fst (add_variable p k col f n)
  | HIteration _ B _ => iterated p B
  | HSimplex fuel _ B => fst (simplex fuel p B)
  | HTwoPhase fuel _ => fst (two_phase_simplex fuel p)
  | HSolve fuel _ => fst (solve fuel p)
  | HSet _ f a => assigned p f a
  | _ => p
  end.
(** the operation works on the program it is called on, not on a copy *)
Definition on_itself (x : hop) : bool :=
  match x with
  | HSef _ ip | HCanonical _ _ ip | HConstraint _ _ _ _ ip | HVariable _ _ _ _ _ ip | HIteration _ _ ip => ip
  | HSimplex _ _ _ | HTwoPhase _ _ | HSolve _ _ | HSet _ _ _ => true
  | _ => false
  end.
(** the effect on the program number [n] when nothing is shared *)
Definition effect_on (n : nat) (p : lp) (x : hop) : lp :=
  match receiver x with Some i => if Nat.eqb i n && on_itself x then effect x p else p | None => p end.
(** a call of [add_variable] with a column of the wrong length raises after changing the program *)
Definition succeeds (x : hop) (p : lp) : Prop :=
  match x with HVariable _ k col f n _ => snd (add_variable p k col f n) = Ok tt | _ => True end.
(** along the history the arrays of program [n] are not handed out: it is not asked for its dual or
    relaxation, and the caller neither writes to its arrays nor passes them to a constructor *)
Fixpoint undisturbed (n : nat) (s : state) (l : list hop) : Prop :=
  match l with
  | [] => True
  | x :: l' =>
    (forall o r, nth_error (sobjs s) n = Some o -> In r (arrays x) -> ~ In r [oA o; ob o; oc o]) /\
    match x with HDual i | HRelax i => i <> n | _ => True end /\
    (receiver x = Some n -> on_itself x = true -> forall p, shows s n = Some p -> succeeds x p) /\
    undisturbed n (hstep s x) l'
  end.
