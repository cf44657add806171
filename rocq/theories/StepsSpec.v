(** What the recorded steps should say. *)
From Coq Require Import String Ascii List Bool Arith ZArith QArith Qcanon.
From Verif Require Import Py QcTac LinearModel LinearSpec TextModel TextSpec StepsModel.
Import ListNotations.
Open Scope nat_scope.
Open Scope string_scope.
Open Scope list_scope.

(** the decimal digits of a number *)
Definition number_text (d : text) (n : Z) : Prop := d <> [] /\ decimal 0 d = Some n.
(** [1, 4, 5] *)
Definition list_text (t : text) (l : list Z) : Prop := exists ds, Forall2 number_text ds l /\ t = lit "[" ++ join (lit ", ") ds ++ lit "]".
(** one of the recorded texts *)
Definition says (l : list step) (t : text) : Prop := exists s, In s l /\ stext s = t.

(** two programs with the same feasible points and the same values there *)
Definition equivalent (q p : lp) : Prop :=
  (forall x, feasible (meaning q) x <-> feasible (meaning p) x) /\
  (forall x, feasible (meaning p) x -> value (meaning q) x = value (meaning p) x) /\
  maximise (meaning q) = maximise (meaning p).
(** unit columns and zero costs at the positions of a basis (1-based) *)
Definition in_canonical_form (q : lp) (B : list Z) : Prop :=
  forall k, k < length B -> nth (Z.to_nat (nth k B 1%Z - 1)) (lc q) 0%Qc = 0%Qc /\
    forall i, i < length B -> nth (Z.to_nat (nth k B 1%Z - 1)) (nth i (lA q) []) 0%Qc = if Nat.eqb i k then 1%Qc else 0%Qc.
(** one column replaced by another *)
Definition exchanged (B B' : list Z) : Prop :=
  exists i j, In i B /\ ~ In j B /\ forall c, In c B' <-> (In c B /\ c <> i) \/ c = j.

(** Iteration k ====, then the program, for k, k+1, ... *)
Inductive iterations : nat -> list lp -> list step -> Prop :=
| its_nil k : iterations k [] []
| its_cons k q qs s1 s2 ss d :
    number_text d (Z.of_nat k) ->
    stext s1 = lit "Iteration " ++ d ++ lit " =================================" -> repr q = Ok (stext s2) ->
    iterations (S k) qs ss -> iterations k (q :: qs) (s1 :: s2 :: ss).
(** what the record of simplex ends with *)
Definition concluded (array_text : array -> text) (r : outcome) (ss : list step) : Prop :=
  match r with
  | (Some x, Some B, CVec y) => exists s1 s2 s3 d, ss = [s1; s2; s3] /\
      stext s1 = lit "Solution: " ++ array_text (Vec x) /\
      stext s2 = lit "Optimal Basis: " ++ d /\ list_text d B /\
      stext s3 = lit "Optimality Certificate: " ++ array_text (Vec y)
  | (None, None, CPair _ _) => exists s, ss = [s] /\ stext s = lit "The Program is Unbounded"
  | _ => False
  end.
