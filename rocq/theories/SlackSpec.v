(** What one line of complementary slackness conditions says about a point of the program and a point
    of its dual. *)
From Coq Require Import List Arith QArith Qcanon.
From Verif Require Import LinearModel LinearSpec SlackModel.

(** the variable is 0, or the constraint holds with equality *)
Definition holds (c : condition) (x y : list Qc) : Prop :=
  if of_dual c then nth (variable c) y 0%Qc = 0%Qc \/ inner (equation c) x = right_side c
  else nth (variable c) x 0%Qc = 0%Qc \/ inner (equation c) y = right_side c.
