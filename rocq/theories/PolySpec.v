(** The region that graph_polyhedron is to draw, and its vertices. *)
From Coq Require Import String List Bool Arith ZArith QArith Qcanon.
From Verif Require Import Py LinearModel LinearSpec.
Import ListNotations.
Open Scope nat_scope.
Open Scope string_scope.
Open Scope list_scope.

(** the constraints of a program with two variables, within the square of the given half width *)
Definition region (p : lp) (limit : Qc) (v : Qc * Qc) : Prop :=
  (forall i, i < length (rhs (meaning p)) ->
     related (nth i (relations (meaning p)) Equal) (inner (nth i (coefficients (meaning p)) []) [fst v; snd v]) (nth i (rhs (meaning p)) 0%Qc)) /\
  (- limit <= fst v <= limit)%Qc /\ (- limit <= snd v <= limit)%Qc.
(** a vertex: a point of the region that is not halfway between two other points of it *)
Definition extreme (R : Qc * Qc -> Prop) (v : Qc * Qc) : Prop :=
  R v /\ forall u w, R u -> R w -> (fst v + fst v = fst u + fst w)%Qc -> (snd v + snd v = snd u + snd w)%Qc -> u = v /\ w = v.
(** whole numbers: coefficients at most [K], right-hand sides at most [R] in absolute value *)
Definition whole_numbers (p : lp) (K R : Z) : Prop :=
  (forall i j, i < length (lA p) -> j < length (lc p) -> exists k, nth j (nth i (lA p) []) 0%Qc = Q2Qc (inject_Z k) /\ (- K <= k <= K)%Z) /\
  (forall i, i < length (lb p) -> exists k, nth i (lb p) 0%Qc = Q2Qc (inject_Z k) /\ (- R <= k <= R)%Z).
(** [w] lies to the left of, or on, the line from [u] to [v] *)
Definition left_of (u v w : Qc * Qc) : Prop := (0 <= (fst v - fst u) * (snd w - snd u) - (snd v - snd u) * (fst w - fst u))%Qc.
Definition collinear (a b d : Qc * Qc) : Prop := ((fst b - fst a) * (snd d - snd a) - (snd b - snd a) * (fst d - fst a) = 0)%Qc.
(** [u] is followed by [v] on the line drawn *)
Definition consecutive (l : list (Qc * Qc)) (u v : Qc * Qc) : Prop := exists l1 l2, l = l1 ++ u :: v :: l2.
(** the lines [i] and [j] of the program have proportional coefficients *)
Definition parallel (p : lp) (i j : nat) : Prop :=
  (nth 0 (nth i (lA p) []) 0 * nth 1 (nth j (lA p) []) 0 = nth 1 (nth i (lA p) []) 0 * nth 0 (nth j (lA p) []) 0)%Qc.
(** line [i] of the program is neither horizontal nor vertical *)
Definition oblique (p : lp) (i : nat) : Prop := (nth 0 (nth i (lA p) []) 0 <> 0 /\ nth 1 (nth i (lA p) []) 0 <> 0)%Qc.
(** programs the method accepts: two variables, only <= or only >= *)
Definition one_sided (p : lp) : Prop :=
  length (lc p) = 2 /\
  ((forall i, i < length (lb p) -> nth i (relations (meaning p)) Equal = AtMost) \/ (forall i, i < length (lb p) -> nth i (relations (meaning p)) Equal = AtLeast)).
