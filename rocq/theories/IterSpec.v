(** What the auxiliary program should measure, and what one step between bases is. *)
From Coq Require Import List ZArith QArith Qcanon.
From Verif Require Import Py QcTac LinearModel LinearSpec.
Import ListNotations.
Open Scope nat_scope.

(** how much the [i]-th equation of [A x = b] is missed by [x] *)
Definition missing (p : lp) (x : list Qc) (i : nat) : Qc := (nth i (lb p) 0 - inner (nth i (lA p) []) x)%Qc.
Definition magnitude_of (v : Qc) : Qc := if Qclt_le_dec v 0 then (- v)%Qc else v.
(** the sum of [|b_i - A_i x|] over the equations *)
Definition total_missing (p : lp) (x : list Qc) : Qc :=
  fold_right (fun i s => (magnitude_of (missing p x i) + s)%Qc) 0%Qc (seq 0 (length (lb p))).
(** the same, measured upwards where the right-hand side is nonnegative and downwards elsewhere *)
Definition directed_missing (p : lp) (x : list Qc) (i : nat) : Qc :=
  if Qclt_le_dec (nth i (lb p) 0%Qc) 0 then (- missing p x i)%Qc else missing p x i.

(** [B'] is [B] with the member [l] replaced by [k] *)
Definition exchanged (B B' : list Z) (l k : Z) : Prop :=
  In l B /\ ~ In k B /\ forall j, In j B' <-> In j B /\ j <> l \/ j = k.

(** Bland's rule in the program [q], the canonical form for the (increasing) basis [B]: the entering
    variable [k] is the first one with a positive cost; the leaving variable [l] is the member of [B]
    in a row with a positive entry in column [k] and the least ratio, the first one of these *)
Definition enters_by_bland (q : lp) (k : Z) : Prop :=
  (1 <= k <= Z.of_nat (length (lc q)))%Z /\ (0 < nth (Z.to_nat (k - 1)) (lc q) 0)%Qc /\
  forall j, j < Z.to_nat (k - 1) -> (nth j (lc q) 0 <= 0)%Qc.
Definition leaves_by_bland (q : lp) (B : list Z) (l k : Z) : Prop :=
  let a i := nth (Z.to_nat (k - 1)) (nth i (lA q) []) 0%Qc in
  exists r, r < length (lb q) /\ nth r B 0%Z = l /\ (0 < a r)%Qc /\
    (forall i, i < length (lb q) -> (0 < a i)%Qc -> (nth r (lb q) 0 / a r <= nth i (lb q) 0 / a i)%Qc) /\
    (forall i, i < r -> (0 < a i)%Qc -> (nth r (lb q) 0 / a r < nth i (lb q) 0 / a i)%Qc).
