(** Integral points of a linear program, and what the relaxations solved by branch and bound are. *)
From Coq Require Import String List Bool Arith ZArith QArith Qcanon.
From Verif Require Import Py QcTac QInt ComparatorSpec MatModel LinearModel LinearSpec IntegerModel.
From Verif Require NetSpec.
Import ListNotations.
Open Scope nat_scope.
Open Scope string_scope.
Open Scope list_scope.

(** the variables that have to be integral; the list counts from 0, no list means all variables *)
Definition required (integral : option (list Z)) (i : nat) : Prop := match integral with None => True | Some l => In (Z.of_nat i) l end.
Definition integral_point (integral : option (list Z)) (x : list Qc) : Prop := forall i, i < length x -> required integral i -> isint (nth i x 0%Qc).
(** up to the tolerance 1e-10 *)
Definition nearly_integral_point (integral : option (list Z)) (x : list Qc) : Prop := forall i, i < length x -> required integral i -> near_integer (nth i x 0%Qc).
(** no variable is free or negative *)
Definition nonnegative_variables (p : lp) : Prop := free_variables p = [] /\ negative_variables p = [].

(** the relaxations that may be solved on the way *)
Inductive visited (fuel : nat) (integral : option (list Z)) (p : lp) : lp -> Prop :=
| v_root : visited fuel integral p p
| v_lower q x i r : visited fuel integral p q -> snd (solve fuel q) = Ok (Some x) -> i < length x -> required integral i -> ~ near_integer (nth i x 0%Qc) ->
    child q i "<=" (floor (nth i x 0%Qc)) = Ok r -> visited fuel integral p r
| v_higher q x i r : visited fuel integral p q -> snd (solve fuel q) = Ok (Some x) -> i < length x -> required integral i -> ~ near_integer (nth i x 0%Qc) ->
    child q i ">=" (ceil (nth i x 0%Qc)) = Ok r -> visited fuel integral p r.
(** [solve] is right about a program: an optimal solution, or None when there is none *)
Definition right_answer (fuel : nat) (q : lp) : Prop :=
  (forall x, snd (solve fuel q) = Ok (Some x) -> optimal (meaning q) x) /\
  (snd (solve fuel q) = Ok None -> infeasible (meaning q) \/ unbounded (meaning q)).
Definition answers (fuel : nat) (q : lp) : Prop := exists r, snd (solve fuel q) = Ok r.

(** integer matrix and right hand side, costs that are multiples of 1/e; the square submatrices of the matrix,
    of all sizes, have determinants up to [K]; [T] bounds the sum of the absolute values of the right hand
    sides and of the bounds that branching may add when the integral variables are at most [U] *)
Record bounded_minors (p : lp) (e K T : Z) (U : nat) : Prop := mkbounded {
  bm_A : forall r v, In r (lA p) -> In v r -> isint v;
  bm_b : forall v, In v (lb p) -> isint v;
  bm_c : forall v, In v (lc p) -> isint (qz e * v)%Qc;
  bm_e : (0 < e /\ K * e <= 10 ^ 10)%Z;
  bm_minor : forall rs cs, length rs = length cs -> (forall i, In i rs -> i < length (lA p)) -> (forall j, In j cs -> j < length (lc p)) ->
    (qabs (det (length rs) (fun i j => nth (nth j cs 0%nat) (nth (nth i rs 0%nat) (lA p) []) 0)) <= qz K)%Qc;
  bm_T : (1 <= T)%Z;
  bm_total : (NetSpec.total (lb p) + qz (Z.of_nat (length (lc p) * U * U)) <= qz T)%Qc;
  bm_apart : (K * K * (1 + 1000 * T) < 10 ^ 8)%Z }.
