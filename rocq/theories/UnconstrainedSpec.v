(** Vocabulary for C50-C52, independent of the methods. *)
From Coq Require Import List Arith ZArith QArith Qcanon.
From Verif Require Import QcTac.
Import ListNotations.
Open Scope Qc_scope.

(** inner product, x + a d *)
Fixpoint inner_product (u v : list Qc) : Qc := match u, v with a :: u', b :: v' => a * b + inner_product u' v' | _, _ => 0 end.
Fixpoint along (x : list Qc) (a : Qc) (d : list Qc) : list Qc := match x, d with u :: x', v :: d' => u + a * v :: along x' a d' | _, _ => [] end.
(** the Euclidean norm of [g] is at most [t] *)
Definition norm_at_most (g : list Qc) (t : Qc) : Prop := 0 <= t /\ inner_product g g <= t * t.

(** [df] gives the directional derivatives of [f] at the points of dimension [n]: f(x + a d) differs from
    f(x) + a df(x).d by less than any multiple of |a|, for small a *)
Definition gradient_of (n : nat) (f : list Qc -> Qc) (df : list Qc -> list Qc) : Prop :=
  forall x, length x = n -> length (df x) = n /\
    forall d, length d = n -> forall e, 0 < e -> exists r, 0 < r /\
      forall a, 0 < a -> a < r -> f x + a * (inner_product (df x) d - e) <= f (along x a d) /\ f (along x a d) <= f x + a * (inner_product (df x) d + e).

(** sufficient decrease at the step [a] against the gradient [g] *)
Definition armijo (f : list Qc -> Qc) (c : Qc) (x g : list Qc) (a : Qc) : Prop :=
  f (along x (- a) g) <= f x - c * a * inner_product g g.
(** [k] steps of steepest descent with backtracking lead from [x] to [y]: each step length is the first
    of alpha, alpha p, alpha p^2, ... with sufficient decrease, and a step is made only from the start
    or from a point where the gradient is not within tolerance *)
Inductive descent (f : list Qc -> Qc) (df : list Qc -> list Qc) (alpha c p tolerance : Qc) (x : list Qc) : nat -> list Qc -> Prop :=
| d_start : descent f df alpha c p tolerance x 0 x
| d_step k y j : descent f df alpha c p tolerance x k y -> k = 0%nat \/ ~ norm_at_most (df y) tolerance ->
    armijo f c y (df y) (alpha * p ^ j) -> (forall i, (i < j)%nat -> ~ armijo f c y (df y) (alpha * p ^ i)) ->
    descent f df alpha c p tolerance x (S k) (along y (- (alpha * p ^ j)) (df y)).
(** the gradient grows at most linearly *)
Definition smooth (n : nat) (f : list Qc -> Qc) (df : list Qc -> list Qc) (K : Qc) : Prop :=
  forall x, length x = n -> length (df x) = n /\ forall d, length d = n -> f (along x 1 d) <= f x + inner_product (df x) d + K * inner_product d d.

(** matrix times vector *)
Definition apply (H : list (list Qc)) (v : list Qc) : list Qc := map (fun r => inner_product r v) H.
Definition square (n : nat) (H : list (list Qc)) : Prop := length H = n /\ forall r, In r H -> length r = n.
Definition nonsingular (n : nat) (H : list (list Qc)) : Prop := square n H /\ forall v, length v = n -> apply H v = repeat 0 n -> v = repeat 0 n.
Definition opposite (v : list Qc) : list Qc := map Qcopp v.
(** [k] Newton steps lead from [x] to [y] *)
Inductive newton_steps (df : list Qc -> list Qc) (d2f : list Qc -> list (list Qc)) (tolerance : Qc) (x : list Qc) : nat -> list Qc -> Prop :=
| n_start : newton_steps df d2f tolerance x 0 x
| n_step k y d : newton_steps df d2f tolerance x k y -> k = 0%nat \/ ~ norm_at_most (df y) tolerance ->
    length d = length y -> apply (d2f y) d = opposite (df y) -> newton_steps df d2f tolerance x (S k) (along y 1 d).
(** [k] steps of the whole length alpha lead from [x] to [y], each with sufficient decrease *)
Inductive full_descent (f : list Qc -> Qc) (df : list Qc -> list Qc) (alpha c tolerance : Qc) (x : list Qc) : nat -> list Qc -> Prop :=
| f_start : full_descent f df alpha c tolerance x 0 x
| f_step k y : full_descent f df alpha c tolerance x k y -> k = 0%nat \/ ~ norm_at_most (df y) tolerance ->
    armijo f c y (df y) alpha -> full_descent f df alpha c tolerance x (S k) (along y (- alpha) (df y)).
