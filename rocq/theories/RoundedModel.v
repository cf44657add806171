(** The simplex method of pytimize/programs/_linear.py when numpy's results carry rounding errors.
    LinearModel.v is the same code on exact numbers.  Every result of numpy.linalg.inv and of [@] is any
    array within [e] of the exact one, so the methods are relations: [r_... e p B r] means that [r] is a
    possible result when the errors are at most [e].  Simplifications: all numbers are finite; the test of
    the determinant in is_basis may go either way; the ratios of the ratio test are not followed, any
    row with a positive entry may be chosen; comparisons with zero are the exact ones, which on doubles
    they are (C77_zero_exact). *)
From Coq Require Import String List Bool Arith ZArith QArith Qcanon.
From Verif Require Import Py QcTac QSum ComparatorModel MatModel DetTheory LinearModel.
Import ListNotations.
Open Scope nat_scope.
Open Scope string_scope.
Open Scope list_scope.

Definition within (e u v : Qc) : Prop := (qabs (u - v) <= e)%Qc.
Definition rectangular (n : nat) (M : list (list Qc)) : Prop := forall i, i < length M -> length (nth i M []) = n.

(** numpy.linalg.inv(M): a matrix whose products with M, on both sides, are within [e] of the identity *)
Definition r_inv (e : Qc) (M W : list (list Qc)) : Prop :=
  length W = length M /\ rectangular (length M) W /\
  forall i j, i < length M -> j < length M ->
    within e (Sum (length M) (fun k => ent W i k * ent M k j)%Qc) (delta i j) /\
    within e (Sum (length M) (fun k => ent M i k * ent W k j)%Qc) (delta i j).
(** [M @ v] *)
Definition r_mulmv (e : Qc) (M : list (list Qc)) (v r : list Qc) : Prop :=
  length r = length M /\ forall i, i < length M -> within e (at_ r i) (dot (nth i M []) v).
(** [M @ N], where [N] has [n] columns *)
Definition r_mulmm (n : nat) (e : Qc) (M N R : list (list Qc)) : Prop :=
  length R = length M /\ rectangular n R /\
  forall i j, i < length M -> j < n -> within e (ent R i j) (Sum (length (nth i M [])) (fun k => ent M i k * ent N k j)%Qc).
(** [c - y @ A] *)
Definition r_costs (e : Qc) (c y : list Qc) (A : list (list Qc)) (r : list Qc) : Prop :=
  length r = length c /\ forall j, j < length c -> within e (at_ r j) (at_ c j - Sum (length y) (fun i => at_ y i * ent A i j))%Qc.

(** _linear.py:645-655 [is_basis] answers True: the sizes and the indices are right *)
Definition r_is_basis (p : lp) (basis : list Z) : Prop :=
  length basis = rows p /\ 0 < length basis /\ forall i, In i basis -> (1 <= i <= Z.of_nat (cols p))%Z.
(** _linear.py:780-820 [__to_canonical_form]; [basis] is 0-based *)
Definition r_canonical (e : Qc) (p : lp) (basis : list nat) (q : lp) : Prop :=
  exists W y,
    r_inv e (columns_of basis (lA p)) W /\ r_mulmv e (transpose (rows p) W) (take basis (lc p)) y /\
    r_mulmm (cols p) e W (lA p) (lA q) /\ r_mulmv e W (lb p) (lb q) /\ r_costs e (lc p) y (lA p) (lc q) /\
    within e (lz q) (dot y (lb p) + lz p)%Qc /\
    lobj q = lobj p /\ lineq q = lineq p /\ lsef q = lsef p /\ lfree q = lfree p /\ lneg q = lneg p.
(** _linear.py:1693-1714 [__compute_basic_solution]; [basis] is 0-based *)
Definition r_basic_solution (e : Qc) (p : lp) (basis : list nat) (x : list Qc) : Prop :=
  exists V components,
    r_inv e (columns_of basis (lA p)) V /\ r_mulmv e V (lb p) components /\ x = scatter (cols p) (sort basis) components.
(** _linear.py:1113-1194 [simplex_iteration], when it returns; the bases of the result are 0-based *)
Definition r_iteration (e : Qc) (p : lp) (basis : list Z) (it : iter) : Prop :=
  lsef p = true /\ r_is_basis p basis /\
  let B := sort (to_array_indexing basis) in
  exists q x, r_canonical e (negate_rows p) B q /\ r_basic_solution e q B x /\
    let N := filter (fun i => negb (inb i B)) (seq 0 (cols q)) in
    let stop := forallb (fun v => cc_le v 0) (take N (lc q)) in
    match it with
    | Optimal x' B' q' => x' = x /\ B' = B /\ q' = q /\ stop = true /\ existsb is_negative x = false
    | Unbounded x' B' q' => x' = x /\ B' = B /\ q' = q /\ stop = false /\
        exists k, find (fun i => is_positive (at_ (lc q) i)) N = Some k /\ forallb (fun r => cc_le (at_ r k) 0) (lA q) = true
    | Next B' q' => q' = q /\ stop = false /\
        exists k leave, find (fun i => is_positive (at_ (lc q) i)) N = Some k /\
          leave < length (lA q) /\ is_positive (ent (lA q) leave k) = true /\ B' = sort (remove_first (nth leave B 0) B ++ [k])
    end.
(** _linear.py:1083-1088: every iteration starts again from the program itself, so only the errors of the
    last one are bounded here *)
Inductive r_loop (e : Qc) (p : lp) : list Z -> iter -> Prop :=
| r_last basis it : r_iteration e p basis it -> match it with Next _ _ => False | _ => True end -> r_loop e p basis it
| r_step e' basis B q it : r_iteration e' p basis (Next B q) -> r_loop e p (to_math_indexing B) it -> r_loop e p basis it.
(** _linear.py:1090-1106; [b] is the right-hand side before the rows were negated *)
Definition r_result (e : Qc) (b : list Qc) (p : lp) (it : iter) (r : outcome) : Prop :=
  match it with
  | Optimal x B _ => exists X y,
      r_inv e (transpose (rows p) (columns_of B (lA p))) X /\ r_mulmv e X (take B (lc p)) y /\
      r = (Some x, Some (to_math_indexing B), CVec (flip_y b y))
  | Unbounded x B q =>
    let k := argmax_pos 0 (lc q) in
    let d := fold_left (fun s iv => set_at s (fst iv) (snd iv))
               (combine B (map (fun r => - at_ r k)%Qc (lA q))) (repeat 0%Qc (cols p)) in
    r = (None, None, CPair x (set_at d k 1%Qc))
  | Next _ _ => False
  end.
(** _linear.py:1039-1111 [simplex], when it returns *)
Definition r_simplex (e : Qc) (p : lp) (basis : list Z) (r : outcome) : Prop :=
  lsef p = true /\ exists it, r_loop e (negate_rows p) basis it /\ r_result e (lb p) (negate_rows p) it r.
