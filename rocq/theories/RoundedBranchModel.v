(** Branch and bound of pytimize/programs/_integer.py when numpy's results carry rounding errors: [run_branch e
    ints p o] means that [o] may be the outcome when the relaxations are solved by runs of RoundedRunModel.v and
    [evaluate] is off by at most [e].  The tests of integrality, np.floor and np.ceil are applied to the
    computed numbers; the two values that are compared are the computed ones.
    Simplifications: those of RoundedRunModel.v; [solve] leaves the relaxation unchanged when it returns (C45). *)
From Coq Require Import String List Bool Arith ZArith QArith Qcanon.
From Verif Require Import Py QcTac MatModel LinearModel IntegerModel RoundedModel RoundedRunModel.
Import ListNotations.
Open Scope nat_scope.
Open Scope string_scope.
Open Scope list_scope.

(** _integer.py:77-98: the relaxation has the computed solution [x], and position [i] is the first fractional one *)
Definition splits (e : Qc) (ints : option (list Z)) (p : lp) (x : list Qc) (i : nat) : Prop :=
  run_solve e p (Ok (Some x)) /\ length x = cols p /\ first_fraction ints 0 x = Some i.
(** _integer.py:58-145 [__branch] ends *)
Inductive run_branch (e : Qc) (ints : option (list Z)) : lp -> res (option (list Qc * Qc)) -> Prop :=
| rb_raise p y : run_solve e p (Raise y) -> run_branch e ints p (Raise y)
| rb_none p : run_solve e p (Ok None) -> run_branch e ints p (Ok None)
| rb_length p x : run_solve e p (Ok (Some x)) -> length x <> cols p -> run_branch e ints p (Raise ValueError)
| rb_leaf p x v : run_solve e p (Ok (Some x)) -> length x = cols p -> within e v (dot (lc p) x + lz p)%Qc ->
    first_fraction ints 0 x = None -> run_branch e ints p (Ok (Some (x, v)))
| rb_no_lower p x i y : splits e ints p x i -> child p i "<=" (floor (nth i x 0%Qc)) = Raise y -> run_branch e ints p (Raise y)
| rb_lower p x i l y : splits e ints p x i -> child p i "<=" (floor (nth i x 0%Qc)) = Ok l ->
    run_branch e ints l (Raise y) -> run_branch e ints p (Raise y)
| rb_no_higher p x i l r y : splits e ints p x i -> child p i "<=" (floor (nth i x 0%Qc)) = Ok l ->
    run_branch e ints l (Ok r) -> child p i ">=" (ceil (nth i x 0%Qc)) = Raise y -> run_branch e ints p (Raise y)
| rb_higher p x i l r h y : splits e ints p x i -> child p i "<=" (floor (nth i x 0%Qc)) = Ok l ->
    run_branch e ints l (Ok r) -> child p i ">=" (ceil (nth i x 0%Qc)) = Ok h -> run_branch e ints h (Raise y) -> run_branch e ints p (Raise y)
| rb_both p x i l r h s : splits e ints p x i -> child p i "<=" (floor (nth i x 0%Qc)) = Ok l ->
    run_branch e ints l (Ok r) -> child p i ">=" (ceil (nth i x 0%Qc)) = Ok h -> run_branch e ints h (Ok s) ->
    run_branch e ints p (Ok (better (lobj p) r s)).
(** ... or does not end: a relaxation is never solved, or there is no end of branches *)
CoInductive branch_hangs (e : Qc) (ints : option (list Z)) : lp -> Prop :=
| bh_solve p : solve_hangs e p -> branch_hangs e ints p
| bh_lower p x i l : splits e ints p x i -> child p i "<=" (floor (nth i x 0%Qc)) = Ok l -> branch_hangs e ints l -> branch_hangs e ints p
| bh_higher p x i l r h : splits e ints p x i -> child p i "<=" (floor (nth i x 0%Qc)) = Ok l -> run_branch e ints l (Ok r) ->
    child p i ">=" (ceil (nth i x 0%Qc)) = Ok h -> branch_hangs e ints h -> branch_hangs e ints p.
(** _integer.py:41-56 [branch_and_bound] ends *)
Definition run_branch_and_bound (e : Qc) (p : ip) (o : res (option (list Qc))) : Prop :=
  match relax (program_of p) with
  | Raise y => o = Raise y
  | Diverges => False
  | Ok q => exists r, run_branch e (integral_variables p) q r /\ o = rmap (option_map fst) r
  end.
(** ... or does not end *)
Definition branch_and_bound_hangs (e : Qc) (p : ip) : Prop :=
  exists q, relax (program_of p) = Ok q /\ branch_hangs e (integral_variables p) q.
