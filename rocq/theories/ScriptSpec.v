(** What a modelling script says, by ordinary arithmetic on the expressions as written. *)
From Coq Require Import String List Bool Arith ZArith QArith Qcanon.
From Verif Require Import Py QcTac QSum MatModel LinearModel LinearSpec FormulationModel FormulationSpec ScriptModel.
Import ListNotations.
Open Scope nat_scope.

(** the highest number of a variable in an expression, counted from 1; 0 if there is none *)
Fixpoint top (e : expr) : nat :=
  match e with
  | Num _ | Use _ => 0
  | Var k => S k
  | Item i => Z.to_nat i
  | Neg e | Pos e => top e
  | Add e f | Sub e f | Mul e f => Nat.max (top e) (top f)
  end.
(** the number of variables of a script *)
Definition variables (s : script) : nat := list_max (map (fun lcr => Nat.max (top (fst (fst lcr))) (top (snd lcr))) (s_rows s)).
(** no stored expressions occur *)
Definition pure (e : expr) : Prop := uses e = [].
Definition written (e : expr) (x : list Qc) : Qc := value_of [] e (point x).
Definition sign_holds (n : nat) (x : list Qc) (s : sign_written) : Prop :=
  match s with
  | One k c => compared c (point x k) 0%Qc
  | All c => forall k, k < n -> compared c (point x k) 0%Qc
  end.
(** [x] satisfies everything that is written *)
Definition written_feasible (s : script) (x : list Qc) : Prop :=
  length x = variables s /\
  (forall l c r, In (l, c, r) (s_rows s) -> compared c (written l x) (written r x)) /\
  (forall g, In g (s_signs s) -> sign_holds (variables s) x g).
Definition written_optimal (s : script) (x : list Qc) : Prop :=
  written_feasible s x /\
  forall y, written_feasible s y ->
    if s_max s then (written (s_objective s) y <= written (s_objective s) x)%Qc
    else (written (s_objective s) x <= written (s_objective s) y)%Qc.
(** no bound on the objective *)
Definition written_unbounded (s : script) : Prop :=
  forall v, exists x, written_feasible s x /\
    if s_max s then (v <= written (s_objective s) x)%Qc else (written (s_objective s) x <= v)%Qc.
(** up to [t]: equations hold exactly, inequalities and signs are missed by less than [t] *)
Definition compared_within (t : Qc) (c : comparison_) (a b : Qc) : Prop :=
  match c with Le => (a < b + t)%Qc | Ge => (b - t < a)%Qc | Eq_ => a = b end.
Definition sign_within (t : Qc) (n : nat) (x : list Qc) (s : sign_written) : Prop :=
  match s with
  | One k c => compared_within t c (point x k) 0%Qc
  | All c => forall k, k < n -> compared_within t c (point x k) 0%Qc
  end.
Definition written_within (t : Qc) (s : script) (x : list Qc) : Prop :=
  length x = variables s /\
  (forall l c r, In (l, c, r) (s_rows s) -> compared_within t c (written l x) (written r x)) /\
  (forall g, In g (s_signs s) -> sign_within t (variables s) x g).
(** the size of a point: its entries, and the distances between the two sides of the rows *)
Definition written_size (s : script) (x : list Qc) : Qc :=
  (qtot (map qabs x) + qtot (map (fun lcr => qabs (written (snd lcr) x - written (fst (fst lcr)) x)%Qc) (s_rows s)))%Qc.
(** expressions that the library reads as arithmetic does: linear, numbers added at the outside only,
    and not a Variable alone *)
Definition readable (e : expr) : Prop := linear e /\ pure e /\ plain [] e /\ forall k, e <> Var k.
(** either one sign for all variables, or signs for different variables that occur in the rows *)
Definition signs_fit (n : nat) (l : list sign_written) : Prop :=
  (exists c, c <> Eq_ /\ l = [All c]) \/
  exists kc, l = map (fun p => One (fst p) (snd p)) kc /\ NoDup (map fst kc) /\ forall k c, In (k, c) kc -> k < n /\ c <> Eq_.
Definition well_written (s : script) : Prop :=
  s_rows s <> [] /\
  (forall l c r, In (l, c, r) (s_rows s) -> readable l /\ readable r /\ numeric l && numeric r = false) /\
  readable (s_objective s) /\ top (s_objective s) <= variables s /\
  signs_fit (variables s) (s_signs s).
(** the coefficient of variable [j] (from 0) and the constant *)
Definition unit_point (j : nat) : assignment := fun i => if Nat.eqb i j then 1%Qc else 0%Qc.
Definition slope (e : expr) (j : nat) : Qc := (value_of [] e (unit_point j) - value_of [] e zero)%Qc.
Definition intercept (e : expr) : Qc := value_of [] e zero.
Definition whole (M : Z) (v : Qc) : Prop := exists z, v = qz z /\ (Z.abs z <= M)%Z.
(** whole numbers: coefficients and constants of the rows up to [M], with m! M^m <= 300 for m rows *)
Definition small_script (M : Z) (s : script) : Prop :=
  (1 <= M)%Z /\
  (forall l c r, In (l, c, r) (s_rows s) -> whole M (intercept r - intercept l)%Qc /\ forall j, whole M (slope l j - slope r j)%Qc) /\
  (forall j, exists z, slope (s_objective s) j = qz z) /\
  (Z.of_nat (fact (length (s_rows s))) * M ^ Z.of_nat (length (s_rows s)) <= 300)%Z.
