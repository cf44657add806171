(** What expressions, comparisons and formulations mean: ordinary arithmetic over an assignment of
    numbers to the variables 0, 1, 2, ... (the user's x[1], x[2], x[3], ...). *)
From Coq Require Import String List Bool Arith ZArith QArith Qcanon.
From Verif Require Import Py QcTac QSum MatModel LinearModel LinearSpec FormulationModel.
Import ListNotations.
Open Scope nat_scope.
Open Scope string_scope.
Open Scope list_scope.

Definition assignment := nat -> Qc.
Definition zero : assignment := fun _ => 0%Qc.
(** the value of a stored expression *)
Definition equation_value (e : equation) (a : assignment) : Qc := (Sigma (eterms e) (fun kc => snd kc * a (fst kc)) + econstant e)%Qc.
Definition val_value (h : heap) (v : val) (a : assignment) : Qc :=
  match v with VNum q => q | VVar k => a k | VEq l => equation_value (get h l) a | VNone => 0%Qc end.
(** the value of a written expression; [Use l] stands for the expression stored at [l] *)
Fixpoint value_of (h : heap) (e : expr) (a : assignment) : Qc :=
  match e with
  | Num q => q
  | Var k => a k
  | Item i => a (Z.to_nat (i - 1))
  | Use l => equation_value (get h l) a
  | Neg e => - value_of h e a
  | Pos e => value_of h e a
  | Add e f => value_of h e a + value_of h f a
  | Sub e f => value_of h e a - value_of h f a
  | Mul e f => value_of h e a * value_of h f a
  end%Qc.
(** no variable occurs *)
Fixpoint numeric (e : expr) : bool :=
  match e with
  | Num _ => true
  | Var _ | Item _ | Use _ => false
  | Neg e | Pos e => numeric e
  | Add e f | Sub e f | Mul e f => numeric e && numeric f
  end.
(** products have a number on one side, and indices are positive *)
Fixpoint linear (e : expr) : Prop :=
  match e with
  | Num _ | Var _ | Use _ => True
  | Item i => (1 <= i)%Z
  | Neg e | Pos e => linear e
  | Add e f | Sub e f => linear e /\ linear f
  | Mul e f => linear e /\ linear f /\ numeric e || numeric f = true
  end.
(** the stored expressions that are used *)
Fixpoint uses (e : expr) : list nat :=
  match e with
  | Num _ | Var _ | Item _ => []
  | Use l => [l]
  | Neg e | Pos e => uses e
  | Add e f | Sub e f | Mul e f => uses e ++ uses f
  end.
(** every stored expression exists and is used at most once *)
Definition single_use (h : heap) (e : expr) : Prop := NoDup (uses e) /\ forall l, In l (uses e) -> l < length h.
(** variables occur and no number is added or subtracted anywhere (products with numbers are allowed) *)
Fixpoint homogeneous (h : heap) (e : expr) : Prop :=
  match e with
  | Num _ => False
  | Var _ | Item _ => True
  | Use l => econstant (get h l) = 0%Qc
  | Neg e | Pos e => homogeneous h e
  | Add e f | Sub e f => homogeneous h e /\ homogeneous h f
  | Mul e f => (numeric e = true /\ homogeneous h f) \/ (homogeneous h e /\ numeric f = true)
  end.
(** numbers are added only at the outside: never below a minus sign, a product, or on the right of
    another expression *)
Fixpoint plain (h : heap) (e : expr) : Prop :=
  numeric e = true \/ homogeneous h e \/
  match e with
  | Use _ => True
  | Pos e => plain h e
  | Add e f => (plain h e /\ (numeric f = true \/ homogeneous h f)) \/ (numeric e = true /\ plain h f)
  | Sub e f => (plain h e /\ (numeric f = true \/ homogeneous h f)) \/ (numeric e = true /\ homogeneous h f)
  | _ => False
  end.

(** the constant that evaluation really leaves: unary minus and products do not touch it, and the
    constant of the right operand of + and - is dropped when both operands are expressions *)
Fixpoint kept (h : heap) (e : expr) : Qc :=
  match e with
  | Num q => q
  | Var _ | Item _ => 0
  | Use l => econstant (get h l)
  | Neg e => if numeric e then - kept h e else kept h e
  | Pos e => kept h e
  | Add e f => if numeric e || numeric f then kept h e + kept h f else kept h e
  | Sub e f => if numeric f then kept h e - kept h f else if numeric e then kept h f + kept h e else kept h e
  | Mul e f => if numeric e then (if numeric f then kept h e * kept h f else kept h f) else kept h e
  end%Qc.

(** the operations of the interface on existing values, and the heaps they lead to *)
Inductive op := ONeg (a : val) | OPos (a : val) | OAdd (a b : val) | OSub (a b : val) | OMul (a b : val) | OItem (i : Z).
Definition apply (o : op) (h : heap) : heap * res val :=
  match o with
  | ONeg a => vneg h a | OPos a => vpos h a | OAdd a b => vadd_ h a b | OSub a b => vsub_ h a b | OMul a b => vmul h a b | OItem i => item h i
  end.
Definition operands (o : op) : list val := match o with ONeg a | OPos a => [a] | OAdd a b | OSub a b | OMul a b => [a; b] | OItem _ => [] end.
Definition valid (h : heap) (v : val) : Prop := match v with VEq l => l < length h | _ => True end.
Inductive reachable_heap : heap -> Prop :=
| rh_nil : reachable_heap []
| rh_op h o : reachable_heap h -> (forall v, In v (operands o) -> valid h v) -> reachable_heap (fst (apply o h)).

(** * Constraints *)
(** a Variable or a LinearEquation *)
Definition is_expression (v : val) : Prop := match v with VVar _ | VEq _ => True | _ => False end.
Definition compared (c : comparison_) (x y : Qc) : Prop := match c with Le => (x <= y)%Qc | Ge => (y <= x)%Qc | Eq_ => x = y end.
Definition row_value (v : list Qc) (a : assignment) : Qc := Sigma (seq 0 (length v)) (fun i => nth i v 0 * a i)%Qc.
(** variables are numbered from 1 in sign constraints; the empty list stands for all variables *)
Definition named (l : option (list Z)) (j : nat) : Prop := match l with None => False | Some [] => True | Some l => In (Z.of_nat (S j)) l end.
Definition satisfied (c : constraint) (a : assignment) : Prop :=
  match c with
  | Linear v s q => related (relation_of s) (row_value v a) q
  | Signs pos neg => (forall j, named pos j -> (0 <= a j)%Qc) /\ (forall j, named neg j -> (a j <= 0)%Qc)
  | Truth b => b = true
  end.

(** * Formulations *)
Inductive call := Where (cs : list constraint) | AllPositive | AllNegative | Extend | Program.
Definition perform (c : call) (f : formulation) : formulation * res unit :=
  match c with
  | Where cs => where_ f cs
  | AllPositive => where_all true f
  | AllNegative => where_all false f
  | Extend => (extend f, Ok tt)
  | Program => let '(f, r) := program f in (f, rmap (fun _ => tt) r)
  end.
(** a history of calls none of which raises *)
Inductive history : formulation -> list call -> formulation -> Prop :=
| h_nil f : history f [] f
| h_step f c f' cs f'' : perform c f = (f', Ok tt) -> history f' cs f'' -> history f (c :: cs) f''.
(** the sign constraints given in a history *)
Definition signs_of (cs : list call) : list constraint :=
  flat_map (fun c => match c with Where l => l | AllPositive => [Signs (Some []) None] | AllNegative => [Signs None (Some [])] | _ => [] end) cs.
(** among the first [n] variables *)
Definition satisfied_below (n : nat) (c : constraint) (a : assignment) : Prop :=
  match c with
  | Signs pos neg => (forall j, j < n -> named pos j -> (0 <= a j)%Qc) /\ (forall j, j < n -> named neg j -> (a j <= 0)%Qc)
  | c => satisfied c a
  end.
Definition point (x : list Qc) : assignment := fun i => nth i x 0%Qc.
(** the number of variables: the largest number of coefficients of a constraint *)
Definition width (cs : list constraint) : nat := list_max (map (fun c => match c with Linear v _ _ => length v | _ => 0 end) cs).
(** the variables that sign constraints name, in order and with repetitions *)
Definition listed (n : nat) (positive : bool) (cs : list constraint) : list Z :=
  flat_map (fun c => match c with
                     | Signs p m => match (if positive then p else m) with None => [] | Some [] => map (fun i => Z.of_nat (S i)) (seq 0 n) | Some l => l end
                     | _ => []
                     end) cs.
