(** The numbers of a modelling script, and how small the rounding errors must be. *)
From Coq Require Import String List Bool Arith ZArith QArith Qcanon.
From Verif Require Import Py QcTac QInt MatModel DetTheory LinearModel LinearSpec FormulationModel FormulationSpec ScriptModel ScriptSpec RoundedSpec RoundedSolveSpec.
Import ListNotations.
Open Scope nat_scope.
Open Scope string_scope.
Open Scope list_scope.

(** on the program as it is given (RoundedRunSpec.steady speaks of the standard form): whole numbers, subdeterminants
    of at most [K <= 300], and [16 * e * (2 * weight + 3 * rows) * (1 + rows * K) * K < 1e-10] *)
Record steady_program (e : Qc) (K : Z) (p : lp) : Prop := mksteady_program {
  sp_whole : whole_numbers p;
  sp_minors : subdeterminants_at_most K p;
  sp_K : (1 <= K <= 300)%Z;
  sp_e0 : (0 <= e)%Qc;
  sp_e : let m := qz (Z.of_nat (length (lA p))) in
    (qz 16 * e * (qz 2 * weight p + qz 3 * m) * (1 + m * qz K) * qz K < Q2Qc (1 # 10000000000))%Qc }.
(** the numbers of a script as they are written, everything moved to one side: coefficients, constants and costs;
    nothing else of this program is used *)
Definition numbers (s : script) : lp := mklp
  (map (fun lcr => map (fun j => slope (fst (fst lcr)) j - slope (snd lcr) j)%Qc (seq 0 (variables s))) (s_rows s))
  (map (fun lcr => intercept (snd lcr) - intercept (fst (fst lcr)))%Qc (s_rows s))
  (map (slope (s_objective s)) (seq 0 (variables s))) 0%Qc "max" [] true [] [].
Definition equation_row (lcr : expr * comparison_ * expr) : bool := match snd (fst lcr) with Eq_ => true | _ => false end.
(** no equation follows from the others: a combination of the equations in which no variable is left is trivial *)
Definition independent_rows (s : script) : Prop :=
  forall y, length y = length (s_rows s) ->
    (forall i, i < length (s_rows s) -> equation_row (nth i (s_rows s) (Num 0%Qc, Le, Num 0%Qc)) = false -> nth i y 0%Qc = 0%Qc) ->
    (forall j, j < variables s -> inner y (map (fun lcr => slope (fst (fst lcr)) j - slope (snd lcr) j)%Qc (s_rows s)) = 0%Qc) ->
    forall i, i < length y -> nth i y 0%Qc = 0%Qc.
Definition has_sign (s : script) (k : nat) : bool :=
  existsb (fun g => match g with One j _ => Nat.eqb j k | All _ => true end) (s_signs s).
(** the number of columns in standard form: a variable without a sign counts twice, an inequality adds one *)
Definition standard_columns (s : script) : nat :=
  variables s + length (filter (fun k => negb (has_sign s k)) (seq 0 (variables s))) + length (filter (fun lcr => negb (equation_row lcr)) (s_rows s)).
(** every row says that something is at most a number that is not negative *)
Definition from_zero (s : script) : Prop :=
  forall l c r, In (l, c, r) (s_rows s) -> c = Le /\ numeric l = false /\ (intercept l <= intercept r)%Qc.
