(** Formulations that share arrays with the objective they are made from and with the program they
    compile to, for C72.  pytimize/formulations/linear/_objective.py, _abstract.py and
    pytimize/formulations/integer.  The arrays of a formulation are addresses in the heap of
    LinearHeap.v; what the methods compute is taken from FormulationModel.v.
    Simplification: one formulation at a time besides the objective, or two made from one objective;
    results of methods that are handed to the caller are not tracked further. *)
From Coq Require Import String List Bool Arith ZArith QArith Qcanon.
From Verif Require Import Py QcTac QSum MatModel LinearModel IntegerModel ObjectModel FormulationModel FormulationSpec LinearHeap.
Import ListNotations.
Open Scope nat_scope.
Open Scope string_scope.
Open Scope list_scope.

(** * Objectives *)
(** _objective.py:12-15: [_c] is an array, or None *)
Record hobjective := mkhobjective { qc : option nat; qconst : Qc; qkind : string }.
(** what the properties [coefficients], [constant], [objective] show (_objective.py:46-56) *)
Definition see (H : heap) (o : hobjective) : objective := mkobjective (option_map (read_vec H) (qc o)) (qconst o) (qkind o).
(** _objective.py:59-70 [minimize], [maximize]: [equation.coefficients] is a new array
    (_equation.py:115-124) *)
Definition h_optimise (H : heap) (kind : string) (h : FormulationModel.heap) (a : val) : heap * res hobjective :=
  match optimise kind h a with
  | Ok o =>
    match FormulationModel.oc o with
    | Some v => (H ++ [Vec v], Ok (mkhobjective (Some (length H)) (FormulationModel.oz o) (okind o)))
    | None => (H, Ok (mkhobjective None (FormulationModel.oz o) (okind o)))
    end
  | Raise e => (H, Raise e)
  | Diverges => (H, Diverges)
  end.

(** * Formulations *)
(** _abstract.py:10-28 *)
Record hformulation := mkhf {
  gA : nat; gb : nat; gc : nat; gz : Qc; gkind : string; gineq : list string;
  gneg : list Z; gpos : list Z; gprog : option pobj; grec : bool }.
(** what the attributes hold *)
Definition view (H : heap) (g : hformulation) : formulation :=
  mkformulation (read_mat H (gA g) false) (read_vec H (gb g)) (read_vec H (gc g)) (gz g) (gkind g) (gineq g) (gneg g) (gpos g)
    (option_map (load H) (gprog g)) (grec g).
(** _objective.py:21-41 [subject_to]: [_A] and [_b] are new; [pad_right] (_utilities.py:16-19) gives
    the objective's own array when no zeros have to be added *)
Definition h_subject_to (H : heap) (o : hobjective) (cs : list constraint) : heap * res hformulation :=
  match subject_to (see H o) cs with
  | Raise e => (H, Raise e)
  | Diverges => (H, Diverges)
  | Ok f =>
    let H1 := H ++ [Mat (length (fc f)) (fA f); Vec (fb f)] in
    let made H2 c := (H2, Ok (mkhf (length H) (S (length H)) c (fz f) (fkind f) (fineq f) (fneg f) (fpos f) None (frecompile f))) in
    match qc o with
    | Some r => if Nat.eqb (length (read_vec H r)) (length (fc f)) then made H1 r else made (H1 ++ [Vec (fc f)]) (length H1)
    | None => made (H1 ++ [Vec (fc f)]) (length H1)
    end
  end.
(** _abstract.py:89-109 [program]: the constructor is given the arrays themselves *)
Definition h_program (H : heap) (g : hformulation) : heap * hformulation * res pobj :=
  match gprog g, grec g with
  | Some p, false => (H, g, Ok p)
  | _, _ =>
    let free := filter (fun i => negb (existsb (Z.eqb i) (gneg g ++ gpos g))) (map (fun i => Z.of_nat (S i)) (seq 0 (length (read_vec H (gc g))))) in
    match h_new H (Ref (gA g) false) (Ref (gb g) false) (Ref (gc g) false) (gz g) (gkind g) (Some (gineq g)) (Some free) (Some (gneg g)) with
    | (H, Ok p) => (H, mkhf (gA g) (gb g) (gc g) (gz g) (gkind g) (gineq g) (gneg g) (gpos g) (Some p) false, Ok p)
    | (H, Raise e) => (H, g, Raise e)
    | (H, Diverges) => (H, g, Diverges)
    end
  end.
(** _abstract.py:36-80 [where], [whereAllPositive], [whereAllNegative], [extend] change the lists of
    signs and the flag only; [Program] is the property *)
Definition h_call (H : heap) (g : hformulation) (c : call) : heap * hformulation * res unit :=
  match c with
  | Program => let '(H, g, r) := h_program H g in (H, g, rmap (fun _ => tt) r)
  | _ => let '(f, r) := perform c (view H g) in (H, mkhf (gA g) (gb g) (gc g) (gz g) (gkind g) (gineq g) (fneg f) (fpos f) (gprog g) (frecompile f), r)
  end.

(** * Methods of the program, called on the formulation *)
Inductive use :=
| UCopy
| USef (in_place : bool)
| UCanonical (basis : list Z) (in_place : bool)
| UConstraint (coefficients : source) (inequality : string) (value : Qc) (in_place : bool)
| UVariable (coefficient : Qc) (column : option (list Qc)) (free negative in_place : bool)
| UIteration (basis : list Z) (in_place : bool)
| USimplex (fuel : nat) (basis : list Z)
| UTwoPhase (fuel : nat)
| USolve (fuel : nat)
| UFeasible (x : list Qc).

Definition done {A} (r : res A) : res unit := rmap (fun _ => tt) r.
(** the method itself, on the program (_linear.py; see LinearHeap.v) *)
Definition h_apply (u : use) (H : heap) (o : pobj) : heap * pobj * res unit :=
  match u with
  | UCopy => (H, o, Ok tt)
  | USef _ => (h_to_sef H o, Ok tt)
  | UCanonical B _ => h_canonical H o B
  | UConstraint a q v _ => h_add_constraint H o a q v
  | UVariable k col f n _ => h_add_variable H o k col f n
  | UIteration B _ => let '(H', o', r) := h_iteration H o B in (H', o', done r)
  | USimplex fuel B => let '(H', r) := h_simplex fuel H o B in (H', o, done r)
  | UTwoPhase fuel => let '(H', r) := h_two_phase fuel H o in (H', o, done r)
  | USolve fuel => let '(H', r) := h_solve fuel H o in (H', o, done r)
  | UFeasible x => (H, o, done (is_feasible (load H o) x))
  end.
(** works on a copy *)
Definition copies (u : use) : bool :=
  match u with
  | UCopy => true
  | USef ip | UCanonical _ ip | UConstraint _ _ _ ip | UVariable _ _ _ _ ip | UIteration _ ip => negb ip
  | USimplex _ _ | UTwoPhase _ | USolve _ | UFeasible _ => false
  end.
Definition h_use (u : use) (H : heap) (o : pobj) : heap * pobj * res unit :=
  if copies u then let '(H1, o1) := h_copy H o in let '(H2, _, r) := h_apply u H1 o1 in (H2, o, r) else h_apply u H o.
(** _abstract.py:33-34 [__getattr__]: the method is the one of [self.program] *)
Definition h_through (H : heap) (g : hformulation) (u : use) : heap * hformulation * res unit :=
  match h_program H g with
  | (H, g, Ok o) =>
    let '(H, o, r) := h_use u H o in
    (H, mkhf (gA g) (gb g) (gc g) (gz g) (gkind g) (gineq g) (gneg g) (gpos g) (Some o) (grec g), r)
  | (H, g, Raise e) => (H, g, Raise e)
  | (H, g, Diverges) => (H, g, Diverges)
  end.

(** formulations/integer/_objective.py:7-8, _abstract.py: the objective of an integer formulation
    inherits [subject_to], so the formulation is the one above and so is its program *)
Definition integer_formulation (o : objective) (cs : list constraint) : res formulation := subject_to o cs.
Definition integer_program_of (f : formulation) : res object := rmap ObjectModel.Linear (snd (program f)).
