(** Histories of a formulation in which the program's methods are called as well. *)
From Coq Require Import String List Bool Arith ZArith QArith Qcanon.
From Verif Require Import Py QcTac QSum LinearModel LinearSpec FormulationModel FormulationSpec LinearHeap LinearHeapSpec FormHeapModel.
Import ListNotations.
Open Scope nat_scope.

(** calls of the formulation's own methods, and calls of the program's methods through it *)
Inductive action := Own (c : call) | Through (u : use).
Definition act (a : action) (H : heap) (g : hformulation) : heap * hformulation * res unit :=
  match a with Own c => h_call H g c | Through u => h_through H g u end.
(** a history of actions none of which raises *)
Inductive actions : heap -> hformulation -> list action -> heap -> hformulation -> Prop :=
| a_nil H g : actions H g [] H g
| a_step H g a H1 g1 l H2 g2 : act a H g = (H1, g1, Ok tt) -> actions H1 g1 l H2 g2 -> actions H g (a :: l) H2 g2.
(** the formulation's own calls among them *)
Definition own (l : list action) : list call := flat_map (fun a => match a with Own c => [c] | Through _ => [] end) l.

(** [copy], and the methods with [in_place=False], give the caller another program *)
Definition on_copy (u : use) : bool :=
  match u with
  | UCopy | USef false | UCanonical _ false | UConstraint _ _ _ false | UVariable _ _ _ _ false | UIteration _ false => true
  | _ => false
  end.
(** methods that are not meant to change the program: those, and the solvers *)
Definition inspects (u : use) : bool :=
  on_copy u || match u with USimplex _ _ | UTwoPhase _ | USolve _ | UFeasible _ => true | _ => false end.
(** methods that change the program by giving it new arrays *)
Definition replaces (u : use) : bool :=
  match u with UCanonical _ _ | UConstraint _ _ _ _ | UVariable _ _ _ _ _ => true | _ => false end.
(** a call after which the program is compiled anew *)
Definition recompiles (c : call) : bool := match c with Program => false | _ => true end.

(** the effect of a method on the program it is called on, as a value *)
Definition changed (p : lp) (u : use) : lp :=
  if on_copy u then p else
  match u with
  | UCopy | UFeasible _ => p
  | USef _ => fst (to_sef p)
  | UCanonical B _ => match to_canonical_form p B with Ok q => q | _ => p end
  | UConstraint a q v _ => fst (add_constraint p a q v)
  | UVariable k col f n _ => fst (add_variable p k col f n)
  | UIteration B _ => iterated p B
  | USimplex fuel B => fst (simplex fuel p B)
  | UTwoPhase fuel => fst (two_phase_simplex fuel p)
  | USolve fuel => fst (solve fuel p)
  end.

(** the program [p] is what the user described: objective [a] (an expression over the stored
    expressions [h]) of the given kind, constraints [cs], sign constraints [signs] *)
Definition describes (kind : string) (h : FormulationModel.heap) (a : val) (cs signs : list constraint) (p : lp) : Prop :=
  (maximise (meaning p) = true <-> kind = "max"%string) /\
  (forall x, length x = width cs -> value (meaning p) x = val_value h a (point x)) /\
  (forall x, feasible (meaning p) x <->
     length x = width cs /\ (forall c, In c cs -> satisfied c (point x)) /\ (forall c, In c signs -> satisfied_below (width cs) c (point x))).
(** a formulation as the user makes it; the heap may contain anything else *)
Definition formulated (H0 : heap) (kind : string) (h : FormulationModel.heap) (a : val) (cs : list constraint) (H : heap) (g : hformulation) : Prop :=
  reachable_heap h /\ valid h a /\
  exists H1 o, h_optimise H0 kind h a = (H1, Ok o) /\ h_subject_to H1 o cs = (H, Ok g).
