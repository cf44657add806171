(** Vocabulary for C03-C04: connectivity generated by the union calls of a history.
    Only the call syntax [op] is taken from the model file. *)
From Coq Require Import List String.
From Verif Require Import DisjointModel.

(** [a] and [b] are linked by the union calls in [h] whose arguments are both items *)
Inductive linked (items : list string) (h : list op) : string -> string -> Prop :=
| linked_refl a : linked items h a a
| linked_union a b : In (Union a b) h -> In a items -> In b items -> linked items h a b
| linked_sym a b : linked items h a b -> linked items h b a
| linked_trans a b c : linked items h a b -> linked items h b c -> linked items h a c.
