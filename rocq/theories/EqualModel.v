(** Model of the rest of pytimize/graphs/_undirected.py: the printed form, [has_spanning_tree] and
    the answers of a sequence of calls. *)
From Coq Require Import String List Bool Arith QArith Qcanon.
From Verif Require Import Py QcTac UndirectedModel.
Import ListNotations.
Open Scope nat_scope.
Open Scope string_scope.
Open Scope list_scope.

(** [sep.join(l)] *)
Fixpoint join (sep : string) (l : list string) : string :=
  match l with
  | [] => ""
  | [x] => x
  | x :: l' => (x ++ sep ++ join sep l')%string
  end.
(** the character "\n" *)
Definition newline : string := String (Ascii.ascii_of_nat 10) "".

(** _undirected.py:82-85: the line of one vertex *)
Definition line (vc : string * list string) : string := (fst vc ++ ": " ++ join "-" (sorted (snd vc)))%string.
(** _undirected.py:70-87 [__repr__]; [adjacency] is a set, which is sorted before it is joined *)
Definition repr (g : ugraph) : string := join newline (sorted (nodup string_dec (map line (ug_graph g)))).

(** _undirected.py:630-631 [has_spanning_tree] *)
Definition has_spanning_tree (g : ugraph) : res bool := is_connected g.

(** what the calls of a history return or raise, in order *)
Fixpoint answers (g : ugraph) (h : list uop) : list (res unit) :=
  match h with [] => [] | o :: h' => snd (ustep g o) :: answers (fst (ustep g o)) h' end.
