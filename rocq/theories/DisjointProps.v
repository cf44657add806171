(** C03, C04: properties of [DisjointSet]. *)
From Coq Require Import String List Bool Arith.
From Verif Require Import Py DisjointModel DisjointSpec DisjointProofs.
Import ListNotations.
Open Scope string_scope.

(** C03. After any history, [find] returns normally on items, a member of the same class,
    and the same representative for two items exactly when the unions link them. *)
Theorem C03_find_decides_connectivity :
  forall (items : list string) (s0 : dsu) (h : list op),
    dsu_init items = Ok s0 ->
    forall a b, In a items -> In b items ->
      exists ra rb,
        snd (find (run s0 h) a) = Ok ra /\ snd (find (run s0 h) b) = Ok rb /\
        In ra items /\ linked items h a ra /\ (ra = rb <-> linked items h a b).
Proof. exact C03_core. Qed.
Print Assumptions C03_find_decides_connectivity.

(** C03. Calls naming an unknown element raise ValueError and leave the object unchanged;
    union of two items returns normally. *)
Theorem C03_unknown_elements :
  forall (items : list string) (s0 : dsu) (h : list op),
    dsu_init items = Ok s0 ->
    let s := run s0 h in
    (forall a, ~ In a items -> find s a = (s, Raise ValueError)) /\
    (forall a b, ~ (In a items /\ In b items) -> union s a b = (s, Raise ValueError)) /\
    (forall a b, In a items -> In b items -> snd (union s a b) = Ok tt).
Proof. exact C03_errors_core. Qed.
Print Assumptions C03_unknown_elements.

(** C03. The constructor accepts exactly the duplicate-free lists. *)
Theorem C03_constructor :
  forall items : list string,
    ((exists s, dsu_init items = Ok s) <-> NoDup items) /\
    (~ NoDup items -> dsu_init items = Raise ValueError).
Proof. exact dsu_init_spec. Qed.
Print Assumptions C03_constructor.

(** The recursion bound of the model is never what stops [find]: any larger bound gives the
    same result. *)
Theorem C03_find_recursion_bounded :
  forall (items : list string) (s0 : dsu) (h : list op) (x : string) (n : nat),
    dsu_init items = Ok s0 -> length items < n ->
    find_fuel n (run s0 h) x = find (run s0 h) x /\ snd (find (run s0 h) x) <> Diverges.
Proof. exact find_bound_core. Qed.
Print Assumptions C03_find_recursion_bounded.

(** C04. A find call never changes what any later sequence of calls answers. *)
Theorem C04_find_is_observationally_pure :
  forall (items : list string) (s0 : dsu) (h h' : list op) (x : string),
    dsu_init items = Ok s0 ->
    answers (fst (find (run s0 h) x)) h' = answers (run s0 h) h'.
Proof. exact C04_pure_core. Qed.
Print Assumptions C04_find_is_observationally_pure.

(** C04. Rank strictly increases along parent links (so links form no cycle), and a
    representative of rank r heads a class of at least 2^r items. *)
Theorem C04_rank_and_class_size :
  forall (items : list string) (s0 : dsu) (h : list op),
    dsu_init items = Ok s0 ->
    let s := run s0 h in
    (forall x p, sget x (parent s) = Some p -> p <> x -> rank_of s x < rank_of s p) /\
    (forall x, In x items -> exists r,
       snd (find s x) = Ok r /\ 2 ^ rank_of s x <= 2 ^ rank_of s r /\
       2 ^ rank_of s r <= length (filter (fun y =>
          match snd (find s y) with Ok q => String.eqb q r | _ => false end) items)).
Proof. exact C04_rank_core. Qed.
Print Assumptions C04_rank_and_class_size.

(** C04. Hence ranks never exceed log2 of the number of items. *)
Theorem C04_rank_log_bound :
  forall (items : list string) (s0 : dsu) (h : list op) (x : string),
    dsu_init items = Ok s0 -> In x items ->
    rank_of (run s0 h) x <= Nat.log2 (length items).
Proof. exact C04_log_core. Qed.
Print Assumptions C04_rank_log_bound.

(** Non-vacuity. *)
Definition ex_items := ["a"; "b"; "c"; "d"; "e"].
Definition ex_hist := [Union "a" "b"; Union "c" "d"; Find "b"; Union "b" "d"; Union "a" "zz"].
Example C03_ex :
  exists s0, dsu_init ex_items = Ok s0 /\
    snd (find (run s0 ex_hist) "d") = Ok "a" /\ snd (find (run s0 ex_hist) "b") = Ok "a" /\
    snd (find (run s0 ex_hist) "e") = Ok "e" /\
    rank_of (run s0 ex_hist) "a" = 2 /\
    dsu_init ["a"; "a"] = Raise ValueError.
Proof. eexists. split; [reflexivity|]. vm_compute. repeat split. Qed.
Example C03_ex_linked : linked ex_items ex_hist "a" "d".
Proof.
  eapply linked_trans; [apply linked_union with (b := "b")|apply linked_union]; simpl; tauto.
Qed.
Example C04_ex_find_mutates :
  exists s0, dsu_init ex_items = Ok s0 /\ fst (find (run s0 ex_hist) "d") <> run s0 ex_hist.
Proof. eexists. split; [reflexivity|]. vm_compute. discriminate. Qed.
