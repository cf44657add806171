(** Python run-time notions shared by all models: exceptions as values,
    insertion-ordered dictionaries.  No property is stated here. *)
From Coq Require Import List Bool Arith Lia.
Import ListNotations.

(** Exception classes that the modelled code raises (explicitly, or through the
    Python / numpy operation named at the use site). *)
Inductive exn :=
| ValueError | ArithmeticError | IndexError | TypeError | KeyError
| AttributeError | LinAlgError | UnboundLocalError | PlainException.

(** Outcome of a call: normal return, exception, or "the loop ran out of fuel". *)
Inductive res (A : Type) :=
| Ok (a : A)
| Raise (e : exn)
| Diverges.
Arguments Ok {A} a.
Arguments Raise {A} e.
Arguments Diverges {A}.

Definition bind {A B} (r : res A) (f : A -> res B) : res B :=
  match r with Ok a => f a | Raise e => Raise e | Diverges => Diverges end.

Notation "'do' x <- r ; k" := (bind r (fun x => k))
  (at level 200, x pattern, r at level 100, k at level 200, right associativity).

Definition rmap {A B} (f : A -> B) (r : res A) : res B := bind r (fun a => Ok (f a)).

(** Insertion-ordered dictionary ([dict] of Python 3.7+) as an association list. *)
Section Dict.
  Context {K V : Type} (eqk : K -> K -> bool).

  (** [d.get(k)] *)
  Fixpoint dget (k : K) (d : list (K * V)) : option V :=
    match d with
    | [] => None
    | (k', v) :: d' => if eqk k k' then Some v else dget k d'
    end.

  (** [k in d] *)
  Definition dmem (k : K) (d : list (K * V)) : bool :=
    match dget k d with Some _ => true | None => false end.

  (** [d[k] = v]: overwrite in place, or append at the end *)
  Fixpoint dset (k : K) (v : V) (d : list (K * V)) : list (K * V) :=
    match d with
    | [] => [(k, v)]
    | (k', v') :: d' => if eqk k k' then (k', v) :: d' else (k', v') :: dset k v d'
    end.

  (** [d.setdefault(k, v)] *)
  Definition dsetdefault (k : K) (v : V) (d : list (K * V)) : list (K * V) :=
    if dmem k d then d else d ++ [(k, v)].

  (** [del d[k]] (the caller has checked membership) *)
  Fixpoint ddel (k : K) (d : list (K * V)) : list (K * V) :=
    match d with
    | [] => []
    | (k', v') :: d' => if eqk k k' then d' else (k', v') :: ddel k d'
    end.

  (** [d.keys()] *)
  Definition dkeys (d : list (K * V)) : list K := map fst d.

  Hypothesis eqk_spec : forall a b, reflect (a = b) (eqk a b).

  Lemma dget_dset_eq k v d : dget k (dset k v d) = Some v.
  Proof.
    induction d as [|[k' v'] d IH]; simpl.
    - destruct (eqk_spec k k); congruence.
    - destruct (eqk k k') eqn:E; simpl; rewrite E; auto.
  Qed.

  Lemma dget_dset_ne k k' v d : k <> k' -> dget k (dset k' v d) = dget k d.
  Proof.
    intros Hne. induction d as [|[k0 v0] d IH]; simpl.
    - destruct (eqk_spec k k'); congruence.
    - destruct (eqk_spec k' k0) as [->|]; simpl.
      + destruct (eqk_spec k k0); congruence.
      + destruct (eqk k k0); auto.
  Qed.

  Lemma dget_dset k k' v d :
    dget k (dset k' v d) = if eqk k k' then Some v else dget k d.
  Proof.
    destruct (eqk_spec k k') as [->|H]; [apply dget_dset_eq|now apply dget_dset_ne].
  Qed.

  Lemma dget_app k d1 d2 :
    dget k (d1 ++ d2) = match dget k d1 with Some v => Some v | None => dget k d2 end.
  Proof.
    induction d1 as [|[k0 v0] d IH]; simpl; auto. destruct (eqk k k0); auto.
  Qed.

  Lemma dget_dsetdefault k k' v d :
    dget k (dsetdefault k' v d) =
    match dget k d with
    | Some w => Some w
    | None => if eqk k k' then Some v else None
    end.
  Proof.
    unfold dsetdefault, dmem.
    destruct (dget k' d) eqn:E.
    - destruct (dget k d) eqn:E2; auto.
      destruct (eqk_spec k k'); congruence.
    - rewrite dget_app. destruct (dget k d); auto.
  Qed.

  Lemma dget_In k v d : dget k d = Some v -> In (k, v) d.
  Proof.
    induction d as [|[k0 v0] d IH]; simpl; [discriminate|].
    destruct (eqk_spec k k0) as [->|]; intros H; [left; congruence|right; auto].
  Qed.

  Lemma dget_keys k d : dget k d <> None <-> In k (dkeys d).
  Proof.
    induction d as [|[k0 v0] d IH]; simpl; [tauto|].
    destruct (eqk_spec k k0) as [->|Hn]; split; intros H.
    - now left.
    - congruence.
    - right. now apply IH.
    - apply IH. destruct H; [congruence|auto].
  Qed.

  Lemma dmem_keys k d : dmem k d = true <-> In k (dkeys d).
  Proof.
    rewrite <- dget_keys. unfold dmem. destruct (dget k d); split; congruence.
  Qed.

  Lemma dget_None k d : dget k d = None <-> ~ In k (dkeys d).
  Proof.
    rewrite <- dget_keys. destruct (dget k d); split; intros H; try congruence; try tauto.
    exfalso; apply H; congruence.
  Qed.

  Lemma In_dget k v d : NoDup (dkeys d) -> In (k, v) d -> dget k d = Some v.
  Proof.
    induction d as [|[k0 v0] d IH]; simpl; [tauto|].
    intros Hnd [He|Hi]; inversion Hnd; subst.
    - inversion He; subst. destruct (eqk_spec k k); congruence.
    - destruct (eqk_spec k k0) as [->|]; auto.
      exfalso. apply H1. change k0 with (fst (k0, v)). now apply in_map.
  Qed.

  Lemma dkeys_dset k v d :
    dkeys (dset k v d) = if dmem k d then dkeys d else dkeys d ++ [k].
  Proof.
    unfold dmem. induction d as [|[k0 v0] d IH]; simpl; auto.
    destruct (eqk_spec k k0) as [->|]; simpl; auto.
    rewrite IH. destruct (dget k d); auto.
  Qed.

  Lemma NoDup_snoc (l : list K) k : NoDup l -> ~ In k l -> NoDup (l ++ [k]).
  Proof.
    intros H1 H2. induction l as [|a l IH]; simpl.
    - constructor; [exact H2|constructor].
    - inversion H1; subst. constructor.
      + rewrite in_app_iff. simpl in *. intuition congruence.
      + apply IH; simpl in *; tauto.
  Qed.

  Lemma NoDup_dset k v d : NoDup (dkeys d) -> NoDup (dkeys (dset k v d)).
  Proof.
    intros H. rewrite dkeys_dset. destruct (dmem k d) eqn:E; auto.
    apply NoDup_snoc; auto. intros Hi. apply dmem_keys in Hi. congruence.
  Qed.

  Lemma dkeys_dsetdefault k v d :
    dkeys (dsetdefault k v d) = if dmem k d then dkeys d else dkeys d ++ [k].
  Proof.
    unfold dsetdefault. destruct (dmem k d); auto.
    unfold dkeys. now rewrite map_app.
  Qed.

  Lemma NoDup_dsetdefault k v d : NoDup (dkeys d) -> NoDup (dkeys (dsetdefault k v d)).
  Proof.
    intros H. rewrite dkeys_dsetdefault. destruct (dmem k d) eqn:E; auto.
    apply NoDup_snoc; auto. intros Hi. apply dmem_keys in Hi. congruence.
  Qed.

  Lemma dkeys_ddel_incl k d x : In x (dkeys (ddel k d)) -> In x (dkeys d).
  Proof.
    induction d as [|[k0 v0] d IH]; simpl; auto.
    destruct (eqk k k0); simpl; tauto.
  Qed.

  Lemma NoDup_ddel k d : NoDup (dkeys d) -> NoDup (dkeys (ddel k d)).
  Proof.
    induction d as [|[k0 v0] d IH]; simpl; auto.
    intros H; inversion H; subst.
    destruct (eqk k k0); simpl; auto. constructor; auto.
    intros Hi. apply H2. now apply dkeys_ddel_incl in Hi.
  Qed.

  Lemma dget_ddel k k' d :
    NoDup (dkeys d) -> dget k (ddel k' d) = if eqk k k' then None else dget k d.
  Proof.
    induction d as [|[k0 v0] d IH]; simpl.
    - destruct (eqk k k'); auto.
    - intros H; inversion H; subst.
      destruct (eqk_spec k' k0) as [->|Hn]; simpl.
      + destruct (eqk_spec k k0) as [->|]; auto.
        apply dget_None. auto.
      + rewrite IH by auto.
        destruct (eqk_spec k k0) as [->|]; auto.
        destruct (eqk_spec k0 k'); congruence.
  Qed.
End Dict.
