(** Lemmas on walks and cycles (GraphSpec.v), independent of every model. *)
From Coq Require Import String List Arith Lia Bool.
From Verif Require Import GraphSpec.
Import ListNotations.

Section G.
  Variable adj : string -> string -> Prop.
  Notation walk := (walk adj).

  Lemma walk_cons n u v w : adj u v -> walk n v w -> walk (S n) u w.
  Proof.
    intros H W. induction W as [v|n v x y W IH Hxy].
    - econstructor; [constructor|auto].
    - econstructor; [apply IH; auto|auto].
  Qed.
  Lemma walk_app n m u v w : walk n u v -> walk m v w -> walk (n + m) u w.
  Proof.
    intros W1 W2. revert n u W1. induction W2 as [v|m v x y W IH Hxy]; intros n u W1.
    - now rewrite Nat.add_0_r.
    - rewrite Nat.add_succ_r. econstructor; eauto.
  Qed.
  Lemma walk_sym (Hs : forall a b, adj a b -> adj b a) n u v : walk n u v -> walk n v u.
  Proof.
    induction 1 as [v|n u v w W IH H]; [constructor|]. eapply walk_cons; eauto.
  Qed.
  Lemma walk_uncons n u w : walk (S n) u w -> exists v, adj u v /\ walk n v w.
  Proof.
    revert w. induction n as [|n IH]; intros w H; inversion H as [|? ? x ? W Hx]; subst.
    - inversion W; subst. exists w. split; auto. constructor.
    - destruct (IH _ W) as (v & Hv & Wv). exists v. split; auto. econstructor; eauto.
  Qed.

  Lemma reach_refl u : reachable adj u u.
  Proof. exists 0. constructor. Qed.
  Lemma reach_trans u v w : reachable adj u v -> reachable adj v w -> reachable adj u w.
  Proof. intros [n H1] [m H2]. exists (n + m). eapply walk_app; eauto. Qed.
  Lemma reach_sym (Hs : forall a b, adj a b -> adj b a) u v : reachable adj u v -> reachable adj v u.
  Proof. intros [n H]. exists n. now apply walk_sym. Qed.
  Lemma reach_step u v w : reachable adj u v -> adj v w -> reachable adj u w.
  Proof. intros [n H] H'. exists (S n). econstructor; eauto. Qed.

  (** [spath a l v]: from [a] through the vertices [l] (in order), ending at [v] *)
  Inductive spath : string -> list string -> string -> Prop :=
  | sp_nil a : spath a [] a
  | sp_cons a b l v : adj a b -> spath b l v -> spath a (b :: l) v.

  Lemma spath_suffix a l v : spath a l v -> NoDup (a :: l) -> forall x, In x (a :: l) ->
    exists l2, spath x l2 v /\ NoDup (x :: l2) /\ incl (x :: l2) (a :: l).
  Proof.
    induction 1 as [a|a b l v Hab Hp IH]; intros Hnd x Hx.
    - destruct Hx as [<-|[]]. exists []. repeat split; auto using incl_refl. constructor.
    - destruct (string_dec a x) as [->|Hne].
      + exists (b :: l). split; [constructor; auto|]. split; auto using incl_refl.
      + inversion Hnd; subst. destruct Hx as [|Hx]; [congruence|].
        destruct (IH H2 x Hx) as (l2 & A & B & C). exists l2. repeat split; auto. now apply incl_tl.
  Qed.

  Lemma spath_simple a l v : spath a l v ->
    exists l', spath a l' v /\ NoDup (a :: l') /\ incl (a :: l') (a :: l).
  Proof.
    induction 1 as [a|a b l v Hab Hp IH].
    - exists []. split; [constructor|]. split; auto using incl_refl. constructor; auto using NoDup_nil.
    - destruct IH as (l' & A & B & C). destruct (in_dec string_dec a (b :: l')) as [Hi|Hn].
      + destruct (spath_suffix _ _ _ A B a Hi) as (l2 & A2 & B2 & C2).
        exists l2. split; auto. split; auto.
        intros z Hz. right. now apply C, C2.
      + exists (b :: l'). split; [constructor; auto|]. split; [constructor; auto|].
        intros z [<-|Hz]; [now left|right; now apply C].
  Qed.

  Lemma spath_app a l v l' w : spath a l v -> spath v l' w -> spath a (l ++ l') w.
  Proof. induction 1; simpl; auto. intros H'. constructor; auto. Qed.

  Lemma spath_rev (Hs : forall a b, adj a b -> adj b a) a l v : spath a l v ->
    exists l', spath v l' a /\ incl (v :: l') (a :: l).
  Proof.
    induction 1 as [a|a b l v Hab Hp IH].
    - exists []. split; [constructor|apply incl_refl].
    - destruct IH as (l' & A & B). exists (l' ++ [a]). split.
      + eapply spath_app; eauto. constructor; [auto|constructor].
      + intros z [<-|Hz].
        * right. apply B. now left.
        * apply in_app_iff in Hz. destruct Hz as [Hz|[<-|[]]]; [right; apply B; now right|now left].
  Qed.

  Lemma chain_cons a l : chain adj (a :: l) <-> match l with [] => True | b :: _ => adj a b /\ chain adj l end.
  Proof. destruct l; simpl; tauto. Qed.

  Lemma last_cons (b : string) l a : last (b :: l) a = last l b.
  Proof. revert b. induction l as [|c l IH]; intros b; auto. simpl in *. destruct l; auto. Qed.

  Lemma spath_chain a l v : spath a l v -> chain adj (a :: l) /\ last l a = v.
  Proof.
    induction 1 as [a|a b l v Hab Hp IH]; [split; simpl; auto|].
    destruct IH as [H1 H2]. split; [rewrite chain_cons; auto|]. now rewrite last_cons.
  Qed.
  Lemma chain_spath a l : chain adj (a :: l) -> spath a l (last l a).
  Proof.
    revert a. induction l as [|b l IH]; intros a H; [constructor|].
    rewrite chain_cons in H. rewrite last_cons. constructor; [apply H|]. apply IH, H.
  Qed.

  (** two neighbours of [v] joined by a path avoiding [v] close a cycle *)
  Lemma cycle_through v u1 u2 l :
    adj v u1 -> adj u2 v -> u1 <> u2 -> spath u1 l u2 -> ~ In v (u1 :: l) -> exists l', cycle adj v l'.
  Proof.
    intros H1 H2 Hne Hp Hv. destruct (spath_simple _ _ _ Hp) as (l' & A & B & C).
    exists (u1 :: l'). destruct (spath_chain _ _ _ A) as [D E]. split; [|split; [|split]].
    - constructor; auto.
    - destruct l' as [|x l']; simpl; [|lia]. inversion A; subst. congruence.
    - rewrite chain_cons. auto.
    - rewrite last_cons, E. exact H2.
  Qed.
End G.
