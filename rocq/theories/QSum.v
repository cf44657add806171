(** Finite sums of rationals over lists. *)
From Coq Require Import String List Bool QArith Qcanon Permutation.
From Verif Require Import QcTac.
Import ListNotations.
Open Scope list_scope.
Open Scope Qc_scope.

Definition qtot (l : list Qc) : Qc := fold_right Qcplus 0 l.
Definition ind (b : bool) : Qc := if b then 1 else 0.

(** [Sigma l f] = sum of [f x] for [x] in [l] *)
Definition Sigma {A} (l : list A) (f : A -> Qc) : Qc := qtot (map f l).

Section S.
  Context {A : Type}.
  Implicit Types (l : list A) (f g : A -> Qc).
  Lemma Sigma_nil f : Sigma [] f = 0. Proof. reflexivity. Qed.
  Lemma Sigma_cons x l f : Sigma (x :: l) f = f x + Sigma l f. Proof. reflexivity. Qed.
  Lemma Sigma_app l l' f : Sigma (l ++ l') f = Sigma l f + Sigma l' f.
  Proof.
    induction l as [|x l IH]; [rewrite Sigma_nil; simpl; ring|].
    simpl. rewrite !Sigma_cons, IH. ring.
  Qed.
  Lemma Sigma_ext l f g : (forall x, In x l -> f x = g x) -> Sigma l f = Sigma l g.
  Proof. intros H. unfold Sigma. f_equal. now apply map_ext_in. Qed.
  Lemma Sigma_zero l : Sigma l (fun _ => 0) = 0.
  Proof. induction l as [|x l IH]; auto. rewrite Sigma_cons, IH. ring. Qed.
  Lemma Sigma_add l f g : Sigma l (fun x => f x + g x) = Sigma l f + Sigma l g.
  Proof. induction l as [|x l IH]; [rewrite !Sigma_nil; ring|]. rewrite !Sigma_cons, IH. ring. Qed.
  Lemma Sigma_sub l f g : Sigma l (fun x => f x - g x) = Sigma l f - Sigma l g.
  Proof. induction l as [|x l IH]; [rewrite !Sigma_nil; ring|]. rewrite !Sigma_cons, IH. ring. Qed.
  Lemma Sigma_scal l f k : Sigma l (fun x => k * f x) = k * Sigma l f.
  Proof. induction l as [|x l IH]; [rewrite !Sigma_nil; ring|]. rewrite !Sigma_cons, IH. ring. Qed.
  Lemma Sigma_le l f g : (forall x, In x l -> f x <= g x) -> Sigma l f <= Sigma l g.
  Proof.
    induction l as [|x l IH]; intros H; [apply Qcle_refl|]. rewrite !Sigma_cons.
    apply Qcplus_le_compat; [apply H; now left|]. apply IH. intros y Hy. apply H. now right.
  Qed.
  Lemma Sigma_nonneg l f : (forall x, In x l -> 0 <= f x) -> 0 <= Sigma l f.
  Proof. intros H. rewrite <- (Sigma_zero l). now apply Sigma_le. Qed.
  Lemma Sigma_pos l f x : (forall y, In y l -> 0 <= f y) -> In x l -> 0 < f x -> 0 < Sigma l f.
  Proof.
    intros H Hx Hp. apply in_split in Hx. destruct Hx as (l1 & l2 & ->).
    rewrite Sigma_app, Sigma_cons.
    assert (0 <= Sigma l1 f) by (apply Sigma_nonneg; intros; apply H, in_or_app; auto).
    assert (0 <= Sigma l2 f) by (apply Sigma_nonneg; intros; apply H, in_or_app; simpl; auto).
    qclra.
  Qed.
  Lemma Sigma_filter l (p : A -> bool) f : Sigma (filter p l) f = Sigma l (fun x => ind (p x) * f x).
  Proof.
    induction l as [|x l IH]; auto. simpl. rewrite Sigma_cons. destruct (p x); simpl.
    - rewrite Sigma_cons, IH. ring.
    - rewrite IH. ring.
  Qed.
  Lemma Sigma_perm l l' f : Permutation l l' -> Sigma l f = Sigma l' f.
  Proof.
    induction 1; auto; rewrite ?Sigma_cons.
    - now rewrite IHPermutation.
    - ring.
    - congruence.
  Qed.
  (** a sum with at most one nonzero term *)
  Lemma Sigma_single l (x : A) f : NoDup l -> In x l -> (forall y, In y l -> y <> x -> f y = 0) -> Sigma l f = f x.
  Proof.
    intros Hnd Hx H. apply in_split in Hx. destruct Hx as (l1 & l2 & ->).
    rewrite Sigma_app, Sigma_cons. apply NoDup_remove_2 in Hnd.
    rewrite (Sigma_ext l1 f (fun _ => 0)), (Sigma_ext l2 f (fun _ => 0)), !Sigma_zero.
    - ring.
    - intros y Hy. apply H; [apply in_or_app; simpl; auto|]. intros ->. apply Hnd, in_or_app; auto.
    - intros y Hy. apply H; [apply in_or_app; simpl; auto|]. intros ->. apply Hnd, in_or_app; auto.
  Qed.
  Lemma Sigma_none l f : (forall y, In y l -> f y = 0) -> Sigma l f = 0.
  Proof. intros H. rewrite (Sigma_ext l f (fun _ => 0)); auto. apply Sigma_zero. Qed.
  (** changing one term *)
  Lemma Sigma_change l (x : A) f g : NoDup l -> In x l -> (forall y, In y l -> y <> x -> g y = f y) ->
    Sigma l g = Sigma l f + (g x - f x).
  Proof.
    intros Hnd Hx H. assert (E : Sigma l (fun y => g y - f y) = g x - f x).
    { apply (Sigma_single l x (fun y => g y - f y)); auto. intros y Hy Hne. rewrite H; auto. ring. }
    rewrite Sigma_sub in E. rewrite <- E. ring.
  Qed.
End S.

Lemma Sigma_map {A B} (h : A -> B) l f : Sigma (map h l) f = Sigma l (fun x => f (h x)).
Proof. unfold Sigma. now rewrite map_map. Qed.

Lemma Sigma_swap {A B} (l : list A) (m : list B) (f : A -> B -> Qc) :
  Sigma l (fun x => Sigma m (f x)) = Sigma m (fun y => Sigma l (fun x => f x y)).
Proof.
  induction l as [|a l IH].
  - rewrite Sigma_nil. symmetry. apply Sigma_none. reflexivity.
  - rewrite Sigma_cons, IH, <- Sigma_add. apply Sigma_ext. intros. now rewrite Sigma_cons.
Qed.

Lemma ind_mul_le b x : 0 <= x -> ind b * x <= x.
Proof.
  destruct b; unfold ind; intros; [replace (1 * x) with x by ring | replace (0 * x) with 0 by ring]; auto.
  apply Qcle_refl.
Qed.
