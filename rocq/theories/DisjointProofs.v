From Coq Require Import String List Bool Arith Lia.
From Verif Require Import Py DisjointModel DisjointSpec.
Import ListNotations.

Notation eqs := String.eqb_spec.

Lemma NoDup_app_iff_local {A} (l l' : list A) :
  NoDup l -> NoDup l' -> (forall x, In x l -> In x l' -> False) -> NoDup (l ++ l').
Proof.
  induction l as [|a l IH]; simpl; auto. intros H H' Hd. inversion H; subst.
  constructor.
  - rewrite in_app_iff. intros [Hi|Hi]; eauto.
  - apply IH; auto. intros x Hx. apply Hd; auto.
Qed.

Inductive rootof (s : dsu) : string -> string -> Prop :=
| root_here x : sget x (parent s) = Some x -> rootof s x x
| root_step x p r : sget x (parent s) = Some p -> p <> x -> rootof s p r -> rootof s x r.

Lemma rootof_fun s x r r' : rootof s x r -> rootof s x r' -> r = r'.
Proof.
  intros H. revert r'. induction H as [x Hx|x p r Hx Hp H IH]; intros r' H'.
  - inversion H'; subst; congruence.
  - inversion H'; subst; [congruence|]. apply IH. congruence.
Qed.

Lemma rootof_root s x r : rootof s x r -> sget r (parent s) = Some r.
Proof. induction 1; auto. Qed.

Record wf (items : list string) (s : dsu) : Prop := {
  wf_nd : NoDup items;
  wf_pk : dkeys (parent s) = items;
  wf_rk : dkeys (rank s) = items;
  wf_closed : forall x p, sget x (parent s) = Some p -> In p items;
  wf_inc : forall x p, sget x (parent s) = Some p -> p <> x -> rank_of s x < rank_of s p;
  wf_total : forall x, In x items -> exists r, rootof s x r;
  wf_size : forall r, sget r (parent s) = Some r ->
     exists l, NoDup l /\ 2 ^ rank_of s r <= length l /\ (forall x, In x l -> In x items /\ rootof s x r)
}.

Lemma wf_key items s x : wf items s -> (In x items <-> exists p, sget x (parent s) = Some p).
Proof.
  intros W. rewrite <- (wf_pk _ _ W), <- (dget_keys _ eqs).
  destruct (sget x (parent s)); split; intros H; eauto; try congruence.
  destruct H; discriminate.
Qed.

Lemma wf_rank_lt items s x : wf items s -> In x items -> rank_of s x < length items.
Proof.
  intros W Hx. 
  assert (Hroot : forall r, sget r (parent s) = Some r -> rank_of s r < length items).
  { intros r Hr. destruct (wf_size _ _ W r Hr) as (l & Hnd & Hl & Hin).
    assert (length l <= length items).
    { apply NoDup_incl_length; auto. intros y Hy. now apply Hin. }
    pose proof (Nat.pow_gt_lin_r 2 (rank_of s r)). lia. }
  destruct (wf_total _ _ W x Hx) as [r Hr].
  assert (rank_of s x <= rank_of s r /\ rank_of s r < length items).
  { split; [|apply Hroot; eapply rootof_root; eauto].
    clear Hx. induction Hr as [x H|x p r H Hp Hr IH]; auto.
    pose proof (wf_inc _ _ W x p H Hp). lia. }
  lia.
Qed.

Lemma rootof_rank items s x r : wf items s -> rootof s x r -> x = r \/ rank_of s x < rank_of s r.
Proof.
  intros W H. induction H as [x H|x p r H Hp Hr IH]; auto.
  right. pose proof (wf_inc _ _ W x p H Hp). destruct IH as [->|]; lia.
Qed.

Lemma rootof_in items s x r : wf items s -> rootof s x r -> In x items /\ In r items.
Proof.
  intros W H. split.
  - apply (wf_key _ _ x W). inversion H; eauto.
  - eapply wf_closed; eauto. eapply rootof_root; eauto.
Qed.

(** same ranks, same representatives *)
Definition equiv (s s' : dsu) : Prop :=
  rank s = rank s' /\ dkeys (parent s) = dkeys (parent s') /\ (forall x r, rootof s x r <-> rootof s' x r).

Lemma equiv_refl s : equiv s s. Proof. repeat split; auto. Qed.
Lemma equiv_sym s s' : equiv s s' -> equiv s' s.
Proof. intros (A & B & C). repeat split; auto; apply C. Qed.
Lemma equiv_trans a b c : equiv a b -> equiv b c -> equiv a c.
Proof.
  intros (A & B & C) (A' & B' & C'). repeat split; try congruence.
  - intros H. now apply C', C.
  - intros H. now apply C, C'.
Qed.

(** path compression of one entry *)
Lemma compress items s x r :
  wf items s -> rootof s x r -> x <> r ->
  let s' := mkdsu (sset x r (parent s)) (rank s) in wf items s' /\ equiv s s'.
Proof.
  intros W H Hne s'.
  assert (Hx : In x items /\ In r items) by (eapply rootof_in; eauto).
  assert (Hroot : sget r (parent s) = Some r) by (eapply rootof_root; eauto).
  assert (Hxnot : sget x (parent s) <> Some x).
  { intros Hs. apply Hne. eapply rootof_fun; eauto. now constructor. }
  assert (Hfw : forall y q, rootof s y q -> rootof s' y q).
  { intros y q Hy. induction Hy as [y Hy|y p q Hy Hp Hq IH].
    - constructor. simpl. rewrite (dget_dset_ne _ eqs); auto. intros ->; auto.
    - destruct (String.string_dec y x) as [->|Hyx].
      + assert (q = r) as ->.
        { eapply rootof_fun; [|exact H]. econstructor; eauto. }
        apply root_step with r; auto.
        * simpl. apply (dget_dset_eq _ eqs).
        * constructor. simpl. rewrite (dget_dset_ne _ eqs); auto.
      + apply root_step with p; auto. simpl. rewrite (dget_dset_ne _ eqs); auto. }
  assert (Hbw : forall y q, rootof s' y q -> rootof s y q).
  { intros y q Hy.
    assert (Hyi : In y items).
    { apply (wf_key _ _ y W).
      assert (exists p, sget y (parent s') = Some p) as [p Hp] by (inversion Hy; eauto).
      simpl in Hp. rewrite (dget_dset _ eqs) in Hp.
      destruct (eqs y x) as [->|]; eauto.
      destruct Hx as [Hx _]. now apply (wf_key _ _ x W) in Hx. }
    destruct (wf_total _ _ W y Hyi) as [q' Hq'].
    assert (q = q') by (eapply rootof_fun; eauto). now subst. }
  assert (Hk : dkeys (parent s') = dkeys (parent s)).
  { simpl. rewrite (dkeys_dset _ eqs).
    destruct (smem x (parent s)) eqn:E; auto. exfalso.
    assert (smem x (parent s) = true) by (apply (dmem_keys _ eqs); rewrite (wf_pk _ _ W); tauto).
    congruence. }
  split.
  - constructor.
    + exact (wf_nd _ _ W).
    + rewrite Hk. exact (wf_pk _ _ W).
    + exact (wf_rk _ _ W).
    + intros y p. simpl. rewrite (dget_dset _ eqs). destruct (eqs y x); intros Hp.
      * inversion Hp; subst; tauto.
      * eapply wf_closed; eauto.
    + intros y p. simpl. rewrite (dget_dset _ eqs). destruct (eqs y x) as [->|]; intros Hp Hpy.
      * inversion Hp; subst. unfold rank_of; simpl.
        destruct (rootof_rank _ _ _ _ W H); [congruence|auto].
      * unfold rank_of; simpl. eapply (wf_inc _ _ W); eauto.
    + intros y Hy. destruct (wf_total _ _ W y Hy) as [q Hq]. exists q. auto.
    + intros q Hq. assert (sget q (parent s) = Some q) as Hq'.
      { simpl in Hq. rewrite (dget_dset _ eqs) in Hq. destruct (eqs q x) as [Hqx|Hqx]; [|exact Hq].
        inversion Hq; congruence. }
      destruct (wf_size _ _ W q Hq') as (l & H1 & H2 & H3). exists l. repeat split; auto; firstorder.
  - repeat split; auto.
Qed.

Lemma find_fuel_spec items s x r n :
  wf items s -> rootof s x r -> rank_of s r - rank_of s x < n ->
  exists s', find_fuel n s x = (s', Ok r) /\ wf items s' /\ equiv s s'.
Proof.
  intros W H. revert n. induction H as [x Hx|x p r Hx Hp Hr IH]; intros n Hn.
  - destruct n; [lia|]. simpl. rewrite Hx, String.eqb_refl. exists s. auto using equiv_refl.
  - pose proof (wf_inc _ _ W x p Hx Hp) as Hlt.
    assert (rank_of s p <= rank_of s r) by (destruct (rootof_rank _ _ _ _ W Hr); [subst|]; lia).
    destruct n; [lia|]. simpl. rewrite Hx. destruct (eqs p x); [congruence|].
    destruct (IH n ltac:(lia)) as (s' & E & W' & Q). rewrite E.
    assert (Hxr : rootof s' x r) by (apply Q; econstructor; eauto).
    assert (Hne : x <> r).
    { intros ->. apply Hp. symmetry. pose proof (rootof_root _ _ _ Hr). congruence. }
    destruct (compress _ _ _ _ W' Hxr Hne) as [W2 Q2].
    eexists. split; [reflexivity|]. split; auto. eapply equiv_trans; eauto.
Qed.

Lemma find_spec items s x r :
  wf items s -> rootof s x r ->
  exists s', find s x = (s', Ok r) /\ wf items s' /\ equiv s s'.
Proof.
  intros W H. apply find_fuel_spec with (items := items); auto.
  assert (Hr : rank_of s r < length items) by (apply wf_rank_lt; auto; eapply rootof_in; eauto).
  assert (length (parent s) = length items).
  { rewrite <- (wf_pk _ _ W). unfold dkeys. now rewrite map_length. }
  lia.
Qed.

Lemma find_unknown items s x : wf items s -> ~ In x items -> find s x = (s, Raise ValueError).
Proof.
  intros W H. unfold find. simpl.
  assert (sget x (parent s) = None) as ->; auto.
  apply (dget_None _ eqs). now rewrite (wf_pk _ _ W).
Qed.

Lemma find_fuel_enough items s x n :
  wf items s -> length items < n -> find_fuel n s x = find s x.
Proof.
  intros W Hn. destruct (in_dec String.string_dec x items) as [Hx|Hx].
  - destruct (wf_total _ _ W x Hx) as [r Hr].
    assert (Hlen : length (parent s) = length items).
    { rewrite <- (wf_pk _ _ W). unfold dkeys. now rewrite map_length. }
    assert (Hrk : rank_of s r < length items) by (apply wf_rank_lt; auto; eapply rootof_in; eauto).
    unfold find. clear Hx.
    assert (Hg : forall n m, rank_of s r - rank_of s x < n -> rank_of s r - rank_of s x < m ->
      find_fuel n s x = find_fuel m s x).
    { clear n Hn Hlen Hrk. induction Hr as [x Hx|x p r Hx Hp Hr IH]; intros n m Hn Hm.
      - destruct n, m; try lia. simpl. now rewrite Hx, String.eqb_refl.
      - pose proof (wf_inc _ _ W x p Hx Hp) as Hlt.
        assert (rank_of s p <= rank_of s r) by (destruct (rootof_rank _ _ _ _ W Hr); [subst|]; lia).
        destruct n, m; try lia. simpl. rewrite Hx.
        rewrite (IH n m) by lia. reflexivity. }
    apply Hg; lia.
  - unfold find. destruct n; [lia|]. simpl.
    assert (sget x (parent s) = None) as ->; auto.
    apply (dget_None _ eqs). now rewrite (wf_pk _ _ W).
Qed.

(** linking two roots *)
Lemma rank_of_sset s p y k x : rank_of (mkdsu p (sset y k (rank s))) x = if String.eqb x y then k else rank_of s x.
Proof.
  unfold rank_of; simpl. rewrite (dget_dset _ eqs). now destruct (String.eqb x y).
Qed.

Lemma keys_sset {V} (d : list (string * V)) x v : In x (dkeys d) -> dkeys (sset x v d) = dkeys d.
Proof.
  intros H. rewrite (dkeys_dset _ eqs). apply (dmem_keys _ eqs) in H. now rewrite H.
Qed.

Lemma link items s a b s' :
  wf items s -> sget a (parent s) = Some a -> sget b (parent s) = Some b -> a <> b ->
  (rank_of s b < rank_of s a /\ s' = mkdsu (sset b a (parent s)) (rank s) \/
   rank_of s b = rank_of s a /\ s' = mkdsu (sset b a (parent s)) (sset a (S (rank_of s a)) (rank s))) ->
  wf items s' /\
  (forall x r, rootof s x r -> rootof s' x (if String.eqb r b then a else r)).
Proof.
  intros W Ha Hb Hne Hs'.
  assert (Hia : In a items) by (eapply wf_closed; eauto).
  assert (Hib : In b items) by (eapply wf_closed; eauto).
  assert (Hpar : parent s' = sset b a (parent s)) by (destruct Hs' as [[_ ->]|[_ ->]]; auto).
  assert (Hrk : forall x, rank_of s x <= rank_of s' x /\ (x <> a -> rank_of s' x = rank_of s x)).
  { intros x. destruct Hs' as [[_ ->]|[_ ->]].
    - split; auto. 
    - rewrite rank_of_sset. destruct (eqs x a) as [->|]; split; try congruence; lia. }
  assert (Hrka : rank_of s b < rank_of s' a).
  { destruct Hs' as [[Hr ->]|[Hr ->]].
    - exact Hr.
    - rewrite rank_of_sset, String.eqb_refl. lia. }
  assert (Hfw : forall x r, rootof s x r -> rootof s' x (if String.eqb r b then a else r)).
  { intros x r H. induction H as [x Hx|x p r Hx Hp Hr IH].
    - destruct (eqs x b) as [->|Hxb].
      + apply root_step with a; auto.
        * rewrite Hpar. apply (dget_dset_eq _ eqs).
        * constructor. rewrite Hpar, (dget_dset_ne _ eqs); auto.
      + constructor. rewrite Hpar, (dget_dset_ne _ eqs); auto.
    - apply root_step with p; auto. rewrite Hpar, (dget_dset_ne _ eqs); auto. congruence. }
  split; auto. constructor.
  - exact (wf_nd _ _ W).
  - rewrite Hpar, keys_sset; rewrite (wf_pk _ _ W); auto.
  - destruct Hs' as [[_ ->]|[_ ->]]; simpl.
    + exact (wf_rk _ _ W).
    + rewrite keys_sset; rewrite (wf_rk _ _ W); auto.
  - intros x p. rewrite Hpar, (dget_dset _ eqs). destruct (eqs x b); intros H.
    + now inversion H; subst.
    + eapply wf_closed; eauto.
  - intros x p. rewrite Hpar, (dget_dset _ eqs). destruct (eqs x b) as [->|Hxb]; intros H Hpx.
    + inversion H; subst. destruct (Hrk b) as [_ ->]; auto.
    + assert (x <> a) by congruence.
      destruct (Hrk x) as [_ ->]; auto. destruct (Hrk p) as [Hp _].
      pose proof (wf_inc _ _ W x p H Hpx). lia.
  - intros x Hx. destruct (wf_total _ _ W x Hx) as [r Hr]. eauto.
  - intros r. rewrite Hpar, (dget_dset _ eqs). destruct (eqs r b) as [->|Hrb]; intros H.
    { inversion H; congruence. }
    destruct (wf_size _ _ W r H) as (l & H1 & H2 & H3).
    assert (Hl : forall x, In x l -> In x items /\ rootof s' x r).
    { intros x Hx. destruct (H3 x Hx) as [Hi Hr]. split; auto.
      apply Hfw in Hr. destruct (eqs r b); congruence. }
    destruct (String.string_dec r a) as [->|Hra].
    2:{ exists l. repeat split; auto; try (apply Hl; auto). destruct (Hrk r) as [_ ->]; auto. }
    destruct Hs' as [[Hr ->]|[Hr ->]].
    { exists l. repeat split; auto; apply Hl; auto. }
    destruct (wf_size _ _ W b Hb) as (l' & H1' & H2' & H3').
    exists (l ++ l'). split; [|split].
    + apply NoDup_app_iff_local; auto. intros x Hx Hx'.
      apply Hne. exact (rootof_fun s x a b (proj2 (H3 x Hx)) (proj2 (H3' x Hx'))).
    + rewrite rank_of_sset, String.eqb_refl, app_length. simpl. rewrite Hr in H2'. lia.
    + intros x. rewrite in_app_iff. intros [Hx|Hx]; auto.
      destruct (H3' x Hx) as [Hi Hr']. split; auto. apply Hfw in Hr'.
      now rewrite String.eqb_refl in Hr'.
Qed.

Lemma union_unknown items s a b :
  wf items s -> ~ (In a items /\ In b items) -> union s a b = (s, Raise ValueError).
Proof.
  intros W H. unfold union.
  destruct (smem a (parent s)) eqn:Ea; auto.
  destruct (smem b (parent s)) eqn:Eb; auto.
  exfalso. apply H. apply (dmem_keys _ eqs) in Ea, Eb. rewrite (wf_pk _ _ W) in Ea, Eb. auto.
Qed.

Lemma wf_mem items s a : wf items s -> In a items -> smem a (parent s) = true.
Proof. intros W H. apply (dmem_keys _ eqs). now rewrite (wf_pk _ _ W). Qed.

(** effect of a union of two items *)
Lemma union_spec items s a b ra rb :
  wf items s -> rootof s a ra -> rootof s b rb ->
  exists s' w l,
    union s a b = (s', Ok tt) /\ wf items s' /\
    (w = ra /\ l = rb \/ w = rb /\ l = ra) /\
    (forall x r, rootof s x r -> rootof s' x (if String.eqb r l then w else r)).
Proof.
  intros W Ha Hb.
  destruct (rootof_in _ _ _ _ W Ha) as [Hia Hira].
  destruct (rootof_in _ _ _ _ W Hb) as [Hib Hirb].
  unfold union. rewrite (wf_mem items s a W Hia), (wf_mem items s b W Hib). simpl.
  destruct (find_spec _ _ _ _ W Ha) as (s1 & E1 & W1 & Q1). rewrite E1.
  assert (Hb1 : rootof s1 b rb) by now apply Q1.
  destruct (find_spec _ _ _ _ W1 Hb1) as (s2 & E2 & W2 & Q2). rewrite E2.
  assert (Q : equiv s s2) by (eapply equiv_trans; eauto).
  assert (Ha2 : rootof s2 a ra) by now apply Q.
  assert (Hb2 : rootof s2 b rb) by now apply Q.
  pose proof (rootof_root _ _ _ Ha2) as Hra. pose proof (rootof_root _ _ _ Hb2) as Hrb.
  destruct (eqs ra rb) as [->|Hne].
  { exists s2, rb, rb. split; [reflexivity|split; [assumption|split; [auto|]]]. intros x r Hx. apply Q in Hx.
    destruct (eqs r rb) as [->|]; auto. }
  destruct (Nat.ltb_spec (rank_of s2 ra) (rank_of s2 rb)) as [Hlt|Hge].
  { destruct (link items s2 rb ra (mkdsu (sset ra rb (parent s2)) (rank s2)) W2 Hrb Hra) as [W3 H3]; auto.
    exists (mkdsu (sset ra rb (parent s2)) (rank s2)), rb, ra. split; [reflexivity|split; [assumption|split; [auto|]]].
    intros x r Hx. apply H3. now apply Q. }
  destruct (Nat.ltb_spec (rank_of s2 rb) (rank_of s2 ra)) as [Hlt|Hge'].
  { destruct (link items s2 ra rb (mkdsu (sset rb ra (parent s2)) (rank s2)) W2 Hra Hrb) as [W3 H3]; auto.
    exists (mkdsu (sset rb ra (parent s2)) (rank s2)), ra, rb. split; [reflexivity|split; [assumption|split; [auto|]]].
    intros x r Hx. apply H3. now apply Q. }
  destruct (link items s2 ra rb
     (mkdsu (sset rb ra (parent s2)) (sset ra (S (rank_of s2 ra)) (rank s2))) W2 Hra Hrb) as [W3 H3]; auto.
  { right. split; auto. lia. }
  eexists _, ra, rb. split; [reflexivity|split; [assumption|split; [auto|]]].
  intros x r Hx. apply H3. now apply Q.
Qed.

(** initial state *)
Lemma has_dup_spec l : has_dup l = false <-> NoDup l.
Proof.
  induction l as [|a l IH]; simpl.
  - split; auto using NoDup_nil.
  - rewrite orb_false_iff, IH. split.
    + intros [H1 H2]. constructor; auto. intros Hi.
      assert (existsb (String.eqb a) l = true).
      { apply existsb_exists. exists a. split; auto. apply String.eqb_refl. }
      congruence.
    + intros H. inversion H; subst. split; auto.
      destruct (existsb (String.eqb a) l) eqn:E; auto.
      apply existsb_exists in E. destruct E as (y & Hy & He).
      apply String.eqb_eq in He. subst. tauto.
Qed.

Lemma init_loop_fields items : NoDup items ->
  parent (init_loop items) = map (fun x => (x, x)) items /\
  rank (init_loop items) = map (fun x => (x, 0)) items.
Proof.
  intros Hnd. unfold init_loop.
  assert (G : forall todo done, NoDup (done ++ todo) ->
    fold_left (fun s item =>
      mkdsu (dsetdefault String.eqb item item (parent s)) (dsetdefault String.eqb item 0 (rank s)))
      todo (mkdsu (map (fun x => (x, x)) done) (map (fun x => (x, 0)) done))
    = mkdsu (map (fun x => (x, x)) (done ++ todo)) (map (fun x => (x, 0)) (done ++ todo))).
  { induction todo as [|y todo IH]; intros done Hd; simpl.
    - now rewrite app_nil_r.
    - assert (Hy : ~ In y done).
      { apply NoDup_remove_2 in Hd. rewrite in_app_iff in Hd. tauto. }
      assert (Hk : forall V (f : string -> V), smem y (map (fun x => (x, f x)) done) = false).
      { intros V f. destruct (smem y _) eqn:E; auto. apply (dmem_keys _ eqs) in E.
        unfold dkeys in E. rewrite map_map, map_id in E. tauto. }
      unfold dsetdefault. rewrite (Hk _ (fun x => x)), (Hk _ (fun _ => 0)).
      replace (done ++ y :: todo) with ((done ++ [y]) ++ todo) in * by (now rewrite <- app_assoc).
      rewrite <- (IH (done ++ [y]) Hd). now rewrite !(map_app _ done). }
  specialize (G items [] Hnd). simpl in G. rewrite G. auto.
Qed.

Lemma dget_map {V} (f : string -> V) items x :
  sget x (map (fun y => (y, f y)) items) = if in_dec String.string_dec x items then Some (f x) else None.
Proof.
  induction items as [|y l IH]; auto. simpl map. simpl dget. rewrite IH.
  destruct (in_dec String.string_dec x l), (in_dec String.string_dec x (y :: l)), (eqs x y);
    simpl in *; subst; auto; exfalso; intuition congruence.
Qed.

Lemma wf_init items : NoDup items -> wf items (init_loop items).
Proof.
  intros Hnd. destruct (init_loop_fields items Hnd) as [Hp Hr].
  assert (Hg : forall x p, sget x (parent (init_loop items)) = Some p -> p = x /\ In x items).
  { intros x p. rewrite Hp, (dget_map (fun x => x)). destruct (in_dec _ x items); intros H; inversion H; subst; auto. }
  assert (Hg2 : forall x, In x items -> sget x (parent (init_loop items)) = Some x).
  { intros x Hx. rewrite Hp, (dget_map (fun x => x)). destruct (in_dec _ x items); tauto. }
  constructor; auto.
  - rewrite Hp. unfold dkeys. now rewrite map_map, map_id.
  - rewrite Hr. unfold dkeys. now rewrite map_map, map_id.
  - intros x p H. apply Hg in H. now destruct H; subst.
  - intros x p H Hne. apply Hg in H. tauto.
  - intros x Hx. exists x. constructor. auto.
  - intros r H. exists [r]. split; [|split].
    + constructor; auto using NoDup_nil.
    + assert (rank_of (init_loop items) r = 0) as ->; [|simpl; lia].
      unfold rank_of. rewrite Hr, (dget_map (fun _ => 0)). destruct (in_dec _ r items); auto.
    + intros x [<-|[]]. split; [now apply Hg in H|constructor; auto].
Qed.

(** histories *)
Lemma linked_mono items h o a b : linked items h a b -> linked items (h ++ [o]) a b.
Proof.
  induction 1; [apply linked_refl|apply linked_union|apply linked_sym|eapply linked_trans]; eauto.
  apply in_app_iff; auto.
Qed.

Definition agrees (items : list string) (h : list op) (s : dsu) : Prop :=
  forall a b ra rb, rootof s a ra -> rootof s b rb -> (ra = rb <-> linked items h a b).

Definition good items h s := wf items s /\ agrees items h s.

Lemma linked_find items h x a b : linked items (h ++ [Find x]) a b <-> linked items h a b.
Proof.
  split; [|apply linked_mono].
  induction 1; [apply linked_refl|apply linked_union|apply linked_sym|eapply linked_trans]; eauto.
  apply in_app_iff in H. destruct H as [|[H|[]]]; auto. discriminate.
Qed.

Lemma linked_bad_union items h x y a b :
  ~ (In x items /\ In y items) -> (linked items (h ++ [Union x y]) a b <-> linked items h a b).
Proof.
  intros Hn. split; [|apply linked_mono].
  induction 1; [apply linked_refl|apply linked_union|apply linked_sym|eapply linked_trans]; eauto.
  apply in_app_iff in H. destruct H as [|[H|[]]]; auto. inversion H; subst. tauto.
Qed.

Lemma agrees_ext items h h' s s' :
  (forall x r, rootof s x r <-> rootof s' x r) ->
  (forall a b, linked items h a b <-> linked items h' a b) -> agrees items h s -> agrees items h' s'.
Proof.
  intros H1 H2 H a b ra rb Ha Hb. rewrite <- H2. apply H; apply H1; auto.
Qed.

Lemma linked_items items h x y : linked items h x y -> x = y \/ (In x items /\ In y items).
Proof.
  induction 1 as [a|a b Hi Ha Hb|a b H IH|a b c H1 IH1 H2 IH2]; auto.
  - destruct IH as [->|]; tauto.
  - destruct IH1 as [->|]; destruct IH2 as [->|]; tauto.
Qed.

Lemma step_good items h s o : good items h s -> good items (h ++ [o]) (fst (step s o)).
Proof.
  intros [W A]. destruct o as [x|x y]; simpl.
  - destruct (in_dec String.string_dec x items) as [Hx|Hx].
    + destruct (wf_total _ _ W x Hx) as [r Hr].
      destruct (find_spec _ _ _ _ W Hr) as (s' & -> & W' & Q). simpl. split; auto.
      eapply agrees_ext; [apply Q| |exact A]. intros; symmetry; apply linked_find.
    + rewrite (find_unknown _ _ _ W Hx). simpl. split; auto.
      eapply agrees_ext; [| |exact A]; [tauto|]. intros; symmetry; apply linked_find.
  - destruct (in_dec String.string_dec x items) as [Hx|Hx].
    2:{ rewrite (union_unknown _ _ _ _ W) by tauto. simpl. split; auto.
        eapply agrees_ext; [| |exact A]; [tauto|]. intros; symmetry; apply linked_bad_union; tauto. }
    destruct (in_dec String.string_dec y items) as [Hy|Hy].
    2:{ rewrite (union_unknown _ _ _ _ W) by tauto. simpl. split; auto.
        eapply agrees_ext; [| |exact A]; [tauto|]. intros; symmetry; apply linked_bad_union; tauto. }
    destruct (wf_total _ _ W x Hx) as [rx Hrx]. destruct (wf_total _ _ W y Hy) as [ry Hry].
    destruct (union_spec _ _ _ _ _ _ W Hrx Hry) as (s' & w & l & -> & W' & Hwl & Hroot).
    simpl. split; auto.
    set (m := fun r => if String.eqb r l then w else r) in *.
    assert (Hm : m rx = m ry).
    { unfold m. destruct Hwl as [[-> ->]|[-> ->]]; rewrite String.eqb_refl;
      destruct (eqs ry rx), (eqs rx ry); congruence. }
    assert (Hxy : linked items (h ++ [Union x y]) x y).
    { apply linked_union; auto. apply in_app_iff; right; now left. }
    (* representatives after the union, from those before *)
    assert (Hcl : forall a b, linked items (h ++ [Union x y]) a b ->
      forall ra rb, rootof s a ra -> rootof s b rb -> m ra = m rb).
    { intros a b H. induction H as [a|a b Hi Ha Hb|a b H IH|a b c H1 IH1 H2 IH2]; intros ra rb Hra Hrb.
      - f_equal. eapply rootof_fun; eauto.
      - apply in_app_iff in Hi. destruct Hi as [Hi|[Hi|[]]].
        + f_equal. apply (A a b); auto. now apply linked_union.
        + inversion Hi; subst. 
          rewrite (rootof_fun _ _ _ _ Hra Hrx), (rootof_fun _ _ _ _ Hrb Hry). exact Hm.
      - symmetry. eauto.
      - destruct (linked_items _ _ _ _ H1) as [->|[_ Hib]]; eauto.
        destruct (wf_total _ _ W b Hib) as [r Hr]. transitivity (m r); eauto. }
    intros a b ra' rb' Ha Hb.
    destruct (rootof_in _ _ _ _ W' Ha) as [Hia _]. destruct (rootof_in _ _ _ _ W' Hb) as [Hib _].
    destruct (wf_total _ _ W a Hia) as [ra Hra]. destruct (wf_total _ _ W b Hib) as [rb Hrb].
    rewrite (rootof_fun _ _ _ _ Ha (Hroot _ _ Hra)), (rootof_fun _ _ _ _ Hb (Hroot _ _ Hrb)).
    fold (m ra) (m rb).
    split; [|intros H; eapply Hcl; eauto].
    intros Heq. 
    assert (Hself : forall z rz, rootof s z rz -> linked items (h ++ [Union x y]) z rz).
    { intros z rz Hz. apply linked_mono. apply (A z rz rz rz); auto.
      constructor. eapply rootof_root; eauto. }
    assert (Hwl2 : linked items (h ++ [Union x y]) w l).
    { assert (linked items (h ++ [Union x y]) rx ry).
      { eapply linked_trans; [apply linked_sym; eapply Hself; eauto|].
        eapply linked_trans; [exact Hxy|]. eapply Hself; eauto. }
      destruct Hwl as [[-> ->]|[-> ->]]; auto. now apply linked_sym. }
    assert (Hmr : forall z rz, rootof s z rz -> linked items (h ++ [Union x y]) z (m rz)).
    { intros z rz Hz. unfold m. destruct (eqs rz l) as [->|]; [|eapply Hself; eauto].
      eapply linked_trans; [eapply Hself; eauto|]. now apply linked_sym. }
    eapply linked_trans; [apply (Hmr a ra Hra)|]. rewrite Heq. apply linked_sym. eauto.
Qed.

Lemma run_good items h0 s h : good items h0 s -> good items (h0 ++ h) (run s h).
Proof.
  revert h0 s. induction h as [|o h IH]; intros h0 s H; simpl.
  - now rewrite app_nil_r.
  - replace (h0 ++ o :: h) with ((h0 ++ [o]) ++ h) by (now rewrite <- app_assoc).
    apply IH. now apply step_good.
Qed.

Lemma init_good items : NoDup items -> good items [] (init_loop items).
Proof.
  intros Hnd. split; [now apply wf_init|].
  assert (Hr : forall a r, rootof (init_loop items) a r -> a = r).
  { destruct (init_loop_fields items Hnd) as [Hp _].
    intros a r H. inversion H as [|? p ? Hx Hne]; subst; auto.
    rewrite Hp, (dget_map (fun x => x)) in Hx. destruct (in_dec _ a items); inversion Hx; congruence. }
  intros a b ra rb Ha Hb. apply Hr in Ha, Hb. subst. split.
  - intros ->. apply linked_refl.
  - intros H. remember ([] : list op) as h. induction H; subst; auto; try congruence.
    destruct H. 
Qed.

Lemma reach_good items s0 h : dsu_init items = Ok s0 -> NoDup items /\ good items h (run s0 h).
Proof.
  unfold dsu_init. destruct (has_dup items) eqn:E; [discriminate|].
  intros H; inversion H; subst. apply has_dup_spec in E. split; auto.
  apply (run_good items []). now apply init_good.
Qed.

(** observational equivalence *)
Lemma equiv_wf_root items s s' x : wf items s -> wf items s' -> equiv s s' ->
  snd (find s x) = snd (find s' x) /\ wf items (fst (find s x)) /\ equiv s (fst (find s x)).
Proof.
  intros W W' Q. destruct (in_dec String.string_dec x items) as [Hx|Hx].
  - destruct (wf_total _ _ W x Hx) as [r Hr].
    destruct (find_spec _ _ _ _ W Hr) as (t & -> & Wt & Qt).
    assert (Hr' : rootof s' x r) by now apply Q.
    destruct (find_spec _ _ _ _ W' Hr') as (t' & -> & _). auto.
  - rewrite (find_unknown _ _ _ W Hx), (find_unknown _ _ _ W' Hx). simpl. auto using equiv_refl.
Qed.

Lemma equiv_rank s s' x : equiv s s' -> rank_of s x = rank_of s' x.
Proof. intros (H & _). unfold rank_of. now rewrite H. Qed.

Lemma equiv_of_roots items s s' : wf items s -> wf items s' -> rank s = rank s' ->
  (forall x r, rootof s x r -> rootof s' x r) -> equiv s s'.
Proof.
  intros W W' Hr H. split; [auto|split].
  - now rewrite (wf_pk _ _ W), (wf_pk _ _ W').
  - intros x r. split; auto. intros H'.
    destruct (rootof_in _ _ _ _ W' H') as [Hx _].
    destruct (wf_total _ _ W x Hx) as [q Hq].
    now rewrite (rootof_fun _ _ _ _ H' (H _ _ Hq)).
Qed.

Lemma union_equiv items s s' a b : wf items s -> wf items s' -> equiv s s' ->
  snd (union s a b) = snd (union s' a b) /\ wf items (fst (union s a b)) /\
  wf items (fst (union s' a b)) /\ equiv (fst (union s a b)) (fst (union s' a b)).
Proof.
  intros W W' Q.
  destruct (in_dec String.string_dec a items) as [Ha|Ha].
  2:{ rewrite (union_unknown _ _ _ _ W), (union_unknown _ _ _ _ W') by tauto. simpl. auto. }
  destruct (in_dec String.string_dec b items) as [Hb|Hb].
  2:{ rewrite (union_unknown _ _ _ _ W), (union_unknown _ _ _ _ W') by tauto. simpl. auto. }
  destruct (wf_total _ _ W a Ha) as [ra Hra]. destruct (wf_total _ _ W b Hb) as [rb Hrb].
  assert (Hra' : rootof s' a ra) by now apply Q. assert (Hrb' : rootof s' b rb) by now apply Q.
  (* compute both unions *)
  assert (G : forall s, wf items s -> rootof s a ra -> rootof s b rb ->
    exists s2, wf items s2 /\ equiv s s2 /\ rootof s2 a ra /\ rootof s2 b rb /\ 
      union s a b = 
        if String.eqb ra rb then (s2, Ok tt)
        else if rank_of s2 ra <? rank_of s2 rb then
          (mkdsu (sset ra rb (parent s2)) (rank s2), Ok tt)
        else if rank_of s2 rb <? rank_of s2 ra then
          (mkdsu (sset rb ra (parent s2)) (rank s2), Ok tt)
        else
          (mkdsu (sset rb ra (parent s2)) (sset ra (S (rank_of s2 ra)) (rank s2)), Ok tt)).
  { clear - Ha Hb. intros s W Hra Hrb. unfold union.
    rewrite (wf_mem items s a W Ha), (wf_mem items s b W Hb). simpl.
    destruct (find_spec _ _ _ _ W Hra) as (s1 & E1 & W1 & Q1). rewrite E1.
    assert (Hb1 : rootof s1 b rb) by now apply Q1.
    destruct (find_spec _ _ _ _ W1 Hb1) as (s2 & E2 & W2 & Q2). rewrite E2.
    exists s2. assert (equiv s s2) as Q by (eapply equiv_trans; eauto).
    split; [auto|split; [auto|split; [now apply Q|split; [now apply Q|reflexivity]]]]. }
  destruct (G s W Hra Hrb) as (t & Wt & Qt & Hta & Htb & ->).
  destruct (G s' W' Hra' Hrb') as (t' & Wt' & Qt' & Hta' & Htb' & ->).
  assert (QQ : equiv t t') by (eapply equiv_trans; [apply equiv_sym; exact Qt|exact (equiv_trans _ _ _ Q Qt')]).
  rewrite <- !(equiv_rank _ _ _ QQ).
  pose proof (rootof_root _ _ _ Hta) as A1. pose proof (rootof_root _ _ _ Htb) as A2.
  pose proof (rootof_root _ _ _ Hta') as A3. pose proof (rootof_root _ _ _ Htb') as A4.
  destruct (eqs ra rb) as [Heq|Hne]; [simpl; auto|].
  assert (L : forall u v x y, 
    wf items x -> wf items y ->
    (forall z r, rootof t z r -> rootof x z (if String.eqb r u then v else r)) ->
    (forall z r, rootof t' z r -> rootof y z (if String.eqb r u then v else r)) ->
    rank x = rank y -> equiv x y).
  { intros u v x y Wx Wy Hx Hy Hr. apply (equiv_of_roots items); auto.
    intros z r Hz. destruct (rootof_in _ _ _ _ Wx Hz) as [Hi _].
    destruct (wf_total _ _ Wt z Hi) as [q Hq]. 
    rewrite (rootof_fun _ _ _ _ Hz (Hx _ _ Hq)). apply Hy. now apply QQ. }
  assert (Hrk : rank t = rank t') by apply QQ.
  destruct (Nat.ltb_spec (rank_of t ra) (rank_of t rb)) as [Hlt|Hge].
  { destruct (link items t rb ra _ Wt A2 A1 ltac:(congruence) (or_introl (conj Hlt eq_refl))) as [X1 X2].
    assert (Hlt' : rank_of t' ra < rank_of t' rb) by (now rewrite <- !(equiv_rank _ _ _ QQ)).
    destruct (link items t' rb ra _ Wt' A4 A3 ltac:(congruence) (or_introl (conj Hlt' eq_refl))) as [X3 X4].
    simpl. split; [auto|split; [auto|split; [auto|]]]. eapply L; eauto. }
  destruct (Nat.ltb_spec (rank_of t rb) (rank_of t ra)) as [Hlt|Hge'].
  { destruct (link items t ra rb _ Wt A1 A2 ltac:(congruence) (or_introl (conj Hlt eq_refl))) as [X1 X2].
    assert (Hlt' : rank_of t' rb < rank_of t' ra) by (now rewrite <- !(equiv_rank _ _ _ QQ)).
    destruct (link items t' ra rb _ Wt' A3 A4 ltac:(congruence) (or_introl (conj Hlt' eq_refl))) as [X3 X4].
    simpl. split; [auto|split; [auto|split; [auto|]]]. eapply L; eauto. }
  assert (He : rank_of t rb = rank_of t ra) by lia.
  destruct (link items t ra rb _ Wt A1 A2 ltac:(congruence) (or_intror (conj He eq_refl))) as [X1 X2].
  assert (He' : rank_of t' rb = rank_of t' ra) by (now rewrite <- !(equiv_rank _ _ _ QQ)).
  destruct (link items t' ra rb _ Wt' A3 A4 ltac:(congruence) (or_intror (conj He' eq_refl))) as [X3 X4].
  rewrite <- (equiv_rank _ _ _ QQ) in X3, X4.
  simpl. split; [auto|split; [auto|split; [auto|]]]. eapply L; eauto. simpl. now rewrite Hrk.
Qed.

Lemma answers_equiv items h : forall s s', wf items s -> wf items s' -> equiv s s' ->
  answers s h = answers s' h.
Proof.
  induction h as [|o h IH]; intros s s' W W' Q; simpl; auto.
  assert (H : snd (step s o) = snd (step s' o) /\ wf items (fst (step s o)) /\
          wf items (fst (step s' o)) /\ equiv (fst (step s o)) (fst (step s' o))).
  { destruct o as [x|x y]; simpl.
    - destruct (equiv_wf_root _ _ _ x W W' Q) as (A & B & C).
      destruct (equiv_wf_root _ _ _ x W' W (equiv_sym _ _ Q)) as (A' & B' & C').
      destruct (find s x), (find s' x); simpl in *. subst.
      split; [auto|split; [auto|split; [auto|]]].
      eapply equiv_trans; [apply equiv_sym; exact C|]. exact (equiv_trans _ _ _ Q C').
    - destruct (union_equiv _ _ _ x y W W' Q) as (A & B & C & D).
      destruct (union s x y), (union s' x y); simpl in *. subst. auto. }
  destruct H as (-> & B & C & D). f_equal. now apply IH.
Qed.

(** the final statements *)
Lemma C03_core items s0 h : dsu_init items = Ok s0 -> forall a b, In a items -> In b items ->
  exists ra rb,
    snd (find (run s0 h) a) = Ok ra /\ snd (find (run s0 h) b) = Ok rb /\
    In ra items /\ linked items h a ra /\ (ra = rb <-> linked items h a b).
Proof.
  intros Hi a b Ha Hb. destruct (reach_good items s0 h Hi) as [Hnd [W A]].
  destruct (wf_total _ _ W a Ha) as [ra Hra]. destruct (wf_total _ _ W b Hb) as [rb Hrb].
  exists ra, rb.
  destruct (find_spec _ _ _ _ W Hra) as (s1 & -> & _). destruct (find_spec _ _ _ _ W Hrb) as (s2 & -> & _).
  simpl. split; [auto|split; [auto|split; [|split]]].
  - eapply rootof_in; eauto.
  - apply (A a ra ra ra); auto. constructor. eapply rootof_root; eauto.
  - now apply A.
Qed.

Lemma C03_errors_core items s0 h : dsu_init items = Ok s0 ->
  (forall a, ~ In a items -> find (run s0 h) a = (run s0 h, Raise ValueError)) /\
  (forall a b, ~ (In a items /\ In b items) -> union (run s0 h) a b = (run s0 h, Raise ValueError)) /\
  (forall a b, In a items -> In b items -> snd (union (run s0 h) a b) = Ok tt).
Proof.
  intros Hi. destruct (reach_good items s0 h Hi) as [Hnd [W A]]. split; [|split].
  - intros a Ha. eapply find_unknown; eauto.
  - intros a b H. eapply union_unknown; eauto.
  - intros a b Ha Hb. destruct (wf_total _ _ W a Ha) as [ra Hra]. destruct (wf_total _ _ W b Hb) as [rb Hrb].
    destruct (union_spec _ _ _ _ _ _ W Hra Hrb) as (s' & w & l & -> & _). reflexivity.
Qed.

Lemma C04_pure_core items s0 h h' x : dsu_init items = Ok s0 ->
  answers (fst (find (run s0 h) x)) h' = answers (run s0 h) h'.
Proof.
  intros Hi. destruct (reach_good items s0 h Hi) as [Hnd [W A]].
  destruct (equiv_wf_root _ _ _ x W W (equiv_refl _)) as (_ & B & C).
  apply (answers_equiv items); auto. now apply equiv_sym.
Qed.

Lemma C04_rank_core items s0 h : dsu_init items = Ok s0 ->
  let s := run s0 h in
  (forall x p, sget x (parent s) = Some p -> p <> x -> rank_of s x < rank_of s p) /\
  (forall x, In x items -> exists r,
     snd (find s x) = Ok r /\ 2 ^ rank_of s x <= 2 ^ rank_of s r /\
     2 ^ rank_of s r <= length (filter (fun y =>
        match snd (find s y) with Ok q => String.eqb q r | _ => false end) items)).
Proof.
  intros Hi s. destruct (reach_good items s0 h Hi) as [Hnd [W A]]. fold s in W, A. split.
  - apply (wf_inc _ _ W).
  - intros x Hx. destruct (wf_total _ _ W x Hx) as [r Hr]. exists r.
    destruct (find_spec _ _ _ _ W Hr) as (s' & -> & _). simpl. split; [auto|split].
    + apply Nat.pow_le_mono_r; auto. destruct (rootof_rank _ _ _ _ W Hr); [subst|]; lia.
    + pose proof (rootof_root _ _ _ Hr) as Hrr.
      destruct (wf_size _ _ W r Hrr) as (l & H1 & H2 & H3).
      etransitivity; [exact H2|]. apply NoDup_incl_length; auto.
      intros y Hy. destruct (H3 y Hy) as [Hyi Hyr]. apply filter_In. split; auto.
      destruct (find_spec _ _ _ _ W Hyr) as (s2 & -> & _). simpl. apply String.eqb_refl.
Qed.

Lemma dsu_init_spec items :
  ((exists s, dsu_init items = Ok s) <-> NoDup items) /\
  (~ NoDup items -> dsu_init items = Raise ValueError).
Proof.
  rewrite <- has_dup_spec. unfold dsu_init. destruct (has_dup items); split.
  - split; [intros [? ?]|]; discriminate.
  - auto.
  - split; eauto.
  - intros H. now contradiction H.
Qed.

Lemma find_bound_core items s0 h x n :
  dsu_init items = Ok s0 -> length items < n ->
  find_fuel n (run s0 h) x = find (run s0 h) x /\ snd (find (run s0 h) x) <> Diverges.
Proof.
  intros Hi Hn. destruct (reach_good items s0 h Hi) as [Hnd [W A]]. split.
  - eapply find_fuel_enough; eauto.
  - destruct (in_dec String.string_dec x items) as [Hx|Hx].
    + destruct (wf_total _ _ W x Hx) as [r Hr]. destruct (find_spec _ _ _ _ W Hr) as (s' & -> & _).
      discriminate.
    + rewrite (find_unknown _ _ _ W Hx). discriminate.
Qed.

Lemma C04_log_core items s0 h x :
  dsu_init items = Ok s0 -> In x items -> rank_of (run s0 h) x <= Nat.log2 (length items).
Proof.
  intros Hi Hx. destruct (reach_good items s0 h Hi) as [Hnd [W A]].
  destruct (wf_total _ _ W x Hx) as [r Hr].
  pose proof (rootof_root _ _ _ Hr) as Hrr.
  destruct (wf_size _ _ W r Hrr) as (l & H1 & H2 & H3).
  assert (length l <= length items) by (apply NoDup_incl_length; auto; intros y Hy; now apply H3).
  assert (0 < length items) by (destruct items; simpl in *; [tauto|lia]).
  transitivity (rank_of (run s0 h) r).
  - destruct (rootof_rank _ _ _ _ W Hr); [subst|]; lia.
  - apply Nat.log2_le_pow2; lia.
Qed.
