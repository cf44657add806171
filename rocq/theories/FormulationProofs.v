(** Proofs about expressions, comparisons and formulations. *)
From Coq Require Import String List Bool Arith ZArith QArith Qcanon Lia.
From Verif Require Import Py QcTac QSum MatModel MatTheory LinearModel LinearSpec LinearInv FormulationModel FormulationSpec.
Import ListNotations.
Open Scope nat_scope.
Open Scope string_scope.
Open Scope list_scope.

(** ** the heap *)
Lemma length_upd h l e : length (upd h l e) = length h.
Proof. revert l. induction h as [|d h IH]; intros [|l]; cbn; auto. Qed.
Lemma get_upd h l e m : get (upd h l e) m = if Nat.eqb m l && Nat.ltb l (length h) then e else get h m.
Proof.
  unfold get. revert l m. induction h as [|d h IH]; intros [|l] [|m]; cbn [upd nth length]; auto; try (now rewrite andb_comm).
  - cbn [Nat.eqb andb]. rewrite IH. reflexivity.
Qed.
Lemma get_upd_same h l e : l < length h -> get (upd h l e) l = e.
Proof. intros H. rewrite get_upd, Nat.eqb_refl. apply Nat.ltb_lt in H. now rewrite H. Qed.
Lemma get_upd_other h l e m : m <> l -> get (upd h l e) m = get h m.
Proof. intros H. rewrite get_upd. apply Nat.eqb_neq in H. now rewrite H. Qed.
Lemma get_alloc h e m : m < length h -> get (h ++ [e]) m = get h m.
Proof. intros H. unfold get. now rewrite app_nth1. Qed.
Lemma get_new h e : get (h ++ [e]) (length h) = e.
Proof. unfold get. rewrite app_nth2 by lia. now rewrite Nat.sub_diag. Qed.

(** ** dictionaries of terms *)
Definition tsum (d : list (nat * Qc)) (a : assignment) : Qc := Sigma d (fun kc => snd kc * a (fst kc))%Qc.
Lemma tsum_cons k c d a : tsum ((k, c) :: d) a = (c * a k + tsum d a)%Qc. Proof. reflexivity. Qed.
Lemma tsum_nil a : tsum [] a = 0%Qc. Proof. reflexivity. Qed.
Lemma tsum_app d d' a : tsum (d ++ d') a = (tsum d a + tsum d' a)%Qc.
Proof. induction d as [|(k & c) d IH]; cbn [app]; rewrite ?tsum_nil, ?tsum_cons, ?IH; ring. Qed.
Definition lookup (d : list (nat * Qc)) (k : nat) : Qc := match dget Nat.eqb k d with Some w => w | None => 0%Qc end.
Lemma tsum_dset d k w a : tsum (dset Nat.eqb k w d) a = (tsum d a + (w - lookup d k) * a k)%Qc.
Proof.
  unfold lookup. induction d as [|(k0 & c) d IH]; cbn [dset dget]; [rewrite tsum_cons, tsum_nil; ring|].
  destruct (Nat.eqb_spec k k0) as [->|]; rewrite !tsum_cons; [ring|]. rewrite IH. ring.
Qed.
Lemma tsum_default d k a : tsum (dsetdefault Nat.eqb k 0%Qc d) a = tsum d a.
Proof. unfold dsetdefault. destruct (dmem Nat.eqb k d); auto. rewrite tsum_app, tsum_cons, tsum_nil. ring. Qed.
Lemma tsum_bump d k q a : tsum (bump d k q) a = (tsum d a + q * a k)%Qc.
Proof. unfold bump. rewrite tsum_dset, tsum_default. unfold lookup. destruct (dget Nat.eqb k (dsetdefault Nat.eqb k 0%Qc d)); ring. Qed.
Lemma tsum_fold ts d a : tsum (fold_left (fun d kq => bump d (fst kq) (snd kq)) ts d) a = (tsum d a + tsum ts a)%Qc.
Proof. revert d. induction ts as [|(k & q) ts IH]; intros d; cbn [fold_left]; [rewrite tsum_nil; ring|]. rewrite IH, tsum_bump, tsum_cons. cbn [fst snd]. ring. Qed.
Lemma tsum_minus d a : tsum (map (fun kc => (fst kc, (- snd kc)%Qc)) d) a = (- tsum d a)%Qc.
Proof. induction d as [|(k & c) d IH]; cbn [map fst snd]; rewrite ?tsum_nil, ?tsum_cons; [ring|]. rewrite IH. ring. Qed.
Lemma tsum_scale d q a : tsum (map (fun kc => (fst kc, (snd kc * q)%Qc)) d) a = (tsum d a * q)%Qc.
Proof. induction d as [|(k & c) d IH]; cbn [map fst snd]; rewrite ?tsum_nil, ?tsum_cons; [ring|]. rewrite IH. ring. Qed.
Lemma tsum_zero d : tsum d zero = 0%Qc.
Proof. induction d as [|(k & c) d IH]; rewrite ?tsum_nil, ?tsum_cons; [ring|]. rewrite IH. unfold zero. ring. Qed.

(** ** linear part and constant of a value *)
Definition vlin (h : heap) (v : val) (a : assignment) : Qc :=
  match v with VVar k => a k | VEq l => tsum (eterms (get h l)) a | _ => 0%Qc end.
Definition vconst (h : heap) (v : val) : Qc := match v with VNum q => q | VEq l => econstant (get h l) | _ => 0%Qc end.
Lemma val_parts h v a : val_value h v a = (vlin h v a + vconst h v)%Qc.
Proof. destruct v; cbn; try ring. reflexivity. Qed.
(** an expression value: a Variable, or an existing LinearEquation *)
Definition symbolic (h : heap) (v : val) : Prop := match v with VVar _ => True | VEq l => l < length h | _ => False end.
(** [r] is a LinearEquation made from [v]: the object [v] itself, or a new one; nothing else changed *)
Definition made (h : heap) (v : val) (h' : heap) (l : nat) : Prop :=
  length h <= length h' /\ l < length h' /\ (v = VEq l \/ length h <= l) /\ (forall m, m < length h -> v <> VEq m -> get h' m = get h m).
Lemma made_new h v e : (forall m, v <> VEq m) -> made h v (h ++ [e]) (length h).
Proof. intros H. split; [rewrite app_length; lia|]. split; [rewrite app_length; cbn; lia|]. split; [right; lia|]. intros m Hm _. now apply get_alloc. Qed.
Lemma made_upd h l e : l < length h -> made h (VEq l) (upd h l e) l.
Proof. intros H. split; [rewrite length_upd; lia|]. split; [now rewrite length_upd|]. split; auto. intros m Hm K. apply get_upd_other. congruence. Qed.
Lemma vneg_spec h v : symbolic h v -> exists h' l, vneg h v = (h', Ok (VEq l)) /\ made h v h' l /\
  (forall a, vlin h' (VEq l) a = (- vlin h v a)%Qc) /\ vconst h' (VEq l) = vconst h v.
Proof.
  destruct v as [q|k|l|]; cbn [symbolic]; try contradiction; intros H; cbn [vneg alloc].
  - eexists _, _. split; [reflexivity|]. split; [apply made_new; discriminate|]. cbn [vlin vconst]. rewrite get_new. split; auto. intros a. cbn [of_variable eterms]. rewrite tsum_cons, tsum_nil. ring.
  - eexists _, _. split; [reflexivity|]. split; [now apply made_upd|]. cbn [vlin vconst]. rewrite get_upd_same by auto. split; auto. intros a. cbn [minus eterms]. apply tsum_minus.
Qed.
Lemma vpos_spec h v : symbolic h v -> exists h' l, vpos h v = (h', Ok (VEq l)) /\ made h v h' l /\
  (forall a, vlin h' (VEq l) a = vlin h v a) /\ vconst h' (VEq l) = vconst h v.
Proof.
  destruct v as [q|k|l|]; cbn [symbolic]; try contradiction; intros H; cbn [vpos alloc].
  - eexists _, _. split; [reflexivity|]. split; [apply made_new; discriminate|]. cbn [vlin vconst]. rewrite get_new. split; auto. intros a. cbn [of_variable eterms]. rewrite tsum_cons, tsum_nil. ring.
  - exists h, l. split; auto. split; [|split; auto]. split; auto.
Qed.
(** what [other] brings to a sum: its linear part, and its value if it is a number *)
Definition brings (v : val) : Qc := match v with VNum q => q | _ => 0%Qc end.
Lemma add_to_spec h l other : l < length h -> other <> VEq l -> (forall m, other = VEq m -> m < length h) ->
  made h (VEq l) (add_to h l other) l /\ (forall a, vlin (add_to h l other) (VEq l) a = (vlin h (VEq l) a + vlin h other a)%Qc) /\
  vconst (add_to h l other) (VEq l) = (vconst h (VEq l) + brings other)%Qc.
Proof.
  intros H Hne Hv. destruct other as [q|k|m|]; cbn [add_to brings].
  - split; [now apply made_upd|]. cbn [vlin vconst]. rewrite get_upd_same by auto. cbn [eterms econstant]. split; auto. intros a. ring.
  - split; [now apply made_upd|]. cbn [vlin vconst]. rewrite get_upd_same by auto. cbn [eterms econstant]. split; [|ring]. intros a. rewrite tsum_bump. ring.
  - split; [now apply made_upd|]. cbn [vlin vconst]. rewrite get_upd_same by auto. cbn [eterms econstant]. split; [|ring]. intros a. apply tsum_fold.
  - split; [split; auto|]. cbn [vlin vconst]. split; [intros a; ring|ring].
Qed.
Lemma vadd_spec h v w : symbolic h v -> v <> w \/ (forall m, v <> VEq m) -> (forall m, w = VEq m -> m < length h) ->
  exists h' l, vadd_ h v w = (h', Ok (VEq l)) /\ made h v h' l /\ (forall a, vlin h' (VEq l) a = (vlin h v a + vlin h w a)%Qc) /\ vconst h' (VEq l) = (vconst h v + brings w)%Qc.
Proof.
  destruct v as [q|k|l|]; cbn [symbolic]; try contradiction; intros H Hne Hw; cbn [vadd_ alloc].
  - destruct (add_to_spec (h ++ [of_variable k 1%Qc]) (length h) w) as (M & A & C).
    + rewrite app_length. cbn. lia.
    + intros ->. specialize (Hw _ eq_refl). lia.
    + intros m Hm. apply Hw in Hm. rewrite app_length. lia.
    + eexists _, _. split; [reflexivity|]. destruct M as (M1 & M2 & M3 & M4). rewrite app_length in M1. cbn in M1. assert (G : forall m, m < length h -> get (h ++ [of_variable k 1%Qc]) m = get h m) by (intros; now apply get_alloc).
      split; [split; [lia|]; split; auto; split; [right; lia|]; intros m Hm _; rewrite M4; [auto|rewrite app_length; lia|]; intros K; injection K as <-; lia|]. split.
      * intros a. rewrite A. cbn [vlin]. rewrite get_new. cbn [of_variable eterms]. rewrite tsum_cons, tsum_nil. destruct w as [|k'|m|]; cbn [vlin]; try ring. rewrite G by now apply Hw. ring.
      * rewrite C. cbn [vconst]. rewrite get_new. reflexivity.
  - eexists _, _. split; [reflexivity|]. destruct Hne as [Hne|Hne]; [|now destruct (Hne l)]. apply add_to_spec; auto.
Qed.
Lemma vadd_num h q w : symbolic h w ->
  exists h' l, vadd_ h (VNum q) w = (h', Ok (VEq l)) /\ made h w h' l /\ (forall a, vlin h' (VEq l) a = vlin h w a) /\ vconst h' (VEq l) = (vconst h w + q)%Qc.
Proof.
  intros H. destruct (vadd_spec h w (VNum q)) as (h' & l & E & M & A & C); auto; [left; destruct w; try contradiction; discriminate|discriminate|].
  exists h', l. split; [destruct w; try contradiction; exact E|]. split; auto. split; [|exact C]. intros a. rewrite A. cbn [vlin]. ring.
Qed.
Lemma vmul_spec h v q : symbolic h v -> exists h' l, vmul h v (VNum q) = (h', Ok (VEq l)) /\ vmul h (VNum q) v = (h', Ok (VEq l)) /\ made h v h' l /\
  (forall a, vlin h' (VEq l) a = (vlin h v a * q)%Qc) /\ vconst h' (VEq l) = vconst h v.
Proof.
  destruct v as [r|k|l|]; cbn [symbolic]; try contradiction; intros H; cbn [vmul alloc].
  - eexists _, _. split; [reflexivity|]. split; [reflexivity|]. split; [apply made_new; discriminate|]. cbn [vlin vconst]. rewrite get_new. split; auto. intros a. cbn [of_variable eterms]. rewrite tsum_cons, tsum_nil. ring.
  - eexists _, _. split; [reflexivity|]. split; [reflexivity|]. split; [now apply made_upd|]. cbn [vlin vconst]. rewrite get_upd_same by auto. split; auto. intros a. apply tsum_scale.
Qed.
Lemma made_trans h v h1 l1 h2 l2 : made h v h1 l1 -> made h1 (VEq l1) h2 l2 -> made h v h2 l2.
Proof.
  intros (A1 & A2 & A3 & A4) (B1 & B2 & B3 & B4). split; [lia|]. split; auto. split.
  - destruct B3 as [B3|B3]; [injection B3 as <-; auto|right; lia].
  - intros m Hm Hv. rewrite B4; [auto|lia|]. intros K. injection K as ->. destruct A3 as [A3|A3]; [congruence|lia].
Qed.

(** ** evaluation *)
Fixpoint lin (h : heap) (e : expr) (a : assignment) : Qc :=
  match e with
  | Num _ => 0
  | Var k => a k
  | Item i => a (Z.to_nat (i - 1))
  | Use l => tsum (eterms (get h l)) a
  | Neg e => - lin h e a
  | Pos e => lin h e a
  | Add e f => lin h e a + lin h f a
  | Sub e f => lin h e a - lin h f a
  | Mul e f => if numeric e then value_of h e zero * lin h f a else lin h e a * value_of h f zero
  end%Qc.
(** the constant that the code ends up with *)
Lemma numeric_value h e a : numeric e = true -> value_of h e a = kept h e /\ lin h e a = 0%Qc.
Proof.
  induction e as [q|k|i|l|e IHe|e IHe|e IHe f IHf|e IHe f IHf|e IHe f IHf]; cbn [numeric value_of kept lin]; intros H; try discriminate; auto.
  - rewrite H. destruct (IHe H) as (-> & ->). split; [ring|ring].
  - apply andb_true_iff in H. destruct H as (H1 & H2). rewrite H1. destruct (IHe H1) as (-> & ->), (IHf H2) as (-> & ->). split; [reflexivity|ring].
  - apply andb_true_iff in H. destruct H as (H1 & H2). rewrite H2. destruct (IHe H1) as (-> & ->), (IHf H2) as (-> & ->). split; [reflexivity|ring].
  - apply andb_true_iff in H. destruct H as (H1 & H2). rewrite H1, H2. destruct (IHe H1) as (-> & _), (IHf H2) as (-> & ->). split; [reflexivity|ring].
Qed.
Lemma value_lin h e a : linear e -> value_of h e a = (lin h e a + value_of h e zero)%Qc.
Proof.
  induction e as [q|k|i|l|e IHe|e IHe|e IHe f IHf|e IHe f IHf|e IHe f IHf]; cbn [linear value_of lin]; intros H; auto.
  - ring.
  - unfold zero. ring.
  - unfold zero. ring.
  - unfold equation_value. fold (tsum (eterms (get h l)) a). fold (tsum (eterms (get h l)) zero). rewrite tsum_zero. ring.
  - rewrite IHe by auto. ring.
  - destruct H as (H1 & H2). rewrite IHe, IHf by auto. ring.
  - destruct H as (H1 & H2). rewrite IHe, IHf by auto. ring.
  - destruct H as (H1 & H2 & H3). destruct (numeric e) eqn:E.
    + destruct (numeric_value h e a E) as (-> & _). destruct (numeric_value h e zero E) as (-> & _). rewrite IHf by auto. ring.
    + cbn in H3. destruct (numeric_value h f a H3) as (-> & _). destruct (numeric_value h f zero H3) as (-> & _). rewrite IHe by auto. ring.
Qed.
Definition outcome (h : heap) (e : expr) (h' : heap) (v : val) : Prop :=
  length h <= length h' /\ (forall m, m < length h -> ~ In m (uses e) -> get h' m = get h m) /\
  (if numeric e then v = VNum (kept h e) else symbolic h' v /\ forall l, v = VEq l -> In l (uses e) \/ length h <= l) /\
  (forall a, vlin h' v a = lin h e a) /\ vconst h' v = kept h e.
Lemma outcome_made h e g h' v h'' l : outcome h e h' v -> numeric e = false -> made h' v h'' l -> uses g = uses e -> numeric g = false ->
  (forall a, vlin h'' (VEq l) a = lin h g a) -> vconst h'' (VEq l) = kept h g -> outcome h g h'' (VEq l).
Proof.
  intros (O1 & O2 & O3 & O4 & O5) Hn (M1 & M2 & M3 & M4) Hu Hg A C. rewrite Hn in O3. destruct O3 as (S1 & S2). split; [lia|]. split; [|split; [|split; auto]].
  - rewrite Hu. intros m Hm Hin. rewrite M4; [auto|lia|]. intros K. destruct (S2 m K); [auto|lia].
  - rewrite Hg. split; [exact M2|]. rewrite Hu. intros l' K. injection K as <-. destruct M3 as [M3|M3]; [auto|right; lia].
Qed.
Lemma kept_uses h h' e : (forall l, In l (uses e) -> get h' l = get h l) -> kept h' e = kept h e /\ (forall a, lin h' e a = lin h e a) /\ forall a, value_of h' e a = value_of h e a.
Proof.
  induction e as [q|k|i|l|e IHe|e IHe|e IHe f IHf|e IHe f IHf|e IHe f IHf]; cbn [uses kept lin value_of]; intros H; auto.
  - rewrite (H l) by (simpl; auto). auto.
  - destruct (IHe H) as (-> & E & F). split; auto. split; intros a; rewrite ?E, ?F; auto.
  - destruct IHe as (-> & E & E'); [intros; apply H; apply in_or_app; auto|]. destruct IHf as (-> & F & F'); [intros; apply H; apply in_or_app; auto|]. split; auto. split; intros a; rewrite ?E, ?E', ?F, ?F'; auto.
  - destruct IHe as (-> & E & E'); [intros; apply H; apply in_or_app; auto|]. destruct IHf as (-> & F & F'); [intros; apply H; apply in_or_app; auto|]. split; auto. split; intros a; rewrite ?E, ?E', ?F, ?F'; auto.
  - destruct IHe as (-> & E & E'); [intros; apply H; apply in_or_app; auto|]. destruct IHf as (-> & F & F'); [intros; apply H; apply in_or_app; auto|]. split; auto. split; intros a; rewrite ?E, ?E', ?F, ?F'; auto.
Qed.
Lemma NoDup_app_inv {A} (u v : list A) : NoDup (u ++ v) -> NoDup u /\ NoDup v /\ forall x, In x u -> ~ In x v.
Proof.
  induction u as [|x u IH]; cbn [app]; intros H; [repeat split; auto; constructor|]. inversion H as [|? ? H1 H2]; subst. destruct (IH H2) as (U & V & D). split; [constructor; auto; intros K; apply H1; apply in_or_app; auto|].
  split; auto. intros y [<-|Hy] K; [apply H1; apply in_or_app; auto|eapply D; eauto].
Qed.
(** two operands, evaluated one after the other *)
Record both (h : heap) (e f : expr) (h2 : heap) (v w : val) : Prop := {
  b_len : length h <= length h2;
  b_frame : forall m, m < length h -> ~ In m (uses e ++ uses f) -> get h2 m = get h m;
  b_left : if numeric e then v = VNum (kept h e) else symbolic h2 v /\ forall l, v = VEq l -> In l (uses e) \/ length h <= l;
  b_right : if numeric f then w = VNum (kept h f) else symbolic h2 w /\ forall l, w = VEq l -> In l (uses f) \/ length h <= l;
  b_llin : forall a, vlin h2 v a = lin h e a;
  b_rlin : forall a, vlin h2 w a = lin h f a;
  b_lconst : vconst h2 v = kept h e;
  b_rconst : vconst h2 w = kept h f;
  b_apart : forall l, v = VEq l -> w <> VEq l }.
Lemma both_eval h e f (F : heap -> val -> val -> heap * res val) : single_use h (Add e f) ->
  (forall h, single_use h e -> exists h' v, eval e h = (h', Ok v) /\ outcome h e h' v) ->
  (forall h, single_use h f -> exists h' v, eval f h = (h', Ok v) /\ outcome h f h' v) ->
  exists h2 v w, binary F (eval e h) (eval f) = F h2 v w /\ both h e f h2 v w.
Proof.
  intros (U1 & U2) He Hf. cbn [uses] in *. apply NoDup_app_inv in U1. destruct U1 as (N1 & N2 & N3).
  destruct (He h) as (h1 & v & E1 & O1 & O2 & O3 & O4 & O5); [split; auto; intros; apply U2; apply in_or_app; auto|].
  destruct (Hf h1) as (h2 & w & E2 & P1 & P2 & P3 & P4 & P5); [split; auto; intros l Hl; specialize (U2 l (in_or_app _ _ _ (or_intror Hl))); lia|].
  assert (G : forall l, In l (uses f) -> get h1 l = get h l) by (intros l Hl; apply O2; [apply U2; apply in_or_app; auto|intros K; eapply N3; eauto]).
  destruct (kept_uses h h1 f G) as (K1 & K2 & _). rewrite K1 in P3, P5.
  assert (S : forall l, v = VEq l -> l < length h1 /\ ~ In l (uses f)).
  { intros l ->. destruct (numeric e); [discriminate O3|]. destruct O3 as (S1 & S2). split; [exact S1|]. intros Hl. destruct (S2 l eq_refl) as [Hu|Hu]; [eapply N3; eauto|]. specialize (U2 l (in_or_app _ _ _ (or_intror Hl))). lia. }
  exists h2, v, w. split; [unfold binary; now rewrite E1, E2|]. split.
  - lia.
  - intros m Hm Hin. rewrite P2; [apply O2; auto; intros K; apply Hin; apply in_or_app; auto|lia|]. intros K. apply Hin. apply in_or_app. auto.
  - destruct (numeric e); auto. destruct O3 as (S1 & S2). split; auto. destruct v as [|k|l|]; cbn [symbolic] in *; auto. lia.
  - destruct (numeric f); auto. destruct P3 as (S1 & S2). split; auto. intros l Hl. destruct (S2 l Hl); auto. right. lia.
  - intros a. rewrite <- O4. destruct v as [|k|l|]; cbn [vlin]; auto. destruct (S l eq_refl) as (S1 & S2). now rewrite P2.
  - intros a. now rewrite <- K2.
  - rewrite <- O5. destruct v as [|k|l|]; cbn [vconst]; auto. destruct (S l eq_refl) as (S1 & S2). now rewrite P2.
  - exact P5.
  - intros l Hv ->. destruct (S l Hv) as (S1 & S2). destruct (numeric f); [discriminate P3|]. destruct P3 as (_ & P3). destruct (P3 l eq_refl); [contradiction|lia].
Qed.
(** a result made from the left, or from the right operand *)
Lemma both_left h e f g h2 v w h' l : both h e f h2 v w -> numeric e = false -> made h2 v h' l -> uses g = uses e ++ uses f -> numeric g = false ->
  (forall a, vlin h' (VEq l) a = lin h g a) -> vconst h' (VEq l) = kept h g -> outcome h g h' (VEq l).
Proof.
  intros B Hn (M1 & M2 & M3 & M4) Hu Hg A C. pose proof (b_len _ _ _ _ _ _ B). pose proof (b_left _ _ _ _ _ _ B) as L. rewrite Hn in L. destruct L as (S1 & S2). split; [lia|]. split; [|split; [|split; auto]].
  - rewrite Hu. intros m Hm Hin. rewrite M4; [now apply (b_frame _ _ _ _ _ _ B)|lia|]. intros K. destruct (S2 m K); [apply Hin; apply in_or_app; auto|lia].
  - rewrite Hg. split; [exact M2|]. rewrite Hu. intros l' K. injection K as <-. destruct M3 as [M3|M3]; [destruct (S2 l M3); [left; apply in_or_app; auto|auto]|right; lia].
Qed.
Lemma both_right h e f g h2 v w h' l : both h e f h2 v w -> numeric f = false -> made h2 w h' l -> uses g = uses e ++ uses f -> numeric g = false ->
  (forall a, vlin h' (VEq l) a = lin h g a) -> vconst h' (VEq l) = kept h g -> outcome h g h' (VEq l).
Proof.
  intros B Hn (M1 & M2 & M3 & M4) Hu Hg A C. pose proof (b_len _ _ _ _ _ _ B). pose proof (b_right _ _ _ _ _ _ B) as L. rewrite Hn in L. destruct L as (S1 & S2). split; [lia|]. split; [|split; [|split; auto]].
  - rewrite Hu. intros m Hm Hin. rewrite M4; [now apply (b_frame _ _ _ _ _ _ B)|lia|]. intros K. destruct (S2 m K); [apply Hin; apply in_or_app; auto|lia].
  - rewrite Hg. split; [exact M2|]. rewrite Hu. intros l' K. injection K as <-. destruct M3 as [M3|M3]; [destruct (S2 l M3); [left; apply in_or_app; auto|auto]|right; lia].
Qed.
(** two objects are changed: for subtraction *)
Lemma both_two h e f g h2 v w h3 l3 h' l : both h e f h2 v w -> numeric e = false -> numeric f = false -> made h2 w h3 l3 -> made h3 v h' l -> uses g = uses e ++ uses f -> numeric g = false ->
  (forall a, vlin h' (VEq l) a = lin h g a) -> vconst h' (VEq l) = kept h g -> outcome h g h' (VEq l).
Proof.
  intros B He Hf (M1 & M2 & M3 & M4) (N1 & N2 & N3 & N4) Hu Hg A C. pose proof (b_len _ _ _ _ _ _ B). pose proof (b_left _ _ _ _ _ _ B) as L. pose proof (b_right _ _ _ _ _ _ B) as R. rewrite He in L. rewrite Hf in R.
  destruct L as (S1 & S2), R as (T1 & T2). split; [lia|]. split; [|split; [|split; auto]].
  - rewrite Hu. intros m Hm Hin. rewrite N4; [rewrite M4; [now apply (b_frame _ _ _ _ _ _ B)|lia|]|lia|].
    + intros K. destruct (T2 m K); [apply Hin; apply in_or_app; auto|lia].
    + intros K. destruct (S2 m K); [apply Hin; apply in_or_app; auto|lia].
  - rewrite Hg. split; [exact N2|]. rewrite Hu. intros l' K. injection K as <-. destruct N3 as [N3|N3]; [destruct (S2 l N3); [left; apply in_or_app; auto|auto]|right; lia].
Qed.
Lemma brings_num (b : bool) q w h (P : Prop) : (if b then w = VNum q else symbolic h w /\ P) -> brings w = if b then q else 0%Qc.
Proof. destruct b; [now intros ->|]. intros (H & _). destruct w; try contradiction; reflexivity. Qed.
Theorem eval_outcome e : linear e -> forall h, single_use h e -> exists h' v, eval e h = (h', Ok v) /\ outcome h e h' v.
Proof.
  induction e as [q|k|i|l|e IHe|e IHe|e IHe f IHf|e IHe f IHf|e IHe f IHf]; cbn [linear]; intros Hl h Hs.
  - exists h, (VNum q). split; auto. repeat split; auto.
  - exists h, (VVar k). split; auto. repeat split; auto. discriminate.
  - cbn [eval]. unfold item. destruct (Z.leb_spec i 0); [lia|]. cbn [alloc]. eexists _, _. split; [reflexivity|]. split; [rewrite app_length; lia|]. split; [intros m Hm _; now apply get_alloc|].
    split; [cbn [numeric symbolic]; split; [rewrite app_length; cbn; lia|]; intros l K; injection K as <-; right; lia|]. cbn [vlin vconst]. rewrite get_new. split; auto. intros a. cbn [of_variable eterms lin]. rewrite tsum_cons, tsum_nil. ring.
  - exists h, (VEq l). split; auto. destruct Hs as (_ & Hs). split; auto. split; auto. split; [|split; auto]. cbn [numeric symbolic]. split; [apply Hs; simpl; auto|]. intros m K. injection K as <-. simpl. auto.
  - destruct (IHe Hl h Hs) as (h1 & v & E & O). cbn [eval]. rewrite E. destruct (numeric e) eqn:En.
    + pose proof O as (O1 & O2 & O3 & O4 & O5). rewrite En in O3. subst v. cbn [vneg]. exists h1, (VNum (- kept h e)%Qc). split; auto. split; auto. split; auto. cbn [numeric kept lin]. rewrite En. split; auto. split; auto. intros a. cbn [vlin]. rewrite <- O4. cbn. ring.
    + pose proof O as (O1 & O2 & O3 & O4 & O5). rewrite En in O3. destruct O3 as (S1 & S2). destruct (vneg_spec h1 v S1) as (h2 & l & E2 & M & A & C). rewrite E2. exists h2, (VEq l). split; auto.
      apply (outcome_made h e (Neg e) h1 v h2 l O En M); auto; [intros a; rewrite A; cbn [lin]; now rewrite O4|]. rewrite C. cbn [kept]. now rewrite En.
  - destruct (IHe Hl h Hs) as (h1 & v & E & O). cbn [eval]. rewrite E. destruct (numeric e) eqn:En.
    + pose proof O as (O1 & O2 & O3 & O4 & O5). rewrite En in O3. subst v. cbn [vpos]. exists h1, (VNum (kept h e)). split; [reflexivity|]. exact O.
    + pose proof O as (O1 & O2 & O3 & O4 & O5). rewrite En in O3. destruct O3 as (S1 & S2). destruct (vpos_spec h1 v S1) as (h2 & l & E2 & M & A & C). rewrite E2. exists h2, (VEq l). split; auto.
      apply (outcome_made h e (Pos e) h1 v h2 l O En M); auto; [intros a; rewrite A; cbn [lin]; now rewrite O4|]. now rewrite C.
  - destruct Hl as (L1 & L2). cbn [eval]. destruct (both_eval h e f vadd_ Hs (IHe L1) (IHf L2)) as (h2 & v & w & E & B). rewrite E. clear E. pose proof B as [B1 B2 B3 B4 B5 B6 B7 B8 B9].
    destruct (numeric e) eqn:Ee.
    + subst v. destruct (numeric f) eqn:Ef.
      * subst w. cbn [vadd_]. eexists _, _. split; [reflexivity|]. split; auto. split; auto. cbn [numeric kept lin]. rewrite Ee, Ef. cbn [andb orb]. split; auto. split; auto. intros a. rewrite <- B5, <- B6. cbn. ring.
      * destruct B4 as (S1 & S2). destruct (vadd_num h2 (kept h e) w S1) as (h3 & l & E & M & A & C). rewrite E. exists h3, (VEq l). split; auto. apply (both_right h e f (Add e f) h2 (VNum (kept h e)) w h3 l B Ef M); auto.
        -- cbn [numeric]. now rewrite Ef, andb_false_r.
        -- intros a. rewrite A. cbn [lin]. rewrite B6, <- B5. cbn. ring.
        -- rewrite C, B8. cbn [kept]. rewrite Ee. cbn [orb]. ring.
    + destruct B3 as (S1 & S2). destruct (vadd_spec h2 v w S1) as (h3 & l & E & M & A & C).
      * destruct v as [|k|l|]; try contradiction; [right; discriminate|left; intros K; exact (B9 l eq_refl (eq_sym K))].
      * intros m ->. destruct (numeric f); [discriminate B4|]. apply B4.
      * rewrite E. exists h3, (VEq l). split; auto. apply (both_left h e f (Add e f) h2 v w h3 l B Ee M); auto.
        -- cbn [numeric]. now rewrite Ee.
        -- intros a. rewrite A. cbn [lin]. now rewrite B5, B6.
        -- rewrite C, B7. cbn [kept]. rewrite Ee. cbn [orb]. rewrite (brings_num _ _ _ _ _ B4). destruct (numeric f); ring.
  - destruct Hl as (L1 & L2). cbn [eval]. destruct (both_eval h e f vsub_ Hs (IHe L1) (IHf L2)) as (h2 & v & w & E & B). rewrite E. clear E. pose proof B as [B1 B2 B3 B4 B5 B6 B7 B8 B9].
    destruct (numeric f) eqn:Ef.
    + subst w. destruct (numeric e) eqn:Ee.
      * subst v. cbn [vsub_]. eexists _, _. split; [reflexivity|]. split; auto. split; auto. cbn [numeric kept lin]. rewrite Ee, Ef. cbn [andb]. split; auto. split; auto. intros a. rewrite <- B5, <- B6. cbn. ring.
      * destruct B3 as (S1 & S2). destruct (vadd_spec h2 v (VNum (- kept h f)%Qc) S1) as (h3 & l & E & M & A & C); [left; destruct v; try contradiction; discriminate|discriminate|].
        exists h3, (VEq l). split; [destruct v; try contradiction; exact E|]. apply (both_left h e f (Sub e f) h2 v (VNum (kept h f)) h3 l B Ee M); auto.
        -- cbn [numeric]. now rewrite Ee.
        -- intros a. rewrite A. cbn [lin]. rewrite B5, <- B6. cbn. ring.
        -- rewrite C, B7. cbn [kept brings]. rewrite Ef. ring.
    + destruct B4 as (T1 & T2). destruct (vneg_spec h2 w T1) as (h3 & l & E & M & A & C). destruct (numeric e) eqn:Ee.
      * subst v. assert (S3 : symbolic h3 (VEq l)) by apply M. destruct (vadd_spec h3 (VEq l) (VNum (kept h e)) S3) as (h4 & l' & E' & M' & A' & C'); [left; discriminate|discriminate|].
        exists h4, (VEq l'). split; [destruct w; try contradiction; cbn [vsub_]; rewrite E; exact E'|]. apply (both_right h e f (Sub e f) h2 (VNum (kept h e)) w h4 l' B Ef); auto; [eapply made_trans; eauto| | |].
        -- cbn [numeric]. now rewrite Ef, andb_false_r.
        -- intros a. rewrite A', A. cbn [lin]. rewrite B6, <- B5. cbn. ring.
        -- rewrite C', C, B8. cbn [kept brings]. rewrite Ef, Ee. reflexivity.
      * destruct B3 as (S1 & S2). pose proof M as (M1 & M2 & M3 & M4). assert (Sv : symbolic h3 v) by (destruct v as [|k|m|]; cbn in *; auto; lia).
        assert (Hap : forall m, v = VEq m -> m <> l) by (intros m -> ->; destruct M3 as [M3|M3]; [exact (B9 l eq_refl M3)|cbn in S1; lia]).
        assert (Gv : (forall a, vlin h3 v a = vlin h2 v a) /\ vconst h3 v = vconst h2 v).
        { destruct v as [|k|m|]; cbn [vlin vconst]; auto. cbn in S1. rewrite M4 by auto. auto. }
        destruct (vadd_spec h3 v (VEq l) Sv) as (h4 & l' & E' & M' & A' & C').
        { destruct v as [|k|m|]; try contradiction; [right; discriminate|]. left. intros K. injection K as ->. exact (Hap l eq_refl eq_refl). }
        { intros m K. injection K as <-. exact M2. }
        exists h4, (VEq l'). split; [destruct v; try contradiction; cbn [vsub_]; rewrite E; exact E'|]. destruct Gv as (G1 & G2).
        apply (both_two h e f (Sub e f) h2 v w h3 l h4 l' B Ee Ef M M'); auto.
        -- cbn [numeric]. now rewrite Ee.
        -- intros a. rewrite A', A, G1, B5, B6. cbn [lin]. ring.
        -- rewrite C', G2, B7. cbn [kept brings]. rewrite Ef, Ee. ring.
  - destruct Hl as (L1 & L2 & L3). cbn [eval]. destruct (both_eval h e f vmul Hs (IHe L1) (IHf L2)) as (h2 & v & w & E & B). rewrite E. clear E. pose proof B as [B1 B2 B3 B4 B5 B6 B7 B8 B9].
    destruct (numeric e) eqn:Ee.
    + subst v. destruct (numeric_value h e zero Ee) as (Ve & _). destruct (numeric f) eqn:Ef.
      * subst w. cbn [vmul]. eexists _, _. split; [reflexivity|]. split; auto. split; auto. cbn [numeric kept lin]. rewrite Ee, Ef. cbn [andb]. split; auto. split; auto. intros a. rewrite <- B6. cbn. ring.
      * destruct B4 as (S1 & S2). destruct (vmul_spec h2 w (kept h e) S1) as (h3 & l & _ & E & M & A & C). rewrite E. exists h3, (VEq l). split; auto. apply (both_right h e f (Mul e f) h2 (VNum (kept h e)) w h3 l B Ef M); auto.
        -- cbn [numeric]. now rewrite Ef, andb_false_r.
        -- intros a. rewrite A. cbn [lin]. rewrite Ee, Ve, B6. ring.
        -- rewrite C, B8. cbn [kept]. now rewrite Ee, Ef.
    + cbn in L3. rewrite L3 in B4. subst w. destruct (numeric_value h f zero L3) as (Vf & _). destruct B3 as (S1 & S2). destruct (vmul_spec h2 v (kept h f) S1) as (h3 & l & E & _ & M & A & C). rewrite E. exists h3, (VEq l). split; auto.
      apply (both_left h e f (Mul e f) h2 v (VNum (kept h f)) h3 l B Ee M); auto.
      * cbn [numeric]. now rewrite Ee.
      * intros a. rewrite A. cbn [lin]. now rewrite Ee, Vf, B5.
      * rewrite C, B7. cbn [kept]. now rewrite Ee.
Qed.

(** ** constants *)
Lemma hom_not_numeric h e : homogeneous h e -> numeric e = false.
Proof.
  induction e as [q|k|i|l|e IHe|e IHe|e IHe f IHf|e IHe f IHf|e IHe f IHf]; cbn [homogeneous numeric]; intros H; auto; try contradiction.
  - destruct H as (H & _). now rewrite IHe.
  - destruct H as (H & _). now rewrite IHe.
  - destruct H as [(_ & H)|(H & _)]; [rewrite IHf by auto; apply andb_false_r|now rewrite IHe].
Qed.
Lemma hom_kept h e : linear e -> homogeneous h e -> kept h e = 0%Qc /\ value_of h e zero = 0%Qc.
Proof.
  induction e as [q|k|i|l|e IHe|e IHe|e IHe f IHf|e IHe f IHf|e IHe f IHf]; cbn [linear homogeneous kept value_of]; intros Hl H; auto; try contradiction.
  - unfold equation_value. fold (tsum (eterms (get h l)) zero). rewrite tsum_zero, H. split; auto.
  - rewrite (hom_not_numeric h e H). destruct (IHe Hl H) as (-> & ->). split; auto.
  - destruct Hl as (L1 & L2), H as (H1 & H2). rewrite (hom_not_numeric h e H1), (hom_not_numeric h f H2). destruct (IHe L1 H1) as (A1 & A2), (IHf L2 H2) as (B1 & B2). cbn [orb]. rewrite ?A1, ?A2, ?B1, ?B2. split; [auto|ring].
  - destruct Hl as (L1 & L2), H as (H1 & H2). rewrite (hom_not_numeric h e H1), (hom_not_numeric h f H2). destruct (IHe L1 H1) as (A1 & A2), (IHf L2 H2) as (B1 & B2). cbn [orb]. rewrite ?A1, ?A2, ?B1, ?B2. split; [auto|ring].
  - destruct Hl as (L1 & L2 & _), H as [(H1 & H2)|(H1 & H2)].
    + rewrite H1, (hom_not_numeric h f H2). destruct (IHf L2 H2) as (-> & ->). split; [auto|ring].
    + rewrite (hom_not_numeric h e H1). destruct (IHe L1 H1) as (-> & ->). split; [auto|ring].
Qed.
Lemma plain_kept h e : linear e -> plain h e -> kept h e = value_of h e zero.
Proof.
  assert (N : forall e, numeric e = true -> kept h e = value_of h e zero) by (intros e' H; now destruct (numeric_value h e' zero H) as (-> & _)).
  assert (M : forall e, linear e -> homogeneous h e -> kept h e = value_of h e zero) by (intros e' L H; now destruct (hom_kept h e' L H) as (-> & ->)).
  induction e as [q|k|i|l|e IHe|e IHe|e IHe f IHf|e IHe f IHf|e IHe f IHf]; intros Hl H; (destruct H as [H|[H|H]]; [now apply N|now apply M|]); cbn [linear kept value_of] in *; try contradiction.
  - unfold equation_value. fold (tsum (eterms (get h l)) zero). rewrite tsum_zero. ring.
  - auto.
  - destruct Hl as (L1 & L2). destruct H as [(H1 & [H2|H2])|(H1 & H2)].
    + rewrite H2, orb_true_r. rewrite IHe, (N f) by auto. reflexivity.
    + rewrite (hom_not_numeric h f H2), orb_false_r. rewrite IHe by auto. destruct (hom_kept h f L2 H2) as (-> & ->). destruct (numeric e); ring.
    + rewrite H1. cbn [orb]. rewrite IHf, (N e) by auto. reflexivity.
  - destruct Hl as (L1 & L2). destruct H as [(H1 & [H2|H2])|(H1 & H2)].
    + rewrite H2. rewrite IHe, (N f) by auto. reflexivity.
    + rewrite (hom_not_numeric h f H2). rewrite IHe by auto. destruct (hom_kept h f L2 H2) as (-> & ->). destruct (numeric e); ring.
    + rewrite (hom_not_numeric h f H2), H1. rewrite (N e) by auto. destruct (hom_kept h f L2 H2) as (-> & ->). ring.
Qed.
(** ** which objects an operation may change *)
Lemma upd_other h l e m : m <> l -> get (upd h l e) m = get h m. Proof. apply get_upd_other. Qed.
Lemma add_to_other h l v m : m <> l -> get (add_to h l v) m = get h m.
Proof. intros H. destruct v; cbn [add_to]; auto using get_upd_other. Qed.
Lemma length_add_to h l v : length (add_to h l v) = length h. Proof. destruct v; cbn [add_to]; auto using length_upd. Qed.
Ltac frame := repeat match goal with
  | |- get (add_to _ _ _) _ = _ => rewrite add_to_other
  | |- get (upd _ _ _) _ = _ => rewrite get_upd_other
  | |- get (_ ++ _) _ = _ => rewrite get_alloc end;
  auto; rewrite ?length_upd, ?length_add_to, ?app_length; try lia; try (intros ->; match goal with K : ~ _ |- _ => apply K; simpl; auto end).
Lemma vneg_frame h v m : m < length h -> v <> VEq m -> get (fst (vneg h v)) m = get h m.
Proof. intros Hm H. destruct v as [q|k|l|]; cbn [vneg alloc fst]; auto; [now apply get_alloc|]. apply get_upd_other. congruence. Qed.
Lemma vneg_length h v : length h <= length (fst (vneg h v)).
Proof. destruct v; cbn [vneg alloc fst]; auto; [rewrite app_length; lia|rewrite length_upd; lia]. Qed.
Lemma vadd_frame h v w m : m < length h -> v <> VEq m -> w <> VEq m -> get (fst (vadd_ h v w)) m = get h m.
Proof.
  intros Hm H1 H2. destruct v as [q|k|l|], w as [r|j|n|]; cbn [vadd_ alloc fst]; auto;
  repeat match goal with
  | |- get (add_to _ _ _) _ = _ => rewrite add_to_other by (congruence || lia)
  | |- get (_ ++ _) _ = _ => rewrite get_alloc by auto end; auto.
Qed.
Lemma vadd_length h v w : length h <= length (fst (vadd_ h v w)).
Proof. destruct v, w; cbn [vadd_ alloc fst]; rewrite ?length_add_to, ?app_length; lia. Qed.
Lemma vneg_result h v h' b m : vneg h v = (h', Ok b) -> m < length h -> v <> VEq m -> b <> VEq m.
Proof. destruct v as [q|k|l|]; cbn [vneg alloc]; intros E Hm Hv K; try discriminate E; injection E as <- <-; try discriminate K; injection K as <-; [lia|congruence]. Qed.
Lemma apply_frame o h m : m < length h -> ~ In (VEq m) (operands o) -> get (fst (apply o h)) m = get h m.
Proof.
  intros Hm H. destruct o as [a|a|a b|a b|a b|i]; cbn [apply operands In] in *.
  - apply vneg_frame; auto.
  - destruct a as [q|k|l|]; cbn [vpos alloc fst]; auto. now apply get_alloc.
  - apply vadd_frame; auto.
  - assert (K : get (fst (match vneg h b with (h, Ok b) => vadd_ h a b | r => r end)) m = get h m).
    { destruct (vneg h b) as (h' & r) eqn:E. assert (E' := f_equal fst E). cbn [fst] in E'. pose proof (vneg_length h b). pose proof (vneg_frame h b m Hm ltac:(auto)) as F. rewrite E' in *.
      destruct r as [b'|x|]; cbn [fst]; auto. rewrite vadd_frame; auto; [lia|]. eapply vneg_result; eauto. }
    assert (K' : get (fst (match vneg h b with (h, Ok b) => vadd_ h b a | r => r end)) m = get h m).
    { destruct (vneg h b) as (h' & r) eqn:E. assert (E' := f_equal fst E). cbn [fst] in E'. pose proof (vneg_length h b). pose proof (vneg_frame h b m Hm ltac:(auto)) as F. rewrite E' in *.
      destruct r as [b'|x|]; cbn [fst]; auto. rewrite vadd_frame; auto; [lia|]. eapply vneg_result; eauto. }
    destruct a, b; cbn [vsub_]; auto.
  - destruct a as [q|k|l|], b as [r|j|n|]; cbn [vmul alloc fst]; auto; (rewrite get_alloc by auto; reflexivity) || (rewrite get_upd_other; auto; intros ->; tauto).
  - unfold item. destruct (i <=? 0)%Z; auto. cbn [alloc fst]. now apply get_alloc.
Qed.

(** ** reachable heaps *)
Definition good (e : equation) : Prop := eterms e <> [] /\ NoDup (map fst (eterms e)).
Definition good_heap (h : heap) : Prop := forall l, l < length h -> good (get h l).
Lemma keys_dset d k (w : Qc) : NoDup (map fst d) -> NoDup (map fst (dset Nat.eqb k w d)) /\ (dset Nat.eqb k w d <> []) /\ forall i, In i (map fst (dset Nat.eqb k w d)) -> i = k \/ In i (map fst d).
Proof.
  induction d as [|(k0 & c) d IH]; cbn [dset map fst]; intros H; [split; [repeat constructor; simpl; auto|]; split; [discriminate|]; simpl; intuition|].
  inversion H as [|? ? H1 H2]; subst. destruct (Nat.eqb_spec k k0) as [->|Hk]; cbn [map fst]; [split; [now constructor|]; split; [discriminate|]; simpl; intuition|]. destruct (IH H2) as (I1 & I2 & I3).
  split; [constructor; auto; intros K; destruct (I3 _ K); [congruence|contradiction]|]. split; [discriminate|]. simpl. intros i [K|K]; auto. destruct (I3 _ K); auto.
Qed.
Lemma keys_default d k : NoDup (map fst d) -> NoDup (map fst (dsetdefault Nat.eqb k 0%Qc d)).
Proof.
  intros H. unfold dsetdefault. destruct (dmem Nat.eqb k d) eqn:E; auto. rewrite map_app. cbn [map fst]. assert (K : ~ In k (map fst d)) by (intros K; apply (dmem_keys Nat.eqb Nat.eqb_spec) in K; congruence).
  apply NoDup_rev in H. rewrite <- (rev_involutive (map fst d ++ [k])). apply NoDup_rev. rewrite rev_app_distr. cbn. constructor; auto. now rewrite <- in_rev.
Qed.
Lemma keys_bump d k q : NoDup (map fst d) -> NoDup (map fst (bump d k q)) /\ bump d k q <> [].
Proof. intros H. unfold bump. destruct (keys_dset (dsetdefault Nat.eqb k 0%Qc d) k (match dget Nat.eqb k (dsetdefault Nat.eqb k 0%Qc d) with Some w => (w + q)%Qc | None => q end) (keys_default d k H)) as (A & B & _). auto. Qed.
Lemma keys_fold ts d : NoDup (map fst d) -> d <> [] -> NoDup (map fst (fold_left (fun d kq => bump d (fst kq) (snd kq)) ts d)) /\ fold_left (fun d kq => bump d (fst kq) (snd kq)) ts d <> [].
Proof. revert d. induction ts as [|(k & q) ts IH]; intros d H1 H2; cbn [fold_left]; auto. destruct (keys_bump d k q H1). apply IH; auto. Qed.
Lemma good_upd h l e : good_heap h -> (l < length h -> good e) -> good_heap (upd h l e).
Proof.
  intros H He m Hm. rewrite length_upd in Hm. rewrite get_upd. destruct (Nat.eqb_spec m l) as [->|]; cbn [andb]; auto. destruct (Nat.ltb_spec l (length h)); auto.
Qed.
Lemma good_alloc h e : good_heap h -> good e -> good_heap (h ++ [e]).
Proof. intros H He m Hm. rewrite app_length in Hm. cbn in Hm. destruct (Nat.eq_dec m (length h)) as [->|]; [now rewrite get_new|]. rewrite get_alloc by lia. apply H. lia. Qed.
Lemma good_variable k q : good (of_variable k q). Proof. split; [discriminate|]. cbn. repeat constructor. simpl. auto. Qed.
Lemma good_map (f : nat * Qc -> nat * Qc) e c : (forall x, fst (f x) = fst x) -> good e -> good (mkequation (map f (eterms e)) c).
Proof. intros Hf (H1 & H2). split; cbn [eterms]; [destruct (eterms e); [congruence|discriminate]|]. rewrite map_map. rewrite (map_ext _ fst) by auto. exact H2. Qed.
Lemma good_add h l v : good_heap h -> good_heap (add_to h l v).
Proof.
  intros H. destruct v as [q|k|m|]; cbn [add_to]; auto; apply good_upd; auto; intros Hl; destruct (H l Hl) as (G1 & G2).
  - split; auto.
  - destruct (keys_bump (eterms (get h l)) k 1%Qc G2). split; auto.
  - destruct (keys_fold (eterms (get h m)) (eterms (get h l)) G2 G1). split; auto.
Qed.
Lemma good_vneg h v : good_heap h -> good_heap (fst (vneg h v)).
Proof. intros H. destruct v as [q|k|l|]; cbn [vneg alloc fst]; auto; [apply good_alloc; auto using good_variable|]. apply good_upd; auto. intros Hl. apply good_map; auto. Qed.
Lemma good_vadd h v w : good_heap h -> good_heap (fst (vadd_ h v w)).
Proof. intros H. destruct v, w; cbn [vadd_ alloc fst]; auto using good_add, good_alloc, good_variable. Qed.
Lemma good_apply o h : good_heap h -> good_heap (fst (apply o h)).
Proof.
  intros H. destruct o as [a|a|a b|a b|a b|i]; cbn [apply].
  - now apply good_vneg.
  - destruct a as [q|k|l|]; cbn [vpos alloc fst]; auto. apply good_alloc; auto using good_variable.
  - now apply good_vadd.
  - pose proof (good_vneg h b H) as G. destruct a, b; cbn [vsub_]; auto; match goal with |- context [vneg ?h ?b] => destruct (vneg h b) as (h' & [r|x|]) end; cbn [fst] in *; auto using good_vadd.
  - destruct a as [q|k|l|], b as [r|j|n|]; cbn [vmul alloc fst]; auto; try (apply good_alloc; auto using good_variable); apply good_upd; auto; intros Hl; apply good_map; auto.
  - unfold item. destruct (i <=? 0)%Z; auto. cbn [alloc fst]. apply good_alloc; auto using good_variable.
Qed.
Lemma reachable_good h : reachable_heap h -> good_heap h.
Proof. induction 1; [intros l Hl; cbn in Hl; lia|]. now apply good_apply. Qed.

(** ** coefficient arrays *)
Lemma row_nil a : row_value [] a = 0%Qc. Proof. reflexivity. Qed.
Lemma row_cons x v a : row_value (x :: v) a = (x * a 0%nat + row_value v (fun i => a (S i)))%Qc.
Proof. unfold row_value. cbn [length seq]. rewrite <- seq_shift. cbn. f_equal. apply (Sigma_map S). Qed.
Lemma row_zeros n a : row_value (repeat 0%Qc n) a = 0%Qc.
Proof. revert a. induction n as [|n IH]; intros a; cbn [repeat]; rewrite ?row_nil, ?row_cons; auto. rewrite IH. ring. Qed.
Lemma row_app u v a : row_value (u ++ v) a = (row_value u a + row_value v (fun i => a (length u + i)%nat))%Qc.
Proof. revert a. induction u as [|x u IH]; intros a; cbn [app length]; rewrite ?row_nil, ?row_cons; [change (row_value v a = (0 + row_value v a)%Qc); ring|]. rewrite IH. cbn [Nat.add]. ring. Qed.
Lemma row_pad u n a : row_value (u ++ repeat 0%Qc n) a = row_value u a.
Proof. rewrite row_app, row_zeros. ring. Qed.
Lemma row_vopp v a : row_value (vopp v) a = (- row_value v a)%Qc.
Proof. unfold vopp. revert a. induction v as [|x v IH]; intros a; cbn [map]; rewrite ?row_nil, ?row_cons; [ring|]. rewrite IH. ring. Qed.
Lemma row_vadd u v a : length u = length v -> row_value (vadd u v) a = (row_value u a + row_value v a)%Qc.
Proof.
  unfold vadd. revert v a. induction u as [|x u IH]; intros [|y v] a H; try discriminate H; cbn [combine map fst snd]; rewrite ?row_nil, ?row_cons; [ring|]. rewrite IH by (now injection H). ring.
Qed.
Lemma length_put v i x : length (put v i x) = length v. Proof. revert i. induction v; intros [|i]; cbn; auto. Qed.
Lemma nth_put v i x j : i <> j -> nth j (put v i x) 0%Qc = nth j v 0%Qc.
Proof. revert i j. induction v as [|y v IH]; intros [|i] [|j] H; cbn; auto; try congruence. Qed.
Lemma row_put v i x a : i < length v -> row_value (put v i x) a = (row_value v a + (x - nth i v 0) * a i)%Qc.
Proof. revert i a. induction v as [|y v IH]; intros [|i] a H; cbn [put length nth] in *; try lia; rewrite !row_cons; [ring|]. rewrite IH by lia. ring. Qed.
Lemma row_fold ts v a : NoDup (map fst ts) -> (forall k, In k (map fst ts) -> k < length v /\ nth k v 0%Qc = 0%Qc) ->
  row_value (fold_left (fun v kq => put v (fst kq) (snd kq)) ts v) a = (row_value v a + tsum ts a)%Qc /\ length (fold_left (fun v kq => put v (fst kq) (snd kq)) ts v) = length v.
Proof.
  revert v. induction ts as [|(k & q) ts IH]; intros v Hn Hk; cbn [fold_left map fst snd] in *; [rewrite tsum_nil; split; [ring|auto]|]. inversion Hn as [|? ? N1 N2]; subst. destruct (Hk k) as (K1 & K2); [simpl; auto|].
  destruct (IH (put v k q) N2) as (I1 & I2).
  { intros j Hj. destruct (Hk j) as (J1 & J2); [simpl; auto|]. rewrite length_put. split; auto. rewrite nth_put; auto. intros ->. contradiction. }
  rewrite I1, I2, length_put, row_put, tsum_cons, K2 by auto. split; [ring|auto].
Qed.
Lemma nth_zeros n j : nth j (repeat 0%Qc n) 0%Qc = 0%Qc. Proof. revert j. induction n; intros [|j]; cbn; auto. Qed.
Lemma coefficients_good e : good e -> exists v, coefficients e = Some v /\ v <> [] /\ forall a, row_value v a = tsum (eterms e) a.
Proof.
  intros (H1 & H2). unfold coefficients. destruct (eterms e) as [|t ts] eqn:E; [congruence|]. eexists. split; [reflexivity|]. rewrite <- E in *.
  assert (K : forall k, In k (map fst (eterms e)) -> k < length (repeat 0%Qc (S (list_max (map fst (eterms e))))) /\ nth k (repeat 0%Qc (S (list_max (map fst (eterms e))))) 0%Qc = 0%Qc).
  { intros k Hk. rewrite repeat_length. split; [|apply nth_zeros]. assert (F : Forall (fun i => i <= list_max (map fst (eterms e))) (map fst (eterms e))) by now apply list_max_le. rewrite Forall_forall in F. apply F in Hk. lia. }
  split.
  - destruct (row_fold (eterms e) _ zero H2 K) as (_ & L). intros C. rewrite C in L. rewrite repeat_length in L. discriminate L.
  - intros a. destruct (row_fold (eterms e) _ a H2 K) as (-> & _). rewrite row_zeros. ring.
Qed.
Lemma coefficients_number q : coefficients (mkequation [] q) = None. Proof. reflexivity. Qed.
Definition orow (v : option (list Qc)) (a : assignment) : Qc := match v with None => 0%Qc | Some v => row_value v a end.
Lemma pad_right_spec v n w : pad_right v n = Ok w -> length w = n /\ forall a, row_value w a = orow v a.
Proof.
  unfold pad_right. destruct v as [v|].
  - destruct (Nat.ltb_spec n (length v)); [discriminate|]. intros E. injection E as <-. rewrite app_length, repeat_length. split; [lia|]. intros a. apply row_pad.
  - intros E. injection E as <-. rewrite repeat_length. split; auto. intros a. apply row_zeros.
Qed.
Lemma pad_right_fits v n : length v <= n -> exists w, pad_right (Some v) n = Ok w.
Proof. intros H. unfold pad_right. destruct (Nat.ltb_spec n (length v)); [lia|]. eauto. Qed.
Lemma broadcast_spec u v : exists w, broadcast_subtract (Some u) (Some v) = Ok (Some w) /\ forall a, row_value w a = (row_value u a - row_value v a)%Qc.
Proof.
  unfold broadcast_subtract. assert (L : length (vopp v) = length v) by apply map_length. destruct (Nat.eqb_spec (length u) (length (vopp v))) as [E|E].
  - eexists. split; [reflexivity|]. intros a. rewrite row_vadd, row_vopp by auto. ring.
  - destruct (Nat.ltb_spec (length (vopp v)) (length u)) as [K|K].
    + destruct (pad_right_fits (vopp v) (length u)) as (w & Ew); [lia|]. rewrite Ew. cbn [bind]. eexists. split; [reflexivity|]. apply pad_right_spec in Ew. destruct Ew as (W1 & W2). intros a. rewrite row_vadd, W2 by auto. cbn [orow]. rewrite row_vopp. ring.
    + destruct (pad_right_fits u (length (vopp v))) as (w & Ew); [lia|]. rewrite Ew. cbn [bind]. eexists. split; [reflexivity|]. apply pad_right_spec in Ew. destruct Ew as (W1 & W2). intros a. rewrite row_vadd, W2 by auto. cbn [orow]. rewrite row_vopp. ring.
Qed.

(** ** comparisons *)
Lemma equation_tsum e a : equation_value e a = (tsum (eterms e) a + econstant e)%Qc. Proof. reflexivity. Qed.
Lemma generate_spec e c o : good e -> good o \/ eterms o = [] -> exists v, generate e (symbol c) o = Ok (Linear v (symbol c) (econstant o - econstant e)%Qc) /\
  forall a, satisfied (Linear v (symbol c) (econstant o - econstant e)%Qc) a <-> compared c (equation_value e a) (equation_value o a).
Proof.
  intros He Ho. destruct (coefficients_good e He) as (u & Eu & _ & Ru). assert (K : exists w, broadcast_subtract (coefficients e) (coefficients o) = Ok (Some w) /\ forall a, row_value w a = (tsum (eterms e) a - tsum (eterms o) a)%Qc).
  { rewrite Eu. destruct Ho as [Ho|Ho].
    - destruct (coefficients_good o Ho) as (v & Ev & _ & Rv). rewrite Ev. destruct (broadcast_spec u v) as (w & Ew & Rw). exists w. split; auto. intros a. now rewrite Rw, Ru, Rv.
    - assert (Ec : coefficients o = None) by (unfold coefficients; now rewrite Ho). rewrite Ec. exists u. split; auto. intros a. rewrite Ru, Ho, tsum_nil. ring. }
  destruct K as (w & Ew & Rw). exists w. unfold generate. rewrite Ew. split; [reflexivity|]. intros a. cbn [satisfied]. rewrite Rw, !equation_tsum.
  generalize (tsum (eterms e) a) (tsum (eterms o) a) (econstant e) (econstant o). intros p q r s. destruct c; cbn [symbol compared relation_of String.eqb Ascii.eqb Bool.eqb related]; cbn; split; intros H; qclra.
Qed.
Lemma generate_with_spec h e c b : good_heap h -> good e -> valid h b -> (exists q, b = VNum q) \/ (exists m, b = VEq m) ->
  exists r, generate_with h e (symbol c) b = Ok r /\ forall a, satisfied r a <-> compared c (equation_value e a) (val_value h b a).
Proof.
  intros Hh He Hb [(q & ->)|(m & ->)]; cbn [generate_with].
  - destruct (generate_spec e c (mkequation [] q) He (or_intror eq_refl)) as (v & E & S). eexists. split; [exact E|]. intros a. rewrite S. cbn [val_value]. replace (equation_value (mkequation [] q) a) with q by (unfold equation_value; cbn; ring). reflexivity.
  - destruct (generate_spec e c (get h m) He (or_introl (Hh m Hb))) as (v & E & S). eexists. split; [exact E|]. exact S.
Qed.
Lemma variable_value k a : equation_value (of_variable k 1%Qc) a = a k.
Proof. unfold equation_value. cbn. ring. Qed.
Lemma compare_variable_spec h c k b : good_heap h -> valid h b -> (exists q, b = VNum q) \/ (exists m, b = VEq m) ->
  exists r, compare_variable h c k b = Ok r /\ forall a, satisfied r a <-> compared c (a k) (val_value h b a).
Proof.
  intros Hh Hb Hk. assert (G : exists r, generate_with h (of_variable k 1%Qc) (symbol c) b = Ok r /\ forall a, satisfied r a <-> compared c (a k) (val_value h b a)).
  { destruct (generate_with_spec h (of_variable k 1%Qc) c b Hh (good_variable _ _) Hb Hk) as (r & E & S). exists r. split; auto. intros a. rewrite S, variable_value. reflexivity. }
  destruct c; cbn [compare_variable]; destruct b as [q|j|m|]; cbn [compare_variable symbol] in *; auto.
  - destruct (Qc_eq_bool q 0) eqn:E; auto. apply Qc_eq_bool_correct in E. subst q. eexists. split; [reflexivity|]. intros a. cbn [satisfied val_value compared named]. split.
    + intros (_ & H). apply (H k). simpl. auto.
    + intros H. split; [intros j []|]. intros j [K|[]]. apply Nat2Z.inj in K. injection K as <-. exact H.
  - destruct (Qc_eq_bool q 0) eqn:E; auto. apply Qc_eq_bool_correct in E. subst q. eexists. split; [reflexivity|]. intros a. cbn [satisfied val_value compared named]. split.
    + intros (H & _). apply (H k). simpl. auto.
    + intros H. split; [|intros j []]. intros j [K|[]]. apply Nat2Z.inj in K. injection K as <-. exact H.
Qed.
Lemma compared_mirror c x y : compared (mirror c) x y <-> compared c y x.
Proof. destruct c; cbn; try reflexivity. split; auto. Qed.
Lemma compare_spec h c a b r : good_heap h -> valid h a -> valid h b -> compare h c a b = Ok r ->
  (exists x, r = Truth x) \/ forall s, satisfied r s <-> compared c (val_value h a s) (val_value h b s).
Proof.
  intros Hh Ha Hb. assert (D : forall b, (exists q, b = VNum q) \/ (exists m, b = VEq m) \/ (exists k, b = VVar k) \/ b = VNone) by (intros []; eauto).
  destruct a as [q|k|l|]; cbn [compare].
  - destruct b as [q'|k'|l'|]; [intros E; injection E as <-; eauto| | |].
    + intros E. right. destruct (compare_variable_spec h (mirror c) k' (VNum q) Hh I ltac:(eauto)) as (r' & E' & S). rewrite E in E'. injection E' as <-. intros s. rewrite S, compared_mirror. reflexivity.
    + intros E. right. destruct (generate_with_spec h (get h l') (mirror c) (VNum q) Hh (Hh l' Hb) I ltac:(eauto)) as (r' & E' & S). rewrite E in E'. injection E' as <-. intros s. rewrite S, compared_mirror. reflexivity.
    + destruct c; intros E; try discriminate E. injection E as <-. eauto.
  - intros E. right. destruct (D b) as [Hk|[Hk|[(j & ->)| ->]]].
    1,2: destruct (compare_variable_spec h c k b Hh Hb ltac:(auto)) as (r' & E' & S); rewrite E in E'; injection E' as <-; exact S.
    1,2: destruct c; discriminate E.
  - intros E. right. destruct (D b) as [Hk|[Hk|[(j & ->)| ->]]]; try discriminate E.
    1,2: destruct (generate_with_spec h (get h l) c b Hh (Hh l Ha) Hb ltac:(auto)) as (r' & E' & S); rewrite E in E'; injection E' as <-; exact S.
  - destruct b as [q'|k'|l'|]; try (destruct c; discriminate); destruct c; intros E; try discriminate E; injection E as <-; eauto.
Qed.
Lemma compare_total h c a b : good_heap h -> valid h a -> valid h b ->
  (is_expression a /\ ((exists q, b = VNum q) \/ (exists m, b = VEq m))) \/ ((exists q, a = VNum q) /\ is_expression b) ->
  exists r, compare h c a b = Ok r /\ forall s, satisfied r s <-> compared c (val_value h a s) (val_value h b s).
Proof.
  intros Hh Ha Hb [(Hk & Hn)|((q & ->) & Hk)].
  - destruct a as [q|k|l|]; try contradiction; cbn [compare].
    + apply compare_variable_spec; auto.
    + apply generate_with_spec; auto.
  - destruct b as [q'|k'|l'|]; try contradiction; cbn [compare].
    + destruct (compare_variable_spec h (mirror c) k' (VNum q) Hh I ltac:(eauto)) as (r' & E' & S). exists r'. split; auto. intros s. rewrite S, compared_mirror. reflexivity.
    + destruct (generate_with_spec h (get h l') (mirror c) (VNum q) Hh (Hh l' Hb) I ltac:(eauto)) as (r' & E' & S). exists r'. split; auto. intros s. rewrite S, compared_mirror. reflexivity.
Qed.

(** ** formulations *)
Lemma inner_row u x : length u = length x -> inner u x = row_value u (point x).
Proof.
  revert x. induction u as [|y u IH]; intros [|z x] H; try discriminate H; cbn [inner]; [reflexivity|]. rewrite row_cons, IH by (now injection H). reflexivity.
Qed.
Lemma linear_parts_spec cs l : linear_parts cs = Ok l -> cs = map (fun vsq => Linear (fst (fst vsq)) (snd (fst vsq)) (snd vsq)) l.
Proof.
  revert l. induction cs as [|c cs IH]; intros l; cbn [linear_parts]; [intros E; injection E as <-; reflexivity|]. destruct c as [v s q| |]; try discriminate. destruct (linear_parts cs) as [l'| |]; try discriminate. cbn [bind]. intros E. injection E as <-. cbn [map fst snd]. now rewrite (IH l').
Qed.
Lemma pad_all_spec l n A : pad_all l n = Ok A -> Forall2 (fun v w => length w = n /\ forall a, row_value w a = row_value v a) l A.
Proof.
  revert A. induction l as [|v l IH]; intros A; cbn [pad_all]; [intros E; injection E as <-; constructor|]. destruct (pad_right (Some v) n) as [w| |] eqn:Ew; try discriminate. cbn [bind]. destruct (pad_all l n) as [A'| |]; try discriminate. cbn [bind]. intros E. injection E as <-. constructor; auto. apply pad_right_spec in Ew. exact Ew.
Qed.
Lemma pad_all_fits l n : (forall v, In v l -> length v <= n) -> exists A, pad_all l n = Ok A.
Proof.
  induction l as [|v l IH]; intros H; cbn [pad_all]; eauto. destruct (pad_right_fits v n) as (w & ->); [apply H; simpl; auto|]. destruct IH as (A & ->); [intros u Hu; apply H; simpl; auto|]. cbn. eauto.
Qed.
Lemma named_add n src tgt j : j < n -> (In (Z.of_nat (S j)) (add_signs n src tgt) <-> In (Z.of_nat (S j)) tgt \/ named src j).
Proof.
  intros Hj. destruct src as [[|z l]|]; cbn [add_signs named]; [|rewrite in_app_iff; tauto|tauto].
  rewrite in_app_iff. split; [auto|]. intros [H|_]; auto. right. apply in_map_iff. exists j. split; auto. apply in_seq. lia.
Qed.
(** the invariant of a history *)
Record base (f0 f : formulation) : Prop := mkbase {
  b_A : fA f = fA f0; b_b : fb f = fb f0; b_c : fc f = fc f0; b_z : fz f = fz f0; b_kind : fkind f = fkind f0; b_ineq : fineq f = fineq f0 }.
Definition given (cs : list constraint) (pos : bool) (j : nat) : Prop := exists p n, In (Signs p n) cs /\ named (if pos then p else n) j.
Record tracked (f : formulation) (cs : list constraint) : Prop := mktracked {
  t_pos : forall j, j < length (fc f) -> (In (Z.of_nat (S j)) (fpos f) <-> given cs true j);
  t_neg : forall j, j < length (fc f) -> (In (Z.of_nat (S j)) (fneg f) <-> given cs false j);
  t_signs : forall c, In c cs -> exists p n, c = Signs p n }.
Definition settled (f : formulation) : Prop := NoDup (fneg f) /\ forall i, In i (fpos f) -> ~ In i (fneg f).
Definition cached (f : formulation) : Prop := frecompile f = false -> forall p, fprogram f = Some p -> compile f = Ok p.
Lemma given_app cs c p n pos j : c = Signs p n -> (given (cs ++ [c]) pos j <-> given cs pos j \/ named (if pos then p else n) j).
Proof.
  intros ->. unfold given. split.
  - intros (p' & n' & H & K). apply in_app_iff in H. destruct H as [H|[H|[]]]; [left; eauto|]. injection H as <- <-. auto.
  - intros [(p' & n' & H & K)|K]; [exists p', n'|exists p, n]; split; auto; apply in_app_iff; simpl; auto.
Qed.
Lemma add_all_spec f cs f' : add_all_signs f cs = (f', Ok tt) -> forall cs0, tracked f cs0 -> base f f' /\ tracked f' (cs0 ++ cs).
Proof.
  revert f. induction cs as [|c cs IH]; intros f; cbn [add_all_signs].
  - intros E. injection E as <-. intros cs0 T. rewrite app_nil_r. split; [now constructor|auto].
  - destruct c as [|pos neg|]; try discriminate. intros E cs0 T. destruct (IH _ E (cs0 ++ [Signs pos neg])) as (B & T').
    + destruct T as [T1 T2 T3]. constructor; cbn [fpos fneg fc set_signs] in *.
      * intros j Hj. rewrite named_add, T1 by auto. symmetry. apply (given_app cs0 _ pos neg true j eq_refl).
      * intros j Hj. rewrite named_add, T2 by auto. symmetry. apply (given_app cs0 _ pos neg false j eq_refl).
      * intros c Hc. apply in_app_iff in Hc. destruct Hc as [Hc|[<-|[]]]; eauto.
    + rewrite <- app_assoc in T'. split; auto. destruct B as [B1 B2 B3 B4 B5 B6]. now constructor.
Qed.
Lemma base_trans f g k : base f g -> base g k -> base f k.
Proof. intros [A1 A2 A3 A4 A5 A6] [B1 B2 B3 B4 B5 B6]. constructor; congruence. Qed.
Lemma where_spec f cs f' cs0 : where_ f cs = (f', Ok tt) -> tracked f cs0 -> base f f' /\ tracked f' (cs0 ++ cs) /\ settled f' /\ cached f'.
Proof.
  unfold where_. destruct (add_all_signs f cs) as (g & [[]| |]) eqn:E; try discriminate. intros H T. destruct (add_all_spec f cs g E cs0 T) as (B & T').
  destruct (negb (nodupbz (fpos g)) || negb (nodupbz (fneg g))) eqn:N; [discriminate|]. destruct (existsb _ (fpos g)) eqn:X; [discriminate|]. injection H as <-.
  split; [destruct B as [B1 B2 B3 B4 B5 B6]; now constructor|]. split; [destruct T' as [T1 T2 T3]; now constructor|]. split; [|intros C; discriminate C].
  apply orb_false_iff in N. destruct N as (_ & N). apply negb_false_iff in N. split; [now apply nodupbz_NoDup|]. intros i Hi K. cbn [fpos fneg set_recompile] in *.
  assert (existsb (fun i => existsb (Z.eqb i) (fneg g)) (fpos g) = true); [|congruence]. apply existsb_exists. exists i. split; auto. apply existsb_exists. exists i. split; auto. apply Z.eqb_refl.
Qed.
Lemma where_all_spec positive f f' cs0 : where_all positive f = (f', Ok tt) -> tracked f cs0 ->
  base f f' /\ tracked f' (cs0 ++ [if positive then Signs (Some []) None else Signs None (Some [])]) /\ settled f' /\ cached f'.
Proof.
  unfold where_all. destruct (Nat.ltb_spec 0 (length (fneg f) + length (fpos f))) as [|K]; [discriminate|]. intros H [T1 T2 T3]. injection H as <-.
  assert (Ep : fpos f = []) by (destruct (fpos f); [auto|cbn in K; lia]). assert (En : fneg f = []) by (destruct (fneg f); [auto|cbn in K; lia]).
  assert (S : forall n, NoDup (map (fun i => Z.of_nat (S i)) (seq 0 n))) by (intros n; apply FinFun.Injective_map_NoDup; [intros x y; lia|apply seq_NoDup]).
  destruct positive; cbn [set_recompile set_signs fA fb fc fz fkind fineq fneg fpos fprogram frecompile].
  - split; [now constructor|]. split; [|split; [split; cbn [fneg fpos]; rewrite En; [constructor|auto]|intros C; discriminate C]]. constructor; cbn [fpos fneg fc] in *.
    + intros j Hj. rewrite (named_add (length (fc f)) (Some []) (fpos f)), T1 by auto. symmetry. apply (given_app cs0 _ (Some []) None true j eq_refl).
    + intros j Hj. rewrite T2 by auto. rewrite (given_app cs0 _ (Some []) None false j eq_refl). cbn [named]. tauto.
    + intros c Hc. apply in_app_iff in Hc. destruct Hc as [Hc|[<-|[]]]; eauto.
  - split; [now constructor|]. split; [|split; [split; cbn [fneg fpos add_signs]; rewrite ?En, ?Ep; [exact (S (length (fc f)))|auto]|intros C; discriminate C]]. constructor; cbn [fpos fneg fc] in *.
    + intros j Hj. rewrite T1 by auto. rewrite (given_app cs0 _ None (Some []) true j eq_refl). cbn [named]. tauto.
    + intros j Hj. rewrite (named_add (length (fc f)) (Some []) (fneg f)), T2 by auto. symmetry. apply (given_app cs0 _ None (Some []) false j eq_refl).
    + intros c Hc. apply in_app_iff in Hc. destruct Hc as [Hc|[<-|[]]]; eauto.
Qed.
Lemma program_spec f f' p : program f = (f', Ok p) -> cached f -> base f f' /\ fneg f' = fneg f /\ fpos f' = fpos f /\ cached f' /\ compile f = Ok p.
Proof.
  unfold program. intros H C. assert (K : (match compile f with Ok p => (mkformulation (fA f) (fb f) (fc f) (fz f) (fkind f) (fineq f) (fneg f) (fpos f) (Some p) false, Ok p) | r => (f, r) end) = (f', Ok p) ->
    base f f' /\ fneg f' = fneg f /\ fpos f' = fpos f /\ cached f' /\ compile f = Ok p).
  { destruct (compile f) as [q| |] eqn:E; intros K; try discriminate K. injection K as <- <-. split; [now constructor|]. split; auto. split; auto. split; auto. intros _ q' Hq. cbn in Hq. injection Hq as <-. exact E. }
  destruct (fprogram f) as [q|] eqn:Ef; auto. destruct (frecompile f) eqn:Er; auto. injection H as <- <-. split; [now constructor|]. auto 6.
Qed.
Lemma history_spec f calls f' : history f calls f' -> forall cs0, tracked f cs0 -> settled f -> cached f ->
  base f f' /\ tracked f' (cs0 ++ signs_of calls) /\ settled f' /\ cached f'.
Proof.
  induction 1 as [f|f c f1 cs f2 E H IH]; intros cs0 T S C; [cbn; rewrite app_nil_r; split; [now constructor|auto]|].
  assert (K : base f f1 /\ tracked f1 (cs0 ++ match c with Where l => l | AllPositive => [Signs (Some []) None] | AllNegative => [Signs None (Some [])] | _ => [] end) /\ settled f1 /\ cached f1).
  { destruct c as [l| | | |]; cbn [perform] in E.
    - now apply (where_spec f l).
    - now apply (where_all_spec true f f1).
    - now apply (where_all_spec false f f1).
    - injection E as <-. rewrite app_nil_r. split; [now constructor|]. split; [destruct T; now constructor|]. split; auto. intros K; discriminate K.
    - destruct (program f) as (g & r) eqn:Eg. destruct r as [p| |]; cbn [rmap] in E; try discriminate E. injection E as <-. destruct (program_spec f g p Eg C) as (B & N & P & C' & _). rewrite app_nil_r. split; auto. split; [|split; auto].
      + destruct T as [T1 T2 T3]. constructor; rewrite ?N, ?P, ?(b_c _ _ B); auto.
      + destruct S as (S1 & S2). split; [now rewrite N|]. rewrite N, P. exact S2. }
  destruct K as (B & T' & S' & C'). destruct (IH _ T' S' C') as (B' & T'' & S'' & C''). rewrite <- app_assoc in T''. split; [eapply base_trans; eauto|]. split; auto.
Qed.

(** ** the compiled program *)
Definition free_of (f : formulation) : list Z := filter (fun i => negb (existsb (Z.eqb i) (fneg f ++ fpos f))) (map (fun i => Z.of_nat (S i)) (seq 0 (length (fc f)))).
Lemma free_of_spec f i : In i (free_of f) <-> (1 <= i <= Z.of_nat (length (fc f)))%Z /\ ~ In i (fneg f) /\ ~ In i (fpos f).
Proof.
  unfold free_of. rewrite filter_In, in_map_iff, negb_true_iff. split.
  - intros ((j & <- & Hj) & H). apply in_seq in Hj. split; [lia|]. split; intros K; (assert (existsb (Z.eqb (Z.of_nat (S j))) (fneg f ++ fpos f) = true); [|congruence]); apply existsb_exists; exists (Z.of_nat (S j)); (split; [apply in_app_iff; auto|apply Z.eqb_refl]).
  - intros (H1 & H2 & H3). split.
    + exists (Z.to_nat (i - 1)). split; [lia|]. apply in_seq. lia.
    + destruct (existsb (Z.eqb i) (fneg f ++ fpos f)) eqn:E; auto. apply existsb_exists in E. destruct E as (j & Hj & E). apply Z.eqb_eq in E. subst j. apply in_app_iff in Hj. tauto.
Qed.
Lemma existsb_Z i l : existsb (Z.eqb i) l = true <-> In i l.
Proof. rewrite existsb_exists. split; [intros (j & H & E); apply Z.eqb_eq in E; now subst|]. intros H. exists i. split; auto. apply Z.eqb_refl. Qed.
Lemma Forall2_nth {A B} (R : A -> B -> Prop) l m d e : Forall2 R l m -> length l = length m /\ forall i, i < length l -> R (nth i l d) (nth i m e).
Proof. induction 1 as [|x y l m H H1 (IH1 & IH2)]; [split; auto; cbn; lia|]. cbn. split; [lia|]. intros [|i] Hi; auto. apply IH2. lia. Qed.
Lemma list_max_In l x : In x l -> x <= list_max l.
Proof. intros H. assert (F : Forall (fun i => i <= list_max l) l) by now apply list_max_le. rewrite Forall_forall in F. auto. Qed.
Lemma nth_map_any {A B} (f : A -> B) l d e i : i < length l -> nth i (map f l) e = f (nth i l d).
Proof. revert i. induction l as [|x l IH]; intros [|i] H; cbn in *; auto; try lia. apply IH. lia. Qed.
Lemma subject_to_spec o cs f : subject_to o cs = Ok f ->
  cs <> [] /\ length (fc f) = width cs /\ fz f = oz o /\ fkind f = okind o /\ (forall a, row_value (fc f) a = orow (oc o) a) /\ fneg f = [] /\ fpos f = [] /\ fprogram f = None /\
  length (fA f) = length cs /\ length (fb f) = length cs /\ length (fineq f) = length cs /\ Forall (fun r => length r = width cs) (fA f) /\
  forall i, i < length cs -> exists v, nth i cs (Truth true) = Linear v (nth i (fineq f) "=") (nth i (fb f) 0%Qc) /\ forall a, row_value (nth i (fA f) []) a = row_value v a.
Proof.
  unfold subject_to. destruct (linear_parts cs) as [l| |] eqn:E; try discriminate. cbn [bind]. apply linear_parts_spec in E.
  assert (W : list_max (map (fun vsq : list Qc * string * Qc => length (fst (fst vsq))) l) = width cs) by (unfold width; rewrite E, map_map; reflexivity). rewrite W.
  destruct l as [|t l0] eqn:El; [discriminate|]. rewrite <- El in *. destruct (pad_all _ _) as [A| |] eqn:EA; try discriminate. cbn [bind]. destruct (pad_right (oc o) _) as [c| |] eqn:Ec; try discriminate. cbn [bind].
  intros H. injection H as <-. cbn [fA fb fc fz fkind fineq fneg fpos fprogram]. apply pad_all_spec in EA. apply pad_right_spec in Ec. destruct Ec as (C1 & C2).
  destruct (Forall2_nth _ _ _ [] [] EA) as (L1 & L2). rewrite map_length in L1, L2. assert (Lc : length cs = length l) by (rewrite E; apply map_length).
  split; [rewrite E, El; discriminate|]. split; auto. split; auto. split; auto. split; auto. split; auto. split; auto. split; auto. split; [lia|]. split; [rewrite map_length; lia|]. split; [rewrite map_length; lia|]. split.
  - clear - EA. induction EA as [|v w l1 A1 H HF IH]; constructor; auto. now destruct H.
  - intros i Hi. rewrite Lc in Hi. destruct (L2 i Hi) as (_ & R). exists (fst (fst (nth i l ([], "=", 0%Qc)))). split.
    + rewrite E. rewrite (nth_map_any _ l ([], "=", 0%Qc)) by auto. f_equal; symmetry; [now apply (nth_map_any (fun vsq : list Qc * string * Qc => snd (fst vsq)))|now apply (nth_map_any snd)].
    + intros a. rewrite R. f_equal. now apply (nth_map_any (fun vsq : list Qc * string * Qc => fst (fst vsq))).
Qed.
Lemma subject_to_total o cs : cs <> [] -> (forall c, In c cs -> exists v s q, c = Linear v s q) -> (forall v, oc o = Some v -> length v <= width cs) -> exists f, subject_to o cs = Ok f.
Proof.
  intros Hn Hl Ho. assert (K : exists l, linear_parts cs = Ok l).
  { clear - Hl. induction cs as [|c cs IH]; [eexists; reflexivity|]. destruct (Hl c ltac:(simpl; auto)) as (v & s & q & ->). destruct IH as (l & El); [intros c Hc; apply Hl; simpl; auto|]. cbn [linear_parts]. rewrite El. cbn. eauto. }
  destruct K as (l & El). unfold subject_to. rewrite El. cbn [bind]. apply linear_parts_spec in El.
  assert (W : list_max (map (fun vsq : list Qc * string * Qc => length (fst (fst vsq))) l) = width cs) by (unfold width; rewrite El, map_map; reflexivity). rewrite W.
  destruct l as [|t l0] eqn:E; [cbn in El; congruence|]. rewrite <- E in *. destruct (pad_all_fits (map (fun vsq : list Qc * string * Qc => fst (fst vsq)) l) (width cs)) as (A & ->).
  { intros v Hv. apply in_map_iff in Hv. destruct Hv as (x & <- & Hx). rewrite <- W. apply list_max_In. apply in_map_iff. eauto. }
  cbn [bind]. destruct (oc o) as [v|] eqn:Eo.
  - destruct (pad_right_fits v (width cs)) as (w & ->); [now apply Ho|]. cbn. eauto.
  - cbn. eauto.
Qed.

(** ** the lists of signs *)
Lemma add_signs_listed n s tgt : add_signs n s tgt = tgt ++ match s with None => [] | Some [] => map (fun i => Z.of_nat (S i)) (seq 0 n) | Some l => l end.
Proof. destruct s as [[|z l]|]; cbn [add_signs]; auto. now rewrite app_nil_r. Qed.
Lemma add_all_listed cs : forall f g, add_all_signs f cs = (g, Ok tt) -> fc g = fc f /\ fpos g = fpos f ++ listed (length (fc f)) true cs /\ fneg g = fneg f ++ listed (length (fc f)) false cs.
Proof.
  induction cs as [|c cs IH]; intros f g; cbn [add_all_signs listed flat_map]; [intros E; injection E as <-; rewrite !app_nil_r; auto|]. destruct c as [|p n|]; try discriminate. intros E. apply IH in E. destruct E as (E1 & E2 & E3).
  cbn [set_signs fc fpos fneg] in E1, E2, E3. rewrite add_signs_listed, <- app_assoc in E2, E3. auto.
Qed.
Lemma add_all_total cs : (forall c, In c cs -> exists p n, c = Signs p n) -> forall f, exists g, add_all_signs f cs = (g, Ok tt).
Proof. induction cs as [|c cs IH]; intros Hc f; cbn [add_all_signs]; [eauto|]. destruct (Hc c) as (p & n & ->); [simpl; auto|]. apply IH. intros c Hi. apply Hc. simpl. auto. Qed.
Lemma listed_app n b cs ds : listed n b (cs ++ ds) = listed n b cs ++ listed n b ds.
Proof. unfold listed. apply flat_map_app. Qed.
Lemma history_listed f calls f' : history f calls f' -> fc f' = fc f /\ fpos f' = fpos f ++ listed (length (fc f)) true (signs_of calls) /\ fneg f' = fneg f ++ listed (length (fc f)) false (signs_of calls).
Proof.
  induction 1 as [f|f c f1 cs f2 E H (IH1 & IH2 & IH3)]; [cbn; rewrite !app_nil_r; auto|].
  assert (K : fc f1 = fc f /\ fpos f1 = fpos f ++ listed (length (fc f)) true (signs_of [c]) /\ fneg f1 = fneg f ++ listed (length (fc f)) false (signs_of [c])).
  { destruct c as [l| | | |]; cbn [perform signs_of flat_map] in E |- *; rewrite ?app_nil_r.
    - unfold where_ in E. destruct (add_all_signs f l) as (g & [[]| |]) eqn:Eg; try discriminate E. destruct (_ || _); [discriminate E|]. destruct (existsb _ (fpos g)); [discriminate E|]. injection E as <-. exact (add_all_listed l f g Eg).
    - unfold where_all in E. destruct (Nat.ltb _ _); [discriminate E|]. injection E as <-. cbn. rewrite ?app_nil_r. auto.
    - unfold where_all in E. destruct (Nat.ltb _ _); [discriminate E|]. injection E as <-. cbn. rewrite ?app_nil_r. auto.
    - injection E as <-. cbn. rewrite ?app_nil_r. auto.
    - cbn [listed flat_map]. rewrite ?app_nil_r. unfold program in E.
      destruct (fprogram f) as [p|]; [destruct (frecompile f)|]; try (destruct (compile f)); cbn in E; try discriminate E; injection E as <-; auto. }
  destruct K as (K1 & K2 & K3). rewrite IH1, IH2, IH3, K1, K2, K3. change (c :: cs) with ([c] ++ cs). unfold signs_of in *. rewrite flat_map_app, !listed_app, !app_assoc. auto.
Qed.
Lemma fresh_tracked f : fneg f = [] -> fpos f = [] -> tracked f [].
Proof.
  intros E1 E2. assert (G : forall b j, ~ given [] b j) by (intros b j (p & n & [] & _)). constructor; rewrite ?E1, ?E2.
  - intros j _. split; [intros []|intros H; destruct (G _ _ H)].
  - intros j _. split; [intros []|intros H; destruct (G _ _ H)].
  - intros c [].
Qed.
