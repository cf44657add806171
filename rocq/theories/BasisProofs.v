(** Bases, canonical forms and basic solutions. *)
From Coq Require Import String List Bool Arith ZArith QArith Qcanon Lia Sorted.
From Verif Require Import Py QcTac QSum QInt ComparatorModel MatModel DetTheory MatTheory LinearModel LinearSpec LinearProofs SefProofs LinearInv.
Import ListNotations.
Open Scope nat_scope.
Open Scope string_scope.
Open Scope list_scope.

(** the k-th entry of a basis *)
Definition bk (B : list nat) (k : nat) : nat := nth k B 0.
Definition lhs (p : lp) (i : nat) (f : nat -> Qc) : Qc := Sum (cols p) (fun j => ent (lA p) i j * f j)%Qc.
Definition obj (p : lp) (f : nat -> Qc) : Qc := Sum (cols p) (fun j => at_ (lc p) j * f j)%Qc.
(** [t] times the right-hand side *)
Definition solves (t : Qc) (p : lp) (f : nat -> Qc) : Prop := forall i, i < rows p -> lhs p i f = (t * at_ (lb p) i)%Qc.

Record canon (p : lp) (B : list nat) (q : lp) : Prop := mkcanon {
  cn_rows : rows q = rows p;
  cn_cols : cols q = cols p;
  cn_unit : forall i k, i < rows p -> k < rows p -> ent (lA q) i (bk B k) = delta i k;
  cn_cost : forall k, k < rows p -> at_ (lc q) (bk B k) = 0%Qc;
  cn_eq : forall t f, solves t p f <-> solves t q f;
  cn_obj : forall t f, solves t p f -> (obj p f + t * lz p = obj q f + t * lz q)%Qc;
  cn_dual : forall y : nat -> Qc,
    (forall k, k < rows p -> Sum (rows p) (fun i => y i * ent (lA p) i (bk B k))%Qc = at_ (lc p) (bk B k)) ->
    (forall j, j < cols p -> at_ (lc q) j = (at_ (lc p) j - Sum (rows p) (fun i => y i * ent (lA p) i j))%Qc) /\
    lz q = (Sum (rows p) (fun i => y i * at_ (lb p) i) + lz p)%Qc;
  cn_red : forall j, j < cols p -> at_ (lc q) j = (at_ (lc p) j - Sum (rows p) (fun k => at_ (lc p) (bk B k) * ent (lA q) k j))%Qc;
  cn_frame : lobj q = lobj p /\ lineq q = lineq p /\ lsef q = lsef p /\ lfree q = lfree p /\ lneg q = lneg p;
  cn_wf : wf q }.

Lemma delta_eq i : delta i i = 1%Qc. Proof. unfold delta. now rewrite Nat.eqb_refl. Qed.
Lemma delta_ne i j : i <> j -> delta i j = 0%Qc. Proof. unfold delta. destruct (Nat.eqb_spec i j); [contradiction|reflexivity]. Qed.

Lemma inv_solve m (M X : nat -> nat -> Qc) (u v : nat -> Qc) :
  (forall i j, i < m -> j < m -> Sum m (fun k => M i k * X k j)%Qc = delta i j) ->
  (forall i, i < m -> Sum m (fun k => X i k * u k)%Qc = Sum m (fun k => X i k * v k)%Qc) ->
  forall i, i < m -> u i = v i.
Proof.
  intros H E i Hi.
  assert (K : forall w : nat -> Qc, w i = Sum m (fun l => M i l * Sum m (fun k => X l k * w k))%Qc).
  { intros w. rewrite Sum_assoc. rewrite <- (Sum_delta_l m i w Hi) at 1. apply Sum_ext. intros k Hk. now rewrite H. }
  rewrite (K u), (K v). apply Sum_ext. intros l Hl. now rewrite E.
Qed.

Lemma canonical_ok p B : wf p -> length B = rows p -> (forall j, In j B -> j < cols p) ->
  mdet (columns_of B (lA p)) <> 0%Qc -> exists q, canonical p B = Ok q /\ canon p B q.
Proof.
  intros H L HB HD. destruct (minv_ok (columns_of B (lA p)) (rows p)) as (X & E & LX & SX & HL & HR); auto.
  { apply length_columns. }
  unfold canonical, bind. rewrite E. eexists. split; [reflexivity|].
  assert (HBk : forall k, k < rows p -> bk B k < cols p) by (intros k Hk; apply HB, nth_In; lia).
  set (y := mulmv (transpose (rows p) X) (take B (lc p))).
  assert (LY : length y = rows p) by (unfold y; now rewrite length_mulmv, length_transpose).
  assert (Ey : forall i, i < rows p -> at_ y i = Sum (rows p) (fun k => ent X k i * at_ (lc p) (bk B k))%Qc).
  { intros i Hi. unfold y. rewrite (at_mulmv (rows p)).
    - apply Sum_ext. intros k Hk. rewrite ent_transpose by lia. rewrite at_take by lia. reflexivity.
    - rewrite <- LX at 1. apply shaped_transpose.
    - rewrite length_transpose. auto. }
  assert (LV : length (lc p) = length (mulvm (cols p) y (lA p))) by now rewrite length_mulvm.
  set (q := mklp _ _ _ _ _ _ _ _ _).
  assert (Er : rows q = rows p) by (unfold rows, q; cbn [lA]; now rewrite length_mulmm).
  assert (Ec : cols q = cols p) by (unfold cols, q; cbn [lc]; now rewrite length_vsub).
  assert (EA : forall i j, i < rows p -> j < cols p -> ent (lA q) i j = Sum (rows p) (fun k => ent X i k * ent (lA p) k j)%Qc).
  { intros i j Hi Hj. unfold q. cbn [lA]. rewrite (ent_mulmm _ (rows p)); auto. lia. }
  assert (Eb : forall i, i < rows p -> at_ (lb q) i = Sum (rows p) (fun k => ent X i k * at_ (lb p) k)%Qc).
  { intros i Hi. unfold q. cbn [lb]. rewrite (at_mulmv (rows p)); auto. lia. }
  assert (Ecc : forall j, j < cols p -> at_ (lc q) j = (at_ (lc p) j - Sum (rows p) (fun i => at_ y i * ent (lA p) i j))%Qc).
  { intros j Hj. unfold q. cbn [lc]. rewrite at_vsub, at_mulvm, LY by auto. reflexivity. }
  assert (Ez : lz q = (Sum (rows p) (fun i => at_ y i * at_ (lb p) i) + lz p)%Qc).
  { unfold q. cbn [lz]. now rewrite (dot_Sum (rows p)). }
  assert (HLc : forall i k, i < rows p -> k < rows p -> Sum (rows p) (fun l => ent X i l * ent (lA p) l (bk B k))%Qc = delta i k).
  { intros i k Hi Hk. rewrite <- (HL i k Hi Hk). apply Sum_ext. intros l Hl. rewrite ent_columns; auto. lia. }
  assert (Hlhs : forall f i, i < rows p -> lhs q i f = Sum (rows p) (fun k => ent X i k * lhs p k f)%Qc).
  { intros f i Hi. unfold lhs. rewrite Ec. rewrite Sum_assoc. apply Sum_ext. intros j Hj. now rewrite EA. }
  assert (yB : forall k, k < rows p -> Sum (rows p) (fun i => at_ y i * ent (lA p) i (bk B k))%Qc = at_ (lc p) (bk B k)).
  { intros k Hk. rewrite (Sum_ext _ _ (fun i => Sum (rows p) (fun l => at_ (lc p) (bk B l) * ent X l i) * ent (lA p) i (bk B k))%Qc).
    - rewrite <- Sum_assoc. rewrite (Sum_ext _ _ (fun l => at_ (lc p) (bk B l) * delta l k)%Qc).
      + now rewrite Sum_delta_r.
      + intros l Hl. now rewrite HLc.
    - intros i Hi. rewrite Ey by auto. f_equal. apply Sum_ext. intros; ring. }
  constructor; auto.
  - intros i k Hi Hk. rewrite EA by auto. now apply HLc.
  - intros k Hk. rewrite Ecc by auto. rewrite yB by auto. ring.
  - intros t f. unfold solves. rewrite Er. split; intros K.
    + intros i Hi. rewrite Hlhs, Eb by auto. rewrite <- Sum_scal. apply Sum_ext. intros k Hk. rewrite K by auto. ring.
    + assert (K2 : forall i, i < rows p -> Sum (rows p) (fun k => ent X i k * lhs p k f)%Qc = Sum (rows p) (fun k => ent X i k * (t * at_ (lb p) k))%Qc).
      { intros i Hi. rewrite <- Hlhs by auto. rewrite K, Eb by auto. rewrite <- Sum_scal. apply Sum_ext. intros; ring. }
      apply (inv_solve (rows p) (ent (columns_of B (lA p))) (ent X) (fun k => lhs p k f) (fun k => t * at_ (lb p) k)%Qc HR K2).
  - intros t f K. rewrite Ez. unfold obj. rewrite Ec.
    rewrite (Sum_ext (cols p) (fun j => at_ (lc q) j * f j)%Qc (fun j => at_ (lc p) j * f j - Sum (rows p) (fun i => at_ y i * ent (lA p) i j) * f j)%Qc).
    + rewrite Sum_sub. rewrite <- Sum_assoc.
      rewrite (Sum_ext (rows p) (fun i => at_ y i * Sum (cols p) (fun j => ent (lA p) i j * f j))%Qc (fun i => t * (at_ y i * at_ (lb p) i))%Qc).
      * rewrite Sum_scal. ring.
      * intros i Hi. specialize (K i Hi). unfold lhs in K. rewrite K. ring.
    + intros j Hj. rewrite Ecc by auto. ring.
  - intros w Hw. assert (Ew : forall i, i < rows p -> w i = at_ y i).
    { apply (inv_solve (rows p) (fun i k => ent X k i) (fun i k => ent (columns_of B (lA p)) k i) w (at_ y)).
      - intros i j Hi Hj. rewrite delta_sym, <- (HR j i Hj Hi). apply Sum_ext. intros; ring.
      - intros k Hk. specialize (Hw k Hk). specialize (yB k Hk).
        rewrite (Sum_ext _ _ (fun i => w i * ent (lA p) i (bk B k))%Qc), (Sum_ext _ (fun i => ent _ i k * at_ y i)%Qc (fun i => at_ y i * ent (lA p) i (bk B k))%Qc); try congruence.
        + intros i Hi. rewrite ent_columns by lia || (unfold rows in *; lia). fold (bk B k). ring.
        + intros i Hi. rewrite ent_columns by lia || (unfold rows in *; lia). fold (bk B k). ring. }
    split.
    + intros j Hj. rewrite Ecc by auto. f_equal. apply Sum_ext. intros i Hi. now rewrite Ew.
    + rewrite Ez. f_equal. apply Sum_ext. intros i Hi. now rewrite Ew.
  - intros j Hj. rewrite Ecc by auto. f_equal.
    rewrite (Sum_ext _ (fun k => at_ (lc p) (bk B k) * ent (lA q) k j)%Qc (fun k => at_ (lc p) (bk B k) * Sum (rows p) (fun i => ent X k i * ent (lA p) i j))%Qc).
    + rewrite Sum_assoc. apply Sum_ext. intros i Hi. rewrite Ey by auto. f_equal. apply Sum_ext. intros; ring.
    + intros k Hk. now rewrite EA.
  - unfold q. cbn. auto.
  - apply (wf_canonical p B q); auto. unfold canonical, bind. rewrite E. reflexivity.
Qed.

(** ** bases *)
Record basis (p : lp) (B : list nat) : Prop := mkbasis {
  bs_len : length B = rows p;
  bs_sorted : StronglySorted lt B;
  bs_lt : forall j, In j B -> j < cols p;
  bs_det : mdet (columns_of B (lA p)) <> 0%Qc }.
Lemma bs_NoDup p B : basis p B -> NoDup B. Proof. intros H. apply strict_NoDup, H. Qed.
Lemma bk_In p B k : basis p B -> k < rows p -> In (bk B k) B.
Proof. intros H Hk. apply nth_In. now rewrite (bs_len _ _ H). Qed.
Lemma bk_lt p B k : basis p B -> k < rows p -> bk B k < cols p.
Proof. intros H Hk. apply (bs_lt _ _ H), (bk_In p); auto. Qed.
Lemma In_bk p B j : basis p B -> In j B -> exists k, k < rows p /\ bk B k = j.
Proof. intros H Hj. apply (In_nth _ _ 0) in Hj. destruct Hj as (k & Hk & E). rewrite (bs_len _ _ H) in Hk. eauto. Qed.
Lemma bk_inj p B k l : basis p B -> k < rows p -> l < rows p -> bk B k = bk B l -> k = l.
Proof. intros H Hk Hl E. apply (NoDup_nth B 0); auto; try (rewrite (bs_len _ _ H); auto). now apply (bs_NoDup p). Qed.

Lemma det_NoDup (A : list (list Qc)) B : length B = length A -> mdet (columns_of B A) <> 0%Qc -> NoDup B.
Proof.
  intros L H. destruct (minv_ok (columns_of B A) (length A)) as (X & _ & _ & _ & HL & _); auto.
  { apply length_columns. }
  apply (NoDup_nth B 0). intros i j Hi Hj E. destruct (Nat.eq_dec i j) as [|Hne]; auto. exfalso.
  pose proof (HL i i ltac:(lia) ltac:(lia)) as E1. pose proof (HL i j ltac:(lia) ltac:(lia)) as E2.
  rewrite delta_eq in E1. rewrite delta_ne in E2 by auto.
  rewrite (Sum_ext _ _ (fun k => ent X i k * ent (columns_of B A) k i)%Qc) in E2.
  - rewrite E1 in E2. discriminate E2.
  - intros k Hk. rewrite !ent_columns by lia. now rewrite E.
Qed.
Lemma is_basis_basis p Bz : is_basis p Bz = Ok true -> basis p (sort (to_array_indexing Bz)).
Proof.
  intros E. apply is_basis_true in E. destruct E as (L & _ & HB & HD).
  assert (LS : length (sort (to_array_indexing Bz)) = rows p) by (rewrite length_sort, length_array_indexing; auto).
  constructor; auto.
  - apply sort_strict. apply (@NoDup_incl_NoDup _ (sort (to_array_indexing Bz))).
    + now apply (det_NoDup (lA p)).
    + now rewrite length_sort.
    + intros x Hx. now apply In_sort.
  - intros j Hj. apply (proj1 (In_sort _ _)) in Hj. unfold to_array_indexing in Hj. apply in_map_iff in Hj. destruct Hj as (i & <- & Hi).
    specialize (HB i Hi). lia.
Qed.
Lemma In_math j l : In j (to_math_indexing l) <-> exists i, In i l /\ j = Z.of_nat (S i).
Proof. unfold to_math_indexing. rewrite in_map_iff. split; intros (i & H1 & H2); exists i; auto. Qed.
Lemma basis_is_basis p B : basis p B -> 0 < rows p -> (tol_zero <= qabs (mdet (columns_of B (lA p))))%Qc ->
  is_basis p (to_math_indexing B) = Ok true.
Proof.
  intros H Hm HD. unfold is_basis. assert (L : length (to_math_indexing B) = rows p) by (unfold to_math_indexing; rewrite map_length; apply H).
  rewrite L, Nat.eqb_refl. cbn [negb]. destruct (Nat.eqb_spec (rows p) 0); [lia|].
  replace (forallb _ (to_math_indexing B)) with true.
  - cbn [negb]. rewrite array_math, (sort_id B) by apply H. f_equal. unfold is_close_to_zero.
    destruct (qlt_spec (qabs (mdet (columns_of B (lA p)))) tol_zero); auto. exfalso. qclra.
  - symmetry. apply forallb_forall. intros i Hi. apply In_math in Hi. destruct Hi as (j & Hj & ->). apply (bs_lt _ _ H) in Hj.
    apply andb_true_iff. rewrite !Z.leb_le. lia.
Qed.
Lemma is_basis_math p B : basis p B -> is_basis p (to_math_indexing B) = Ok true \/ is_basis p (to_math_indexing B) = Ok false \/ rows p = 0.
Proof.
  intros H. destruct (Nat.eq_dec (rows p) 0) as [|Hm]; auto. unfold is_basis.
  assert (L : length (to_math_indexing B) = rows p) by (unfold to_math_indexing; rewrite map_length; apply H).
  rewrite L, Nat.eqb_refl. cbn [negb]. destruct (Nat.eqb_spec (rows p) 0); [lia|].
  destruct (forallb _ _); cbn [negb]; auto. destruct (is_close_to_zero _); auto.
Qed.

(** ** scatter *)
Lemma length_scatter n B v : length (scatter n B v) = n.
Proof.
  unfold scatter. assert (G : forall l s, length (fold_left (fun s iv => set_at s (fst iv) (snd iv)) l s) = length s).
  { induction l as [|a l IH]; intros s; auto. cbn [fold_left]. now rewrite IH, length_set_at. }
  rewrite G. apply repeat_length.
Qed.
Lemma at_scatter_gen n B v s : NoDup B -> length s = n -> length B = length v ->
  (forall k, k < length B -> bk B k < n -> at_ (fold_left (fun s iv => set_at s (fst iv) (snd iv)) (combine B v) s) (bk B k) = at_ v k) /\
  (forall j, ~ In j B -> at_ (fold_left (fun s iv => set_at s (fst iv) (snd iv)) (combine B v) s) j = at_ s j).
Proof.
  revert v s. induction B as [|b B IH]; intros [|a v] s Hnd Ls L; simpl in L; try lia.
  - split; [intros k Hk; simpl in Hk; lia|]. auto.
  - inversion Hnd as [|? ? Hb Hnd']; subst. cbn [combine fold_left fst snd].
    destruct (IH v (set_at s b a) Hnd') as (I1 & I2); [now rewrite length_set_at|lia|]. split.
    + intros [|k] Hk Hlt.
      * change (bk (b :: B) 0) with b in *. rewrite I2 by auto. rewrite at_set_at, Nat.eqb_refl. destruct (Nat.ltb_spec b (length s)); [reflexivity|lia].
      * apply (I1 k); [simpl in Hk; lia|exact Hlt].
    + intros j Hj. rewrite I2 by (intros K; apply Hj; simpl; auto). rewrite at_set_at.
      destruct (Nat.eqb_spec j b) as [->|]; auto. exfalso. apply Hj. simpl; auto.
Qed.
Lemma at_scatter n B v k : NoDup B -> length B = length v -> k < length B -> bk B k < n -> at_ (scatter n B v) (bk B k) = at_ v k.
Proof. intros H1 H2 H3 H4. unfold scatter. apply (at_scatter_gen n B v (repeat 0%Qc n)); auto. apply repeat_length. Qed.
Lemma at_scatter_off n B v j : NoDup B -> length B = length v -> ~ In j B -> at_ (scatter n B v) j = 0%Qc.
Proof.
  intros H1 H2 H3. unfold scatter. rewrite (proj2 (at_scatter_gen n B v (repeat 0%Qc n) H1 (repeat_length _ _) H2)) by auto. apply at_repeat0.
Qed.

(** ** basic solutions *)
Definition bsol (p : lp) (B : list nat) (f : nat -> Qc) : Prop := solves 1 p f /\ forall j, j < cols p -> ~ In j B -> f j = 0%Qc.
Lemma Sum_basis p B f : basis p B -> (forall j, j < cols p -> ~ In j B -> f j = 0%Qc) -> Sum (cols p) f = Sum (rows p) (fun k => f (bk B k)).
Proof. intros H Hf. rewrite (Sum_nth B); auto; [|apply (bs_NoDup p); auto|apply H]. now rewrite (bs_len _ _ H). Qed.
Lemma Sum_basis1 p B k f : basis p B -> k < cols p -> ~ In k B -> (forall j, j < cols p -> j <> k -> ~ In j B -> f j = 0%Qc) ->
  Sum (cols p) f = (f k + Sum (rows p) (fun k => f (bk B k)))%Qc.
Proof.
  intros H Hk Hn Hf. rewrite (Sum_nth (k :: B)).
  - cbn [length]. unfold Sum at 1. cbn [seq]. rewrite Sigma_cons, <- seq_shift, Sigma_map. rewrite (bs_len _ _ H). reflexivity.
  - constructor; auto. apply (bs_NoDup p); auto.
  - intros j [<-|Hj]; auto. now apply (bs_lt _ _ H).
  - intros j Hj Hjn. apply Hf; auto; intros K; apply Hjn; simpl; auto.
Qed.

Section Canon.
  Context (p : lp) (B : list nat) (q : lp) (HB : basis p B) (HC : canon p B q).
  Lemma lhs_off i f : i < rows p -> (forall j, j < cols p -> ~ In j B -> f j = 0%Qc) -> lhs q i f = f (bk B i).
  Proof.
    intros Hi Hf. unfold lhs. rewrite (cn_cols _ _ _ HC). rewrite (Sum_basis p B) by (auto; intros j Hj Hn; rewrite Hf by auto; ring).
    rewrite (Sum_ext _ _ (fun k => delta i k * f (bk B k))%Qc).
    - now rewrite (Sum_delta_l (rows p) i (fun k => f (bk B k))).
    - intros k Hk. now rewrite (cn_unit _ _ _ HC).
  Qed.
  Lemma bsol_at f : bsol p B f -> forall k, k < rows p -> f (bk B k) = at_ (lb q) k.
  Proof.
    intros (H1 & H2) k Hk. apply (cn_eq _ _ _ HC) in H1. specialize (H1 k). rewrite (cn_rows _ _ _ HC) in H1. specialize (H1 Hk).
    rewrite lhs_off in H1 by auto. rewrite H1. ring.
  Qed.
  Lemma bsol_unique f g : bsol p B f -> bsol p B g -> forall j, j < cols p -> f j = g j.
  Proof.
    intros Hf Hg j Hj. destruct (in_dec Nat.eq_dec j B) as [Hi|Hi].
    - apply (In_bk p) in Hi; auto. destruct Hi as (k & Hk & <-). now rewrite (bsol_at f), (bsol_at g).
    - now rewrite (proj2 Hf), (proj2 Hg).
  Qed.
  Lemma length_lb : length (lb q) = rows p.
  Proof. rewrite (wf_b _ (cn_wf _ _ _ HC)). apply HC. Qed.
  Lemma bsol_scatter : bsol p B (at_ (scatter (cols p) B (lb q))).
  Proof.
    assert (L : length B = length (lb q)) by (rewrite length_lb; apply HB).
    assert (Off : forall j, j < cols p -> ~ In j B -> at_ (scatter (cols p) B (lb q)) j = 0%Qc).
    { intros j _ Hj. apply at_scatter_off; auto. apply (bs_NoDup p); auto. }
    split; auto. apply (cn_eq _ _ _ HC). intros i. rewrite (cn_rows _ _ _ HC). intros Hi. rewrite lhs_off by auto.
    rewrite at_scatter; auto; [ring|apply (bs_NoDup p); auto| |]. { rewrite (bs_len _ _ HB). auto. } { now apply bk_lt. }
  Qed.
  Lemma obj_bsol f : bsol p B f -> (obj p f + lz p)%Qc = lz q.
  Proof.
    intros (H1 & H2). pose proof (cn_obj _ _ _ HC _ _ H1) as E.
    assert (E0 : obj q f = 0%Qc).
    { unfold obj. rewrite (cn_cols _ _ _ HC). rewrite (Sum_basis p B) by (auto; intros j Hj Hn; rewrite H2 by auto; ring).
      apply Sum_none. intros k Hk. rewrite (cn_cost _ _ _ HC) by auto. ring. }
    rewrite E0 in E. replace (obj p f + lz p)%Qc with (obj p f + 1 * lz p)%Qc by ring. rewrite E. ring.
  Qed.
  (** the same point is found again in the canonical form *)
  Lemma canon_again : exists q2, basic_solution q B = Ok q2 /\ q2 = scatter (cols p) B (lb q).
  Proof.
    assert (L : length B = rows p) by apply HB.
    assert (ED : forall i j, i < rows p -> j < rows p -> ent (columns_of B (lA q)) i j = delta i j).
    { intros i j Hi Hj. rewrite ent_columns; [now apply (cn_unit _ _ _ HC)| |lia].
      change (length (lA q)) with (rows q). rewrite (cn_rows _ _ _ HC). auto. }
    assert (LC : length (columns_of B (lA q)) = rows p) by (rewrite length_columns; apply HC).
    assert (HD : mdet (columns_of B (lA q)) <> 0%Qc).
    { unfold mdet. rewrite LC. apply (det_nonzero (g := delta)). intros i j Hi Hj. rewrite (Sum_delta_l (rows p) i (fun k => ent (columns_of B (lA q)) k j)) by auto. now apply ED. }
    destruct (minv_ok _ _ LC HD) as (X & E & LX & SX & HL & HR).
    assert (EX : forall i j, i < rows p -> j < rows p -> ent X i j = delta i j).
    { intros i j Hi Hj. rewrite <- (HL i j Hi Hj). rewrite (Sum_ext _ _ (fun k => ent X i k * delta k j)%Qc).
      - now rewrite (Sum_delta_r (rows p) j (ent X i)).
      - intros k Hk. now rewrite ED. }
    unfold basic_solution, bind. rewrite E. eexists. split; [reflexivity|]. rewrite (cn_cols _ _ _ HC), sort_id by apply HB. f_equal.
    pose proof length_lb as LB. apply vec_ext; [rewrite length_mulmv; congruence|]. rewrite length_mulmv, LX. intros i Hi.
    rewrite (at_mulmv (rows p)) by (auto; lia). rewrite (Sum_ext _ _ (fun k => delta i k * at_ (lb q) k)%Qc).
    - now rewrite Sum_delta_l.
    - intros k Hk. now rewrite EX.
  Qed.
End Canon.

Lemma basis_canon p B : wf p -> basis p B -> exists q, canonical p B = Ok q /\ canon p B q.
Proof. intros H HB. apply canonical_ok; auto; apply HB. Qed.
Lemma basic_solution_ok p B : wf p -> basis p B -> exists x, basic_solution p B = Ok x /\ length x = cols p /\ bsol p B (at_ x).
Proof.
  intros H HB. destruct (basis_canon p B H HB) as (q & E & HC). unfold basic_solution, canonical, bind in *.
  destruct (minv (columns_of B (lA p))) as [X| |] eqn:EX; try discriminate. eexists. split; [reflexivity|].
  split; [apply length_scatter|]. injection E as <-. rewrite sort_id by apply HB. apply (bsol_scatter _ _ _ HB HC).
Qed.

(** ** the next basis *)
Lemma pivot_basis p B q k l B' : wf p -> basis p B -> canon p B q -> k < cols p -> ~ In k B -> l < rows p ->
  ent (lA q) l k <> 0%Qc -> StronglySorted lt B' -> (forall j, In j B' <-> (In j B /\ j <> bk B l) \/ j = k) ->
  length B' = rows p -> basis p B'.
Proof.
  intros H HB HC Hk Hn Hl Ha Hs HB' L. constructor; auto.
  - intros j Hj. apply HB' in Hj. destruct Hj as [(Hj & _)| ->]; auto. now apply (bs_lt _ _ HB).
  - unfold mdet. rewrite length_columns. fold (rows p). apply det_kernel. intros v Hv.
    assert (ND : NoDup B') by now apply strict_NoDup.
    set (w := mkvec (rows p) v). set (d := at_ (scatter (cols p) B' w)).
    assert (Lw : length w = rows p) by apply length_mkvec.
    assert (Blt : forall i, i < rows p -> bk B' i < cols p).
    { intros i Hi. assert (K : In (bk B' i) B') by (apply nth_In; lia). apply HB' in K. destruct K as [(K & _)| ->]; auto. now apply (bs_lt _ _ HB). }
    assert (dB : forall i, i < rows p -> d (bk B' i) = v i).
    { intros i Hi. unfold d. rewrite at_scatter; try lia; auto. unfold w. now rewrite at_mkvec. }
    assert (dOff : forall j, ~ In j B' -> d j = 0%Qc) by (intros j Hj; apply at_scatter_off; auto; lia).
    assert (S0 : solves 0 p d).
    { intros i Hi. unfold lhs. rewrite (Sum_nth B'); auto.
      - rewrite L. replace (0 * at_ (lb p) i)%Qc with 0%Qc by ring. rewrite <- (Hv i Hi). apply Sum_ext. intros j Hj.
        rewrite ent_columns by (auto; lia). fold (bk B' j). now rewrite dB.
      - intros j Hj. apply HB' in Hj. destruct Hj as [(Hj & _)| ->]; auto. now apply (bs_lt _ _ HB).
      - intros j Hj Hjn. rewrite dOff by auto. ring. }
    apply (cn_eq _ _ _ HC) in S0.
    assert (R : forall i, i < rows p -> (ent (lA q) i k * d k + d (bk B i))%Qc = 0%Qc).
    { intros i Hi. specialize (S0 i). rewrite (cn_rows _ _ _ HC) in S0. specialize (S0 Hi). unfold lhs in S0. rewrite (cn_cols _ _ _ HC) in S0.
      rewrite (Sum_basis1 p B k) in S0; auto.
      - rewrite (Sum_ext _ _ (fun j => delta i j * d (bk B j))%Qc) in S0.
        + rewrite (Sum_delta_l (rows p) i (fun j => d (bk B j))) in S0 by auto. rewrite S0. ring.
        + intros j Hj. now rewrite (cn_unit _ _ _ HC).
      - intros j Hj Hjk HjB. rewrite dOff; [ring|]. rewrite HB'. tauto. }
    assert (dk : d k = 0%Qc).
    { pose proof (R l Hl) as K. rewrite (dOff (bk B l)) in K.
      - assert (M : (ent (lA q) l k * d k)%Qc = 0%Qc) by (rewrite <- K; ring). apply Qcmult_integral in M. destruct M; [contradiction|auto].
      - rewrite HB'. intros [(_ & K2)|K2]; [auto|]. apply Hn. rewrite <- K2. now apply (bk_In p). }
    intros i Hi. rewrite <- dB by auto. assert (K : In (bk B' i) B') by (apply nth_In; lia). apply HB' in K.
    destruct K as [(K & _)| ->]; auto. apply (In_bk p) in K; auto. destruct K as (j & Hj & <-).
    pose proof (R j Hj) as K. rewrite dk in K. rewrite <- K. ring.
Qed.

(** ** the direction that increases a nonbasic variable *)
Definition dir (p q : lp) (B : list nat) (k : nat) : nat -> Qc :=
  fun j => if Nat.eqb j k then 1%Qc else at_ (scatter (cols p) B (mkvec (rows p) (fun i => (- ent (lA q) i k)%Qc))) j.
Section Dir.
  Context (p : lp) (B : list nat) (q : lp) (k : nat) (HB : basis p B) (HC : canon p B q) (Hk : k < cols p) (Hn : ~ In k B).
  Lemma dir_k : dir p q B k k = 1%Qc. Proof. unfold dir. now rewrite Nat.eqb_refl. Qed.
  Lemma dir_B i : i < rows p -> dir p q B k (bk B i) = (- ent (lA q) i k)%Qc.
  Proof.
    intros Hi. unfold dir. destruct (Nat.eqb_spec (bk B i) k) as [E|_].
    - exfalso. apply Hn. rewrite <- E. now apply (bk_In p).
    - rewrite at_scatter; rewrite ?length_mkvec, ?(bs_len _ _ HB); auto; [now rewrite at_mkvec|apply (bs_NoDup p); auto|now apply bk_lt].
  Qed.
  Lemma dir_off j : j <> k -> ~ In j B -> dir p q B k j = 0%Qc.
  Proof.
    intros H1 H2. unfold dir. destruct (Nat.eqb_spec j k); [contradiction|]. apply at_scatter_off; rewrite ?length_mkvec, ?(bs_len _ _ HB); auto. apply (bs_NoDup p); auto.
  Qed.
  Lemma dir_solves : solves 0 p (dir p q B k).
  Proof.
    apply (cn_eq _ _ _ HC). intros i. rewrite (cn_rows _ _ _ HC). intros Hi. unfold lhs. rewrite (cn_cols _ _ _ HC).
    rewrite (Sum_basis1 p B k); auto.
    - rewrite dir_k. rewrite (Sum_ext _ _ (fun j => delta i j * (- ent (lA q) j k))%Qc).
      + rewrite (Sum_delta_l (rows p) i (fun j => - ent (lA q) j k)%Qc) by auto. ring.
      + intros j Hj. rewrite (cn_unit _ _ _ HC), dir_B by auto. reflexivity.
    - intros j Hj Hjk HjB. rewrite dir_off by auto. ring.
  Qed.
  Lemma dir_obj : obj p (dir p q B k) = at_ (lc q) k.
  Proof.
    pose proof (cn_obj _ _ _ HC _ _ dir_solves) as E. replace (obj p (dir p q B k)) with (obj p (dir p q B k) + 0 * lz p)%Qc by ring.
    rewrite E. unfold obj. rewrite (cn_cols _ _ _ HC). rewrite (Sum_basis1 p B k); auto.
    - rewrite dir_k. rewrite (Sum_none (rows p)); [ring|]. intros i Hi. rewrite (cn_cost _ _ _ HC) by auto. ring.
    - intros j Hj Hjk HjB. rewrite dir_off by auto. ring.
  Qed.
End Dir.
