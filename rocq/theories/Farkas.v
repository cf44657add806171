(** Linear inequalities over the rationals: elimination of a variable, the alternative for infeasible
    systems, attainment of suprema.  Mathematics only; nothing here models code. *)
From Coq Require Import List Bool Arith ZArith QArith Qcanon Lia.
From Verif Require Import QcTac QSum MatModel MatTheory.
Import ListNotations.
Open Scope nat_scope.
Open Scope list_scope.

(** coefficients, bound, strict *)
Definition row := ((nat -> Qc) * Qc * bool)%type.
Definition cmp (s : bool) (v b : Qc) : Prop := if s then (v < b)%Qc else (v <= b)%Qc.
Definition lhs (n : nat) (a x : nat -> Qc) : Qc := Sum n (fun j => a j * x j)%Qc.
Definition sat (n : nat) (x : nat -> Qc) (r : row) : Prop := let '(a, b, s) := r in cmp s (lhs n a x) b.
Definition sats (n : nat) (S : list row) (x : nat -> Qc) : Prop := forall r, In r S -> sat n x r.

(** positive combinations *)
Inductive derives (S : list row) : row -> Prop :=
| d_in r : In r S -> derives S r
| d_add a b s a' b' s' : derives S (a, b, s) -> derives S (a', b', s') -> derives S (fun j => a j + a' j, b + b', s || s')%Qc
| d_scale k a b s : (0 < k)%Qc -> derives S (a, b, s) -> derives S (fun j => k * a j, k * b, s)%Qc.
Lemma derives_trans S T r : (forall r, In r T -> derives S r) -> derives T r -> derives S r.
Proof. intros H D. induction D; auto; now constructor. Qed.

(** ** eliminating the last variable *)
Definition combine_rows (n : nat) (p q : row) : row :=
  let '(a, b, s) := p in let '(a', b', s') := q in
  (fun j => - a' n * a j + a n * a' j, - a' n * b + a n * b', s || s')%Qc.
Definition eliminate (n : nat) (S : list row) : list row :=
  let P := filter (fun r => qlt 0 (fst (fst r) n)) S in
  let N := filter (fun r => qlt (fst (fst r) n) 0) S in
  filter (fun r => qeq (fst (fst r) n) 0) S ++ flat_map (fun p => map (combine_rows n p) N) P.

Lemma eliminate_derives n S r : In r (eliminate n S) -> derives S r /\ fst (fst r) n = 0%Qc.
Proof.
  unfold eliminate. rewrite in_app_iff, filter_In, in_flat_map. intros [(H & E)|(p & Hp & H)].
  - split; [now constructor|]. revert E. destruct (qeq_spec (fst (fst r) n) 0); auto; discriminate.
  - apply in_map_iff in H as (q & <- & Hq). apply filter_In in Hp as (Hp & Ep), Hq as (Hq & Eq).
    destruct p as ((a & b) & s), q as ((a' & b') & s'). cbn [fst] in *. revert Ep Eq. destruct (qlt_spec 0 (a n)); [|discriminate]. destruct (qlt_spec (a' n) 0); [|discriminate]. intros _ _.
    cbn [combine_rows fst]. split; [|ring]. apply d_add.
    + apply (d_scale S (- a' n)%Qc a b s); [qclra|now constructor].
    + apply (d_scale S (a n) a' b' s'); [auto|now constructor].
Qed.
Lemma derives_zero n S r : (forall r, In r S -> fst (fst r) n = 0%Qc) -> derives S r -> fst (fst r) n = 0%Qc.
Proof. intros H D. induction D; cbn [fst] in *; auto; [rewrite IHD1, IHD2; ring|rewrite IHD; ring]. Qed.

(** a number between finitely many bounds *)
Definition tighter_low (l l0 : Qc * bool) : Prop := (fst l < fst l0)%Qc \/ fst l = fst l0 /\ (snd l = true -> snd l0 = true).
Lemma tightest_low L : L <> [] -> exists l0, In l0 L /\ forall l, In l L -> tighter_low l l0.
Proof.
  induction L as [|l L IH]; [congruence|]. intros _. destruct L as [|l' L].
  - exists l. split; [now left|]. intros k [<-|[]]. right. auto.
  - destruct IH as (l0 & H0 & T0); [discriminate|].
    assert (D : tighter_low l l0 \/ tighter_low l0 l).
    { unfold tighter_low. destruct (qlt_spec (fst l) (fst l0)); [tauto|]. destruct (qlt_spec (fst l0) (fst l)); [tauto|].
      assert (fst l = fst l0) by (apply Qcle_antisym; qclra). destruct (snd l0) eqn:E; [left; right; auto|]. right; right. split; auto. }
    destruct D as [D|D].
    + exists l0. split; [now right|]. intros k [<-|Hk]; auto.
    + exists l. split; [now left|]. intros k [<-|Hk]; [right; auto|]. specialize (T0 k Hk). unfold tighter_low in *.
      destruct T0 as [T0|(T0 & T1)], D as [D|(D & D1)]; try (left; qclra). right. split; [congruence|tauto].
Qed.
Lemma tightest_up U : U <> [] -> exists u0, In u0 U /\ forall u, In u U -> (fst u0 < fst u)%Qc \/ fst u = fst u0 /\ (snd u = true -> snd u0 = true).
Proof.
  intros H. destruct (tightest_low (map (fun u => (- fst u, snd u)%Qc) U)) as (l0 & H0 & T0).
  { destruct U; [congruence|discriminate]. }
  apply in_map_iff in H0 as (u0 & <- & H0). exists u0. split; auto. intros u Hu.
  specialize (T0 (- fst u, snd u)%Qc (in_map _ _ _ Hu)). destruct T0 as [T0|(T0 & T1)]; cbn [fst snd] in *; [left; qclra|right; split; auto; qclra].
Qed.
Lemma between U L : (forall u l, In u U -> In l L -> cmp (snd u || snd l) (fst l) (fst u)) ->
  exists t, (forall u, In u U -> cmp (snd u) t (fst u)) /\ (forall l, In l L -> cmp (snd l) (fst l) t).
Proof.
  intros H.
  assert (HU : forall t, (forall u0, In u0 U -> (forall u, In u U -> (fst u0 < fst u)%Qc \/ fst u = fst u0 /\ (snd u = true -> snd u0 = true)) -> cmp (snd u0) t (fst u0)) -> forall u, In u U -> cmp (snd u) t (fst u)).
  { intros t Ht u Hu. destruct (tightest_up U) as (u0 & H0 & T0); [intros ->; contradiction|]. specialize (Ht u0 H0 T0). destruct (T0 u Hu) as [T|(T & T1)]; unfold cmp in *.
    - destruct (snd u), (snd u0); qclra.
    - rewrite T. destruct (snd u), (snd u0); try qclra; try (discriminate T1; auto). }
  assert (HL : forall t, (forall l0, In l0 L -> (forall l, In l L -> tighter_low l l0) -> cmp (snd l0) (fst l0) t) -> forall l, In l L -> cmp (snd l) (fst l) t).
  { intros t Ht l Hl. destruct (tightest_low L) as (l0 & H0 & T0); [intros ->; contradiction|]. specialize (Ht l0 H0 T0). destruct (T0 l Hl) as [T|(T & T1)]; unfold cmp in *.
    - destruct (snd l), (snd l0); qclra.
    - rewrite T. destruct (snd l), (snd l0); try qclra; try (discriminate T1; auto). }
  destruct U as [|u U']; [destruct L as [|l L']|destruct L as [|l L']].
  - exists 0%Qc. split; intros ? [].
  - destruct (tightest_low (l :: L')) as (l0 & H0 & T0); [discriminate|]. exists (fst l0 + 1)%Qc. split; [intros ? []|].
    intros k Hk. destruct (T0 k Hk) as [T|(T & _)]; unfold cmp; destruct (snd k); qclra.
  - destruct (tightest_up (u :: U')) as (u0 & H0 & T0); [discriminate|]. exists (fst u0 - 1)%Qc. split; [|intros ? []].
    intros k Hk. destruct (T0 k Hk) as [T|(T & _)]; unfold cmp; destruct (snd k); qclra.
  - destruct (tightest_up (u :: U')) as (u0 & H0 & T0); [discriminate|]. destruct (tightest_low (l :: L')) as (l0 & H1 & T1); [discriminate|].
    pose proof (H u0 l0 H0 H1) as K.
    assert (HT : exists t, cmp (snd u0) t (fst u0) /\ cmp (snd l0) (fst l0) t).
    { destruct (qlt_spec (fst l0) (fst u0)) as [Q|Q].
      - exists ((fst l0 + fst u0) * Q2Qc (1 # 2))%Qc. unfold cmp. destruct (snd u0), (snd l0); split; qclra.
      - destruct (snd u0), (snd l0); unfold cmp in *; cbn [orb] in K; try (exfalso; qclra). exists (fst u0). split; qclra. }
    destruct HT as (t & Q1 & Q2). exists t. split.
    + intros k Hk. destruct (T0 k Hk) as [T|(T & T')]; unfold cmp in *.
      * destruct (snd k), (snd u0); qclra.
      * rewrite T. destruct (snd k), (snd u0); try qclra; try (discriminate T'; auto).
    + intros k Hk. destruct (T1 k Hk) as [T|(T & T')]; unfold cmp in *.
      * destruct (snd k), (snd l0); qclra.
      * rewrite T. destruct (snd k), (snd l0); try qclra; try (discriminate T'; auto).
Qed.

Definition put (x : nat -> Qc) (n : nat) (t : Qc) (j : nat) : Qc := if Nat.eqb j n then t else x j.
Lemma lhs_put n a x t : lhs (S n) a (put x n t) = (lhs n a x + a n * t)%Qc.
Proof.
  unfold lhs. rewrite Sum_S. unfold put at 2. rewrite Nat.eqb_refl. f_equal. apply Sum_ext. intros j Hj. unfold put.
  destruct (Nat.eqb_spec j n); [lia|reflexivity].
Qed.
Lemma lhs_ext n a x y : (forall j, j < n -> x j = y j) -> lhs n a x = lhs n a y.
Proof. intros H. apply Sum_ext. intros j Hj. now rewrite H. Qed.
Lemma lhs_add n a b x : lhs n (fun j => a j + b j)%Qc x = (lhs n a x + lhs n b x)%Qc.
Proof. unfold lhs. rewrite <- Sum_add. apply Sum_ext. intros. ring. Qed.
Lemma lhs_scale n k a x : lhs n (fun j => k * a j)%Qc x = (k * lhs n a x)%Qc.
Proof. unfold lhs. rewrite <- Sum_scal. apply Sum_ext. intros. ring. Qed.
Lemma lhs_add_r n a x y : lhs n a (fun j => x j + y j)%Qc = (lhs n a x + lhs n a y)%Qc.
Proof. unfold lhs. rewrite <- Sum_add. apply Sum_ext. intros. ring. Qed.
Lemma lhs_scale_r n k a x : lhs n a (fun j => k * x j)%Qc = (k * lhs n a x)%Qc.
Proof. unfold lhs. rewrite <- Sum_scal. apply Sum_ext. intros. ring. Qed.

Lemma lhs_combine n a a' x : lhs n (fun j => - a' n * a j + a n * a' j)%Qc x = (- a' n * lhs n a x + a n * lhs n a' x)%Qc.
Proof. rewrite lhs_add, !lhs_scale. reflexivity. Qed.
Theorem eliminate_complete n S x : sats n (eliminate n S) x -> exists t, sats (Datatypes.S n) S (put x n t).
Proof.
  intros H.
  set (up := fun r : row => let '(a, b, s) := r in ((b - lhs n a x) * / a n, s)%Qc).
  set (P := filter (fun r => qlt 0 (fst (fst r) n)) S). set (N := filter (fun r => qlt (fst (fst r) n) 0) S).
  assert (INV : forall v, v <> 0%Qc -> (v * / v = 1)%Qc) by (intros; now apply Qcmult_inv_r).
  destruct (between (map up P) (map up N)) as (t & HU & HL).
  { intros u l Hu Hl. apply in_map_iff in Hu as (p & <- & Hp). apply in_map_iff in Hl as (q & <- & Hq).
    assert (K : In (combine_rows n p q) (eliminate n S)).
    { unfold eliminate. apply in_or_app. right. apply in_flat_map. exists p. split; auto. apply in_map_iff. exists q. auto. }
    apply H in K. apply filter_In in Hp as (Hp & Ep), Hq as (Hq & Eq). destruct p as ((a & b) & s), q as ((a' & b') & s').
    cbn [fst up snd] in *. revert Ep Eq. destruct (qlt_spec 0 (a n)) as [Ep|]; [|discriminate]. destruct (qlt_spec (a' n) 0) as [Eq|]; [|discriminate]. intros _ _.
    cbn [sat combine_rows] in K. rewrite lhs_combine in K.
    assert (Ia : (a n * / a n = 1)%Qc) by (apply INV; intros E; rewrite E in Ep; discriminate Ep).
    assert (Ia' : (a' n * / a' n = 1)%Qc) by (apply INV; intros E; rewrite E in Eq; discriminate Eq).
    set (i := (/ a n)%Qc) in *. set (i' := (/ a' n)%Qc) in *. set (v := lhs n a x) in *. set (v' := lhs n a' x) in *.
    assert (Pi : (0 < i)%Qc) by (clear - Ia Ep; qcnra). assert (Pi' : (i' < 0)%Qc) by (clear - Ia' Eq; qcnra).
    set (w := (b - v)%Qc) in *. set (w' := (b' - v')%Qc) in *.
    assert (EQ : ((w * i - w' * i') * (a n * - a' n))%Qc = (- a' n * w + a n * w')%Qc).
    { transitivity (- a' n * w * (a n * i) + a n * w' * (a' n * i'))%Qc; [ring|]. rewrite Ia, Ia'. ring. }
    assert (PP : (0 < a n * - a' n)%Qc) by (apply qmul_pos; auto; clear - Eq; qclra).
    set (D := (w * i - w' * i')%Qc) in *. set (k := (a n * - a' n)%Qc) in *.
    assert (KK : cmp (s || s') 0 (D * k)%Qc).
    { rewrite EQ. unfold w, w'. destruct (s || s'); unfold cmp in *; clear - K; qclra. }
    destruct (s || s'); unfold cmp in *.
    - assert (0 < D)%Qc by (clear - KK PP; qcnra). unfold D in *. clear - H0. qclra.
    - assert (0 <= D)%Qc by (clear - KK PP; qcnra). unfold D in *. clear - H0. qclra. }
  exists t. intros r Hr. destruct r as ((a & b) & s). cbn [sat]. rewrite lhs_put.
  destruct (qeq_spec (a n) 0) as [E|E].
  - rewrite E. assert (K : sat n x (a, b, s)).
    { apply H. unfold eliminate. apply in_or_app. left. apply filter_In. split; auto. cbn [fst]. destruct (qeq_spec (a n) 0); auto. }
    cbn [sat] in K. replace (lhs n a x + 0 * t)%Qc with (lhs n a x) by ring. exact K.
  - destruct (qlt_spec 0 (a n)) as [Ep|Ep].
    + assert (K : In (up (a, b, s)) (map up P)) by (apply in_map, filter_In; split; auto; cbn [fst]; destruct (qlt_spec 0 (a n)); auto).
      apply HU in K. cbn [up fst snd] in K. assert (Ia : (a n * / a n = 1)%Qc) by auto. set (i := (/ a n)%Qc) in *. set (v := lhs n a x) in *. clearbody i v.
      assert (EQ : (a n * ((b - v) * i) = b - v)%Qc) by (transitivity ((b - v) * (a n * i))%Qc; [ring|rewrite Ia; ring]).
      set (u := ((b - v) * i)%Qc) in *. clearbody u. clear - K Ep EQ. unfold cmp in *. destruct s; qcnra.
    + assert (K : In (up (a, b, s)) (map up N)).
      { apply in_map, filter_In. split; auto. cbn [fst]. destruct (qlt_spec (a n) 0); auto. exfalso. apply E. apply Qcle_antisym; qclra. }
      apply HL in K. cbn [up fst snd] in K. assert (Ia : (a n * / a n = 1)%Qc) by auto. set (i := (/ a n)%Qc) in *. set (v := lhs n a x) in *. clearbody i v.
      assert (Ep' : (a n < 0)%Qc) by (apply Qcnot_le_lt; intros Q; apply E; apply Qcle_antisym; qclra).
      assert (EQ : (a n * ((b - v) * i) = b - v)%Qc) by (transitivity ((b - v) * (a n * i))%Qc; [ring|rewrite Ia; ring]).
      set (u := ((b - v) * i)%Qc) in *. clearbody u. clear - K Ep' EQ. unfold cmp in *. destruct s; qcnra.
Qed.
Lemma derives_sat n S x r : sats n S x -> derives S r -> sat n x r.
Proof.
  intros H D. induction D as [r Hr|a b s a' b' s' D1 IH1 D2 IH2|k a b s Hk D IH]; auto; cbn [sat] in *.
  - rewrite lhs_add. unfold cmp in *. destruct s, s'; cbn [orb]; qclra.
  - rewrite lhs_scale. unfold cmp in *. set (v := lhs n a x) in *. clearbody v. clear - IH Hk. destruct s; qcnra.
Qed.
Theorem eliminate_sound n S x : sats (Datatypes.S n) S x -> sats n (eliminate n S) x.
Proof.
  intros H r Hr. apply eliminate_derives in Hr as (D & Z). pose proof (derives_sat _ _ _ _ H D) as K.
  destruct r as ((a & b) & s). cbn [sat fst] in *. unfold lhs in *. rewrite Sum_S, Z in K. replace (Sum n (fun j => a j * x j) + 0 * x n)%Qc with (Sum n (fun j => a j * x j))%Qc in K by ring. exact K.
Qed.

(** ** the alternative *)
Definition contradictory (n : nat) (r : row) : Prop :=
  let '(a, b, s) := r in (forall j, j < n -> a j = 0%Qc) /\ ((b < 0)%Qc \/ b = 0%Qc /\ s = true).
Theorem farkas n : forall S, (exists x, sats n S x) \/ (exists r, derives S r /\ contradictory n r).
Proof.
  induction n as [|n IH]; intros S.
  - induction S as [|r S IHS]; [left; exists (fun _ => 0%Qc); intros r []|].
    destruct IHS as [(x & H)|(q & D & C)].
    + destruct r as ((a & b) & s). assert (Q : cmp s 0 b \/ contradictory 0 (a, b, s)).
      { unfold cmp, contradictory. destruct s.
        - destruct (qlt_spec 0 b); auto. right. split; [lia|]. destruct (qlt_spec b 0); auto. right. split; auto. apply Qcle_antisym; qclra.
        - destruct (qle_spec 0 b); auto. right. split; [lia|]. left. qclra. }
      destruct Q as [Q|Q].
      * left. exists x. intros r [<-|Hr]; auto.
      * right. exists (a, b, s). split; auto. constructor. now left.
    + right. exists q. split; auto. eapply derives_trans; [|exact D]. intros; constructor; now right.
  - destruct (IH (eliminate n S)) as [(x & H)|(q & D & C)].
    + left. destruct (eliminate_complete n S x H) as (t & Ht). eauto.
    + right. exists q. split.
      * eapply derives_trans; [|exact D]. intros r Hr. now apply eliminate_derives in Hr.
      * assert (Z : fst (fst q) n = 0%Qc) by (eapply derives_zero; [|exact D]; intros r Hr; now apply eliminate_derives in Hr).
        destruct q as ((a & b) & s). destruct C as (C1 & C2). split; auto. intros j Hj. destruct (Nat.eq_dec j n) as [->|]; auto. apply C1. lia.
Qed.

(** ** suprema are attained *)
(** eliminating the variables [k], ..., [k + n - 1] *)
Fixpoint project (k n : nat) (S : list row) : list row :=
  match n with 0 => S | Datatypes.S n' => project k n' (eliminate (k + n') S) end.
Lemma project_spec k n : forall S x, sats k (project k n S) x <-> exists y, (forall j, j < k -> y j = x j) /\ sats (k + n) S y.
Proof.
  induction n as [|n IH]; intros S x; cbn [project].
  - rewrite Nat.add_0_r. split; [intros H; exists x; auto|]. intros (y & E & H) r Hr. specialize (H r Hr). destruct r as ((a & b) & s). cbn [sat] in *. now rewrite <- (lhs_ext k a y x).
  - rewrite IH. replace (k + Datatypes.S n) with (Datatypes.S (k + n)) by lia. split.
    + intros (y & E & H). destruct (eliminate_complete _ _ _ H) as (t & Ht). exists (put y (k + n) t). split; auto.
      intros j Hj. unfold put. destruct (Nat.eqb_spec j (k + n)); [lia|auto].
    + intros (y & E & H). exists y. split; auto. now apply eliminate_sound.
Qed.
Lemma project_weak k n : forall S, (forall r, In r S -> snd r = false) -> forall r, In r (project k n S) -> snd r = false.
Proof.
  induction n as [|n IH]; intros S H r Hr; auto. cbn [project] in Hr. apply (IH (eliminate (k + n) S)); auto. clear - H. intros r. unfold eliminate.
  rewrite in_app_iff, filter_In, in_flat_map. intros [(Hr & _)|(p & Hp & Hr)]; auto. apply in_map_iff in Hr as (q & <- & Hq).
  apply filter_In in Hp as (Hp & _), Hq as (Hq & _). apply H in Hp, Hq. destruct p as ((a & b) & s), q as ((a' & b') & s'). cbn [snd combine_rows] in *. now rewrite Hp, Hq.
Qed.
(** one variable *)
Lemma greatest S : (forall r, In r S -> snd r = false) -> (exists t, sats 1 S (fun _ => t)) ->
  (forall M, exists t, (M <= t)%Qc /\ sats 1 S (fun _ => t)) \/ (exists t, sats 1 S (fun _ => t) /\ forall t', sats 1 S (fun _ => t') -> (t' <= t)%Qc).
Proof.
  intros W (t0 & H0).
  assert (L : forall a t, lhs 1 a (fun _ => t) = (a O * t)%Qc) by (intros; unfold lhs; rewrite Sum_S, Sum_0; ring).
  set (P := filter (fun r => qlt 0 (fst (fst r) 0)) S).
  set (up := fun r : row => (snd (fst r) * / fst (fst r) O, false)%Qc).
  assert (UP : forall a b s t, In (a, b, s) S -> (0 < a O)%Qc -> (cmp s (a O * t)%Qc b <-> (t <= b * / a O)%Qc)).
  { intros a b s t Hr Ha. apply W in Hr. cbn [snd] in Hr. subst s. unfold cmp. assert (Ia : (a O * / a O = 1)%Qc) by (apply Qcmult_inv_r; intros E; rewrite E in Ha; discriminate Ha).
    set (i := (/ a O)%Qc) in *. set (v := a 0) in *. clearbody i v. assert (EQ : (v * (b * i) = b)%Qc) by (transitivity (b * (v * i))%Qc; [ring|rewrite Ia; ring]).
    set (u := (b * i)%Qc) in *. clearbody u. clear - EQ Ha. split; intros; qcnra. }
  assert (UPT : forall t, (t0 <= t)%Qc -> (forall p, In p P -> (t <= fst (up p))%Qc) -> sats 1 S (fun _ => t)).
  { intros t Ht HP r Hr. destruct r as ((a & b) & s). cbn [sat]. rewrite L. destruct (qlt_spec 0 (a 0)) as [Ea|Ea].
    - apply (UP a b s t Hr Ea). apply (HP (a, b, s)). apply filter_In. split; auto. cbn [fst]. destruct (qlt_spec 0 (a 0)); auto.
    - pose proof (H0 _ Hr) as K. cbn [sat] in K. rewrite L in K. unfold cmp in *. set (v := a 0) in *. clearbody v. clear - K Ht Ea. destruct s; qcnra. }
  destruct P as [|p P'] eqn:EP.
  - left. intros M. exists (qmax M t0). assert (Q : (M <= qmax M t0)%Qc /\ (t0 <= qmax M t0)%Qc) by (unfold qmax; destruct (qle_spec M t0); split; qclra).
    split; [tauto|]. apply UPT; [tauto|intros p []].
  - right. destruct (tightest_up (map up (p :: P'))) as (u0 & Hu & T); [discriminate|].
    assert (Q : forall t', sats 1 S (fun _ => t') -> (t' <= fst u0)%Qc).
    { intros t' Ht'. apply in_map_iff in Hu as (q & <- & Hq). rewrite <- EP in Hq. apply filter_In in Hq as (Hq & Eq). destruct q as ((a & b) & s). cbn [fst] in Eq. revert Eq. destruct (qlt_spec 0 (a 0)) as [Ea|]; [|discriminate]. intros _.
      specialize (Ht' _ Hq). cbn [sat] in Ht'. rewrite L in Ht'. cbn [up fst snd]. now apply (UP a b s t' Hq Ea). }
    exists (fst u0). split; auto. apply UPT; [now apply Q|]. intros q Hq. destruct (T (up q) (in_map _ _ _ Hq)) as [K|(K & _)]; [qclra|rewrite K; apply Qcle_refl].
Qed.
(** A feasible system of weak inequalities: a linear function is unbounded above on it, or attains its
    greatest value. *)
Theorem attained n S c : (forall r, In r S -> snd r = false) -> (exists x, sats n S x) ->
  (forall M, exists x, sats n S x /\ (M <= lhs n c x)%Qc) \/ (exists x, sats n S x /\ forall y, sats n S y -> (lhs n c y <= lhs n c x)%Qc).
Proof.
  intros W (x0 & H0).
  set (sh := fun r : row => let '(a, b, s) := r in (fun j => match j with 0 => 0%Qc | Datatypes.S j' => a j' end, b, s)).
  set (T := (fun j => match j with 0 => 1%Qc | Datatypes.S j' => (- c j')%Qc end, 0%Qc, false) :: map sh S).
  assert (L : forall (a : nat -> Qc) y, lhs (1 + n) a y = (a O * y O + lhs n (fun j => a (Datatypes.S j)) (fun j => y (Datatypes.S j)))%Qc).
  { intros a y. unfold lhs. rewrite Sum_app, Sum_S, Sum_0. cbn [plus]. ring. }
  assert (LO : forall y, lhs n (fun j => - c j)%Qc y = (- lhs n c y)%Qc).
  { intros y. unfold lhs. rewrite <- Sum_opp. apply Sum_ext. intros; ring. }
  assert (ST : forall y, sats (1 + n) T y <-> (y O <= lhs n c (fun j => y (Datatypes.S j)))%Qc /\ sats n S (fun j => y (Datatypes.S j))).
  { intros y. split.
    - intros H. split.
      + pose proof (H _ (or_introl eq_refl)) as K. cbn [sat] in K. rewrite L in K. cbv beta iota in K. rewrite LO in K. unfold cmp in K. qclra.
      + intros r Hr. pose proof (H (sh r) (or_intror (in_map _ _ _ Hr))) as K. destruct r as ((a & b) & s). cbn [sh sat] in *. rewrite L in K. cbv beta iota in K.
        replace (0 * y O + lhs n (fun j => a j) (fun j => y (Datatypes.S j)))%Qc with (lhs n a (fun j => y (Datatypes.S j))) in K by (unfold lhs; ring). exact K.
    - intros (H1 & H2) r [<-|Hr].
      + cbn [sat]. rewrite L. cbv beta iota. rewrite LO. unfold cmp. qclra.
      + apply in_map_iff in Hr as (((a & b) & s) & <- & Hr). apply H2 in Hr. cbn [sh sat] in *. rewrite L. cbv beta iota.
        replace (0 * y O + lhs n (fun j => a j) (fun j => y (Datatypes.S j)))%Qc with (lhs n a (fun j => y (Datatypes.S j))) by (unfold lhs; ring). exact Hr. }
  assert (PR : forall t, sats 1 (project 1 n T) (fun _ => t) <-> exists x, sats n S x /\ (t <= lhs n c x)%Qc).
  { intros t. rewrite project_spec. split.
    - intros (y & E & H). apply ST in H as (H1 & H2). exists (fun j => y (Datatypes.S j)). split; auto. rewrite <- (E 0) by lia. exact H1.
    - intros (x & H1 & H2). exists (fun j => match j with 0 => t | Datatypes.S j' => x j' end). split.
      + intros j Hj. replace j with 0 by lia. reflexivity.
      + apply ST. split; auto. }
  destruct (greatest (project 1 n T)) as [G|(t & G1 & G2)].
  - apply project_weak. intros r [<-|Hr]; [reflexivity|]. apply in_map_iff in Hr as (((a & b) & s) & <- & Hr). apply W in Hr. exact Hr.
  - exists (lhs n c x0). apply PR. exists x0. split; auto. apply Qcle_refl.
  - left. intros M. destruct (G M) as (t & Ht & K). apply PR in K as (x & H1 & H2). exists x. split; auto. qclra.
  - right. apply PR in G1 as (x & H1 & H2). exists x. split; auto. intros y Hy.
    assert (lhs n c y <= t)%Qc by (apply G2, PR; exists y; split; auto; apply Qcle_refl). qclra.
Qed.
