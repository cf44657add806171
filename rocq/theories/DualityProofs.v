(** Strong duality for the programs of the model, from the alternative for linear inequalities. *)
From Coq Require Import String List Bool Arith ZArith QArith Qcanon Lia.
From Verif Require Import Py QcTac QSum ComparatorModel MatModel MatTheory LinearModel LinearSpec LinearProofs LinearInv DualProofs Farkas.
Import ListNotations.
Open Scope nat_scope.
Open Scope string_scope.
Open Scope list_scope.

Definition vneg (a : nat -> Qc) (j : nat) : Qc := (- a j)%Qc.
Definition unit (j : nat) (k : nat) : Qc := if Nat.eqb k j then 1%Qc else 0%Qc.
Definition rel_rows (r : relation) (a : nat -> Qc) (b : Qc) : list row :=
  match r with
  | AtMost => [(a, b, false)]
  | AtLeast => [(vneg a, (- b)%Qc, false)]
  | Equal => [(a, b, false); (vneg a, (- b)%Qc, false)]
  end.
Definition sgn_rows (s : sign) (j : nat) : list row :=
  match s with
  | Nonnegative => [(vneg (unit j), 0%Qc, false)]
  | Nonpositive => [(unit j, 0%Qc, false)]
  | Unrestricted => []
  end.
Definition sys (p : lp) : list row :=
  flat_map (fun i => rel_rows (rel p i) (ent (lA p) i) (at_ (lb p) i)) (seq 0 (rows p)) ++
  flat_map (fun j => sgn_rows (sgn p j) j) (seq 0 (cols p)).

Lemma lhs_neg n a x : lhs n (vneg a) x = (- lhs n a x)%Qc.
Proof. unfold lhs, vneg. rewrite <- Sum_opp. apply Sum_ext. intros; ring. Qed.
Lemma lhs_unit n j x : j < n -> lhs n (unit j) x = x j.
Proof.
  intros H. unfold lhs, unit. rewrite (Sum_single n j); auto.
  - rewrite Nat.eqb_refl. ring.
  - intros k _ N. destruct (Nat.eqb_spec k j); [contradiction|ring].
Qed.
Lemma rel_rows_sat n r a b x : sats n (rel_rows r a b) x <-> related r (lhs n a x) b.
Proof.
  unfold sats. destruct r; cbn [rel_rows related]; split.
  - intros H. pose proof (H _ (or_introl eq_refl)) as H1. pose proof (H _ (or_intror (or_introl eq_refl))) as H2. cbn [sat cmp] in *. rewrite lhs_neg in H2. apply Qcle_antisym; qclra.
  - intros H r [<-|[<-|[]]]; cbn [sat cmp]; rewrite ?lhs_neg, H; apply Qcle_refl.
  - intros H. exact (H _ (or_introl eq_refl)).
  - intros H r [<-|[]]. exact H.
  - intros H. pose proof (H _ (or_introl eq_refl)) as H1. cbn [sat cmp] in H1. rewrite lhs_neg in H1. qclra.
  - intros H r [<-|[]]. cbn [sat cmp]. rewrite lhs_neg. qclra.
Qed.
Lemma sgn_rows_sat n s j x : j < n -> (sats n (sgn_rows s j) x <-> signed s (x j)).
Proof.
  intros Hj. unfold sats. destruct s; cbn [sgn_rows signed]; split; auto.
  - intros H. pose proof (H _ (or_introl eq_refl)) as H1. cbn [sat cmp] in H1. rewrite lhs_neg, lhs_unit in H1 by auto. qclra.
  - intros H r [<-|[]]. cbn [sat cmp]. rewrite lhs_neg, lhs_unit by auto. qclra.
  - intros H. pose proof (H _ (or_introl eq_refl)) as H1. cbn [sat cmp] in H1. now rewrite lhs_unit in H1 by auto.
  - intros H r [<-|[]]. cbn [sat cmp]. now rewrite lhs_unit by auto.
  - intros _ r [].
Qed.
Lemma sys_sat p x : sats (cols p) (sys p) x <->
  (forall i, i < rows p -> related (rel p i) (lhs (cols p) (ent (lA p) i) x) (at_ (lb p) i)) /\ (forall j, j < cols p -> signed (sgn p j) (x j)).
Proof.
  unfold sys. split.
  - intros H. split.
    + intros i Hi. apply rel_rows_sat. intros r Hr. apply H, in_or_app. left. apply in_flat_map. exists i. split; auto. apply in_seq. lia.
    + intros j Hj. apply (sgn_rows_sat (cols p)); auto. intros r Hr. apply H, in_or_app. right. apply in_flat_map. exists j. split; auto. apply in_seq. lia.
  - intros (H1 & H2) r Hr. apply in_app_or in Hr as [Hr|Hr]; apply in_flat_map in Hr as (k & Hk & Hr); apply in_seq in Hk.
    + assert (K : sats (cols p) (rel_rows (rel p k) (ent (lA p) k) (at_ (lb p) k)) x) by (apply rel_rows_sat, H1; lia). exact (K r Hr).
    + assert (K : sats (cols p) (sgn_rows (sgn p k) k) x) by (apply sgn_rows_sat; [lia|apply H2; lia]). exact (K r Hr).
Qed.
Definition point (n : nat) (x : nat -> Qc) : list Qc := map x (seq 0 n).
Lemma at_point n x j : j < n -> at_ (point n x) j = x j.
Proof. intros H. unfold at_, point. now apply nth_map_seq. Qed.
Lemma length_point n x : length (point n x) = n.
Proof. unfold point. now rewrite map_length, seq_length. Qed.
Lemma sys_feas p x : wf p -> length x = cols p -> (feasible (meaning p) x <-> sats (cols p) (sys p) (at_ x)).
Proof. intros W L. rewrite feas_iff, sys_sat by auto. unfold feas, lhs. tauto. Qed.
Lemma sys_point p x : wf p -> (feasible (meaning p) (point (cols p) x) <-> sats (cols p) (sys p) x).
Proof.
  intros W. rewrite sys_feas by (auto; apply length_point). rewrite !sys_sat. split; intros (H1 & H2); split.
  - intros i Hi. rewrite (lhs_ext _ _ x (at_ (point (cols p) x))); auto. intros j Hj. now rewrite at_point.
  - intros j Hj. rewrite <- (at_point (cols p) x) by auto. auto.
  - intros i Hi. rewrite (lhs_ext _ _ _ x); auto. intros j Hj. now rewrite at_point.
  - intros j Hj. rewrite at_point by auto. auto.
Qed.
Lemma sys_weak p r : In r (sys p) -> snd r = false.
Proof.
  unfold sys. intros Hr. apply in_app_or in Hr as [Hr|Hr]; apply in_flat_map in Hr as (k & _ & Hr).
  - destruct (rel p k); cbn in Hr; repeat (destruct Hr as [<-|Hr]; [reflexivity|]); contradiction.
  - destruct (sgn p k); cbn in Hr; try contradiction; destruct Hr as [<-|[]]; reflexivity.
Qed.

(** ** multipliers *)
Definition msign (r : relation) (y : Qc) : Prop := match r with Equal => True | AtMost => (0 <= y)%Qc | AtLeast => (y <= 0)%Qc end.
Definition rsign (s : sign) (v : Qc) : Prop := match s with Nonnegative => (0 <= v)%Qc | Nonpositive => (v <= 0)%Qc | Unrestricted => v = 0%Qc end.
Lemma msign_add r u v : msign r u -> msign r v -> msign r (u + v)%Qc. Proof. destruct r; cbn; auto; qclra. Qed.
Lemma msign_scale r k v : (0 < k)%Qc -> msign r v -> msign r (k * v)%Qc. Proof. destruct r; cbn; auto; qcnra. Qed.
Lemma rsign_add r u v : rsign r u -> rsign r v -> rsign r (u + v)%Qc. Proof. destruct r; cbn; try qclra. Qed.
Lemma rsign_scale r k v : (0 < k)%Qc -> rsign r v -> rsign r (k * v)%Qc. Proof. destruct r; cbn; try qcnra. Qed.
(** a combination of the constraints and of [- c x < - v] *)
Definition combination (p : lp) (c : nat -> Qc) (v : Qc) (obj : bool) (r : row) : Prop :=
  let '(a, b, s) := r in exists y mu,
    (forall i, i < rows p -> msign (rel p i) (y i)) /\ (0 <= mu)%Qc /\ (s = true -> (0 < mu)%Qc) /\ (obj = false -> mu = 0%Qc) /\
    (forall j, j < cols p -> rsign (sgn p j) (Sum (rows p) (fun i => y i * ent (lA p) i j) - mu * c j - a j)%Qc) /\
    b = (Sum (rows p) (fun i => y i * at_ (lb p) i) - mu * v)%Qc.
Definition obj_row (c : nat -> Qc) (v : Qc) (obj : bool) : list row := if obj then [(vneg c, (- v)%Qc, true)] else [].
Lemma combination_spec p c v obj r : derives (sys p ++ obj_row c v obj) r -> combination p c v obj r.
Proof.
  intros D. induction D as [r Hr|a b s a' b' s' D1 (y & mu & Y1 & Y2 & Y3 & Y4 & Y5 & Y6) D2 (y' & mu' & Z1 & Z2 & Z3 & Z4 & Z5 & Z6)|k a b s Hk D (y & mu & Y1 & Y2 & Y3 & Y4 & Y5 & Y6)].
  - apply in_app_or in Hr as [Hr|Hr]; [unfold sys in Hr; apply in_app_or in Hr as [Hr|Hr]; apply in_flat_map in Hr as (k & Hk & Hr); apply in_seq in Hk|].
    + (* a constraint *)
      assert (G : forall e, msign (rel p k) e -> combination p c v obj (fun j => e * ent (lA p) k j, e * at_ (lb p) k, false)%Qc).
      { intros e He. exists (fun i => e * unit k i)%Qc, 0%Qc. repeat split; auto; try discriminate; try apply Qcle_refl.
        - intros i Hi. unfold unit. destruct (Nat.eqb_spec i k) as [->|N].
          + now replace (e * 1)%Qc with e by ring.
          + replace (e * 0)%Qc with 0%Qc by ring. destruct (rel p i); cbn; auto; apply Qcle_refl.
        - intros j Hj. rewrite (Sum_single _ k); [|lia|].
          + unfold unit. rewrite Nat.eqb_refl. replace (e * 1 * ent (lA p) k j - 0 * c j - e * ent (lA p) k j)%Qc with 0%Qc by ring. destruct (sgn p j); cbn; auto; apply Qcle_refl.
          + intros i _ N. unfold unit. destruct (Nat.eqb_spec i k); [contradiction|ring].
        - rewrite (Sum_single _ k); [|lia|].
          + unfold unit. rewrite Nat.eqb_refl. ring.
          + intros i _ N. unfold unit. destruct (Nat.eqb_spec i k); [contradiction|ring]. }
      assert (EXT : forall (a a' : nat -> Qc) b b' s, (forall j, a j = a' j) -> b = b' -> combination p c v obj (a, b, s) -> combination p c v obj (a', b', s)).
      { intros a a' b b' s E <- (y & mu & Y1 & Y2 & Y3 & Y4 & Y5 & Y6). exists y, mu. repeat split; auto. intros j Hj. rewrite <- E. auto. }
      assert (G1 : msign (rel p k) 1%Qc -> combination p c v obj (ent (lA p) k, at_ (lb p) k, false)).
      { intros He. eapply EXT; [| |exact (G 1%Qc He)]; [intros; cbn; ring|ring]. }
      assert (G2 : msign (rel p k) (- (1))%Qc -> combination p c v obj (vneg (ent (lA p) k), (- at_ (lb p) k)%Qc, false)).
      { intros He. eapply EXT; [| |exact (G (- (1))%Qc He)]; [intros; unfold vneg; ring|ring]. }
      destruct (rel p k); cbn [rel_rows msign] in *.
      * destruct Hr as [<-|[<-|[]]]; auto.
      * destruct Hr as [<-|[]]. apply G1. discriminate.
      * destruct Hr as [<-|[]]. apply G2. discriminate.
    + (* a sign restriction *)
      assert (Z : forall e, rsign (sgn p k) (- e)%Qc -> combination p c v obj (fun j => e * unit k j, 0, false)%Qc).
      { intros e He. exists (fun _ => 0%Qc), 0%Qc. repeat split; auto; try discriminate; try apply Qcle_refl.
        - intros i Hi. destruct (rel p i); cbn; auto; apply Qcle_refl.
        - intros j Hj. rewrite Sum_none by (intros; ring). unfold unit. destruct (Nat.eqb_spec j k) as [->|N].
          + now replace (0 - 0 * c k - e * 1)%Qc with (- e)%Qc by ring.
          + replace (0 - 0 * c j - e * 0)%Qc with 0%Qc by ring. destruct (sgn p j); cbn; auto; apply Qcle_refl.
        - rewrite Sum_none by (intros; ring). ring. }
      assert (EXT : forall (a a' : nat -> Qc) b s, (forall j, a j = a' j) -> combination p c v obj (a, b, s) -> combination p c v obj (a', b, s)).
      { intros a a' b s E (y & mu & Y1 & Y2 & Y3 & Y4 & Y5 & Y6). exists y, mu. repeat split; auto. intros j Hj. rewrite <- E. auto. }
      destruct (sgn p k) eqn:ES; cbn [sgn_rows rsign] in *; [destruct Hr as [<-|[]]..|contradiction].
      * eapply EXT; [|apply (Z (- (1))%Qc); cbn; discriminate]. intros; unfold vneg; ring.
      * eapply EXT; [|apply (Z 1%Qc); cbn; discriminate]. intros j; cbv beta; apply Qcmult_1_l.
    + (* the objective *)
      destruct obj; cbn [obj_row] in Hr; [destruct Hr as [<-|[]]|contradiction].
      exists (fun _ => 0%Qc), 1%Qc. repeat split; auto; try discriminate.
      * intros i Hi. destruct (rel p i); cbn; auto; apply Qcle_refl.
      * intros j Hj. rewrite Sum_none by (intros; ring). unfold vneg. replace (0 - 1 * c j - - c j)%Qc with 0%Qc by ring. destruct (sgn p j); cbn; auto; apply Qcle_refl.
      * rewrite Sum_none by (intros; ring). ring.
  - exists (fun i => y i + y' i)%Qc, (mu + mu')%Qc. split; [|split; [|split; [|split; [|split]]]].
    + intros i Hi. apply msign_add; auto.
    + qclra.
    + intros E. apply orb_true_iff in E as [E|E]; [apply Y3 in E|apply Z3 in E]; qclra.
    + intros E. rewrite (Y4 E), (Z4 E). ring.
    + intros j Hj. pose proof (rsign_add _ _ _ (Y5 j Hj) (Z5 j Hj)) as K.
      replace (Sum (rows p) (fun i => (y i + y' i) * ent (lA p) i j) - (mu + mu') * c j - (a j + a' j))%Qc with
        (Sum (rows p) (fun i => y i * ent (lA p) i j) - mu * c j - a j + (Sum (rows p) (fun i => y' i * ent (lA p) i j) - mu' * c j - a' j))%Qc; auto.
      rewrite (Sum_ext (rows p) (fun i => (y i + y' i) * ent (lA p) i j)%Qc (fun i => y i * ent (lA p) i j + y' i * ent (lA p) i j)%Qc) by (intros; ring). rewrite Sum_add. ring.
    + rewrite Y6, Z6. rewrite (Sum_ext (rows p) (fun i => (y i + y' i) * at_ (lb p) i)%Qc (fun i => y i * at_ (lb p) i + y' i * at_ (lb p) i)%Qc) by (intros; ring). rewrite Sum_add. ring.
  - exists (fun i => k * y i)%Qc, (k * mu)%Qc. split; [|split; [|split; [|split; [|split]]]].
    + intros i Hi. apply msign_scale; auto.
    + clear - Y2 Hk. qcnra.
    + intros E. apply Y3 in E. now apply qmul_pos.
    + intros E. rewrite (Y4 E). ring.
    + intros j Hj. pose proof (rsign_scale _ k _ Hk (Y5 j Hj)) as K.
      replace (Sum (rows p) (fun i => k * y i * ent (lA p) i j) - k * mu * c j - k * a j)%Qc with (k * (Sum (rows p) (fun i => y i * ent (lA p) i j) - mu * c j - a j))%Qc; auto.
      rewrite (Sum_ext (rows p) (fun i => k * y i * ent (lA p) i j)%Qc (fun i => k * (y i * ent (lA p) i j))%Qc) by (intros; ring). rewrite Sum_scal. ring.
    + rewrite Y6. rewrite (Sum_ext (rows p) (fun i => k * y i * at_ (lb p) i)%Qc (fun i => k * (y i * at_ (lb p) i))%Qc) by (intros; ring). rewrite Sum_scal. ring.
Qed.

(** an infeasible program has multipliers that show it *)
Theorem infeasible_multipliers p : wf p -> infeasible (meaning p) ->
  exists y : nat -> Qc, (forall i, i < rows p -> msign (rel p i) (y i)) /\
    (forall j, j < cols p -> rsign (sgn p j) (Sum (rows p) (fun i => y i * ent (lA p) i j))%Qc) /\ (Sum (rows p) (fun i => y i * at_ (lb p) i) < 0)%Qc.
Proof.
  intros W I. destruct (farkas (cols p) (sys p ++ obj_row (fun _ => 0%Qc) 0%Qc false)) as [(x & H)|(r & D & C)].
  - exfalso. apply (I (point (cols p) x)). apply sys_point; auto. cbn [obj_row] in H. now rewrite app_nil_r in H.
  - apply combination_spec in D. destruct r as ((a & b) & s). destruct D as (y & mu & Y1 & Y2 & Y3 & Y4 & Y5 & Y6). destruct C as (C1 & C2).
    rewrite Y4 in * by auto. exists y. split; auto. split.
    + intros j Hj. specialize (Y5 j Hj). rewrite C1 in Y5 by auto. now replace (Sum (rows p) (fun i => y i * ent (lA p) i j) - 0 * 0 - 0)%Qc with (Sum (rows p) (fun i => y i * ent (lA p) i j))%Qc in Y5 by ring.
    + destruct C2 as [C2|(C2 & ->)]; [|specialize (Y3 eq_refl); discriminate Y3]. rewrite Y6 in C2. qclra.
Qed.
(** a bound on the objective has multipliers that show it *)
Theorem bound_multipliers p c v : wf p -> (exists x, feasible (meaning p) x) -> (forall x, feasible (meaning p) x -> (lhs (cols p) c (at_ x) <= v)%Qc) ->
  exists y : nat -> Qc, (forall i, i < rows p -> msign (rel p i) (y i)) /\
    (forall j, j < cols p -> rsign (sgn p j) (Sum (rows p) (fun i => y i * ent (lA p) i j) - c j)%Qc) /\ (Sum (rows p) (fun i => y i * at_ (lb p) i) <= v)%Qc.
Proof.
  intros W (x0 & F0) B. destruct (farkas (cols p) (sys p ++ obj_row c v true)) as [(x & H)|(r & D & C)].
  - exfalso. assert (F : feasible (meaning p) (point (cols p) x)) by (apply sys_point; auto; intros r Hr; apply H, in_or_app; auto).
    apply B in F. rewrite (lhs_ext _ _ _ x) in F by (intros; now apply at_point).
    assert (K : sat (cols p) x (vneg c, (- v)%Qc, true)) by (apply H, in_or_app; right; left; reflexivity). cbn [sat cmp] in K. rewrite lhs_neg in K. qclra.
  - apply combination_spec in D. destruct r as ((a & b) & s). destruct D as (y & mu & Y1 & Y2 & Y3 & _ & Y5 & Y6). destruct C as (C1 & C2).
    assert (Y5' : forall j, j < cols p -> rsign (sgn p j) (Sum (rows p) (fun i => y i * ent (lA p) i j) - mu * c j)%Qc).
    { intros j Hj. specialize (Y5 j Hj). rewrite C1 in Y5 by auto. now replace (Sum (rows p) (fun i => y i * ent (lA p) i j) - mu * c j - 0)%Qc with (Sum (rows p) (fun i => y i * ent (lA p) i j) - mu * c j)%Qc in Y5 by ring. }
    assert (Hb : (b <= 0)%Qc) by (destruct C2 as [C2|(-> & _)]; [qclra|apply Qcle_refl]).
    assert (Pm : (0 < mu)%Qc).
    { destruct C2 as [C2|(C2 & ->)]; auto. destruct (qlt_spec 0 mu) as [|N]; auto. exfalso.
      assert (mu = 0%Qc) by (apply Qcle_antisym; qclra). subst mu.
      assert (L0 : length x0 = cols p) by (destruct F0 as (L & _); exact L). apply feas_iff in F0 as (_ & X2 & X3); auto.
      pose proof (Sum_assoc (rows p) (cols p) y (at_ x0) (ent (lA p))) as HS.
      assert (K1 : (Sum (rows p) (fun i => y i * Sum (cols p) (fun j => ent (lA p) i j * at_ x0 j)) <= Sum (rows p) (fun i => y i * at_ (lb p) i))%Qc).
      { apply Sum_le. intros i Hi. specialize (X2 i Hi). specialize (Y1 i Hi). set (w := Sum (cols p) (fun j => ent (lA p) i j * at_ x0 j)%Qc) in *. set (yi := y i) in *. set (bi := at_ (lb p) i) in *. clearbody w yi bi. clear - X2 Y1.
        destruct (rel p i); cbn [related msign] in *; [rewrite X2; apply Qcle_refl|qcnra|qcnra]. }
      assert (K2 : (0 <= Sum (cols p) (fun j => Sum (rows p) (fun i => y i * ent (lA p) i j) * at_ x0 j))%Qc).
      { apply Sum_nonneg. intros j Hj. specialize (X3 j Hj). specialize (Y5' j Hj). set (w := Sum (rows p) (fun i => y i * ent (lA p) i j)%Qc) in *. set (xj := at_ x0 j) in *.
        replace (w - 0 * c j)%Qc with w in Y5' by ring. clearbody w xj. clear - X3 Y5'. destruct (sgn p j); cbn [signed rsign] in *; [qcnra|qcnra|rewrite Y5'; qclra]. }
      rewrite <- HS in K2. qclra. }
    assert (Im : (mu * / mu = 1)%Qc) by (apply Qcmult_inv_r; intros E; rewrite E in Pm; discriminate Pm).
    set (k := (/ mu)%Qc) in *. assert (Pk : (0 < k)%Qc) by (clearbody k; clear - Im Pm; qcnra). clearbody k.
    exists (fun i => k * y i)%Qc. split; [|split].
    + intros i Hi. apply msign_scale; auto.
    + intros j Hj. pose proof (rsign_scale _ k _ Pk (Y5' j Hj)) as K.
      replace (Sum (rows p) (fun i => k * y i * ent (lA p) i j) - c j)%Qc with (k * (Sum (rows p) (fun i => y i * ent (lA p) i j) - mu * c j))%Qc; auto.
      rewrite (Sum_ext (rows p) (fun i => k * y i * ent (lA p) i j)%Qc (fun i => k * (y i * ent (lA p) i j))%Qc) by (intros; ring). rewrite Sum_scal.
      transitivity (k * Sum (rows p) (fun i => y i * ent (lA p) i j) - (mu * k) * c j)%Qc; [ring|rewrite Im; ring].
    + rewrite (Sum_ext (rows p) (fun i => k * y i * at_ (lb p) i)%Qc (fun i => k * (y i * at_ (lb p) i))%Qc) by (intros; ring). rewrite Sum_scal.
      set (w := Sum (rows p) (fun i => y i * at_ (lb p) i)%Qc) in *. assert (W1 : (w <= mu * v)%Qc) by qclra. clearbody w. assert (E : v = (k * (mu * v))%Qc) by (transitivity ((mu * k) * v)%Qc; [rewrite Im; ring|ring]).
      rewrite E. set (u := (mu * v)%Qc) in *. clearbody u. clear - W1 Pk. qcnra.
Qed.
