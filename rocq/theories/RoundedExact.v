(** The basis that the simplex method reports in spite of rounding errors. *)
From Coq Require Import String List Bool Arith ZArith QArith Qcanon Lia Sorted.
From Verif Require Import Py QcTac QSum QInt ComparatorModel MatModel DetTheory MatTheory LinearModel LinearSpec LinearProofs SefProofs LinearInv DualProofs BasisProofs BlandProofs SimplexProofs SmallProofs LinearProps SimplexProps RoundedModel RoundedSpec RoundedProofs.
Import ListNotations.
Open Scope nat_scope.
Open Scope string_scope.
Open Scope list_scope.

(** if [v + F v] is small and so is [F], then [v] is *)
Lemma contraction m e (F : nat -> nat -> Qc) (v : nat -> Qc) t : (0 <= e)%Qc -> (qz (Z.of_nat m) * e <= quarter)%Qc -> (forall i j, i < m -> j < m -> within e (F i j) (delta i j)) ->
  (forall i, i < m -> (qabs (Sum m (fun k => F i k * v k)) <= three * t)%Qc) -> forall i, i < m -> (qabs (v i) <= four * t)%Qc.
Proof.
  intros He Hm HF Ht i Hi. destruct (argmax_abs m v ltac:(lia)) as (j & Hj & A). eapply Qcle_trans; [now apply A|].
  assert (E : v j = (Sum m (fun k => F j k * v k) - Sum m (fun k => (F j k - delta j k) * v k))%Qc).
  { rewrite (Sum_ext m (fun k => (F j k - delta j k) * v k)%Qc (fun k => F j k * v k - delta j k * v k)%Qc) by (intros; ring). rewrite Sum_sub, Sum_delta_l by auto. ring. }
  pose proof (Sum_err m (fun k => F j k - delta j k)%Qc v e He (fun k Hk => HF j k Hj Hk)) as K1. cbv beta in K1. pose proof (Ht j Hj) as K2. pose proof (abs_le_sub _ _ _ _ K2 K1) as K3. rewrite <- E in K3.
  pose proof (N1_le m v (qabs (v j)) A) as K4. assert (K5 : (e * N1 m v <= e * (qz (Z.of_nat m) * qabs (v j)))%Qc) by (rewrite !(Qcmult_comm e); now apply qmul_le_r).
  assert (K6 : ((qz (Z.of_nat m) * e) * qabs (v j) <= quarter * qabs (v j))%Qc) by (apply qmul_le_r; auto; apply QcTac.qabs_nonneg).
  replace (e * (qz (Z.of_nat m) * qabs (v j)))%Qc with ((qz (Z.of_nat m) * e) * qabs (v j))%Qc in K5 by ring.
  set (r := qabs (v j)) in *. set (a := (qz (Z.of_nat m) * e * r)%Qc) in *. set (d := (e * N1 m v)%Qc) in *. clearbody r a d. clear - K3 K5 K6. qclra.
Qed.

Section Exact.
  Variables (e : Qc) (p : lp) (B : list nat) (q : lp) (x : list Qc) (W V : nat -> nat -> Qc) (y : nat -> Qc).
  Hypothesis Hp : wf p.
  Let P := negate_rows p.
  Hypothesis HF : facts e P B q x W V y.
  Hypothesis He : (0 <= e)%Qc.
  Hypothesis Hm : (qz (Z.of_nat (rows P)) * e <= quarter)%Qc.
  Let HP : wf P := wf_negate p Hp.
  Let X := N1 (cols P) (at_ x).
  Let M i k := ent (lA P) i (bk B k).
  Lemma nonsingular : basis P B.
  Proof.
    destruct (fa_B _ _ _ _ _ _ _ _ HF) as (S & L & R). constructor; auto. unfold mdet. rewrite length_columns. apply det_kernel. fold (rows P). intros v Hv k Hk.
    assert (K : (qabs (v k) <= four * 0)%Qc).
    { apply (contraction (rows P) e (fun i j => Sum (rows P) (fun k => W i k * M k j)%Qc) v 0 He Hm); auto; [apply (fa_W1 _ _ _ _ _ _ _ _ HF)|]. intros i Hi.
      rewrite (Sum_ext _ _ (fun j => Sum (rows P) (fun k => W i k * M k j * v j))%Qc) by (intros; now rewrite Sum_scalr). rewrite Sum_swap. rewrite Sum_none; [discriminate|]. intros l Hl.
      rewrite (Sum_ext _ _ (fun j => W i l * (ent (columns_of B (lA P)) l j * v j))%Qc) by (intros j Hj; unfold M; rewrite ent_columns by (auto; lia); unfold bk; ring). rewrite Sum_scal, Hv by auto. ring. }
    replace (four * 0)%Qc with 0%Qc in K by ring. apply qabs_0. apply Qcle_antisym; [exact K|apply QcTac.qabs_nonneg].
  Qed.
  Lemma vertex f : bsol P B f -> forall j, j < cols P -> (qabs (at_ x j - f j) <= four * (e * (X + 1)))%Qc.
  Proof.
    intros (S1 & S2) j Hj. assert (PX : (0 <= X)%Qc) by apply N1_nonneg. assert (PT : (0 <= e * (X + 1))%Qc) by (apply qmul_nonneg; auto; set (Y := X) in *; clearbody Y; clear - PX; qclra). destruct (in_dec Nat.eq_dec j B) as [I|I].
    2: { destruct (fa_x _ _ _ _ _ _ _ _ HF) as (_ & K & _). rewrite K, S2 by auto. change (qabs (0 - 0)) with 0%Qc. set (T := (e * (X + 1))%Qc) in *. clearbody T. clear - PT. qclra. }
    apply (In_nth _ _ 0) in I. destruct I as (k & Hk & <-). rewrite (fa_len _ _ _ _ _ _ _ _ HF) in Hk. fold (bk B k).
    apply (contraction (rows P) e (fun i j => Sum (rows P) (fun k => W i k * M k j)%Qc) (fun k => at_ x (bk B k) - f (bk B k))%Qc (e * (X + 1))%Qc He Hm); auto; [apply (fa_W1 _ _ _ _ _ _ _ _ HF)|]. intros i Hi.
    pose proof (W_rho (rows P) e (fun i k => ent (lA P) i (bk B k)) W (fun i k => ent (lA q) i (bk B k)) V (at_ (lb P)) (at_ (lb q)) (fun k => at_ x (bk B k)) He Hm
      (fa_W1 _ _ _ _ _ _ _ _ HF) (fun i j Hi Hj => fa_A _ _ _ _ _ _ _ _ HF i (bk B j) Hi (fa_bk _ _ _ _ _ _ _ _ HF j Hj)) (fa_b _ _ _ _ _ _ _ _ HF) (fa_V _ _ _ _ _ _ _ _ HF) (proj2 (proj2 (fa_x _ _ _ _ _ _ _ _ HF))) i Hi) as K.
    rewrite (X_basis e P B q x W V y HF) in K. fold X in K. replace (three * (e * (X + 1)))%Qc with (e * (three * (X + 1)))%Qc by ring. refine (eq_rect _ (fun s => (qabs s <= _)%Qc) K _ _).
    rewrite (Sum_ext _ (fun k0 => Sum (rows P) (fun k1 => W i k1 * M k1 k0) * (at_ x (bk B k0) - f (bk B k0)))%Qc (fun j => Sum (rows P) (fun k => W i k * M k j * (at_ x (bk B j) - f (bk B j))))%Qc) by (intros; now rewrite Sum_scalr). rewrite Sum_swap.
    apply Sum_ext. intros l Hl. specialize (S1 l Hl). unfold lhs in S1. rewrite (Sum_basis P B) in S1; [|exact nonsingular|intros j' Hj' Hn; rewrite S2 by auto; ring]. rewrite Qcmult_1_l in S1. rewrite <- S1, <- Sum_sub, <- Sum_scal. apply Sum_ext. intros j' Hj'. unfold M. ring.
  Qed.
  Lemma costs_error q0 j : canon P B q0 -> j < cols P -> ~ In j B -> (qabs (at_ (lc q) j - at_ (lc q0) j) <= e * (weight P * (1 + N1 (rows P) (fun k => ent (lA q0) k j))))%Qc.
  Proof.
    intros HC Hj Hn. set (a := N1 (rows P) (fun k => ent (lA q0) k j)). assert (Pa : (0 <= a)%Qc) by apply N1_nonneg. rewrite (cn_red _ _ _ HC) by auto.
    assert (EA : forall i, i < rows P -> ent (lA P) i j = Sum (rows P) (fun l => M i l * ent (lA q0) l j)%Qc).
    { intros i Hi. pose proof (dir_solves P B q0 j nonsingular HC Hj Hn i Hi) as K. unfold lhs in K. rewrite (Sum_basis1 P B j) in K; auto; [|exact nonsingular|intros j' _ H1 H2; rewrite (dir_off P B q0 j nonsingular) by auto; ring].
      rewrite dir_k in K. rewrite (Sum_ext _ _ (fun l => - (M i l * ent (lA q0) l j))%Qc) in K by (intros l Hl; rewrite (dir_B P B q0 j nonsingular) by auto; unfold M; ring). rewrite Sum_opp in K. set (s := Sum _ _) in *. clearbody s. clear - K. qclra. }
    assert (EW : forall k, k < rows P -> (qabs (Sum (rows P) (fun i => W k i * ent (lA P) i j) - ent (lA q0) k j) <= e * a)%Qc).
    { intros k Hk. assert (E : (Sum (rows P) (fun i => W k i * ent (lA P) i j) - ent (lA q0) k j = Sum (rows P) (fun l => (Sum (rows P) (fun i => W k i * M i l) - delta k l) * ent (lA q0) l j))%Qc).
      { rewrite (Sum_ext _ (fun i => W k i * ent (lA P) i j)%Qc (fun i => Sum (rows P) (fun l => W k i * M i l * ent (lA q0) l j))%Qc) by (intros i Hi; rewrite EA by auto; rewrite <- Sum_scal; apply Sum_ext; intros; ring). rewrite Sum_swap.
        rewrite (Sum_ext _ (fun l => (Sum (rows P) (fun i => W k i * M i l) - delta k l) * ent (lA q0) l j)%Qc (fun l => Sum (rows P) (fun i => W k i * M i l * ent (lA q0) l j) - delta k l * ent (lA q0) l j)%Qc) by (intros; rewrite Sum_scalr; ring). rewrite Sum_sub, Sum_delta_l by auto. reflexivity. }
      rewrite E. apply Sum_err; auto. intros l Hl. apply (fa_W1 _ _ _ _ _ _ _ _ HF); auto. }
    set (cb k := at_ (lc P) (bk B k)).
    assert (E : (at_ (lc q) j - (at_ (lc P) j - Sum (rows P) (fun k => at_ (lc P) (bk B k) * ent (lA q0) k j)) =
      (at_ (lc q) j - (at_ (lc P) j - Sum (rows P) (fun i => y i * ent (lA P) i j))) - Sum (rows P) (fun i => (y i - Sum (rows P) (fun k => W k i * cb k)) * ent (lA P) i j) - Sum (rows P) (fun k => cb k * (Sum (rows P) (fun i => W k i * ent (lA P) i j) - ent (lA q0) k j)))%Qc).
    { rewrite (Sum_ext _ (fun i => (y i - Sum (rows P) (fun k => W k i * cb k)) * ent (lA P) i j)%Qc (fun i => y i * ent (lA P) i j - Sum (rows P) (fun k => W k i * cb k * ent (lA P) i j))%Qc) by (intros; rewrite Sum_scalr; ring). rewrite Sum_sub, (Sum_swap (rows P) (rows P) (fun i k => W k i * cb k * ent (lA P) i j)%Qc).
      rewrite (Sum_ext _ (fun k => cb k * (Sum (rows P) (fun i => W k i * ent (lA P) i j) - ent (lA q0) k j))%Qc (fun k => Sum (rows P) (fun i => W k i * cb k * ent (lA P) i j) - cb k * ent (lA q0) k j)%Qc).
      - rewrite Sum_sub. fold cb. change (fun k => at_ (lc P) (bk B k) * ent (lA q0) k j)%Qc with (fun k => cb k * ent (lA q0) k j)%Qc. ring.
      - intros k Hk. rewrite (Sum_ext _ (fun i => W k i * cb k * ent (lA P) i j)%Qc (fun i => cb k * (W k i * ent (lA P) i j))%Qc) by (intros; ring). rewrite Sum_scal. ring. }
    rewrite E. eapply Qcle_trans.
    - apply abs_le_sub; [apply abs_le_sub; [apply (fa_c _ _ _ _ _ _ _ _ HF); auto|]|].
      + apply (Sum_err _ _ _ e); auto. intros i Hi. now apply (fa_y _ _ _ _ _ _ _ _ HF).
      + apply (Sum_err_r (rows P) (fun k => Sum (rows P) (fun i => W k i * ent (lA P) i j) - ent (lA q0) k j)%Qc cb (e * a)); auto. now apply qmul_nonneg.
    - destruct (weight_ge P HP) as (_ & _ & _ & G). specialize (G j Hj). pose proof (part_basis e P B q x W V y HF (at_ (lc P))) as G2. fold cb in G2. set (c1 := N1 (rows P) cb) in *. set (c2 := N1 (cols P) (at_ (lc P))) in *. set (c3 := N1 (rows P) (fun i => ent (lA P) i j)) in *.
      assert (P3 : (0 <= c3)%Qc) by apply N1_nonneg. assert (P1 : (0 <= c1)%Qc) by apply N1_nonneg. replace (e + e * c3 + e * a * c1)%Qc with (e * (1 + c3 + c1 * a))%Qc by ring. rewrite !(Qcmult_comm e). apply qmul_le_r; auto.
      assert (T : ((1 + c1 + c3) * (1 + a) <= weight P * (1 + a))%Qc). { apply qmul_le_r; [set (w := weight P) in *; clearbody w c1 c2 c3; clear - G G2; qclra|clear - Pa; qclra]. }
      pose proof (qmul_nonneg c3 a P3 Pa) as Q. set (t := (weight P * (1 + a))%Qc) in *. replace ((1 + c1 + c3) * (1 + a))%Qc with (1 + c3 + c1 * a + c1 + a + c3 * a)%Qc in T by ring. set (u := (c1 * a)%Qc) in *. set (v := (c3 * a)%Qc) in *. clearbody t u v c1 c3 a. clear - T Q P1 Pa. qclra.
  Qed.
  Lemma entries_error q0 i j : canon P B q0 -> i < rows P -> j < cols P -> ~ In j B -> (qabs (ent (lA q) i j - ent (lA q0) i j) <= e * (1 + N1 (rows P) (fun k => ent (lA q0) k j)))%Qc.
  Proof.
    intros HC Hi Hj Hn. set (a := N1 (rows P) (fun k => ent (lA q0) k j)).
    assert (EA : forall i, i < rows P -> ent (lA P) i j = Sum (rows P) (fun l => M i l * ent (lA q0) l j)%Qc).
    { clear i Hi. intros i Hi. pose proof (dir_solves P B q0 j nonsingular HC Hj Hn i Hi) as K. unfold lhs in K. rewrite (Sum_basis1 P B j) in K; auto; [|exact nonsingular|intros j' _ H1 H2; rewrite (dir_off P B q0 j nonsingular) by auto; ring].
      rewrite dir_k in K. rewrite (Sum_ext _ _ (fun l => - (M i l * ent (lA q0) l j))%Qc) in K by (intros l Hl; rewrite (dir_B P B q0 j nonsingular) by auto; unfold M; ring). rewrite Sum_opp in K. set (s := Sum _ _) in *. clearbody s. clear - K. qclra. }
    assert (E : (Sum (rows P) (fun r => W i r * ent (lA P) r j) - ent (lA q0) i j = Sum (rows P) (fun l => (Sum (rows P) (fun r => W i r * M r l) - delta i l) * ent (lA q0) l j))%Qc).
    { rewrite (Sum_ext _ (fun r => W i r * ent (lA P) r j)%Qc (fun r => Sum (rows P) (fun l => W i r * M r l * ent (lA q0) l j))%Qc) by (intros r Hr; rewrite EA by auto; rewrite <- Sum_scal; apply Sum_ext; intros; ring). rewrite Sum_swap.
      rewrite (Sum_ext _ (fun l => (Sum (rows P) (fun r => W i r * M r l) - delta i l) * ent (lA q0) l j)%Qc (fun l => Sum (rows P) (fun r => W i r * M r l * ent (lA q0) l j) - delta i l * ent (lA q0) l j)%Qc) by (intros; rewrite Sum_scalr; ring). rewrite Sum_sub, Sum_delta_l by auto. reflexivity. }
    replace (ent (lA q) i j - ent (lA q0) i j)%Qc with ((ent (lA q) i j - Sum (rows P) (fun r => W i r * ent (lA P) r j)) + (Sum (rows P) (fun r => W i r * ent (lA P) r j) - ent (lA q0) i j))%Qc by ring. rewrite E.
    replace (e * (1 + a))%Qc with (e + e * a)%Qc by ring. apply abs_le_add; [now apply (fa_A _ _ _ _ _ _ _ _ HF)|]. apply Sum_err; auto. intros l Hl. now apply (fa_W1 _ _ _ _ _ _ _ _ HF).
  Qed.
  (** the direction of the entering column [j] *)
  Let ray j : nat -> Qc := dir P q B j.
  Lemma ray_rows j i : j < cols P -> ~ In j B -> i < rows P -> (qabs (lhs P i (ray j)) <= two * weight P * e)%Qc.
  Proof.
    intros Hj Hn Hi. unfold lhs. rewrite (Sum_basis1 P B j); auto; [|exact nonsingular|intros j' _ H1 H2; unfold ray; rewrite (dir_off P B q j nonsingular) by auto; ring].
    unfold ray. rewrite dir_k. rewrite (Sum_ext _ _ (fun l => - (M i l * ent (lA q) l j))%Qc) by (intros l Hl; rewrite (dir_B P B q j nonsingular) by auto; unfold M; ring). rewrite Sum_opp.
    set (wa l := Sum (rows P) (fun r => W l r * ent (lA P) r j)%Qc).
    assert (E : (ent (lA P) i j - Sum (rows P) (fun l => M i l * ent (lA q) l j) = - Sum (rows P) (fun r => (Sum (rows P) (fun l => M i l * W l r) - delta i r) * ent (lA P) r j) - Sum (rows P) (fun l => M i l * (ent (lA q) l j - wa l)))%Qc).
    { rewrite (Sum_ext _ (fun r => (Sum (rows P) (fun l => M i l * W l r) - delta i r) * ent (lA P) r j)%Qc (fun r => Sum (rows P) (fun l => M i l * W l r * ent (lA P) r j) - delta i r * ent (lA P) r j)%Qc) by (intros; rewrite Sum_scalr; ring). rewrite Sum_sub, Sum_delta_l by auto. rewrite Sum_swap.
      rewrite (Sum_ext _ (fun l => M i l * (ent (lA q) l j - wa l))%Qc (fun l => M i l * ent (lA q) l j - Sum (rows P) (fun r => M i l * W l r * ent (lA P) r j))%Qc); [rewrite Sum_sub; ring|]. intros l Hl. unfold wa. rewrite (Sum_ext _ (fun r => M i l * W l r * ent (lA P) r j)%Qc (fun r => M i l * (W l r * ent (lA P) r j))%Qc) by (intros; ring). rewrite Sum_scal. ring. }
    replace (ent (lA P) i j * 1 + - Sum (rows P) (fun l => M i l * ent (lA q) l j))%Qc with (ent (lA P) i j - Sum (rows P) (fun l => M i l * ent (lA q) l j))%Qc by ring. rewrite E. eapply Qcle_trans; [apply abs_le_sub|].
    - rewrite qabs_opp. apply (Sum_err (rows P) (fun r => Sum (rows P) (fun l => M i l * W l r) - delta i r)%Qc (fun r => ent (lA P) r j) e He). intros r Hr. now apply (fa_W2 _ _ _ _ _ _ _ _ HF).
    - apply (Sum_err_r (rows P) (fun l => ent (lA q) l j - wa l)%Qc (M i) e He). intros l Hl. now apply (fa_A _ _ _ _ _ _ _ _ HF).
    - destruct (weight_ge P HP) as (_ & _ & G1 & G2). specialize (G1 i Hi). specialize (G2 j Hj). pose proof (part_basis e P B q x W V y HF (ent (lA P) i)) as G3. fold (M i) in G3. change (fun k => ent (lA P) i (bk B k)) with (M i) in G3. pose proof (N1_nonneg (cols P) (at_ (lc P))) as G4.
      rewrite <- Qcmult_plus_distr_r. rewrite (Qcmult_comm e). apply qmul_le_r; auto. set (a := N1 (rows P) (fun r => ent (lA P) r j)) in *. set (b := N1 (rows P) (M i)) in *. set (c := N1 (cols P) (ent (lA P) i)) in *. set (d := N1 (cols P) (at_ (lc P))) in *. set (w := weight P) in *. clear - G1 G2 G3 G4. clearbody a b c d w. qclra.
  Qed.
  Lemma ray_value j : j < cols P -> ~ In j B -> (qabs (obj P (ray j) - at_ (lc q) j) <= weight P * e)%Qc.
  Proof.
    intros Hj Hn. unfold obj. rewrite (Sum_basis1 P B j); auto; [|exact nonsingular|intros j' _ H1 H2; unfold ray; rewrite (dir_off P B q j nonsingular) by auto; ring].
    unfold ray. rewrite dir_k. set (cb k := at_ (lc P) (bk B k)). rewrite (Sum_ext _ _ (fun l => - (cb l * ent (lA q) l j))%Qc) by (intros l Hl; rewrite (dir_B P B q j nonsingular) by auto; unfold cb; ring). rewrite Sum_opp.
    set (wa l := Sum (rows P) (fun r => W l r * ent (lA P) r j)%Qc).
    assert (E : (at_ (lc P) j * 1 + - Sum (rows P) (fun l => cb l * ent (lA q) l j) - at_ (lc q) j = Sum (rows P) (fun i => (y i - Sum (rows P) (fun k => W k i * cb k)) * ent (lA P) i j) - (at_ (lc q) j - (at_ (lc P) j - Sum (rows P) (fun i => y i * ent (lA P) i j))) - Sum (rows P) (fun l => cb l * (ent (lA q) l j - wa l)))%Qc).
    { rewrite (Sum_ext _ (fun i => (y i - Sum (rows P) (fun k => W k i * cb k)) * ent (lA P) i j)%Qc (fun i => y i * ent (lA P) i j - Sum (rows P) (fun k => W k i * cb k * ent (lA P) i j))%Qc) by (intros; rewrite Sum_scalr; ring). rewrite Sum_sub, (Sum_swap (rows P) (rows P) (fun i k => W k i * cb k * ent (lA P) i j)%Qc).
      rewrite (Sum_ext _ (fun l => cb l * (ent (lA q) l j - wa l))%Qc (fun l => cb l * ent (lA q) l j - Sum (rows P) (fun r => W l r * cb l * ent (lA P) r j))%Qc); [rewrite Sum_sub; ring|]. intros l Hl. unfold wa. rewrite (Sum_ext _ (fun r => W l r * cb l * ent (lA P) r j)%Qc (fun r => cb l * (W l r * ent (lA P) r j))%Qc) by (intros; ring). rewrite Sum_scal. ring. }
    rewrite E. eapply Qcle_trans; [apply abs_le_sub; [apply abs_le_sub|]|].
    - apply (Sum_err (rows P) _ (fun i => ent (lA P) i j) e He). intros i Hi. now apply (fa_y _ _ _ _ _ _ _ _ HF).
    - now apply (fa_c _ _ _ _ _ _ _ _ HF).
    - apply (Sum_err_r (rows P) (fun l => ent (lA q) l j - wa l)%Qc cb e He). intros l Hl. now apply (fa_A _ _ _ _ _ _ _ _ HF).
    - destruct (weight_ge P HP) as (_ & _ & _ & G2). specialize (G2 j Hj). pose proof (part_basis e P B q x W V y HF (at_ (lc P))) as G3. change (fun k => at_ (lc P) (bk B k)) with cb in G3.
      replace (e * N1 (rows P) (fun i => ent (lA P) i j) + e + e * N1 (rows P) cb)%Qc with ((N1 (rows P) (fun i => ent (lA P) i j) + 1 + N1 (rows P) cb) * e)%Qc by ring. apply qmul_le_r; auto. set (a := N1 (rows P) (fun r => ent (lA P) r j)) in *. set (b := N1 (rows P) cb) in *. set (d := N1 (cols P) (at_ (lc P))) in *. set (w := weight P) in *. clear - G2 G3. clearbody a b d w. qclra.
  Qed.
  Lemma ray_low j : j < cols P -> ~ In j B -> (forall i, i < rows P -> (ent (lA q) i j < tol_zero)%Qc) -> forall l, l < cols P -> (- tol_zero < ray j l)%Qc.
  Proof.
    intros Hj Hn HA l Hl. unfold ray. destruct (Nat.eq_dec l j) as [->|Hlj]; [rewrite dir_k; reflexivity|]. destruct (in_dec Nat.eq_dec l B) as [I|I]; [|rewrite (dir_off P B q j nonsingular) by auto; reflexivity].
    apply (In_nth _ _ 0) in I. destruct I as (k & Hk & <-). rewrite (fa_len _ _ _ _ _ _ _ _ HF) in Hk. fold (bk B k). rewrite (dir_B P B q j nonsingular) by auto. specialize (HA k Hk). set (a := ent (lA q) k j) in *. clear - HA. clearbody a. qclra.
  Qed.
End Exact.

(** a quotient of whole numbers that is positive is at least one over a bound on the denominator *)
Lemma quotient_ge K N D : isint N -> D <> 0%Qc -> (qabs D <= K)%Qc -> (0 < N / D -> 1 <= N / D * K)%Qc.
Proof.
  intros HN HD HM Hp. assert (E : (N / D * D)%Qc = N) by (field; auto). set (x := (N / D)%Qc) in *. clearbody x. apply qabs_le in HM. destruct HM as (M1 & M2).
  destruct (Q_dec (this D) 0) as [[Z|Z]|Z]; [| |exfalso; apply HD; now apply Qc_is_canon].
  - assert (Z' : (D < 0)%Qc) by exact Z. assert (N < 0)%Qc. { rewrite <- E. assert (0 < x * - D)%Qc by (apply qmul_pos; auto; clear - Z'; qclra). clear - H. qclra. } apply isint_neg in H; auto.
    assert (- D * x <= K * x)%Qc. { apply qmul_le_r; [clear - M1; qclra|clear - Hp; qclra]. } assert (- D * x = - N)%Qc by (rewrite <- E; ring). rewrite H1 in H0. rewrite (Qcmult_comm x). clear - H H0. qclra.
  - assert (Z' : (0 < D)%Qc) by exact Z. assert (0 < N)%Qc by (rewrite <- E; now apply qmul_pos). apply isint_pos in H; auto.
    assert (D * x <= K * x)%Qc. { apply qmul_le_r; auto. clear - Hp. qclra. } rewrite (Qcmult_comm D), E in H0. rewrite (Qcmult_comm x). clear - H H0. qclra.
Qed.

Section Whole.
  Variables (e : Qc) (p : lp) (B : list nat) (q : lp) (x : list Qc) (W V : nat -> nat -> Qc) (y : nat -> Qc) (K : Z).
  Let P := negate_rows p.
  Hypothesis Hp : wf p.
  Hypothesis HF : facts e P B q x W V y.
  Hypothesis He : (0 <= e)%Qc.
  Hypothesis HI : whole_numbers p.
  Hypothesis HM : minors_at_most K p.
  Hypothesis HK : (1 <= K <= 10 ^ 9)%Z.
  Let m := qz (Z.of_nat (rows p)).
  Hypothesis Hs : (qz 32 * e * qz K * weight p * (1 + m * qz K) <= 1)%Qc.
  Hypothesis T1 : forall j, j < cols p -> ~ In j B -> (at_ (lc q) j < tol_zero)%Qc.
  Hypothesis T2 : forall j, j < length x -> (- tol_zero < at_ x j)%Qc.
  Let HP : wf P := wf_negate p Hp.
  Let k := qz K.
  Let k1 : (1 <= k)%Qc. Proof. unfold k. change 1%Qc with (qz 1). apply qz_le. lia. Qed.
  Let w1 : (1 <= weight p)%Qc. Proof. apply (weight_ge p Hp). Qed.
  Let m0 : (0 <= m)%Qc. Proof. unfold m. change 0%Qc with (qz 0). apply qz_le. lia. Qed.
  Let mk1 : (1 <= 1 + m * k)%Qc.
  Proof. assert (0 <= m * k)%Qc by (apply qmul_nonneg; [exact m0|eapply Qcle_trans; [|exact k1]; discriminate]). set (a := (m * k)%Qc) in *. clear - H. clearbody a. qclra. Qed.
  Let mk2 : (m <= 1 + m * k)%Qc.
  Proof. assert (1 * m <= k * m)%Qc by (apply qmul_le_r; [exact k1|exact m0]). rewrite (Qcmult_comm k), Qcmult_1_l in H. set (a := (m * k)%Qc) in *. clear - H. clearbody a. qclra. Qed.
  (** the error of a reduced cost, times [K] *)
  Lemma error_small a : (0 <= a)%Qc -> (a <= k * (weight p * (1 + m * k)))%Qc -> (qz 32 * (e * a) <= 1)%Qc.
  Proof.
    intros Ha H. eapply Qcle_trans; [|exact Hs]. fold k. replace (qz 32 * (e * a))%Qc with (a * (qz 32 * e))%Qc by ring. replace (qz 32 * e * k * weight p * (1 + m * k))%Qc with ((k * (weight p * (1 + m * k))) * (qz 32 * e))%Qc by ring. apply qmul_le_r; auto. apply qmul_nonneg; auto. discriminate.
  Qed.
  Lemma one_le_mul a b : (1 <= a -> 0 <= b -> b <= a * b)%Qc.
  Proof. intros. rewrite <- (Qcmult_1_l b) at 1. now apply qmul_le_r. Qed.
  Let wmk : ((1 + m * k) <= weight p * (1 + m * k))%Qc. Proof. apply one_le_mul; [exact w1|]. eapply Qcle_trans; [|exact mk1]. discriminate. Qed.
  Let kmk0 : (0 <= k * (1 + m * k))%Qc. Proof. apply qmul_nonneg; [eapply Qcle_trans; [|exact k1]; discriminate|eapply Qcle_trans; [|exact mk1]; discriminate]. Qed.
  Let kwmk : (k * (1 + m * k) <= k * (weight p * (1 + m * k)))%Qc.
  Proof. rewrite !(Qcmult_comm k). apply qmul_le_r; [exact wmk|]. eapply Qcle_trans; [|exact k1]. discriminate. Qed.
  Lemma quarter_rows : (qz (Z.of_nat (rows P)) * e <= quarter)%Qc.
  Proof.
    unfold P. rewrite rows_neg by auto. fold m. assert (Q : (qz 32 * (e * m) <= 1)%Qc).
    { apply error_small; [exact m0|]. eapply Qcle_trans; [exact mk2|]. eapply Qcle_trans; [|exact kwmk]. apply one_le_mul; [exact k1|]. eapply Qcle_trans; [|exact mk1]. discriminate. }
    rewrite (Qcmult_comm m). set (a := (e * m)%Qc) in *. clear - Q. clearbody a. unfold qz, inject_Z in *. qclra.
  Qed.
  Let HB : basis P B := nonsingular e p B q x W V y HF He quarter_rows.
  Lemma ints : exists d, multipliers P d 1 /\ product d = 1%Z.
  Proof.
    destruct HI as (I1 & I2 & I3). exists (repeat 1%Z (rows P)). rewrite product_ones. split; auto.
    assert (S : forall i, isint (sg p i)) by (intros i; unfold sg; destruct (qlt _ _); [exists (-1)%Z|exists 1%Z]; apply Qc_is_canon; reflexivity).
    constructor; rewrite ?product_ones; try lia; try apply repeat_length; fold (rows P) (cols P); unfold P; rewrite ?rows_neg, ?cols_neg by auto.
    - intros z Hz. apply repeat_spec in Hz. subst z. reflexivity.
    - intros i j Hi Hj. rewrite nth_ones. change (qz 1) with 1%Qc. rewrite Qcmult_1_l. rewrite ent_neg by auto. apply isint_mul; auto. now apply ent_int.
    - intros i Hi. rewrite nth_ones. change (qz 1) with 1%Qc. rewrite Qcmult_1_l. rewrite lb_neg. apply isint_mul; auto. now apply at_int.
    - intros j Hj. change (qz 1) with 1%Qc. rewrite Qcmult_1_l. now apply at_int.
  Qed.
  Lemma mint s : length s = rows P -> (forall j, In j s -> j <= cols P) -> isint (minor P s).
  Proof. intros L H. destruct ints as (d & D & E). pose proof (minor_int P d 1 s HP D L H) as R. unfold scaled_minor in R. rewrite E in R. now rewrite Qcmult_1_l in R. Qed.
  Lemma mle s : length s = rows P -> (forall j, In j s -> j <= cols P) -> (qabs (minor P s) <= k)%Qc.
  Proof. unfold P. rewrite rows_neg, cols_neg by auto. intros L H. unfold minor. rewrite (minor_abs_neg p s Hp L H). now apply HM. Qed.
  Lemma column_ok i j : j <= cols P -> length (with_column B i j) = rows P /\ forall l, In l (with_column B i j) -> l <= cols P.
  Proof.
    intros Hj. rewrite length_with_column. split; [apply HB|]. intros l Hl. unfold with_column in Hl. apply in_map_iff in Hl. destruct Hl as (n & <- & Hn). apply in_seq in Hn. destruct (Nat.eqb n i); auto.
    apply Nat.lt_le_incl, (bs_lt _ _ HB), nth_In. lia.
  Qed.
  Let D := minor P B.
  Lemma D_nonzero : D <> 0%Qc. Proof. apply minor_nonzero; auto. Qed.
  Lemma B_le : forall j, In j B -> j <= cols P. Proof. intros j Hj. apply Nat.lt_le_incl, (bs_lt _ _ HB), Hj. Qed.
  Lemma quotient_abs i j : j <= cols P -> (qabs (minor P (with_column B i j) / D) <= k)%Qc.
  Proof.
    intros Hj. destruct (column_ok i j Hj) as (C1 & C2). pose proof (mle _ C1 C2) as M1. pose proof (mint B (bs_len _ _ HB) B_le) as M2. fold D in M2. apply int_nonzero in M2; [|exact D_nonzero].
    assert (A1 : (1 <= qabs D)%Qc) by (set (d := D) in *; clearbody d; clear - M2; unfold qabs; destruct (qlt_spec d 0); destruct M2; qclra).
    set (N := minor P (with_column B i j)) in *. assert (E : N = (N / D * D)%Qc) by (field; exact D_nonzero). rewrite E, qabs_mul in M1.
    eapply Qcle_trans; [|exact M1]. rewrite <- (Qcmult_1_r (qabs (N / D))) at 1. rewrite !(Qcmult_comm (qabs (N / D))). apply qmul_le_r; auto. apply QcTac.qabs_nonneg.
  Qed.
  Section Canonical.
    Variable q0 : lp.
    Hypothesis E0 : canonical P B = Ok q0.
    Hypothesis C0 : canon P B q0.
    Lemma tol_k : (tol_zero * k <= Q2Qc (1 # 10))%Qc.
    Proof. assert (Q : (k <= qz (10 ^ 9))%Qc) by (apply qz_le; lia). assert (Q2 : (k * tol_zero <= qz (10 ^ 9) * tol_zero)%Qc) by (apply qmul_le_r; auto; discriminate). rewrite Qcmult_comm. eapply Qcle_trans; [exact Q2|]. discriminate. Qed.
    Lemma costs_nonpos j : j < cols P -> (at_ (lc q0) j <= 0)%Qc.
    Proof.
      intros Hj. destruct (in_dec Nat.eq_dec j B) as [I|I].
      { apply (In_nth _ _ 0) in I. destruct I as (l & Hl & <-). rewrite (bs_len _ _ HB) in Hl. fold (bk B l). rewrite (cn_cost _ _ _ C0 l Hl). apply Qcle_refl. }
      destruct (Qclt_le_dec 0 (at_ (lc q0) j)) as [G|G]; auto. exfalso.
      assert (Q : exists N, isint N /\ at_ (lc q0) j = (N / D)%Qc).
      { exists (at_ (lc P) j * D - Sum (rows P) (fun l => at_ (lc P) (bk B l) * minor P (with_column B l j)))%Qc. destruct HI as (_ & _ & I3). assert (Ic : forall j, isint (at_ (lc P) j)) by (intros; now apply at_int). split.
        - apply isint_sub; [apply isint_mul; auto; apply mint; [apply HB|apply B_le]|]. apply Sum_int. intros l Hl. apply isint_mul; auto. destruct (column_ok l j (Nat.lt_le_incl _ _ Hj)). now apply mint.
        - rewrite (cn_red _ _ _ C0 j Hj). rewrite (Sum_ext _ (fun l => at_ (lc P) (bk B l) * ent (lA q0) l j)%Qc (fun l => at_ (lc P) (bk B l) * minor P (with_column B l j) * / D)%Qc).
          + rewrite Sum_scalr. field. exact D_nonzero.
          + intros l Hl. rewrite (canonical_ent P B q0 HP HB E0 l j Hl Hj). fold D. unfold Qcdiv. ring. }
      destruct Q as (N & IN & EN). assert (R : (1 <= at_ (lc q0) j * k)%Qc). { rewrite EN. apply (quotient_ge k N D IN D_nonzero); [apply mle; [apply HB|apply B_le]|]. now rewrite <- EN. }
      pose proof (costs_error e p B q x W V y Hp HF He quarter_rows q0 j C0 Hj I) as CE. apply qabs_le in CE. destruct CE as (CE & _). specialize (T1 j Hj I). fold P in CE. assert (WE : weight P = weight p) by (now apply weight_neg). rewrite WE in CE.
      assert (A : (N1 (rows P) (fun l => ent (lA q0) l j) <= m * k)%Qc).
      { replace m with (qz (Z.of_nat (rows P))) by (unfold m, P; now rewrite rows_neg). apply N1_le. intros l Hl. rewrite (canonical_ent P B q0 HP HB E0 l j Hl Hj). apply quotient_abs. lia. }
      assert (A2 : (e * (weight p * (1 + N1 (rows P) (fun l => ent (lA q0) l j))) <= e * (weight p * (1 + m * k)))%Qc).
      { rewrite !(Qcmult_comm e). apply qmul_le_r; auto. rewrite !(Qcmult_comm (weight p)). apply qmul_le_r; [|eapply Qcle_trans; [|exact w1]; discriminate]. clear - A. set (n1 := N1 _ _) in *. set (b := (m * k)%Qc) in *. clearbody n1 b. qclra. }
      set (n1 := (e * (weight p * (1 + N1 (rows P) (fun l => ent (lA q0) l j))))%Qc) in *. clearbody n1. clear A.
      assert (S : (at_ (lc q0) j <= tol_zero + e * (weight p * (1 + m * k)))%Qc). { set (a := at_ (lc q) j) in *. set (b := at_ (lc q0) j) in *. set (d := (e * (weight p * (1 + m * k)))%Qc) in *. clear - CE A2 T1. clearbody a b d. qclra. }
      assert (S2 : (at_ (lc q0) j * k <= (tol_zero + e * (weight p * (1 + m * k))) * k)%Qc) by (apply qmul_le_r; auto; eapply Qcle_trans; [|exact k1]; discriminate).
      assert (S3 : (qz 32 * (e * (k * (weight p * (1 + m * k)))) <= 1)%Qc) by (apply error_small; [eapply Qcle_trans; [exact kmk0|exact kwmk]|apply Qcle_refl]).
      replace ((tol_zero + e * (weight p * (1 + m * k))) * k)%Qc with (tol_zero * k + e * (k * (weight p * (1 + m * k))))%Qc in S2 by ring. pose proof tol_k as TK.
      set (a := (e * (k * (weight p * (1 + m * k))))%Qc) in *. set (t := (tol_zero * k)%Qc) in *. set (b := (at_ (lc q0) j * k)%Qc) in *. clear - R S2 S3 TK. clearbody a t b. unfold qz, inject_Z in *. qclra.
    Qed.
    Variable f : nat -> Qc.
    Hypothesis Hf : bsol P B f.
    Lemma f_at l : l < rows P -> f (bk B l) = (minor P (with_column B l (cols P)) / D)%Qc.
    Proof. intros Hl. rewrite (bsol_at P B q0 HB C0 f Hf l Hl). now apply canonical_b. Qed.
    Let X := N1 (cols P) (at_ x).
    Lemma X_le : (X + 1 <= two * (1 + m * k))%Qc.
    Proof.
      assert (X0 : (0 <= X)%Qc) by apply N1_nonneg. unfold X. rewrite <- (X_basis e P B q x W V y HF).
      assert (Q : (N1 (rows P) (fun l => at_ x (bk B l)) <= qz (Z.of_nat (rows P)) * (k + four * (e * (X + 1))))%Qc).
      { apply N1_le. intros l Hl. pose proof (vertex e p B q x W V y HF He quarter_rows f Hf (bk B l) (bk_lt P B l HB Hl)) as VX. fold P X in VX. pose proof (quotient_abs l (cols P) (Nat.le_refl _)) as QA. rewrite <- (f_at l Hl) in QA.
        replace (at_ x (bk B l)) with (f (bk B l) + (at_ x (bk B l) - f (bk B l)))%Qc by ring. now apply abs_le_add. }
      pose proof quarter_rows as QR. rewrite (X_basis e P B q x W V y HF) in Q |- *. fold X in Q |- *. unfold P in Q, QR. rewrite rows_neg in Q, QR by auto. fold m in Q, QR.
      assert (Q32 : (qz 32 * (e * m) <= 1)%Qc). { apply error_small; [exact m0|]. eapply Qcle_trans; [exact mk2|]. eapply Qcle_trans; [|exact kwmk]. apply one_le_mul; [exact k1|]. eapply Qcle_trans; [|exact mk1]. discriminate. }
      assert (Q33 : ((qz 32 * (e * m)) * (X + 1) <= 1 * (X + 1))%Qc) by (apply qmul_le_r; auto; set (Y := X) in *; clearbody Y; clear - X0; qclra).
      replace (m * (k + four * (e * (X + 1))))%Qc with (m * k + four * ((e * m) * (X + 1)))%Qc in Q by ring. replace (qz 32 * (e * m) * (X + 1))%Qc with (qz 32 * ((e * m) * (X + 1)))%Qc in Q33 by ring. set (a := (m * k)%Qc) in *. set (b := (e * m * (X + 1))%Qc) in *. set (Y := X) in *. clear - Q Q33 X0. clearbody a b Y. unfold qz, inject_Z in *. qclra.
    Qed.
    Lemma close j : j < cols P -> (qabs (at_ x j - f j) <= qz 8 * e * (1 + m * k))%Qc.
    Proof.
      intros Hj. eapply Qcle_trans; [apply (vertex e p B q x W V y HF He quarter_rows f Hf j Hj)|]. fold P X. pose proof X_le as XL. assert (Q : ((X + 1) * (four * e) <= two * (1 + m * k) * (four * e))%Qc) by (apply qmul_le_r; auto; apply qmul_nonneg; auto; discriminate).
      replace (four * (e * (X + 1)))%Qc with ((X + 1) * (four * e))%Qc by ring. replace (qz 8) with (two * four)%Qc by (apply Qc_is_canon; reflexivity). replace (two * four * e * (1 + m * k))%Qc with (two * (1 + m * k) * (four * e))%Qc by ring. exact Q.
    Qed.
    Lemma close_quarter j : j < cols P -> (qabs (at_ x j - f j) * k <= quarter)%Qc.
    Proof.
      intros Hj. pose proof (close j Hj) as C. assert (Q : (qabs (at_ x j - f j) * k <= qz 8 * e * (1 + m * k) * k)%Qc) by (apply qmul_le_r; auto; eapply Qcle_trans; [|exact k1]; discriminate). eapply Qcle_trans; [exact Q|].
      pose proof (error_small (k * (1 + m * k)) kmk0 kwmk) as S. replace (qz 8 * e * (1 + m * k) * k)%Qc with (qz 8 * (e * (k * (1 + m * k))))%Qc by ring. set (a := (e * (k * (1 + m * k)))%Qc) in *. clear - S. clearbody a. unfold qz, inject_Z in *. qclra.
    Qed.
    Lemma f_nonneg j : j < cols P -> (0 <= f j)%Qc.
    Proof.
      intros Hj. destruct (in_dec Nat.eq_dec j B) as [I|I]; [|rewrite (proj2 Hf j Hj I); apply Qcle_refl]. destruct (Qclt_le_dec (f j) 0) as [G|G]; auto. exfalso.
      pose proof (close_quarter j Hj) as C. apply (In_nth _ _ 0) in I. destruct I as (l & Hl & El). rewrite (bs_len _ _ HB) in Hl. fold (bk B l) in El. subst j.
      assert (R : (1 <= (- f (bk B l)) * k)%Qc).
      { rewrite f_at in * by auto. destruct (column_ok l (cols P) (Nat.le_refl _)) as (C1 & C2). replace (- (minor P (with_column B l (cols P)) / D))%Qc with ((- minor P (with_column B l (cols P))) / D)%Qc by (field; exact D_nonzero).
        apply (quotient_ge k _ D); [apply isint_opp; now apply mint|exact D_nonzero|apply mle; [apply HB|apply B_le]|]. replace ((- minor P (with_column B l (cols P))) / D)%Qc with (- (minor P (with_column B l (cols P)) / D))%Qc by (field; exact D_nonzero). set (a := (minor P _ / D)%Qc) in *. clear - G. clearbody a. qclra. }
      assert (T : (- tol_zero < at_ x (bk B l))%Qc) by (apply T2; destruct (fa_x _ _ _ _ _ _ _ _ HF) as (-> & _); exact Hj).
      set (fl := f (bk B l)) in *. set (xl := at_ x (bk B l)) in *. assert (U : ((- fl) * k <= (tol_zero + qabs (xl - fl)) * k)%Qc).
      { apply qmul_le_r; [|eapply Qcle_trans; [|exact k1]; discriminate]. assert (Q : (qabs (xl - fl) <= qabs (xl - fl))%Qc) by apply Qcle_refl. apply qabs_le in Q. destruct Q as (_ & Q). set (t := qabs (xl - fl)) in *. clear - T Q. clearbody fl xl t. qclra. }
      rewrite Qcmult_plus_distr_l in U. pose proof tol_k as TK. set (a := (qabs (xl - fl) * k)%Qc) in *. set (b := (tol_zero * k)%Qc) in *. set (d := (- fl * k)%Qc) in *. clear - U TK C R. clearbody a b d. qclra.
    Qed.
  End Canonical.
  (** the reported basis is optimal and the reported point is near its basic solution *)
  Lemma right_basis : exists x0, length x0 = cols P /\ bsol P B (at_ x0) /\ (forall j, j < cols P -> (0 <= at_ x0 j)%Qc) /\
    (forall f, solves 1 P f -> (forall j, j < cols P -> (0 <= f j)%Qc) -> (obj P f <= obj P (at_ x0))%Qc) /\
    (forall j, j < cols P -> (qabs (at_ x j - at_ x0 j) <= qz 8 * e * (1 + m * k))%Qc) /\
    (forall j, j < cols P -> (qabs (at_ x j - at_ x0 j) * k <= quarter)%Qc) /\
    (K = 1%Z -> forall j, j < cols P -> isint (at_ x0 j)).
  Proof.
    destruct (basis_canon P B HP HB) as (q0 & E0 & C0). destruct (basic_solution_ok P B HP HB) as (x0 & _ & L0 & S0). exists x0. split; auto. split; auto. split; [now apply (f_nonneg q0)|]. split; [|split; [now apply (close q0)|split; [now apply (close_quarter q0)|]]].
    - intros f Sf Nf. pose proof (cn_obj _ _ _ C0 1%Qc f Sf) as O. pose proof (obj_bsol P B q0 HB C0 (at_ x0) S0) as O2.
      assert (Z : (obj q0 f <= 0)%Qc). { unfold obj. rewrite <- (Sum_zero (cols q0)). apply Sum_le. rewrite (cn_cols _ _ _ C0). intros j Hj. rewrite <- (Qcmult_0_l (f j)). apply qmul_le_r; [now apply (costs_nonpos q0)|auto]. }
      rewrite !Qcmult_1_l in O. set (a := obj P f) in *. set (b := obj P (at_ x0)) in *. set (c := obj q0 f) in *. clear - O O2 Z. clearbody a b c. qclra.
    - intros EK j Hj. destruct (in_dec Nat.eq_dec j B) as [I|I]; [|rewrite (proj2 S0 j Hj I); apply isint_0]. apply (In_nth _ _ 0) in I. destruct I as (l & Hl & <-). rewrite (bs_len _ _ HB) in Hl. fold (bk B l). rewrite (f_at q0 E0 C0 (at_ x0) S0 l Hl).
      pose proof (mint B (bs_len _ _ HB) B_le) as DI. fold D in DI. pose proof (mle B (bs_len _ _ HB) B_le) as DL. fold D in DL. unfold k in DL. rewrite EK in DL. apply qabs_le in DL. destruct (column_ok l (cols P) (Nat.le_refl _)) as (C1 & C2). pose proof (mint _ C1 C2) as NI.
      set (N := minor P (with_column B l (cols P))) in *. change (qz 1) with 1%Qc in DL. destruct DL as (D1 & D2). apply int_nonzero in DI; [|exact D_nonzero]. destruct DI as [Z|Z].
      + assert (ED : D = 1%Qc) by (apply Qcle_antisym; auto). rewrite ED. replace (N / 1)%Qc with N by (field; discriminate). exact NI.
      + assert (ED : D = (- (1))%Qc) by (apply Qcle_antisym; auto). rewrite ED. replace (N / - (1))%Qc with (- N)%Qc by (field; discriminate). now apply isint_opp.
  Qed.
  (** a column whose rounded reduced cost is positive and whose rounded entries are not *)
  Lemma right_ray j : (e * (weight p * (1 + m * k)) < tol_zero)%Qc -> j < cols P -> ~ In j B -> (tol_zero <= at_ (lc q) j)%Qc -> (forall i, i < rows P -> (ent (lA q) i j < tol_zero)%Qc) ->
    exists d, length d = cols P /\ solves 0 P (at_ d) /\ (forall l, l < cols P -> (0 <= at_ d l)%Qc) /\ (0 < obj P (at_ d))%Qc.
  Proof.
    intros He2 Hj Hn Hc HA. destruct (basis_canon P B HP HB) as (q0 & E0 & C0).
    assert (A : (N1 (rows P) (fun l => ent (lA q0) l j) <= m * k)%Qc).
    { replace m with (qz (Z.of_nat (rows P))) by (unfold m, P; now rewrite rows_neg). apply N1_le. intros l Hl. rewrite (canonical_ent P B q0 HP HB E0 l j Hl Hj). apply quotient_abs. lia. }
    assert (A1 : (1 + N1 (rows P) (fun l => ent (lA q0) l j) <= 1 + m * k)%Qc). { clear - A. set (n1 := N1 _ _) in *. set (b := (m * k)%Qc) in *. clearbody n1 b. qclra. }
    assert (C : (0 < at_ (lc q0) j)%Qc).
    { pose proof (costs_error e p B q x W V y Hp HF He quarter_rows q0 j C0 Hj Hn) as CE. apply qabs_le in CE. destruct CE as (_ & CE). fold P in CE. assert (WE : weight P = weight p) by (now apply weight_neg). rewrite WE in CE.
      assert (A2 : (e * (weight p * (1 + N1 (rows P) (fun l => ent (lA q0) l j))) <= e * (weight p * (1 + m * k)))%Qc).
      { rewrite !(Qcmult_comm e). apply qmul_le_r; auto. rewrite !(Qcmult_comm (weight p)). apply qmul_le_r; [exact A1|eapply Qcle_trans; [|exact w1]; discriminate]. }
      set (n1 := (e * (weight p * (1 + N1 (rows P) (fun l => ent (lA q0) l j))))%Qc) in *. set (a := at_ (lc q) j) in *. set (b := at_ (lc q0) j) in *. set (d := (e * (weight p * (1 + m * k)))%Qc) in *. clear - CE A2 Hc He2. clearbody n1 a b d. qclra. }
    assert (N : forall i, i < rows P -> (ent (lA q0) i j <= 0)%Qc).
    { intros i Hi. destruct (Qclt_le_dec 0 (ent (lA q0) i j)) as [G|G]; auto. exfalso. specialize (HA i Hi).
      pose proof (entries_error e p B q x W V y HF He quarter_rows q0 i j C0 Hi Hj Hn) as EE. apply qabs_le in EE. destruct EE as (EE & _). fold P in EE.
      assert (R : (1 <= ent (lA q0) i j * k)%Qc). { pose proof (canonical_ent P B q0 HP HB E0 i j Hi Hj) as EQ. rewrite EQ in G |- *. destruct (column_ok i j (Nat.lt_le_incl _ _ Hj)) as (C1 & C2). apply (quotient_ge k _ D); auto; [now apply mint|exact D_nonzero|apply mle; [apply HB|apply B_le]]. }
      assert (A2 : (e * (1 + N1 (rows P) (fun l => ent (lA q0) l j)) <= e * (1 + m * k))%Qc) by (rewrite !(Qcmult_comm e); apply qmul_le_r; auto).
      assert (S : (ent (lA q0) i j <= tol_zero + e * (1 + m * k))%Qc). { set (n1 := (e * (1 + N1 (rows P) (fun l => ent (lA q0) l j)))%Qc) in *. set (a := ent (lA q) i j) in *. set (b := ent (lA q0) i j) in *. set (d := (e * (1 + m * k))%Qc) in *. clear - EE A2 HA. clearbody n1 a b d. qclra. }
      assert (S2 : (ent (lA q0) i j * k <= (tol_zero + e * (1 + m * k)) * k)%Qc) by (apply qmul_le_r; auto; eapply Qcle_trans; [|exact k1]; discriminate).
      pose proof (error_small (k * (1 + m * k)) kmk0 kwmk) as S3. replace ((tol_zero + e * (1 + m * k)) * k)%Qc with (tol_zero * k + e * (k * (1 + m * k)))%Qc in S2 by ring. pose proof tol_k as TK.
      set (a := (e * (k * (1 + m * k)))%Qc) in *. set (t := (tol_zero * k)%Qc) in *. set (b := (ent (lA q0) i j * k)%Qc) in *. clear - R S2 S3 TK. clearbody a t b. unfold qz, inject_Z in *. qclra. }
    exists (mkvec (cols P) (dir P q0 B j)). split; [apply length_mkvec|].
    assert (AT : forall l, l < cols P -> at_ (mkvec (cols P) (dir P q0 B j)) l = dir P q0 B j l) by (intros l Hl; now apply at_mkvec).
    split; [|split].
    - intros i Hi. rewrite <- (dir_solves P B q0 j HB C0 Hj Hn i Hi). unfold lhs. apply Sum_ext. intros l Hl. now rewrite AT.
    - intros l Hl. rewrite AT by auto. destruct (Nat.eq_dec l j) as [->|Hlj]; [rewrite dir_k; discriminate|]. destruct (in_dec Nat.eq_dec l B) as [I|I]; [|rewrite (dir_off P B q0 j HB) by auto; apply Qcle_refl].
      destruct (In_bk P B l HB I) as (i & Hi & <-). rewrite (dir_B P B q0 j HB) by auto. specialize (N i Hi). set (a := ent (lA q0) i j) in *. clear - N. clearbody a. qclra.
    - assert (OB : obj P (at_ (mkvec (cols P) (dir P q0 B j))) = at_ (lc q0) j); [|now rewrite OB]. rewrite (cn_red _ _ _ C0 j Hj). unfold obj. rewrite (Sum_ext _ _ (fun l => at_ (lc P) l * dir P q0 B j l)%Qc) by (intros l Hl; now rewrite AT).
      rewrite (Sum_basis1 P B j); auto; [|intros j' _ H1 H2; rewrite (dir_off P B q0 j HB) by auto; ring]. rewrite dir_k, (Sum_ext _ _ (fun l => - (at_ (lc P) (bk B l) * ent (lA q0) l j))%Qc) by (intros l Hl; rewrite (dir_B P B q0 j HB) by auto; ring). rewrite Sum_opp. ring.
  Qed.
End Whole.
