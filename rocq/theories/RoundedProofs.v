(** Error analysis of one iteration of the simplex method with rounding. *)
From Coq Require Import String List Bool Arith ZArith QArith Qcanon Lia Sorted Permutation.
From Verif Require Import Py QcTac QSum QInt ComparatorModel MatModel DetTheory MatTheory LinearModel LinearSpec LinearProofs SefProofs LinearInv DualProofs BasisProofs BlandProofs SimplexProofs SmallProofs LinearProps SimplexProps RoundedModel RoundedSpec.
Import ListNotations.
Open Scope nat_scope.
Open Scope string_scope.
Open Scope list_scope.

Definition N1 (m : nat) (v : nat -> Qc) : Qc := Sum m (fun i => qabs (v i)).
Lemma N1_nonneg m v : (0 <= N1 m v)%Qc.
Proof. apply Sum_nonneg. intros. apply QcTac.qabs_nonneg. Qed.
Lemma abs_Sum n (f : nat -> Qc) : (qabs (Sum n f) <= Sum n (fun i => qabs (f i)))%Qc.
Proof. induction n as [|n IH]; [discriminate|]. rewrite !Sum_S. eapply Qcle_trans; [apply qabs_add|]. clear - IH. qclra. Qed.
Lemma Sum_err m (f v : nat -> Qc) e : (0 <= e)%Qc -> (forall i, i < m -> (qabs (f i) <= e)%Qc) -> (qabs (Sum m (fun i => f i * v i)) <= e * N1 m v)%Qc.
Proof.
  intros He H. eapply Qcle_trans; [apply abs_Sum|]. unfold N1. rewrite <- Sum_scal. apply Sum_le. intros i Hi. rewrite qabs_mul. apply qmul_le_r; auto. apply QcTac.qabs_nonneg.
Qed.
Lemma Sum_err_r m (f v : nat -> Qc) e : (0 <= e)%Qc -> (forall i, i < m -> (qabs (f i) <= e)%Qc) -> (qabs (Sum m (fun i => v i * f i)) <= e * N1 m v)%Qc.
Proof. intros He H. rewrite (Sum_ext m _ (fun i => f i * v i)%Qc) by (intros; ring). now apply Sum_err. Qed.
Lemma Sum_const m a : Sum m (fun _ => a) = (qz (Z.of_nat m) * a)%Qc.
Proof.
  induction m as [|m IH]; [rewrite Sum_0; change (qz (Z.of_nat 0)) with 0%Qc; ring|]. rewrite Sum_S, IH. rewrite Nat2Z.inj_succ. unfold Z.succ. rewrite qz_add. change (qz 1) with 1%Qc. ring.
Qed.
Lemma N1_le m v a : (forall i, i < m -> (qabs (v i) <= a)%Qc) -> (N1 m v <= qz (Z.of_nat m) * a)%Qc.
Proof. intros H. rewrite <- Sum_const. now apply Sum_le. Qed.
Lemma within_nonneg e u v : within e u v -> (0 <= e)%Qc.
Proof. intros H. eapply Qcle_trans; [apply QcTac.qabs_nonneg|exact H]. Qed.
Lemma argmax_abs m (v : nat -> Qc) : 0 < m -> exists j, j < m /\ forall i, i < m -> (qabs (v i) <= qabs (v j))%Qc.
Proof.
  induction m as [|m IH]; [lia|]. intros _. destruct m as [|m].
  - exists 0. split; [lia|]. intros i Hi. replace i with 0 by lia. apply Qcle_refl.
  - destruct IH as (j & Hj & H); [lia|]. destruct (Qclt_le_dec (qabs (v j)) (qabs (v (S m)))) as [K|K].
    + exists (S m). split; [lia|]. intros i Hi. destruct (Nat.eq_dec i (S m)) as [->|]; [apply Qcle_refl|]. apply Qclt_le_weak. eapply Qcle_lt_trans; [|exact K]. apply H. lia.
    + exists j. split; [lia|]. intros i Hi. destruct (Nat.eq_dec i (S m)) as [->|]; auto. apply H. lia.
Qed.
Lemma N1_delta m i : i < m -> N1 m (fun k => delta i k) = 1%Qc.
Proof.
  intros Hi. unfold N1. rewrite (Sum_single m i); auto; [now rewrite delta_eq|]. intros j Hj Hn. rewrite delta_ne by auto. reflexivity.
Qed.
Lemma N1_add m (u v : nat -> Qc) : (N1 m (fun i => u i + v i)%Qc <= N1 m u + N1 m v)%Qc.
Proof. unfold N1. rewrite <- Sum_add. apply Sum_le. intros. apply qabs_add. Qed.
Lemma N1_ext m (u v : nat -> Qc) : (forall i, i < m -> u i = v i) -> N1 m u = N1 m v.
Proof. intros H. apply Sum_ext. intros i Hi. now rewrite H. Qed.
Lemma abs2 a b : (qabs (a - b) <= qabs a + qabs b)%Qc.
Proof. replace (a - b)%Qc with (a + - b)%Qc by ring. rewrite <- (qabs_opp b). apply qabs_add. Qed.
Lemma abs_le_add a b s t : (qabs a <= s)%Qc -> (qabs b <= t)%Qc -> (qabs (a + b) <= s + t)%Qc.
Proof. intros. pose proof (qabs_add a b). qclra. Qed.
Lemma abs_le_sub a b s t : (qabs a <= s)%Qc -> (qabs b <= t)%Qc -> (qabs (a - b) <= s + t)%Qc.
Proof. intros. pose proof (abs2 a b). qclra. Qed.

Notation quarter := (Q2Qc (1 # 4)).
Notation two := (1 + 1)%Qc.
Notation three := (1 + 1 + 1)%Qc.
Notation four := (1 + 1 + 1 + 1)%Qc.
Section Errors.
  Variables (m : nat) (e : Qc) (M W Ap V : nat -> nat -> Qc) (b bp x : nat -> Qc).
  Hypothesis He : (0 <= e)%Qc.
  Hypothesis Hm : (qz (Z.of_nat m) * e <= quarter)%Qc.
  Hypothesis H1 : forall i j, i < m -> j < m -> within e (Sum m (fun k => W i k * M k j)%Qc) (delta i j).
  Hypothesis H2 : forall i j, i < m -> j < m -> within e (Sum m (fun k => M i k * W k j)%Qc) (delta i j).
  Hypothesis H3 : forall i j, i < m -> j < m -> within e (Ap i j) (Sum m (fun k => W i k * M k j)%Qc).
  Hypothesis H4 : forall i, i < m -> within e (bp i) (Sum m (fun k => W i k * b k)%Qc).
  Hypothesis H5 : forall i j, i < m -> j < m -> within e (Sum m (fun k => Ap i k * V k j)%Qc) (delta i j).
  Hypothesis H6 : forall i, i < m -> within e (x i) (Sum m (fun k => V i k * bp k)%Qc).
  Let X := N1 m x.

  Lemma F_small i j : i < m -> j < m -> (qabs (Ap i j - delta i j) <= e + e)%Qc.
  Proof.
    intros Hi Hj. replace (Ap i j - delta i j)%Qc with ((Ap i j - Sum m (fun k => W i k * M k j)%Qc) + (Sum m (fun k => W i k * M k j)%Qc - delta i j))%Qc by ring.
    apply abs_le_add; [now apply H3|now apply H1].
  Qed.
  Lemma Ap_row i : i < m -> (N1 m (Ap i) <= 1 + Q2Qc (1 # 2))%Qc.
  Proof.
    intros Hi. rewrite (N1_ext m (Ap i) (fun k => delta i k + (Ap i k - delta i k))%Qc) by (intros; ring). eapply Qcle_trans; [apply N1_add|]. rewrite N1_delta by auto.
    pose proof (N1_le m (fun k => Ap i k - delta i k)%Qc (e + e) ltac:(intros; now apply F_small)) as K. replace (qz (Z.of_nat m) * (e + e))%Qc with (qz (Z.of_nat m) * e + qz (Z.of_nat m) * e)%Qc in K by ring.
    set (a := N1 m _) in *. set (c := (qz (Z.of_nat m) * e)%Qc) in *. clearbody a c. clear - K Hm. qclra.
  Qed.
  Lemma s_small i : i < m -> (qabs (Sum m (fun k => Ap i k * x k) - bp i) <= e * N1 m bp + e * (1 + Q2Qc (1 # 2)))%Qc.
  Proof.
    intros Hi.
    assert (E : (Sum m (fun k => Ap i k * x k) - bp i = Sum m (fun j => (Sum m (fun k => Ap i k * V k j) - delta i j) * bp j) + Sum m (fun k => Ap i k * (x k - Sum m (fun j => V k j * bp j))))%Qc).
    { rewrite (Sum_ext m (fun j => (Sum m (fun k => Ap i k * V k j) - delta i j) * bp j)%Qc (fun j => Sum m (fun k => Ap i k * V k j) * bp j - delta i j * bp j)%Qc) by (intros; ring). rewrite Sum_sub, Sum_delta_l by auto.
      rewrite (Sum_ext m (fun k => Ap i k * (x k - Sum m (fun j => V k j * bp j)))%Qc (fun k => Ap i k * x k - Ap i k * Sum m (fun j => V k j * bp j))%Qc) by (intros; ring). rewrite Sum_sub.
      rewrite (Sum_ext m (fun j => Sum m (fun k => Ap i k * V k j) * bp j)%Qc (fun j => Sum m (fun k => Ap i k * V k j * bp j)%Qc)) by (intros; now rewrite Sum_scalr).
      rewrite Sum_swap. rewrite (Sum_ext m (fun k => Ap i k * Sum m (fun j => V k j * bp j))%Qc (fun k => Sum m (fun j => Ap i k * V k j * bp j))%Qc); [ring|].
      intros k Hk. rewrite <- Sum_scal. apply Sum_ext. intros. ring. }
    rewrite E. apply abs_le_add.
    - apply Sum_err; auto. intros j Hj. now apply H5.
    - eapply Qcle_trans; [apply (Sum_err_r m (fun k => x k - Sum m (fun j => V k j * bp j))%Qc (Ap i) e); auto|]. rewrite !(Qcmult_comm e). apply qmul_le_r; auto. now apply Ap_row.
  Qed.
  Lemma diff_small0 i : i < m -> (qabs (x i - bp i) <= e * N1 m bp + e * (1 + Q2Qc (1 # 2)) + (e + e) * X)%Qc.
  Proof.
    intros Hi. replace (x i - bp i)%Qc with ((Sum m (fun k => Ap i k * x k) - bp i) - Sum m (fun k => (Ap i k - delta i k) * x k))%Qc.
    - apply abs_le_sub; [now apply s_small|]. apply Sum_err; [clear - He; qclra|]. intros. now apply F_small.
    - rewrite (Sum_ext m (fun k => (Ap i k - delta i k) * x k)%Qc (fun k => Ap i k * x k - delta i k * x k)%Qc) by (intros; ring). rewrite Sum_sub, Sum_delta_l by auto. ring.
  Qed.
  Lemma bp_norm : (N1 m bp <= two * X + Q2Qc (1 # 2))%Qc.
  Proof.
    assert (K : (N1 m bp <= X + qz (Z.of_nat m) * (e * N1 m bp + e * (1 + Q2Qc (1 # 2)) + (e + e) * X))%Qc).
    { rewrite (N1_ext m bp (fun i => x i + - (x i - bp i))%Qc) at 1 by (intros; ring). eapply Qcle_trans; [apply N1_add|].
      assert (N1 m (fun i => - (x i - bp i))%Qc <= qz (Z.of_nat m) * (e * N1 m bp + e * (1 + Q2Qc (1 # 2)) + (e + e) * X))%Qc by (apply N1_le; intros i Hi; rewrite qabs_opp; now apply diff_small0).
      unfold X in *. set (a := N1 m x) in *. set (c := N1 m (fun i => - (x i - bp i))%Qc) in *. clear - H. qclra. }
    assert (PX : (0 <= X)%Qc) by apply N1_nonneg. pose proof (N1_nonneg m bp) as PB.
    replace (qz (Z.of_nat m) * (e * N1 m bp + e * (1 + Q2Qc (1 # 2)) + (e + e) * X))%Qc with ((qz (Z.of_nat m) * e) * (N1 m bp + (1 + Q2Qc (1 # 2)) + two * X))%Qc in K by ring.
    assert (K2 : ((qz (Z.of_nat m) * e) * (N1 m bp + (1 + Q2Qc (1 # 2)) + two * X) <= quarter * (N1 m bp + (1 + Q2Qc (1 # 2)) + two * X))%Qc).
    { apply qmul_le_r; auto. clear - PX PB. set (B := N1 m bp) in *. set (Y := X) in *. clearbody B Y. qclra. }
    set (B := N1 m bp) in *. set (Y := X) in *. set (t := ((qz (Z.of_nat m) * e) * (B + (1 + Q2Qc (1 # 2)) + two * Y))%Qc) in *. clearbody B Y t. clear - K K2 PX PB. qclra.
  Qed.
  Lemma s_bound i : i < m -> (qabs (Sum m (fun k => Ap i k * x k) - bp i) <= e * (two * X + two))%Qc.
  Proof.
    intros Hi. eapply Qcle_trans; [now apply s_small|]. rewrite <- Qcmult_plus_distr_r. rewrite !(Qcmult_comm e). apply qmul_le_r; auto. pose proof bp_norm as K. set (B := N1 m bp) in *. set (Y := X) in *. clearbody B Y. clear - K. qclra.
  Qed.
  Lemma diff_small i : i < m -> (qabs (x i - bp i) <= e * (four * X + two))%Qc.
  Proof.
    intros Hi. eapply Qcle_trans; [now apply diff_small0|]. replace (e * N1 m bp + e * (1 + Q2Qc (1 # 2)) + (e + e) * X)%Qc with (e * (N1 m bp + (1 + Q2Qc (1 # 2)) + two * X))%Qc by ring.
    rewrite !(Qcmult_comm e). apply qmul_le_r; auto. pose proof bp_norm as K. set (B := N1 m bp) in *. set (Y := X) in *. clearbody B Y. clear - K. qclra.
  Qed.
  Let rho k := (Sum m (fun l => M k l * x l) - b k)%Qc.
  Lemma W_rho i : i < m -> (qabs (Sum m (fun k => W i k * rho k)) <= e * (three * (X + 1)))%Qc.
  Proof.
    intros Hi.
    assert (E : Sum m (fun k => W i k * rho k)%Qc = ((bp i - Sum m (fun k => W i k * b k)) + (Sum m (fun k => Ap i k * x k) - bp i) - Sum m (fun l => (Ap i l - Sum m (fun k => W i k * M k l)) * x l))%Qc).
    { rewrite (Sum_ext m (fun k => W i k * rho k)%Qc (fun k => W i k * Sum m (fun l => M k l * x l) - W i k * b k)%Qc) by (intros; unfold rho; ring). rewrite Sum_sub.
      rewrite (Sum_ext m (fun l => (Ap i l - Sum m (fun k => W i k * M k l)) * x l)%Qc (fun l => Ap i l * x l - Sum m (fun k => W i k * M k l * x l))%Qc) by (intros; rewrite Sum_scalr; ring). rewrite Sum_sub.
      rewrite (Sum_swap m m (fun l k => W i k * M k l * x l)%Qc). rewrite (Sum_ext m (fun k => W i k * Sum m (fun l => M k l * x l))%Qc (fun k => Sum m (fun l => W i k * M k l * x l)%Qc)); [ring|].
      intros k Hk. rewrite <- Sum_scal. apply Sum_ext. intros. ring. }
    rewrite E. pose proof (H4 i Hi) as K1. unfold within in K1. pose proof (s_bound i Hi) as K2. pose proof (Sum_err m (fun l => (Ap i l - Sum m (fun k => W i k * M k l)))%Qc x e He ltac:(intros; now apply H3)) as K3. fold X in K3.
    eapply Qcle_trans; [apply abs_le_sub; [apply abs_le_add; [exact K1|exact K2]|exact K3]|]. replace (e + e * (two * X + two) + e * X)%Qc with (e * (three * (X + 1)))%Qc by ring. apply Qcle_refl.
  Qed.
  Lemma residual K : (forall i, i < m -> (N1 m (M i) <= K)%Qc) -> forall i, i < m -> (qabs (rho i) <= four * K * e * (X + 1))%Qc.
  Proof.
    intros HK.
    assert (R : forall j, j < m -> (qabs (rho j) <= K * (e * (three * (X + 1))) + e * N1 m rho)%Qc).
    { intros j Hj. replace (rho j) with (Sum m (fun i => M j i * Sum m (fun k => W i k * rho k)) - Sum m (fun k => (Sum m (fun i => M j i * W i k) - delta j k) * rho k))%Qc.
      - assert (PT : (0 <= e * (three * (X + 1)))%Qc). { apply qmul_nonneg; auto. pose proof (N1_nonneg m x) as Q. fold X in Q. clear - Q. qclra. }
        apply abs_le_sub; [|apply Sum_err; auto; intros; now apply H2]. eapply Qcle_trans; [apply (Sum_err_r m _ (M j) (e * (three * (X + 1)))); auto; intros; now apply W_rho|]. rewrite Qcmult_comm. apply qmul_le_r; auto.
      - rewrite (Sum_ext m (fun k => (Sum m (fun i => M j i * W i k) - delta j k) * rho k)%Qc (fun k => Sum m (fun i => M j i * W i k * rho k) - delta j k * rho k)%Qc) by (intros; rewrite Sum_scalr; ring). rewrite Sum_sub, Sum_delta_l by auto.
        rewrite (Sum_swap m m (fun k i => M j i * W i k * rho k)%Qc). rewrite (Sum_ext m (fun i => M j i * Sum m (fun k => W i k * rho k))%Qc (fun i => Sum m (fun k => M j i * W i k * rho k))%Qc); [ring|].
        intros k Hk. rewrite <- Sum_scal. apply Sum_ext. intros. ring. }
    intros i Hi. destruct (argmax_abs m rho ltac:(lia)) as (j & Hj & A). eapply Qcle_trans; [now apply A|].
    pose proof (R j Hj) as K1. pose proof (N1_le m rho (qabs (rho j)) A) as K2. assert (K3 : (e * N1 m rho <= e * (qz (Z.of_nat m) * qabs (rho j)))%Qc) by (rewrite !(Qcmult_comm e); apply qmul_le_r; auto).
    assert (K4 : ((qz (Z.of_nat m) * e) * qabs (rho j) <= quarter * qabs (rho j))%Qc) by (apply qmul_le_r; auto; apply QcTac.qabs_nonneg).
    replace (e * (qz (Z.of_nat m) * qabs (rho j)))%Qc with ((qz (Z.of_nat m) * e) * qabs (rho j))%Qc in K3 by ring. replace (four * K * e * (X + 1))%Qc with (four * (K * e * (X + 1)))%Qc by ring.
    replace (K * (e * (three * (X + 1))))%Qc with (three * (K * e * (X + 1)))%Qc in K1 by ring.
    set (r := qabs (rho j)) in *. set (a := (qz (Z.of_nat m) * e * r)%Qc) in *. set (c := (K * e * (X + 1))%Qc) in *. set (d := (e * N1 m rho)%Qc) in *. clearbody r a c d. clear - K1 K3 K4. qclra.
  Qed.
End Errors.

Section DualErrors.
  Variables (m : nat) (e : Qc) (M W : nat -> nat -> Qc) (b bp x c y : nat -> Qc).
  Hypothesis He : (0 <= e)%Qc.
  Hypothesis H1 : forall i j, i < m -> j < m -> within e (Sum m (fun k => W i k * M k j)%Qc) (delta i j).
  Hypothesis H4 : forall i, i < m -> within e (bp i) (Sum m (fun k => W i k * b k)%Qc).
  Hypothesis H7 : forall i, i < m -> within e (y i) (Sum m (fun k => W k i * c k)%Qc).
  Lemma dual_basic k : k < m -> (qabs (c k - Sum m (fun i => y i * M i k)) <= e * N1 m c + e * N1 m (fun i => M i k))%Qc.
  Proof.
    intros Hk.
    assert (E : (c k - Sum m (fun i => y i * M i k) = - Sum m (fun l => (Sum m (fun i => W l i * M i k) - delta l k) * c l) - Sum m (fun i => (y i - Sum m (fun l => W l i * c l)) * M i k))%Qc).
    { rewrite (Sum_ext m (fun l => (Sum m (fun i => W l i * M i k) - delta l k) * c l)%Qc (fun l => Sum m (fun i => W l i * M i k * c l) - c l * delta l k)%Qc) by (intros; rewrite Sum_scalr; ring). rewrite Sum_sub, Sum_delta_r by auto.
      rewrite (Sum_ext m (fun i => (y i - Sum m (fun l => W l i * c l)) * M i k)%Qc (fun i => y i * M i k - Sum m (fun l => W l i * c l * M i k))%Qc) by (intros; rewrite Sum_scalr; ring). rewrite Sum_sub.
      rewrite (Sum_swap m m (fun i l => W l i * c l * M i k)%Qc). rewrite (Sum_ext m (fun l => Sum m (fun i => W l i * c l * M i k))%Qc (fun l => Sum m (fun i => W l i * M i k * c l))%Qc); [ring|]. intros l Hl. apply Sum_ext. intros. ring. }
    rewrite E. apply abs_le_sub; [rewrite qabs_opp|]; apply Sum_err; auto. intros l Hl. now apply H1.
  Qed.
  Lemma dual_value D : (0 <= D)%Qc -> (forall i, i < m -> (qabs (x i - bp i) <= D)%Qc) -> (qabs (Sum m (fun k => c k * x k) - Sum m (fun i => y i * b i)) <= (D + e) * N1 m c + e * N1 m b)%Qc.
  Proof.
    intros HD HX.
    assert (E : (Sum m (fun k => c k * x k) - Sum m (fun i => y i * b i) = Sum m (fun k => c k * ((x k - bp k) + (bp k - Sum m (fun i => W k i * b i)))) - Sum m (fun i => (y i - Sum m (fun k => W k i * c k)) * b i))%Qc).
    { rewrite (Sum_ext m (fun k => c k * ((x k - bp k) + (bp k - Sum m (fun i => W k i * b i))))%Qc (fun k => c k * x k - Sum m (fun i => c k * (W k i * b i)))%Qc) by (intros; rewrite Sum_scal; ring). rewrite Sum_sub.
      rewrite (Sum_ext m (fun i => (y i - Sum m (fun k => W k i * c k)) * b i)%Qc (fun i => y i * b i - Sum m (fun k => W k i * c k * b i))%Qc) by (intros; rewrite Sum_scalr; ring). rewrite Sum_sub.
      rewrite (Sum_swap m m (fun i k => W k i * c k * b i)%Qc). rewrite (Sum_ext m (fun k => Sum m (fun i => W k i * c k * b i))%Qc (fun k => Sum m (fun i => c k * (W k i * b i)))%Qc); [ring|]. intros l Hl. apply Sum_ext. intros. ring. }
    rewrite E. apply abs_le_sub; [|apply Sum_err; auto]. apply Sum_err_r; [clear - HD He; qclra|]. intros i Hi. apply abs_le_add; [now apply HX|now apply H4].
  Qed.
End DualErrors.

(** ** sizes *)
Lemma abs_sum_app u v : abs_sum (u ++ v) = (abs_sum u + abs_sum v)%Qc.
Proof. induction u as [|a u IH]; cbn [app abs_sum fold_right]; [unfold abs_sum; ring|]. fold (abs_sum u) (abs_sum v) (abs_sum (u ++ v)). rewrite IH. ring. Qed.
Lemma abs_sum_nonneg v : (0 <= abs_sum v)%Qc.
Proof. induction v as [|a v IH]; [discriminate|]. cbn [abs_sum fold_right]. fold (abs_sum v). pose proof (QcTac.qabs_nonneg a). clear - IH H. qclra. Qed.
Lemma Sum_shift n f : Sum (S n) f = (f 0%nat + Sum n (fun i => f (S i)))%Qc.
Proof. change (S n) with (1 + n). rewrite Sum_app. f_equal. rewrite Sum_S, Sum_0. ring. Qed.
Lemma abs_sum_N1 v n : length v = n -> abs_sum v = N1 n (at_ v).
Proof.
  intros <-. induction v as [|a v IH]; [reflexivity|]. cbn [length]. unfold N1 in *. rewrite Sum_shift. cbn [abs_sum fold_right]. fold (abs_sum v). rewrite IH. reflexivity.
Qed.
Lemma abs_sum_concat n (A : list (list Qc)) : shaped n A -> abs_sum (concat A) = Sum (length A) (fun i => N1 n (ent A i)).
Proof.
  induction A as [|r A IH]; intros S; [reflexivity|]. inversion S; subst. cbn [concat length]. rewrite abs_sum_app, Sum_shift. rewrite (abs_sum_N1 r (length r)) by auto. f_equal. rewrite IH by auto. reflexivity.
Qed.
Lemma Sum_pick n f i : (forall j, j < n -> (0 <= f j)%Qc) -> i < n -> (f i <= Sum n f)%Qc.
Proof.
  intros H Hi. rewrite (Sum_change n i (fun j => if Nat.eqb j i then 0%Qc else f j) f) by (auto; intros j _ Hj; destruct (Nat.eqb_spec j i); auto; contradiction). rewrite Nat.eqb_refl.
  assert (0 <= Sum n (fun j => if Nat.eqb j i then 0%Qc else f j))%Qc by (apply Sum_nonneg; intros j Hj; destruct (Nat.eqb j i); [apply Qcle_refl|auto]). clear - H0. qclra.
Qed.
Lemma Sum_part (B : list nat) n f : NoDup B -> (forall j, In j B -> j < n) -> (forall j, j < n -> (0 <= f j)%Qc) -> (Sum (length B) (fun k => f (nth k B 0%nat)) <= Sum n f)%Qc.
Proof.
  intros ND HB Hf. rewrite (Sum_ext (length B) _ (fun k => (fun j => if inb j B then f j else 0%Qc) (nth k B 0))).
  - rewrite <- (Sum_nth B n (fun j => if inb j B then f j else 0%Qc)); auto.
    + apply Sum_le. intros j Hj. destruct (inb j B); [apply Qcle_refl|auto].
    + intros j Hj Hn. destruct (inb j B) eqn:E; auto. apply inb_In in E. contradiction.
  - intros k Hk. cbv beta. destruct (inb (nth k B 0) B) eqn:E; auto. exfalso. assert (In (nth k B 0) B) by (now apply nth_In). apply inb_In in H. congruence.
Qed.

(** ** one iteration, as facts about numbers *)
Record facts (e : Qc) (P : lp) (B : list nat) (q : lp) (x : list Qc) (W V : nat -> nat -> Qc) (y : nat -> Qc) : Prop := mkfacts {
  fa_W1 : forall i j, i < rows P -> j < rows P -> within e (Sum (rows P) (fun k => W i k * ent (lA P) k (bk B j))%Qc) (delta i j);
  fa_W2 : forall i j, i < rows P -> j < rows P -> within e (Sum (rows P) (fun k => ent (lA P) i (bk B k) * W k j)%Qc) (delta i j);
  fa_A : forall i j, i < rows P -> j < cols P -> within e (ent (lA q) i j) (Sum (rows P) (fun k => W i k * ent (lA P) k j)%Qc);
  fa_b : forall i, i < rows P -> within e (at_ (lb q) i) (Sum (rows P) (fun k => W i k * at_ (lb P) k)%Qc);
  fa_c : forall j, j < cols P -> within e (at_ (lc q) j) (at_ (lc P) j - Sum (rows P) (fun i => y i * ent (lA P) i j))%Qc;
  fa_y : forall i, i < rows P -> within e (y i) (Sum (rows P) (fun k => W k i * at_ (lc P) (bk B k))%Qc);
  fa_V : forall i j, i < rows P -> j < rows P -> within e (Sum (rows P) (fun k => ent (lA q) i (bk B k) * V k j)%Qc) (delta i j);
  fa_B : StronglySorted lt B /\ length B = rows P /\ forall j, In j B -> j < cols P;
  fa_x : length x = cols P /\ (forall j, j < cols P -> ~ In j B -> at_ x j = 0%Qc) /\
         forall i, i < rows P -> within e (at_ x (bk B i)) (Sum (rows P) (fun k => V i k * at_ (lb q) k)%Qc);
  fa_q : length (lA q) = rows P /\ length (lc q) = cols P /\ rectangular (cols P) (lA q) }.
Lemma rectangular_shaped n A : rectangular n A -> shaped n A.
Proof. intros H. apply Forall_forall. intros r Hr. apply (In_nth _ _ []) in Hr. destruct Hr as (i & Hi & <-). now apply H. Qed.
Lemma dup_columns (e : Qc) (P : lp) (B : list nat) (W : nat -> nat -> Qc) : (e + e < 1)%Qc -> length B = rows P ->
  (forall i j, i < rows P -> j < rows P -> within e (Sum (rows P) (fun k => W i k * ent (lA P) k (bk B j))%Qc) (delta i j)) -> NoDup B.
Proof.
  intros He L H. apply (proj2 (NoDup_nth B 0)). intros i j Hi Hj E. destruct (Nat.eq_dec i j) as [|Hn]; auto. exfalso. rewrite L in Hi, Hj.
  pose proof (H i i Hi Hi) as K1. pose proof (H i j Hi Hj) as K2. unfold bk in K1, K2. rewrite <- E in K2. rewrite delta_eq in K1. rewrite delta_ne in K2 by auto. unfold within in *. apply qabs_le in K1. apply qabs_le in K2.
  set (s := Sum _ _) in *. clearbody s. clear - He K1 K2. destruct K1, K2. qclra.
Qed.
Lemma get_facts e P Bz q x : wf P -> (e + e < 1)%Qc -> r_is_basis P Bz -> let B := sort (to_array_indexing Bz) in
  r_canonical e P B q -> r_basic_solution e q B x -> exists W V y, facts e P B q x W V y.
Proof.
  intros H He (L & L0 & HB) B (W & y & HW & Hy & HA & Hb & Hc & _) (V & cs & HV & Hcs & ->).
  assert (LB : length B = rows P). { unfold B. rewrite length_sort. unfold to_array_indexing. rewrite map_length. exact L. }
  assert (RB : forall j, In j B -> j < cols P). { intros j Hj. unfold B in Hj. apply (proj1 (In_sort _ _)) in Hj. unfold to_array_indexing in Hj. apply in_map_iff in Hj. destruct Hj as (z & <- & Hz). specialize (HB z Hz). lia. }
  destruct HW as (LW & SW & HW). rewrite length_columns in LW, SW, HW. fold (rows P) in LW, SW, HW.
  destruct HA as (LA & SA & HA). rewrite LW in LA, HA. destruct HV as (LV & SV & HV). rewrite length_columns, LA in LV, SV, HV.
  assert (CB : forall i k, i < rows P -> k < rows P -> ent (columns_of B (lA P)) i k = ent (lA P) i (bk B k)) by (intros; apply ent_columns; auto; lia).
  assert (CQ : forall i k, i < rows P -> k < rows P -> ent (columns_of B (lA q)) i k = ent (lA q) i (bk B k)) by (intros; apply ent_columns; lia).
  assert (W1 : forall i j, i < rows P -> j < rows P -> within e (Sum (rows P) (fun k => ent W i k * ent (lA P) k (bk B j))%Qc) (delta i j)).
  { intros i j Hi Hj. destruct (HW i j Hi Hj) as (K & _). rewrite (Sum_ext (rows P) _ (fun k => ent W i k * ent (columns_of B (lA P)) k j)%Qc); auto. intros k Hk. now rewrite CB. }
  assert (ND : NoDup B) by (now apply (dup_columns e P B (ent W))).
  assert (SB : StronglySorted lt B). { apply sort_strict. apply (@NoDup_incl_NoDup _ B); auto; [unfold B; now rewrite length_sort|]. intros j Hj. unfold B in Hj. now apply (proj1 (In_sort _ _)) in Hj. }
  destruct Hc as (Lc & Hc). destruct Hy as (Ly & Hy). rewrite length_transpose in Ly, Hy. destruct Hcs as (Ls & Hs). rewrite LV in Ls, Hs. destruct Hb as (Lb & Hb). rewrite LW in Lb, Hb.
  exists (ent W), (ent V), (at_ y). constructor; auto.
  - intros i j Hi Hj. destruct (HW i j Hi Hj) as (_ & K). rewrite (Sum_ext (rows P) _ (fun k => ent (columns_of B (lA P)) i k * ent W k j)%Qc); auto. intros k Hk. now rewrite CB.
  - intros i j Hi Hj. specialize (HA i j Hi Hj). rewrite SW in HA by lia. exact HA.
  - intros i Hi. specialize (Hb i Hi). rewrite (dot_Sum (rows P)) in Hb by (apply SW; lia). exact Hb.
  - intros j Hj. specialize (Hc j Hj). rewrite Ly in Hc. exact Hc.
  - intros i Hi. specialize (Hy i Hi). rewrite (dot_Sum (rows P)) in Hy by (rewrite (shaped_nth (length W)); [auto|apply shaped_transpose|now rewrite length_transpose]).
    rewrite (Sum_ext (rows P) _ (fun k => at_ (nth i (transpose (rows P) W) []) k * at_ (take B (lc P)) k)%Qc); auto. intros k Hk. fold (ent (transpose (rows P) W) i k). rewrite ent_transpose by lia. rewrite at_take by lia. reflexivity.
  - intros i j Hi Hj. destruct (HV i j Hi Hj) as (_ & K). rewrite (Sum_ext (rows P) _ (fun k => ent (columns_of B (lA q)) i k * ent V k j)%Qc); auto. intros k Hk. now rewrite CQ.
  - assert (EN : cols q = cols P) by exact Lc. rewrite EN. rewrite (sort_id B SB). split; [apply length_scatter|]. split.
    + intros j Hj Hn. apply at_scatter_off; auto. lia.
    + intros i Hi. rewrite at_scatter; auto; try lia; [|apply RB, nth_In; lia]. specialize (Hs i Hi). rewrite (dot_Sum (rows P)) in Hs by (apply SV; lia). exact Hs.
Qed.

Lemma weight_parts p : wf p -> weight p = (1 + Sum (rows p) (fun i => N1 (cols p) (ent (lA p) i)) + N1 (rows p) (at_ (lb p)) + N1 (cols p) (at_ (lc p)))%Qc.
Proof.
  intros H. unfold weight. rewrite (abs_sum_concat (cols p)) by apply (wf_A _ H). rewrite (abs_sum_N1 (lb p) (rows p)) by apply (wf_b _ H). now rewrite (abs_sum_N1 (lc p) (cols p)).
Qed.
Lemma sg_abs p i : qabs (sg p i) = 1%Qc.
Proof. unfold sg. destruct (qlt (at_ (lb p) i) 0); reflexivity. Qed.
Lemma weight_neg p : wf p -> weight (negate_rows p) = weight p.
Proof.
  intros H. rewrite !weight_parts by (auto; now apply wf_negate). rewrite rows_neg, cols_neg by auto. f_equal. f_equal; [f_equal|].
  - apply Sum_ext. intros i Hi. apply Sum_ext. intros j Hj. rewrite ent_neg by auto. rewrite qabs_mul, sg_abs. ring.
  - apply Sum_ext. intros i Hi. rewrite lb_neg. rewrite qabs_mul, sg_abs. ring.
Qed.
Lemma weight_ge p : wf p -> (1 <= weight p)%Qc /\ (N1 (cols p) (at_ (lc p)) + N1 (rows p) (at_ (lb p)) <= weight p)%Qc /\
  (forall i, i < rows p -> (N1 (cols p) (ent (lA p) i) <= weight p)%Qc) /\
  (forall j, j < cols p -> (1 + N1 (cols p) (at_ (lc p)) + N1 (rows p) (fun i => ent (lA p) i j) <= weight p)%Qc).
Proof.
  intros H. rewrite weight_parts by auto. pose proof (N1_nonneg (rows p) (at_ (lb p))) as P1. pose proof (N1_nonneg (cols p) (at_ (lc p))) as P2.
  assert (P3 : (0 <= Sum (rows p) (fun i => N1 (cols p) (ent (lA p) i)))%Qc) by (apply Sum_nonneg; intros; apply N1_nonneg).
  split; [|split; [|split]].
  - set (a := Sum _ _) in *. set (b := N1 (rows p) _) in *. set (c := N1 (cols p) _) in *. clearbody a b c. clear - P1 P2 P3. qclra.
  - set (a := Sum _ _) in *. set (b := N1 (rows p) _) in *. set (c := N1 (cols p) _) in *. clearbody a b c. clear - P1 P2 P3. qclra.
  - intros i Hi. pose proof (Sum_pick (rows p) (fun i => N1 (cols p) (ent (lA p) i)) i (fun _ _ => N1_nonneg _ _) Hi) as K. cbv beta in K. set (a := Sum _ _) in *. set (d := N1 (cols p) (ent (lA p) i)) in *. set (b := N1 (rows p) _) in *. set (c := N1 (cols p) (at_ (lc p))) in *. clearbody a b c d. clear - P1 P2 P3 K. qclra.
  - intros j Hj. assert (K : (N1 (rows p) (fun i => ent (lA p) i j) <= Sum (rows p) (fun i => N1 (cols p) (ent (lA p) i)))%Qc).
    { apply Sum_le. intros i Hi. apply (Sum_pick (cols p) (fun j => qabs (ent (lA p) i j)) j); auto. intros. apply QcTac.qabs_nonneg. }
    set (a := Sum _ _) in *. set (d := N1 (rows p) (fun i => ent (lA p) i j)) in *. set (b := N1 (rows p) _) in *. set (c := N1 (cols p) (at_ (lc p))) in *. clearbody a b c d. clear - P1 P2 P3 K. qclra.
Qed.

Section Program.
  Variables (e : Qc) (P : lp) (B : list nat) (q : lp) (x : list Qc) (W V : nat -> nat -> Qc) (y : nat -> Qc).
  Hypothesis HP : wf P.
  Hypothesis HF : facts e P B q x W V y.
  Hypothesis He : (0 <= e)%Qc.
  Hypothesis Hm : (qz (Z.of_nat (rows P)) * e <= quarter)%Qc.
  Let X := N1 (cols P) (at_ x).
  Let xb k := at_ x (bk B k).
  Let cb k := at_ (lc P) (bk B k).
  Lemma fa_ND : NoDup B. Proof. apply strict_NoDup. apply (fa_B _ _ _ _ _ _ _ _ HF). Qed.
  Lemma fa_len : length B = rows P. Proof. apply (fa_B _ _ _ _ _ _ _ _ HF). Qed.
  Lemma fa_lt : forall j, In j B -> j < cols P. Proof. apply (fa_B _ _ _ _ _ _ _ _ HF). Qed.
  Lemma fa_bk k : k < rows P -> bk B k < cols P.
  Proof. intros Hk. apply fa_lt, nth_In. rewrite fa_len. exact Hk. Qed.
  Lemma on_basis (g : nat -> Qc) : Sum (cols P) (fun j => g j * at_ x j)%Qc = Sum (rows P) (fun k => g (bk B k) * xb k)%Qc.
  Proof.
    rewrite (Sum_nth B (cols P)); [|apply fa_ND|apply fa_lt|]; [now rewrite fa_len|]. intros j Hj Hn. destruct (fa_x _ _ _ _ _ _ _ _ HF) as (_ & K & _). rewrite K by auto. ring.
  Qed.
  Lemma X_basis : N1 (rows P) xb = X.
  Proof.
    unfold X, N1. rewrite (Sum_nth B (cols P)); [|apply fa_ND|apply fa_lt|]; [now rewrite fa_len|]. intros j Hj Hn. destruct (fa_x _ _ _ _ _ _ _ _ HF) as (_ & K & _). rewrite K by auto. reflexivity.
  Qed.
  Lemma part_basis (g : nat -> Qc) : (N1 (rows P) (fun k => g (bk B k)) <= N1 (cols P) g)%Qc.
  Proof. unfold N1. rewrite <- fa_len. apply (Sum_part B (cols P) (fun j => qabs (g j))); [apply fa_ND|apply fa_lt|]. intros. apply QcTac.qabs_nonneg. Qed.
  Lemma X_nonneg : (0 <= X)%Qc. Proof. apply N1_nonneg. Qed.
  Let w := weight P.
  Lemma w_pos : (0 <= w)%Qc. Proof. destruct (weight_ge P HP) as (K & _). unfold w. eapply Qcle_trans; [|exact K]. discriminate. Qed.
  Let A3 i j (Hi : i < rows P) (Hj : j < rows P) := fa_A _ _ _ _ _ _ _ _ HF i (bk B j) Hi (fa_bk j Hj).
  Let X6 := proj2 (proj2 (fa_x _ _ _ _ _ _ _ _ HF)).
  Lemma primal_error i : i < rows P -> (qabs (lhs P i (at_ x) - at_ (lb P) i) <= four * w * e * (X + 1))%Qc.
  Proof.
    intros Hi. unfold lhs. rewrite (on_basis (ent (lA P) i)).
    pose proof (residual (rows P) e (fun i k => ent (lA P) i (bk B k)) W (fun i k => ent (lA q) i (bk B k)) V (at_ (lb P)) (at_ (lb q)) xb He Hm
      (fa_W1 _ _ _ _ _ _ _ _ HF) (fa_W2 _ _ _ _ _ _ _ _ HF) A3 (fa_b _ _ _ _ _ _ _ _ HF) (fa_V _ _ _ _ _ _ _ _ HF) X6 w) as K.
    rewrite X_basis in K. apply K; auto. intros j Hj. eapply Qcle_trans; [apply part_basis|]. now apply (proj1 (proj2 (proj2 (weight_ge P HP)))).
  Qed.
  Lemma dual_error t : (0 <= t)%Qc -> (forall j, j < cols P -> ~ In j B -> (at_ (lc q) j <= t)%Qc) -> forall j, j < cols P -> (at_ (lc P) j - Sum (rows P) (fun i => y i * ent (lA P) i j) <= t + e * w)%Qc.
  Proof.
    intros Ht HN j Hj. destruct (weight_ge P HP) as (G1 & _ & _ & G4). fold w in G1, G4. destruct (in_dec Nat.eq_dec j B) as [I|I].
    - apply (In_nth _ _ 0) in I. destruct I as (k & Hk & <-). rewrite fa_len in Hk. fold (bk B k) in *.
      pose proof (dual_basic (rows P) e (fun i k => ent (lA P) i (bk B k)) W cb y He (fa_W1 _ _ _ _ _ _ _ _ HF) (fa_y _ _ _ _ _ _ _ _ HF) k Hk) as K. cbv beta in K. unfold cb in K at 1. apply qabs_le in K. destruct K as (_ & K).
      rewrite <- Qcmult_plus_distr_r in K.
      assert (K2 : (e * (N1 (rows P) cb + N1 (rows P) (fun i => ent (lA P) i (bk B k))) <= e * w)%Qc).
      { rewrite !(Qcmult_comm e). apply qmul_le_r; auto. specialize (G4 _ Hj). pose proof (part_basis (at_ (lc P))) as K2. fold cb in K2. set (a1 := N1 (rows P) cb) in *. set (a2 := N1 (rows P) (fun i => ent (lA P) i (bk B k))) in *. set (a3 := N1 (cols P) (at_ (lc P))) in *. set (ww := w) in *. clearbody a1 a2 a3 ww. clear - G4 K2. qclra. }
      set (a := (at_ (lc P) (bk B k) - Sum (rows P) (fun i => y i * ent (lA P) i (bk B k)))%Qc) in *. set (b := (e * (N1 (rows P) cb + N1 (rows P) (fun i => ent (lA P) i (bk B k))))%Qc) in *. set (d := (e * w)%Qc) in *. clearbody a b d. clear - K K2 Ht. qclra.
    - specialize (HN j Hj I). pose proof (fa_c _ _ _ _ _ _ _ _ HF j Hj) as K. unfold within in K. apply qabs_le in K. destruct K as (K & _). assert (K2 : (e * 1 <= e * w)%Qc) by (rewrite !(Qcmult_comm e); now apply qmul_le_r). rewrite Qcmult_1_r in K2.
      set (a := (at_ (lc P) j - Sum (rows P) (fun i => y i * ent (lA P) i j))%Qc) in *. set (b := at_ (lc q) j) in *. set (d := (e * w)%Qc) in *. clearbody a b d. clear - K K2 HN. qclra.
  Qed.
  Lemma value_error : (Sum (rows P) (fun i => y i * at_ (lb P) i) <= obj P (at_ x) + four * w * e * (X + 1))%Qc.
  Proof.
    unfold obj. rewrite (on_basis (at_ (lc P))).
    assert (D : forall i, i < rows P -> (qabs (xb i - at_ (lb q) i) <= e * (four * X + two))%Qc).
    { intros i Hi. pose proof (diff_small (rows P) e (fun i k => ent (lA P) i (bk B k)) W (fun i k => ent (lA q) i (bk B k)) V (at_ (lb q)) xb He Hm (fa_W1 _ _ _ _ _ _ _ _ HF) A3 (fa_V _ _ _ _ _ _ _ _ HF) X6 i Hi) as K. now rewrite X_basis in K. }
    pose proof X_nonneg as PX. assert (PD : (0 <= e * (four * X + two))%Qc) by (apply qmul_nonneg; auto; clear - PX; set (Y := X) in *; clearbody Y; qclra).
    pose proof (dual_value (rows P) e W (at_ (lb P)) (at_ (lb q)) xb cb y He (fa_b _ _ _ _ _ _ _ _ HF) (fa_y _ _ _ _ _ _ _ _ HF) _ PD D) as K. apply qabs_le in K. destruct K as (K & _).
    destruct (weight_ge P HP) as (_ & G2 & _). fold w in G2. pose proof (part_basis (at_ (lc P))) as K2. fold cb in K2. pose proof (N1_nonneg (rows P) cb) as PC. pose proof (N1_nonneg (rows P) (at_ (lb P))) as PB.
    assert (K3 : ((e * (four * X + two) + e) * N1 (rows P) cb + e * N1 (rows P) (at_ (lb P)) <= four * w * e * (X + 1))%Qc).
    { replace ((e * (four * X + two) + e) * N1 (rows P) cb + e * N1 (rows P) (at_ (lb P)))%Qc with (((four * X + three) * N1 (rows P) cb + N1 (rows P) (at_ (lb P))) * e)%Qc by ring.
      replace (four * w * e * (X + 1))%Qc with (((four * X + four) * w) * e)%Qc by ring. apply qmul_le_r; auto.
      assert (T : ((four * X + four) * (N1 (rows P) cb + N1 (rows P) (at_ (lb P))) <= (four * X + four) * w)%Qc).
      { rewrite !(Qcmult_comm (four * X + four)). apply qmul_le_r; [|clear - PX; set (Y := X) in *; clearbody Y; qclra]. set (a1 := N1 (rows P) cb) in *. set (a2 := N1 (rows P) (at_ (lb P))) in *. set (a3 := N1 (cols P) (at_ (lc P))) in *. set (ww := w) in *. clearbody a1 a2 a3 ww. clear - G2 K2. qclra. }
      eapply Qcle_trans; [|exact T]. pose proof (qmul_nonneg X (N1 (rows P) (at_ (lb P))) PX PB) as Q. set (a1 := N1 (rows P) cb) in *. set (a2 := N1 (rows P) (at_ (lb P))) in *.
      replace ((four * X + four) * (a1 + a2))%Qc with ((four * X + three) * a1 + a1 + four * (X * a2) + four * a2)%Qc by ring. set (u := ((four * X + three) * a1)%Qc). set (v := (X * a2)%Qc) in *. clearbody u v a1 a2. clear - PC PB Q. qclra. }
    fold cb. set (s1 := Sum (rows P) (fun i => y i * at_ (lb P) i)%Qc) in *. change (fun k => at_ (lc P) (bk B k) * xb k)%Qc with (fun k => cb k * xb k)%Qc. set (s2 := Sum (rows P) (fun k => cb k * xb k)%Qc) in *.
    set (a := ((e * (four * X + two) + e) * N1 (rows P) cb + e * N1 (rows P) (at_ (lb P)))%Qc) in *. set (d := (four * w * e * (X + 1))%Qc) in *. clearbody s1 s2 a d. clear - K K3. qclra.
  Qed.
  Lemma near_optimal t x' : (0 <= t)%Qc -> (forall j, j < cols P -> ~ In j B -> (at_ (lc q) j <= t)%Qc) -> solves 1 P x' -> (forall j, j < cols P -> (0 <= x' j)%Qc) ->
    (obj P x' <= obj P (at_ x) + (t + e * w) * Sum (cols P) x' + four * w * e * (X + 1))%Qc.
  Proof.
    intros Ht HN HS Hx. pose proof (dual_error t Ht HN) as D. pose proof value_error as VE.
    assert (K : (obj P x' <= (t + e * w) * Sum (cols P) x' + Sum (rows P) (fun i => y i * at_ (lb P) i))%Qc).
    { assert (E : Sum (rows P) (fun i => y i * at_ (lb P) i)%Qc = Sum (cols P) (fun j => Sum (rows P) (fun i => y i * ent (lA P) i j) * x' j)%Qc).
      { rewrite (Sum_ext (cols P) _ (fun j => Sum (rows P) (fun i => y i * ent (lA P) i j * x' j))%Qc) by (intros; now rewrite Sum_scalr). rewrite (Sum_swap (cols P) (rows P)). apply Sum_ext. intros i Hi.
        specialize (HS i Hi). unfold lhs in HS. rewrite Qcmult_1_l in HS. rewrite <- HS, <- Sum_scal. apply Sum_ext. intros. ring. }
      rewrite E, <- Sum_scal, <- Sum_add. unfold obj. apply Sum_le. intros j Hj. specialize (D j Hj). specialize (Hx j Hj). set (s := Sum (rows P) _) in *.
      assert ((at_ (lc P) j - s) * x' j <= (t + e * w) * x' j)%Qc by (now apply qmul_le_r). replace (at_ (lc P) j * x' j)%Qc with ((at_ (lc P) j - s) * x' j + s * x' j)%Qc by ring. set (u := ((at_ (lc P) j - s) * x' j)%Qc) in *. set (v := (s * x' j)%Qc). set (z := ((t + e * w) * x' j)%Qc) in *. clearbody u v z. clear - H. qclra. }
    set (a := obj P x') in *. set (b := Sum (rows P) (fun i => y i * at_ (lb P) i)%Qc) in *. set (c := ((t + e * w) * Sum (cols P) x')%Qc) in *. set (d := (four * w * e * (X + 1))%Qc) in *. set (o := obj P (at_ x)) in *. clearbody a b c d o. clear - K VE. qclra.
  Qed.
End Program.
