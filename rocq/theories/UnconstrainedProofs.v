(** Proofs for C50-C52. *)
From Coq Require Import String List Bool Arith ZArith QArith Qcanon Qround Lia.
From Verif Require Import Py QcTac QSum QInt MatModel DetTheory MatTheory UnconstrainedModel UnconstrainedSpec.
Import ListNotations.
Open Scope nat_scope.
Open Scope string_scope.
Open Scope list_scope.

Lemma dot_inner u v : length u = length v -> dot u v = inner_product u v.
Proof.
  unfold dot. revert v. induction u as [|a u IH]; intros [|b v] L; try discriminate L; [reflexivity|]. cbn [length inner_product] in *. injection L as L.
  rewrite <- IH by auto. unfold Sum, Sigma. cbn [seq map qtot fold_right]. rewrite <- seq_shift, map_map. reflexivity.
Qed.
Lemma length_scale a v : length (scale a v) = length v. Proof. apply map_length. Qed.
Lemma vadd_along x a d : vadd x (scale a (vopp d)) = along x (- a)%Qc d.
Proof.
  unfold vadd, scale, vopp. revert d. induction x as [|u x IH]; intros [|v d]; [reflexivity..|]. cbn [map combine fst snd along]. rewrite <- IH. f_equal. ring.
Qed.
Lemma length_along x a d : length x = length d -> length (along x a d) = length x.
Proof. revert d. induction x as [|u x IH]; intros [|v d] L; try discriminate L; cbn; auto. Qed.
Lemma plus_along x a g : length g = length x -> plus x (scale a (vopp g)) = Ok (along x (- a)%Qc g).
Proof. intros L. unfold plus. rewrite length_scale, length_vopp, L, Nat.eqb_refl. now rewrite vadd_along. Qed.
Lemma inner_opp g : forall h, inner_product g (vopp h) = (- inner_product g h)%Qc.
Proof. induction g as [|a g IH]; intros [|b h]; cbn [vopp map inner_product]; try ring. unfold vopp in IH. rewrite IH. ring. Qed.
Lemma inner_sq g : (0 <= inner_product g g)%Qc.
Proof.
  induction g as [|a g IH]; cbn [inner_product]; [apply Qcle_refl|]. assert (S : (0 <= a * a)%Qc) by (destruct (Qclt_le_dec a 0) as [K|K]; [replace (a * a)%Qc with ((- a) * (- a))%Qc by ring; apply qmul_nonneg; qclra|now apply qmul_nonneg]). qclra.
Qed.
Lemma norm_le_spec g t : reflect (norm_at_most g t) (norm_le g t).
Proof.
  unfold norm_le, norm_at_most. rewrite dot_inner by auto. destruct (qle_spec 0 t); cbn [andb]; [|constructor; tauto]. destruct (qle_spec (inner_product g g) (t * t)); constructor; tauto.
Qed.
Lemma armijo_test f c x g a : length g = length x ->
  qlt (f x + c * a * dot g (vopp g))%Qc (f (along x (- a)%Qc g)) = false <-> armijo f c x g a.
Proof.
  intros L. unfold armijo. rewrite dot_inner by (now rewrite length_vopp). rewrite inner_opp.
  replace (f x + c * a * - inner_product g g)%Qc with (f x - c * a * inner_product g g)%Qc by ring.
  destruct (qlt_spec (f x - c * a * inner_product g g) (f (along x (- a)%Qc g))) as [K|K]; split; intros H; try discriminate H; auto.
  - exfalso. revert K. now apply Qcle_not_lt.
  - now apply Qcnot_lt_le.
Qed.
Lemma pow_S p j : (p ^ S j = p * p ^ j)%Qc. Proof. reflexivity. Qed.
Lemma backtrack_spec f x g c p : length g = length x -> forall fuel a0,
  match backtrack fuel f x (vopp g) (dot g (vopp g)) a0 c p with
  | Ok a => exists j, j <= fuel /\ a = (a0 * p ^ j)%Qc /\ armijo f c x g a /\ forall i, i < j -> ~ armijo f c x g (a0 * p ^ i)%Qc
  | Raise e => False
  | Diverges => forall i, i <= fuel -> ~ armijo f c x g (a0 * p ^ i)%Qc
  end.
Proof.
  intros L. induction fuel as [|fuel IH]; intros a0; cbn [backtrack]; rewrite plus_along by auto; cbn [bind]; pose proof (armijo_test f c x g a0 L) as T; destruct (qlt _ _) eqn:E.
  - intros [|i] Hi; [|lia]. change (p ^ 0)%Qc with 1%Qc. rewrite Qcmult_1_r. intros K. apply T in K. discriminate K.
  - exists 0. split; [lia|]. change (p ^ 0)%Qc with 1%Qc. rewrite Qcmult_1_r. split; auto. split; [now apply T|]. intros i Hi. lia.
  - assert (N0 : ~ armijo f c x g a0) by (intros K; apply T in K; discriminate K). specialize (IH (a0 * p)%Qc).
    assert (S : forall i, (a0 * p * p ^ i)%Qc = (a0 * p ^ S i)%Qc) by (intros i; rewrite pow_S; ring).
    destruct (backtrack fuel f x (vopp g) (dot g (vopp g)) (a0 * p)%Qc c p) as [a| |]; auto.
    + destruct IH as (j & J1 & J2 & J3 & J4). exists (Datatypes.S j). split; [lia|]. split; [rewrite J2; apply S|]. split; auto. intros [|i] Hi; [change (p ^ 0)%Qc with 1%Qc; now rewrite Qcmult_1_r|]. rewrite <- S. apply J4. lia.
    + intros [|i] Hi; [change (p ^ 0)%Qc with 1%Qc; now rewrite Qcmult_1_r|]. rewrite <- S. apply IH. lia.
  - exists 0. split; [lia|]. change (p ^ 0)%Qc with 1%Qc. rewrite Qcmult_1_r. split; auto. split; [now apply T|]. intros i Hi. lia.
Qed.

(** ** steepest descent *)
Section Descent.
  Context (q : up) (df : list Qc -> list Qc) (n fuel : nat) (alpha c p tolerance : Qc).
  Context (Hdf : forall x, length x = n -> length (df x) = n).
  Notation f := (target q).
  Lemma descend_spec : forall N x k y, length y = n -> descent f df alpha c p tolerance x k y -> k = 0 \/ ~ norm_at_most (df y) tolerance ->
    match descend N fuel q AnArray y df alpha c p tolerance with
    | (z, Ok r) => exists m, k <= m <= k + N /\ descent f df alpha c p tolerance x m z /\ length z = n /\ (m = k + N \/ (k < m /\ norm_at_most (df z) tolerance)) /\ r = (if minimize q then z else vopp z)
    | (z, Raise e) => False
    | (z, Diverges) => length z = n /\ forall i, i <= fuel -> ~ armijo f c z (df z) (alpha * p ^ i)%Qc
    end.
  Proof.
    induction N as [|N IH]; intros x k y Ly HD HN; cbn [descend].
    - unfold answer, neg. destruct (minimize q); exists k; (split; [lia|]); (split; [auto|]); (split; [auto|]); (split; [left; lia|reflexivity]).
    - pose proof (backtrack_spec f y (df y) c p ltac:(rewrite Hdf; auto) fuel alpha) as B. destruct (backtrack fuel f y (vopp (df y)) (dot (df y) (vopp (df y))) alpha c p) as [a| |]; auto.
      destruct B as (j & J1 & -> & J3 & J4). cbn [iadd]. rewrite plus_along by (rewrite Hdf; auto). set (y' := along y (- (alpha * p ^ j))%Qc (df y)) in *.
      assert (Ly' : length y' = n) by (unfold y'; rewrite length_along; auto; rewrite Hdf; auto). assert (HD' : descent f df alpha c p tolerance x (S k) y') by (apply d_step; auto).
      destruct (norm_le_spec (df y') tolerance) as [T|T].
      + unfold answer, neg. destruct (minimize q); exists (S k); (split; [lia|]); (split; [auto|]); (split; [auto|]); (split; [right; split; auto|reflexivity]).
      + specialize (IH x (S k) y' Ly' HD' (or_intror T)). destruct (descend N fuel q AnArray y' df alpha c p tolerance) as (z & [r| |]); auto.
        destruct IH as (m & M1 & M2 & M3 & M4 & M5). exists m. split; [lia|]. split; auto. split; auto. split; auto. destruct M4 as [M4|(M4 & M6)]; [left; lia|right; split; [lia|auto]].
  Qed.
End Descent.

(** ** decrease *)
Lemma pow_nonneg p j : (0 <= p -> 0 <= p ^ j)%Qc.
Proof. intros H. induction j; [discriminate|]. rewrite pow_S. now apply qmul_nonneg. Qed.
Lemma pow_pos p j : (0 < p -> 0 < p ^ j)%Qc.
Proof. intros H. induction j; [reflexivity|]. rewrite pow_S. now apply qmul_pos. Qed.
Lemma armijo_le f c x g a : (0 <= c)%Qc -> (0 <= a)%Qc -> armijo f c x g a -> (f (along x (- a) g) <= f x)%Qc.
Proof. intros H1 H2 H3. unfold armijo in H3. pose proof (qmul_nonneg _ _ (qmul_nonneg _ _ H1 H2) (inner_sq g)) as K. clear - H3 K. qclra. Qed.
Lemma descent_le f df alpha c p tol x k y : (0 <= c)%Qc -> (0 <= alpha)%Qc -> (0 <= p)%Qc -> descent f df alpha c p tol x k y -> (f y <= f x)%Qc.
Proof.
  intros H1 H2 H3 HD. induction HD as [|k y j HD IH HN HA HB]; [apply Qcle_refl|]. apply Qcle_trans with (2 := IH). apply (armijo_le f c); auto. apply qmul_nonneg; auto. now apply pow_nonneg.
Qed.
Lemma descent_first f df alpha c p tol x k y : descent f df alpha c p tol x (S k) y -> exists a, descent f df alpha c p tol x 1 (along x a (df x)).
Proof.
  remember (S k) as m eqn:E. intros HD. revert k E. induction HD as [|m y j HD IH HN HA HB]; intros k E; [discriminate E|]. injection E as ->. destruct k as [|k].
  - inversion HD; subst. exists (- (alpha * p ^ j))%Qc. now apply d_step.
  - now apply (IH k).
Qed.

(** ** backtracking ends *)
Lemma bernoulli p h j : (0 < p)%Qc -> (0 <= h)%Qc -> (p * (1 + h) = 1)%Qc -> (p ^ j * (1 + qz (Z.of_nat j) * h) <= 1)%Qc.
Proof.
  intros Hp Hh E. induction j as [|j IH]; [change (p ^ 0)%Qc with 1%Qc; change (qz (Z.of_nat 0)) with 0%Qc; assert (K : (1 * (1 + 0 * h) = 1)%Qc) by ring; rewrite K; apply Qcle_refl|].
  apply Qcle_trans with (2 := IH). rewrite pow_S. rewrite Nat2Z.inj_succ. unfold Z.succ. rewrite qz_add, qz_1. set (z := qz (Z.of_nat j)) in *.
  assert (Z : (0 <= z)%Qc) by (unfold z; rewrite <- qz_0; apply qz_le; lia). pose proof (pow_nonneg p j (Qclt_le_weak _ _ Hp)) as P.
  replace (p ^ j * (1 + z * h))%Qc with (p ^ j * (p * (1 + h)) * (1 + z * h))%Qc by (rewrite E; ring).
  assert (D : (p ^ j * (p * (1 + h)) * (1 + z * h) - p * p ^ j * (1 + (z + 1) * h) = p * p ^ j * (z * h * h))%Qc) by ring.
  assert (D0 : (0 <= p * p ^ j * (z * h * h))%Qc) by (apply qmul_nonneg; [apply qmul_nonneg; auto; now apply Qclt_le_weak|apply qmul_nonneg; auto; now apply qmul_nonneg]). clear - D D0. qclra.
Qed.
Lemma archimed (v : Qc) : exists j, (v < qz (Z.of_nat j))%Qc.
Proof.
  exists (Z.to_nat (Z.max 0 (Qround.Qceiling (this v)) + 1)). rewrite Z2Nat.id by lia. unfold qz, Qclt. rewrite this_Q2Qc. apply Qle_lt_trans with (inject_Z (Qround.Qceiling (this v))); [apply Qround.Qle_ceiling|]. rewrite <- Zlt_Qlt. lia.
Qed.
Lemma small_power alpha p r : (0 < alpha)%Qc -> (0 < p)%Qc -> (p < 1)%Qc -> (0 < r)%Qc -> exists j, (alpha * p ^ j < r)%Qc.
Proof.
  intros Ha Hp Hp1 Hr. assert (Np : p <> 0%Qc) by (intros K; rewrite K in Hp; discriminate Hp). assert (Nr : r <> 0%Qc) by (intros K; rewrite K in Hr; discriminate Hr).
  set (h := (/ p - 1)%Qc). assert (E : (p * (1 + h) = 1)%Qc) by (unfold h; field; auto).
  assert (Hh : (0 < h)%Qc). { destruct (Qclt_le_dec 0 h) as [K|K]; auto. exfalso. assert (F : (0 <= p * (- h))%Qc) by (apply qmul_nonneg; qclra). assert (G : (p * (1 + h) = p - p * (- h))%Qc) by ring. clear - E F G Hp1. qclra. }
  assert (Nh : h <> 0%Qc) by (intros K; rewrite K in Hh; discriminate Hh).
  destruct (archimed (alpha / (r * h))%Qc) as (j & Hj). exists j. pose proof (bernoulli p h j Hp (Qclt_le_weak _ _ Hh) E) as B. set (z := qz (Z.of_nat j)) in *. set (w := (p ^ j)%Qc) in *.
  assert (W : (0 < w)%Qc) by (unfold w; now apply pow_pos).
  assert (J : (alpha < z * (r * h))%Qc). { assert (T : (0 < r * h)%Qc) by now apply qmul_pos. replace alpha with (alpha / (r * h) * (r * h))%Qc by (field; auto). now apply Qcmult_lt_compat_r. }
  assert (J2 : (alpha * w < z * (r * h) * w)%Qc) by now apply Qcmult_lt_compat_r.
  assert (J3 : (r * (w * (1 + z * h)) <= r * 1)%Qc) by (rewrite !(Qcmult_comm r); apply qmul_le_r; auto; now apply Qclt_le_weak).
  assert (J4 : (0 < r * w)%Qc) by now apply qmul_pos. replace (r * (w * (1 + z * h)))%Qc with (r * w + z * (r * h) * w)%Qc in J3 by ring. clear - J2 J3 J4. qclra.
Qed.
Lemma along_opp x a g : along x a (vopp g) = along x (- a)%Qc g.
Proof. revert g. induction x as [|u x IH]; intros [|v g]; cbn [vopp map along]; auto. f_equal; [ring|apply IH]. Qed.
Lemma along_zero x g : forall a, length g = length x -> inner_product g g = 0%Qc -> along x a g = x.
Proof.
  revert g. induction x as [|u x IH]; intros [|v g] a L E; try discriminate L; [reflexivity|]. cbn [along inner_product] in *. injection L as L. pose proof (inner_sq g) as S. pose proof (inner_sq [v]) as S1. cbn [inner_product] in S1.
  assert (E1 : (v * v = 0)%Qc) by (clear - E S S1; qclra). assert (E2 : inner_product g g = 0%Qc) by (clear - E E1; qclra). assert (v = 0%Qc) by (apply Qcmult_integral in E1; tauto). subst v. f_equal; [ring|now apply IH].
Qed.
Lemma armijo_exists n f df c alpha p x : gradient_of n f df -> (c < 1)%Qc -> (0 < alpha)%Qc -> (0 < p)%Qc -> (p < 1)%Qc -> length x = n -> exists j, armijo f c x (df x) (alpha * p ^ j)%Qc.
Proof.
  intros HG Hc Ha Hp Hp1 Lx. destruct (HG x Lx) as (Lg & HD). set (g := df x) in *. pose proof (inner_sq g) as S0. destruct (Qc_eq_dec (inner_product g g) 0) as [S|S].
  - exists 0. unfold armijo. rewrite along_zero by (auto; congruence). rewrite S. replace (f x - c * (alpha * p ^ 0) * 0)%Qc with (f x) by ring. apply Qcle_refl.
  - assert (S1 : (0 < inner_product g g)%Qc) by (destruct (Qc_dec 0 (inner_product g g)) as [[K|K]|K]; auto; [exfalso; clear - K S0; qclra|congruence]).
    destruct (HD (vopp g) ltac:(now rewrite length_vopp) ((1 - c) * inner_product g g)%Qc) as (r & R0 & R1); [apply qmul_pos; auto; clear - Hc; qclra|].
    destruct (small_power alpha p r Ha Hp Hp1 R0) as (j & Hj). exists j. set (a := (alpha * p ^ j)%Qc) in *. assert (A : (0 < a)%Qc) by (unfold a; apply qmul_pos; auto; now apply pow_pos).
    destruct (R1 a A Hj) as (_ & K). unfold armijo. rewrite along_opp, inner_opp in K. replace (f x - c * a * inner_product g g)%Qc with (f x + a * (- inner_product g g + (1 - c) * inner_product g g))%Qc by ring. exact K.
Qed.
Lemma backtrack_ok f x g c p fuel a0 j : length g = length x -> j <= fuel -> armijo f c x g (a0 * p ^ j)%Qc -> exists a, backtrack fuel f x (vopp g) (dot g (vopp g)) a0 c p = Ok a.
Proof.
  intros L Hj HA. pose proof (backtrack_spec f x g c p L fuel a0) as B. destruct (backtrack fuel f x (vopp g) (dot g (vopp g)) a0 c p) as [a| |]; eauto; [contradiction|]. destruct (B j Hj HA).
Qed.
Lemma backtrack_same f x g c p fuel fuel' a0 a : length g = length x -> fuel <= fuel' -> backtrack fuel f x (vopp g) (dot g (vopp g)) a0 c p = Ok a -> backtrack fuel' f x (vopp g) (dot g (vopp g)) a0 c p = Ok a.
Proof.
  intros L Hf E. pose proof (backtrack_spec f x g c p L fuel a0) as B. rewrite E in B. destruct B as (j & J1 & J2 & J3 & J4).
  destruct (backtrack_ok f x g c p fuel' a0 j L ltac:(lia) ltac:(congruence)) as (a' & E'). pose proof (backtrack_spec f x g c p L fuel' a0) as B'. rewrite E' in B'. destruct B' as (j' & K1 & K2 & K3 & K4). rewrite E'. f_equal.
  destruct (Nat.lt_trichotomy j j') as [T|[T|T]]; [exfalso; apply (K4 j T); congruence|congruence|exfalso; apply (J4 j' T); congruence].
Qed.
Lemma descend_ends q df n alpha c p tol : (forall x, length x = n -> length (df x) = n) -> (forall x, length x = n -> exists j, armijo (target q) c x (df x) (alpha * p ^ j)%Qc) ->
  forall N x, length x = n -> exists fuel, forall fuel', fuel <= fuel' -> exists z r, descend N fuel' q AnArray x df alpha c p tol = (z, Ok r).
Proof.
  intros Hdf HA. induction N as [|N IH]; intros x Lx.
  - exists 0. intros fuel' _. cbn [descend]. unfold answer, neg. destruct (minimize q); eauto.
  - destruct (HA x Lx) as (j & Hj). destruct (backtrack_ok (target q) x (df x) c p j alpha j ltac:(rewrite Hdf; auto) (Nat.le_refl j) Hj) as (a & Ea).
    set (x' := along x (- a)%Qc (df x)). assert (Lx' : length x' = n) by (unfold x'; rewrite length_along; auto; rewrite Hdf; auto). destruct (IH x' Lx') as (fu & HF). exists (Nat.max j fu). intros fuel' Hf'. cbn [descend].
    rewrite (backtrack_same _ _ _ _ _ j fuel' _ a) by (auto; try lia; rewrite Hdf; auto). cbn [iadd]. rewrite plus_along by (rewrite Hdf; auto). fold x'.
    destruct (norm_le (df x') tol); [unfold answer, neg; destruct (minimize q); eauto|]. apply HF. lia.
Qed.

(** ** smooth functions *)
Lemma along_scale x a g : along x 1 (scale a g) = along x a g.
Proof. revert g. induction x as [|u x IH]; intros [|v g]; cbn [scale map along]; auto. f_equal; [ring|apply IH]. Qed.
Lemma inner_scale_r g a : forall h, inner_product g (scale a h) = (a * inner_product g h)%Qc.
Proof. induction g as [|u g IH]; intros [|v h]; cbn [scale map inner_product]; try ring. unfold scale in IH. rewrite IH. ring. Qed.
Lemma inner_scale_l g a : forall h, inner_product (scale a g) h = (a * inner_product g h)%Qc.
Proof. induction g as [|u g IH]; intros [|v h]; cbn [scale map inner_product]; try ring. unfold scale in IH. rewrite IH. ring. Qed.
Lemma smooth_armijo n f df K c x a : smooth n f df K -> length x = n -> (0 <= a)%Qc -> (K * a <= 1 - c)%Qc -> armijo f c x (df x) a.
Proof.
  intros HK Lx Ha H. destruct (HK x Lx) as (Lg & HD). set (g := df x) in *. pose proof (HD (scale (- a)%Qc g) ltac:(now rewrite length_scale)) as D. rewrite along_scale, inner_scale_r, inner_scale_l, inner_scale_r in D.
  unfold armijo. pose proof (inner_sq g) as S. set (s := inner_product g g) in *. assert (P : (0 <= (1 - c - K * a) * (a * s))%Qc) by (apply qmul_nonneg; [clear - H; qclra|now apply qmul_nonneg]).
  assert (E : ((1 - c - K * a) * (a * s) = a * s - c * a * s - K * (- a * (- a * s)))%Qc) by ring. assert (E2 : (- a * s = - (a * s))%Qc) by ring. rewrite E2 in *. clear - D P E. qclra.
Qed.
(** every accepted step is at least [amin], every step but the first decreases f by at least c amin tol^2 *)
Lemma smooth_decrease n f df K alpha c p tol amin x : smooth n f df K -> (0 <= c)%Qc -> (0 < alpha)%Qc -> (0 < p)%Qc -> (0 <= tol)%Qc -> (0 < amin)%Qc -> (amin <= alpha)%Qc -> (K * amin <= p * (1 - c))%Qc -> (0 <= K)%Qc -> length x = n ->
  forall k y, descent f df alpha c p tol x k y -> length y = n /\ (f y <= f x - qz (Z.of_nat (Nat.pred k)) * (c * amin * (tol * tol)))%Qc.
Proof.
  intros HK Hc Ha Hp Ht Hm Hma HmK HK0 Lx k y HD. induction HD as [|k y j HD (Ly & IH) HN HA HB]; [split; auto; cbn [Nat.pred]; change (qz (Z.of_nat 0)) with 0%Qc; assert (E : (f x - 0 * (c * amin * (tol * tol)) = f x)%Qc) by ring; rewrite E; apply Qcle_refl|].
  destruct (HK y Ly) as (Lg & _). split; [rewrite length_along; auto; congruence|]. set (a := (alpha * p ^ j)%Qc) in *.
  assert (A : (amin <= a)%Qc).
  { destruct j as [|j]; [unfold a; change (p ^ 0)%Qc with 1%Qc; rewrite Qcmult_1_r; exact Hma|]. destruct (Qclt_le_dec a amin) as [L|L]; auto. exfalso. apply (HB j); [lia|]. apply (smooth_armijo n f df K); auto.
    - apply qmul_nonneg; [now apply Qclt_le_weak|]. now apply pow_nonneg, Qclt_le_weak.
    - set (b := (alpha * p ^ j)%Qc). assert (E : a = (p * b)%Qc) by (unfold a, b; rewrite pow_S; ring). apply Qcnot_lt_le. intros T.
      assert (T2 : (p * (1 - c) < p * (K * b))%Qc) by (rewrite !(Qcmult_comm p); now apply Qcmult_lt_compat_r). assert (T3 : (K * a <= K * amin)%Qc) by (rewrite !(Qcmult_comm K); apply qmul_le_r; auto; now apply Qclt_le_weak).
      assert (E2 : (K * a = p * (K * b))%Qc) by (rewrite E; ring). clear - T2 T3 E2 HmK. qclra. }
  assert (A0 : (0 <= a)%Qc) by (clear - A Hm; qclra). pose proof (inner_sq (df y)) as S. unfold armijo in HA. destruct k as [|k].
  - cbn [Nat.pred] in *. change (qz (Z.of_nat 0)) with 0%Qc in *. pose proof (qmul_nonneg _ _ (qmul_nonneg _ _ Hc A0) S) as P. assert (E : (0 * (c * amin * (tol * tol)) = 0)%Qc) by ring. rewrite E in *. clear - HA P IH. qclra.
  - destruct HN as [HN|HN]; [discriminate HN|]. assert (T : (tol * tol <= inner_product (df y) (df y))%Qc) by (apply Qcnot_lt_le; intros T; apply HN; split; auto; now apply Qclt_le_weak).
    cbn [Nat.pred] in *. rewrite (Nat2Z.inj_succ k). unfold Z.succ. rewrite qz_add, qz_1. set (z := qz (Z.of_nat k)) in *.
    assert (P : (c * amin * (tol * tol) <= c * a * inner_product (df y) (df y))%Qc).
    { apply Qcle_trans with (c * a * (tol * tol))%Qc; [apply qmul_le_r; [|now apply qmul_nonneg]; rewrite !(Qcmult_comm c); now apply qmul_le_r|]. rewrite !(Qcmult_comm (c * a)). apply qmul_le_r; auto. now apply qmul_nonneg. }
    assert (E : ((z + 1) * (c * amin * (tol * tol)) = z * (c * amin * (tol * tol)) + c * amin * (tol * tol))%Qc) by ring. rewrite E. set (w := (z * (c * amin * (tol * tol)))%Qc) in *. clear - HA P IH. qclra.
Qed.

(** ** linear systems *)
Lemma mulmv_apply M v n : (forall r, In r M -> length r = n) -> length v = n -> mulmv M v = apply M v.
Proof. intros H L. unfold mulmv, apply. apply map_ext_in. intros r Hr. apply dot_inner. rewrite H; auto. Qed.
Lemma square_shaped n H : square n H -> shaped n H. Proof. intros (_ & S). apply Forall_forall. exact S. Qed.
Lemma nonsingular_det n H : square n H -> (nonsingular n H <-> mdet H <> 0%Qc).
Proof.
  intros S. pose proof (square_shaped n H S) as SH. destruct S as (L & S). split.
  - intros (_ & K). unfold mdet. rewrite L. apply det_kernel. intros v Hv k Hk.
    assert (E : mkvec n v = repeat 0%Qc n).
    { apply K; [apply length_mkvec|]. rewrite <- (mulmv_apply H _ n) by (auto; apply length_mkvec). apply vec_ext; [rewrite length_mulmv, repeat_length; auto|]. rewrite length_mulmv. intros i Hi. rewrite (at_mulmv n) by auto. rewrite (Sum_ext n _ (fun k => ent H i k * v k)%Qc) by (intros j Hj; now rewrite at_mkvec).
      rewrite Hv by lia. unfold at_. rewrite nth_repeat. reflexivity. }
    assert (E2 : at_ (mkvec n v) k = at_ (repeat 0%Qc n) k) by now rewrite E. rewrite at_mkvec in E2 by auto. rewrite E2. unfold at_. apply nth_repeat.
  - intros D. split; [split; auto|]. intros v Lv E. destruct (minv_ok H n L D) as (X & _ & LX & SX & X1 & _). apply vec_ext; [now rewrite repeat_length|]. intros i Hi. rewrite Lv in Hi.
    rewrite <- (Sum_delta_l n i (at_ v) Hi). rewrite (Sum_ext n _ (fun j => Sum n (fun k => ent X i k * ent H k j) * at_ v j)%Qc) by (intros j Hj; now rewrite X1).
    transitivity (Sum n (fun k => ent X i k * Sum n (fun j => ent H k j * at_ v j))%Qc).
    + rewrite (Sum_ext n _ (fun j => Sum n (fun k => ent X i k * ent H k j * at_ v j))%Qc) by (intros j Hj; now rewrite Sum_scalr). rewrite Sum_swap. apply Sum_ext. intros k Hk. rewrite <- Sum_scal. apply Sum_ext. intros j Hj. ring.
    + rewrite (Sum_ext n _ (fun _ => 0%Qc)).
      * rewrite Sum_zero. unfold at_. symmetry. apply nth_repeat.
      * intros k Hk. rewrite <- (at_mulmv n) by (auto; lia). rewrite (mulmv_apply H v n) by auto. rewrite E. unfold at_. rewrite nth_repeat. ring.
Qed.
Lemma lin_solve_ok n H v : square n H -> length v = n -> nonsingular n H -> exists d, lin_solve H v = Ok d /\ length d = n /\ apply H d = v.
Proof.
  intros S Lv NS. apply (nonsingular_det n H S) in NS. pose proof (square_shaped n H S) as SH. destruct S as (L & S). unfold lin_solve, vector.
  assert (F : forallb (fun r => Nat.eqb (length r) (length H)) H = true) by (apply forallb_forall; intros r Hr; apply Nat.eqb_eq; rewrite S; auto). rewrite F. cbn [negb]. rewrite Lv, L, Nat.eqb_refl. cbn [negb].
  destruct (minv_ok H n L NS) as (X & EX & LX & SX & _ & X2). rewrite EX. cbn [bind]. exists (mulmv X v). split; auto. split; [now rewrite length_mulmv|].
  rewrite <- (mulmv_apply H _ n) by (auto; now rewrite length_mulmv). apply vec_ext; [rewrite length_mulmv; congruence|]. rewrite length_mulmv. intros i Hi. rewrite (at_mulmv n) by auto.
  rewrite (Sum_ext n _ (fun j => Sum n (fun k => ent H i j * (ent X j k * at_ v k)))%Qc) by (intros j Hj; rewrite (at_mulmv n) by (auto; lia); now rewrite Sum_scal).
  rewrite Sum_swap. rewrite (Sum_ext n _ (fun k => delta i k * at_ v k)%Qc) by (intros k Hk; rewrite <- X2 by lia; rewrite <- Sum_scalr; apply Sum_ext; intros j Hj; ring). apply Sum_delta_l. lia.
Qed.
Lemma lin_solve_singular n H v : square n H -> length v = n -> ~ nonsingular n H -> lin_solve H v = Raise LinAlgError.
Proof.
  intros S Lv NS. rewrite (nonsingular_det n H S) in NS. destruct S as (L & S). unfold lin_solve, vector.
  assert (F : forallb (fun r => Nat.eqb (length r) (length H)) H = true) by (apply forallb_forall; intros r Hr; apply Nat.eqb_eq; rewrite S; auto). rewrite F. cbn [negb]. rewrite Lv, L, Nat.eqb_refl. cbn [negb].
  unfold minv. destruct (qeq_spec (mdet H) 0); [reflexivity|contradiction].
Qed.
Lemma plus_one x d : length d = length x -> plus x d = Ok (along x 1 d).
Proof.
  intros L. unfold plus. rewrite L, Nat.eqb_refl. f_equal. unfold vadd. clear L. revert d. induction x as [|u x IH]; intros [|v d]; [reflexivity..|]. cbn [combine map fst snd along]. f_equal; [ring|apply IH].
Qed.
Lemma nonsingular_dec n H : square n H -> nonsingular n H \/ ~ nonsingular n H.
Proof. intros S. rewrite (nonsingular_det n H S). destruct (Qc_eq_dec (mdet H) 0); auto. Qed.

Section Newton.
  Context (q : up) (df : list Qc -> list Qc) (d2f : list Qc -> list (list Qc)) (n : nat) (tolerance : Qc).
  Context (Hdf : forall x, length x = n -> length (df x) = n) (Hd2f : forall x, length x = n -> square n (d2f x)).
  Lemma newton_spec : forall N x k y, length y = n -> newton_steps df d2f tolerance x k y -> k = 0 \/ ~ norm_at_most (df y) tolerance ->
    match newton N q AnArray y df d2f tolerance with
    | (z, Ok r) => exists m, k <= m <= k + N /\ newton_steps df d2f tolerance x m z /\ length z = n /\ (m = k + N \/ (k < m /\ norm_at_most (df z) tolerance)) /\ r = (if minimize q then z else vopp z)
    | (z, Raise e) => e = LinAlgError /\ (exists m, k <= m < k + N /\ newton_steps df d2f tolerance x m z) /\ length z = n /\ ~ nonsingular n (d2f z)
    | (z, Diverges) => False
    end.
  Proof.
    induction N as [|N IH]; intros x k y Ly HD HN; cbn [newton].
    - unfold answer, neg. destruct (minimize q); exists k; (split; [lia|]); (split; [auto|]); (split; [auto|]); (split; [left; lia|reflexivity]).
    - destruct (nonsingular_dec n (d2f y) (Hd2f y Ly)) as [NS|NS].
      + destruct (lin_solve_ok n (d2f y) (vopp (df y)) (Hd2f y Ly) ltac:(rewrite length_vopp; auto) NS) as (d & -> & Ld & Ed). cbn [iadd]. rewrite plus_one by congruence. set (y' := along y 1 d) in *.
        assert (Ly' : length y' = n) by (unfold y'; rewrite length_along; congruence). assert (HD' : newton_steps df d2f tolerance x (S k) y') by (apply n_step; auto; congruence).
        destruct (norm_le_spec (df y') tolerance) as [T|T].
        * unfold answer, neg. destruct (minimize q); exists (S k); (split; [lia|]); (split; [auto|]); (split; [auto|]); (split; [right; split; auto|reflexivity]).
        * specialize (IH x (S k) y' Ly' HD' (or_intror T)). destruct (newton N q AnArray y' df d2f tolerance) as (z & [r| |]); auto.
          -- destruct IH as (m & M1 & M2 & M3 & M4 & M5). exists m. split; [lia|]. split; auto. split; auto. split; auto. destruct M4 as [M4|(M4 & M6)]; [left; lia|right; split; [lia|auto]].
          -- destruct IH as (M0 & (m & M1 & M2) & M3 & M4). split; auto. split; auto. exists m. split; [lia|auto].
      + rewrite (lin_solve_singular n) by (auto; rewrite length_vopp; auto). split; auto. split; auto. exists k. split; [lia|auto].
  Qed.
End Newton.
Lemma apply_along H n : (forall r, In r H -> length r = n) -> forall x d, length x = n -> length d = n -> apply H (along x 1 d) = along (apply H x) 1 (apply H d).
Proof.
  intros S x d Lx Ld. assert (K : forall r y e, length r = length y -> length e = length y -> inner_product r (along y 1 e) = (inner_product r y + 1 * inner_product r e)%Qc).
  { induction r as [|a r IH]; intros [|u y] [|v e] L1 L2; try discriminate; cbn [inner_product along] in *; [ring|]. rewrite IH by (injection L1; injection L2; auto). ring. }
  unfold apply. induction H as [|r H IH]; [reflexivity|]. cbn [map along]. rewrite K by (rewrite ?S by (simpl; auto); congruence). f_equal. apply IH. intros; apply S; simpl; auto.
Qed.
