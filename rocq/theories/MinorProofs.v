(** Bounds for the determinants of all square submatrices: rows and columns of unit matrices added to a
    matrix, matrices with at most two entries 1 in a row. *)
From Coq Require Import List Bool Arith ZArith QArith Qcanon Lia.
From Verif Require Import Py QcTac QSum QInt ComparatorModel MatModel DetTheory DetExpand MatTheory LinearModel LinearSpec LinearProofs SefProofs LinearInv DualProofs BasisProofs BlandProofs SimplexProofs SmallProofs LinearProps SimplexProps TwoPhaseProofs TwoPhaseProps NetSpec NetProofs.
Import ListNotations.
Open Scope nat_scope.
Open Scope list_scope.

(** ** expansion along a row; adding a multiple of a column to another *)
Lemma det_row n f i : i < S n -> det (S n) f = Sum (S n) (fun j => f i j * alt (i + j) (det n (fun a b => f (skip i a) (skip j b))))%Qc.
Proof.
  intros Hi. rewrite <- det_tr, (det_column (n := n) (fun a b => f b a) Hi). apply Sum_ext. intros j Hj. rewrite (Nat.add_comm j i). do 2 f_equal.
  apply (det_tr n (fun a b => f (skip i a) (skip j b))).
Qed.
Lemma skip_ne i a : skip i a <> i.
Proof. unfold skip. destruct (Nat.ltb_spec a i); lia. Qed.
Lemma skip_inj i a b : skip i a = skip i b -> a = b.
Proof. unfold skip. destruct (Nat.ltb_spec a i), (Nat.ltb_spec b i); lia. Qed.
Lemma alt_add i x y : alt i (x + y)%Qc = (alt i x + alt i y)%Qc.
Proof. unfold alt. destruct (Nat.even i); [reflexivity|ring]. Qed.
Lemma det_add_column n f u v c : u < n -> v < n -> u <> v -> det n (fun i j => if Nat.eqb j u then f i u + c * f i v else f i j)%Qc = det n f.
Proof.
  intros Hu Hv Hne. destruct n as [|n]; [lia|]. rewrite (det_column (n := n) f Hu), (det_column (n := n) (fun i j => if Nat.eqb j u then f i u + c * f i v else f i j)%Qc Hu).
  assert (Z : Sum (S n) (fun i => f i v * alt (i + u) (det n (fun a b => f (skip i a) (skip u b))))%Qc = 0%Qc).
  { change 0%Qc with (Q2Qc 0). rewrite <- (det_equal_columns (n := S n) (f := fun i j => if Nat.eqb j u then f i v else f i j) Hu Hv Hne) by (intros i Hi; rewrite Nat.eqb_refl; now destruct (Nat.eqb_spec v u); [congruence|]).
    rewrite (det_column (n := n) (fun i j => if Nat.eqb j u then f i v else f i j) Hu). apply Sum_ext. intros i Hi. rewrite Nat.eqb_refl. do 2 f_equal.
    apply det_ext. intros a b Ha Hb. destruct (Nat.eqb_spec (skip u b) u) as [K|]; [now apply skip_ne in K|reflexivity]. }
  transitivity (Sum (S n) (fun i => f i u * alt (i + u) (det n (fun a b => f (skip i a) (skip u b))))%Qc + c * Sum (S n) (fun i => f i v * alt (i + u) (det n (fun a b => f (skip i a) (skip u b))))%Qc)%Qc.
  - rewrite <- Sum_scal, <- Sum_add. apply Sum_ext. intros i Hi. rewrite Nat.eqb_refl.
    rewrite (@det_ext n (fun a b => if Nat.eqb (skip u b) u then (f (skip i a) u + c * f (skip i a) v)%Qc else f (skip i a) (skip u b)) (fun a b => f (skip i a) (skip u b))); [ring|].
    intros a b Ha Hb. destruct (Nat.eqb_spec (skip u b) u) as [K|]; [now apply skip_ne in K|reflexivity].
  - rewrite Z. ring.
Qed.
Lemma qabs_alt i x : qabs (alt i x) = qabs x.
Proof. unfold alt. destruct (Nat.even i); [reflexivity|apply qabs_opp]. Qed.

(** ** hereditary bounds *)
Definition minors_within (F : nat -> nat -> Qc) (m n : nat) (K : Qc) : Prop :=
  forall k (r s : nat -> nat), (forall i, i < k -> r i < m) -> (forall j, j < k -> s j < n) -> (qabs (det k (fun i j => F (r i) (s j))) <= K)%Qc.
Lemma minors_1 F m n K : minors_within F m n K -> (1 <= K)%Qc.
Proof. intros H. apply (H 0 (fun i => i) (fun i => i)); lia. Qed.
(** columns: [inl q] column q, [inr u] the u-th unit vector; rows: [inl a] row a, [inr v] the v-th unit vector *)
Definition mixed (F : nat -> nat -> Qc) (r c : nat -> nat + nat) (i j : nat) : Qc :=
  match c j with
  | inr u => indicator i u
  | inl q => match r i with inl a => F a q | inr v => indicator q v end
  end.
Definition lower (u k : nat) (x : nat + nat) : nat + nat := match x with inl q => inl q | inr y => inr (unskip u k y) end.
Lemma mixed_skip F r c i j k a b : a < k -> mixed F r c (skip i a) (skip j b) = mixed F (fun a => r (skip i a)) (fun b => lower i k (c (skip j b))) a b.
Proof. intros Ha. unfold mixed, lower. destruct (c (skip j b)) as [q|u]; [reflexivity|]. now apply indicator_skip. Qed.
Definition isr (x : nat + nat) : bool := match x with inr _ => true | _ => false end.
Lemma mixed_det F m n K : minors_within F m n K -> forall k r c, (forall i a, i < k -> r i = inl a -> a < m) -> (forall j q, j < k -> c j = inl q -> q < n) ->
  (qabs (det k (mixed F r c)) <= K)%Qc.
Proof.
  intros HM. pose proof (minors_1 _ _ _ _ HM) as K1. assert (K0 : (0 <= K)%Qc) by (clear - K1; qclra).
  induction k as [|k IH]; intros r c Hr Hc; [exact K1|].
  assert (Minor : forall i j, i < S k -> j < S k -> (qabs (alt (i + j) (det k (fun a b => mixed F r c (skip i a) (skip j b)))) <= K)%Qc).
  { intros i j Hi Hj. rewrite qabs_alt. rewrite (@det_ext k _ (mixed F (fun a => r (skip i a)) (fun b => lower i k (c (skip j b))))) by (intros; now apply mixed_skip).
    apply IH.
    - intros a x Ha E. apply (Hr (skip i a)); auto. apply skip_lt; lia.
    - intros b q Hb E. unfold lower in E. destruct (c (skip j b)) as [q'|u] eqn:Ec; [|discriminate E]. injection E as <-. apply (Hc (skip j b)); auto. apply skip_lt; lia. }
  destruct (find_column (fun j => isr (c j)) (S k)) as [(j & Hj & E)|Hall].
  - destruct (c j) as [|u] eqn:Ej; [discriminate E|]. rewrite (det_column (n := k) (mixed F r c) Hj). destruct (le_lt_dec (S k) u) as [Hu|Hu].
    + rewrite Sum_none; [exact K0|]. intros i Hi. unfold mixed at 1. rewrite Ej, (indicator_out i u (S k)) by auto. ring.
    + rewrite (Sum_single (S k) u); auto.
      * unfold mixed at 1. rewrite Ej, indicator_same, Qcmult_1_l. now apply Minor.
      * intros i Hi Hne. unfold mixed at 1. rewrite Ej, indicator_diff by auto. ring.
  - destruct (find_column (fun i => isr (r i)) (S k)) as [(i & Hi & E)|Hrows].
    + destruct (r i) as [|v] eqn:Ei; [discriminate E|]. rewrite (det_row k (mixed F r c) i Hi).
      assert (EV : forall j, j < S k -> mixed F r c i j = if match c j with inl q => Nat.eqb q v | _ => false end then 1%Qc else 0%Qc).
      { intros j Hj. unfold mixed. specialize (Hall j Hj). destruct (c j); [|discriminate Hall]. now rewrite Ei. }
      destruct (find_column (fun j => match c j with inl q => Nat.eqb q v | _ => false end) (S k)) as [(j & Hj & Ej)|Hnone].
      * destruct (find_column (fun j' => negb (Nat.eqb j' j) && match c j' with inl q => Nat.eqb q v | _ => false end) (S k)) as [(j' & Hj' & Ej')|Hone].
        -- apply andb_true_iff in Ej'. destruct Ej' as (N & Ej'). apply negb_true_iff, Nat.eqb_neq in N. rewrite <- (det_row k (mixed F r c) i Hi).
           assert (Ecc : c j = c j'). { destruct (c j), (c j'); try discriminate. apply Nat.eqb_eq in Ej, Ej'. congruence. }
           rewrite (det_equal_columns (n := S k) (f := mixed F r c) Hj Hj'); [exact K0|auto|]. intros a Ha. unfold mixed. now rewrite Ecc.
        -- rewrite (Sum_single (S k) j); auto.
           ++ rewrite EV, Ej, Qcmult_1_l by auto. now apply Minor.
           ++ intros l Hl Hne. specialize (Hone l Hl). rewrite EV by auto. destruct (Nat.eqb_spec l j); [contradiction|]. cbn [negb andb] in Hone. rewrite Hone. ring.
      * rewrite Sum_none; [exact K0|]. intros l Hl. rewrite EV, Hnone by auto. ring.
    + rewrite (@det_ext (S k) _ (fun i j => F (match r i with inl a => a | inr _ => 0 end) (match c j with inl q => q | inr _ => 0 end))).
      * apply HM; [intros i Hi; specialize (Hrows i Hi); destruct (r i) eqn:Ei; [now apply (Hr i)|discriminate]|intros j Hj; specialize (Hall j Hj); destruct (c j) eqn:Ej; [now apply (Hc j)|discriminate]].
      * intros i j Hi Hj. unfold mixed. specialize (Hrows i Hi). specialize (Hall j Hj). destruct (r i), (c j); try discriminate; reflexivity.
Qed.
(** some columns may be equal to [b] *)
Lemma mixed_b_det F m n K X : minors_within F m n K -> forall k r c (b : nat -> Qc) (fl : nat -> bool), (forall i a, i < k -> r i = inl a -> a < m) -> (forall j q, j < k -> c j = inl q -> q < n) ->
  (K <= X)%Qc -> (K * Sum k (fun i => qabs (b i)) <= X)%Qc -> (qabs (det k (fun i j => if fl j then b i else mixed F r c i j)) <= X)%Qc.
Proof.
  intros HM k r c b fl Hr Hc HX HB. pose proof (minors_1 _ _ _ _ HM) as K1. assert (K0 : (0 <= K)%Qc) by (clear - K1; qclra).
  destruct (find_column fl k) as [(j & Hj & Ej)|Hall].
  2:{ rewrite (@det_ext k _ (mixed F r c)) by (intros i j Hi Hj; now rewrite Hall). eapply Qcle_trans; [|exact HX]. now apply (mixed_det F m n). }
  destruct (find_column (fun j' => negb (Nat.eqb j' j) && fl j') k) as [(j' & Hj' & Ej')|Hone].
  - apply andb_true_iff in Ej'. destruct Ej' as (N & Ej'). apply negb_true_iff, Nat.eqb_neq in N.
    rewrite (det_equal_columns (n := k) (f := fun i j => if fl j then b i else mixed F r c i j) Hj Hj'); [change (qabs (Q2Qc 0)) with 0%Qc; clear - K0 HX; qclra|auto|]. intros i Hi. now rewrite Ej, Ej'.
  - destruct k as [|k]; [lia|]. rewrite (det_column (n := k) (fun i j => if fl j then b i else mixed F r c i j) Hj). eapply Qcle_trans; [apply qabs_sum|]. eapply Qcle_trans; [|exact HB].
    rewrite <- Sum_scal. apply Sum_le. intros i Hi. rewrite Ej, qabs_mul, qabs_alt.
    rewrite (@det_ext k _ (mixed F (fun a => r (skip i a)) (fun b => lower i k (c (skip j b))))).
    + assert (D : (qabs (det k (mixed F (fun a => r (skip i a)) (fun b => lower i k (c (skip j b))))) <= K)%Qc).
      { apply (mixed_det F m n); auto.
        - intros a x Ha E. apply (Hr (skip i a)); auto. apply skip_lt; lia.
        - intros a q Ha E. unfold lower in E. destruct (c (skip j a)) as [q'|u] eqn:Ec; [|discriminate E]. injection E as <-. apply (Hc (skip j a)); auto. apply skip_lt; lia. }
      rewrite Qcmult_comm. apply qmul_le_r; auto. apply qabs_nonneg.
    + intros a d Ha Hd. assert (Hs : skip j d < S k) by (apply skip_lt; lia). specialize (Hone _ Hs). destruct (Nat.eqb_spec (skip j d) j) as [Q|_]; [now apply skip_ne in Q|]. cbn [negb andb] in Hone. rewrite Hone. now apply mixed_skip.
Qed.

(** ** rows with at most two entries *)
(** the columns carry weights: the number of columns of the original matrix that were merged into one *)
Definition unit (s : Qc) : Prop := (s = 1 \/ s = - (1))%Qc.
Definition single (k : nat) (w : nat -> nat) (f : nat -> Qc) : Prop :=
  exists u c, (forall j, j < k -> f j = (c * indicator j u)%Qc) /\ (trit c \/ (c = qz 2 \/ c = - qz 2)%Qc /\ (u < k -> 3 <= w u)).
Definition pair_row (k : nat) (w : nat -> nat) (f : nat -> Qc) : Prop :=
  exists u v s t, u < k /\ v < k /\ u <> v /\ unit s /\ unit t /\ (forall j, j < k -> f j = (s * indicator j u + t * indicator j v)%Qc) /\ (w u = 1 -> w v = 1 -> s = t).
Fixpoint nsum (k : nat) (w : nat -> nat) : nat := match k with 0 => 0 | S k' => nsum k' w + w k' end.
Lemma nsum_ext k w w' : (forall j, j < k -> w j = w' j) -> nsum k w = nsum k w'.
Proof. induction k as [|k IH]; intros H; [reflexivity|]. cbn [nsum]. rewrite IH, H by auto. reflexivity. Qed.
Lemma nsum_skip k w u : u < S k -> nsum (S k) w = w u + nsum k (fun b => w (skip u b)).
Proof.
  revert w u. induction k as [|k IH]; intros w u Hu; [replace u with 0 by lia; cbn; lia|].
  destruct (Nat.eq_dec u (S k)) as [->|Hne].
  - cbn [nsum]. rewrite (nsum_ext k (fun b => w (skip (S k) b)) w) by (intros j Hj; unfold skip; now rewrite (proj2 (Nat.ltb_lt _ _)) by lia). unfold skip. rewrite (proj2 (Nat.ltb_lt _ _)) by lia. lia.
  - change (nsum (S (S k)) w) with (nsum (S k) w + w (S k)). rewrite (IH w u) by lia. change (nsum (S k) (fun b => w (skip u b))) with (nsum k (fun b => w (skip u b)) + w (skip u k)).
    replace (skip u k) with (S k) by (unfold skip; rewrite (proj2 (Nat.ltb_ge _ _)) by lia; reflexivity). lia.
Qed.
Lemma nsum_change k w u d : u < k -> nsum k (fun j => if Nat.eqb j u then w j + d else w j) = nsum k w + d.
Proof.
  induction k as [|k IH]; intros Hu; [lia|]. cbn [nsum]. destruct (Nat.eq_dec u k) as [->|Hne].
  - rewrite Nat.eqb_refl. rewrite (nsum_ext k _ w); [lia|]. intros j Hj. destruct (Nat.eqb_spec j k); [lia|reflexivity].
  - rewrite IH by lia. destruct (Nat.eqb_spec k u); [lia|]. lia.
Qed.
Lemma unskip_skip v k x : x <> v -> skip v (unskip v k x) = x.
Proof. intros H. unfold unskip, skip. destruct (Nat.ltb_spec x v), (Nat.eqb_spec x v); try lia; destruct (Nat.ltb_spec x v), (Nat.ltb_spec (x - 1) v); lia. Qed.
Lemma unskip_lt v k x : x < S k -> x <> v -> v < S k -> unskip v k x < k.
Proof. intros H Hx Hv. unfold unskip. destruct (Nat.ltb_spec x v), (Nat.eqb_spec x v); lia. Qed.
Lemma unskip_lt_inv v k x : v < S k -> unskip v k x < k -> x < S k /\ x <> v.
Proof. intros Hv. unfold unskip. destruct (Nat.ltb_spec x v), (Nat.eqb_spec x v); lia. Qed.
Lemma unit_trit s : unit s -> trit s. Proof. intros [-> | ->]; [apply trit_1|apply trit_opp, trit_1]. Qed.
Lemma unit_mul s t : unit s -> unit t -> unit (s * t)%Qc.
Proof. intros [-> | ->] [-> | ->]; [left|right|right|left]; ring. Qed.
Lemma unit_opp s : unit s -> unit (- s)%Qc. Proof. intros [-> | ->]; [now right|left; ring]. Qed.
Lemma unit_sq s : unit s -> (s * s = 1)%Qc. Proof. intros [-> | ->]; ring. Qed.
(** deleting a column *)
Lemma row_skip k w f u : u < S k -> single (S k) w f \/ pair_row (S k) w f -> let w' := fun b => w (skip u b) in let f' := fun b => f (skip u b) in single k w' f' \/ pair_row k w' f'.
Proof.
  intros Hu [(x & c & E & Hc)|(x & y & s & t & Hx & Hy & Hxy & Us & Ut & E & HW)]; cbv zeta.
  - left. exists (unskip u k x), c. split.
    + intros j Hj. rewrite E by (apply skip_lt; lia). now rewrite (indicator_skip u k) by auto.
    + destruct Hc as [Hc|(Hc & H3)]; [now left|right]. split; auto. intros Hlt. apply unskip_lt_inv in Hlt; auto. destruct Hlt as (H1 & H2). rewrite unskip_skip by auto. auto.
  - destruct (Nat.eq_dec x u) as [->|Nx]; [|destruct (Nat.eq_dec y u) as [->|Ny]].
    + left. exists (unskip u k y), t. split; [|left; now apply unit_trit]. intros j Hj. rewrite E by (apply skip_lt; lia). rewrite (indicator_diff (skip u j) u), (indicator_skip u k) by (auto; apply skip_ne). ring.
    + left. exists (unskip u k x), s. split; [|left; now apply unit_trit]. intros j Hj. rewrite E by (apply skip_lt; lia). rewrite (indicator_diff (skip u j) u), (indicator_skip u k) by (auto; apply skip_ne). ring.
    + right. exists (unskip u k x), (unskip u k y), s, t. split; [now apply unskip_lt|]. split; [now apply unskip_lt|]. split; [intros K; apply Hxy; rewrite <- (unskip_skip u k x), <- (unskip_skip u k y) by auto; now rewrite K|].
      split; auto. split; auto. split.
      * intros j Hj. rewrite E by (apply skip_lt; lia). now rewrite !(indicator_skip u k) by auto.
      * rewrite !unskip_skip by auto. exact HW.
Qed.
(** merging column [v] into column [u], along a row with entries [s] and [t] *)
Definition merged (v u : nat) (q : Qc) (f : nat -> Qc) (b : nat) : Qc := let x := skip v b in if Nat.eqb x u then (f u + q * f v)%Qc else f x.
Definition merged_w (v u : nat) (w : nat -> nat) (b : nat) : nat := let x := skip v b in if Nat.eqb x u then w u + w v else w x.
Lemma indicator_merge k u v q x b : u < S k -> v < S k -> u <> v -> b < k ->
  merged v u q (fun j => indicator j x) b = ((if Nat.eqb x v then q else 1) * indicator b (if Nat.eqb x v then unskip v k u else unskip v k x))%Qc.
Proof.
  intros Hu Hv Hne Hb. unfold merged. cbv zeta. destruct (Nat.eqb_spec x v) as [->|Hx].
  - rewrite <- (indicator_skip v k b u Hb), indicator_same. unfold indicator. destruct (Nat.eqb_spec u v); [contradiction|]. destruct (Nat.eqb_spec (skip v b) u); [ring|].
    destruct (Nat.eqb_spec (skip v b) v) as [K|]; [now apply skip_ne in K|ring].
  - rewrite <- (indicator_skip v k b x Hb). unfold indicator. destruct (Nat.eqb_spec v x); [congruence|]. destruct (Nat.eqb_spec (skip v b) u) as [->|]; ring.
Qed.
Lemma merged_w_at k u v w x : u < S k -> v < S k -> u <> v -> x < S k -> merged_w v u w (if Nat.eqb x v then unskip v k u else unskip v k x) = if Nat.eqb x v || Nat.eqb x u then w u + w v else w x.
Proof.
  intros Hu Hv Hne Hx. unfold merged_w. cbv zeta. destruct (Nat.eqb_spec x v) as [->|Hxv]; cbn [orb]; rewrite unskip_skip by auto; [now rewrite Nat.eqb_refl|reflexivity].
Qed.
Lemma merged_add v u q f g b : merged v u q (fun j => f j + g j)%Qc b = (merged v u q f b + merged v u q g b)%Qc.
Proof. unfold merged. cbv zeta. destruct (Nat.eqb _ _); ring. Qed.
Lemma merged_scal v u q c f b : merged v u q (fun j => c * f j)%Qc b = (c * merged v u q f b)%Qc.
Proof. unfold merged. cbv zeta. destruct (Nat.eqb _ _); ring. Qed.
Lemma merged_ext v u q f g k b : u < S k -> v < S k -> b < k -> (forall j, j < S k -> f j = g j) -> merged v u q f b = merged v u q g b.
Proof. intros Hu Hv Hb E. unfold merged. cbv zeta. rewrite !E by (auto; apply skip_lt; lia). reflexivity. Qed.
Lemma trit_unit_mul q c : unit q -> trit c -> trit (q * c)%Qc. Proof. intros Uq Tc. apply trit_mul; auto. now apply unit_trit. Qed.
Lemma row_merge k w f u v s t : u < S k -> v < S k -> u <> v -> unit s -> unit t -> (forall j, j < S k -> 1 <= w j) -> (w u = 1 -> w v = 1 -> s = t) ->
  single (S k) w f \/ pair_row (S k) w f -> let w' := merged_w v u w in let f' := merged v u (- (s * t)) f in single k w' f' \/ pair_row k w' f'.
Proof.
  intros Hu Hv Huv Us Ut HW HST Hf. cbv zeta. assert (Uq : unit (- (s * t))%Qc) by (now apply unit_opp, unit_mul). set (q := (- (s * t))%Qc) in *.
  set (sg := fun x => if Nat.eqb x v then q else 1%Qc). set (pi := fun x => if Nat.eqb x v then unskip v k u else unskip v k x).
  assert (Usg : forall x, unit (sg x)) by (intros x; unfold sg; destruct (Nat.eqb x v); [auto|now left]).
  assert (IM : forall x b, b < k -> merged v u q (fun j => indicator j x) b = (sg x * indicator b (pi x))%Qc) by (intros; now apply indicator_merge).
  assert (WM : forall x, x < S k -> merged_w v u w (pi x) = if Nat.eqb x v || Nat.eqb x u then w u + w v else w x) by (intros; now apply merged_w_at).
  assert (PL : forall x, x < S k -> pi x < k) by (intros x Hx; unfold pi; destruct (Nat.eqb_spec x v); apply unskip_lt; auto).
  destruct Hf as [(x & c & E & Hc)|(x & y & a & d & Hx & Hy & Hxy & Ua & Ud & E & HA)].
  - left. exists (pi x), (c * sg x)%Qc. split.
    + intros b Hb. rewrite (merged_ext v u q f (fun j => c * indicator j x)%Qc k) by auto. rewrite merged_scal, IM by auto. ring.
    + destruct Hc as [Tc|(Hc & H3)]; [left; rewrite Qcmult_comm; now apply trit_unit_mul|right]. split.
      * destruct (Usg x) as [-> | ->], Hc as [-> | ->]; [left|right|right|left]; ring.
      * intros Hlt. assert (Hx : x < S k). { unfold pi in Hlt. destruct (Nat.eqb_spec x v) as [->|]; [exact Hv|]. now apply unskip_lt_inv in Hlt. }
        rewrite WM by auto. specialize (H3 Hx). destruct (Nat.eqb_spec x v) as [->|]; cbn [orb]; [lia|]. destruct (Nat.eqb_spec x u) as [->|]; [lia|exact H3].
  - assert (EM : forall b, b < k -> merged v u q f b = (a * sg x * indicator b (pi x) + d * sg y * indicator b (pi y))%Qc).
    { intros b Hb. rewrite (merged_ext v u q f (fun j => a * indicator j x + d * indicator j y)%Qc k) by auto. rewrite merged_add, !merged_scal, !IM by auto. ring. }
    destruct (Nat.eq_dec (pi x) (pi y)) as [EP|NP].
    + left. exists (pi x), (a * sg x + d * sg y)%Qc. split; [intros b Hb; rewrite EM by auto; rewrite <- EP; ring|].
      assert (XY : x = u /\ y = v \/ x = v /\ y = u).
      { unfold pi in EP. destruct (Nat.eqb_spec x v) as [->|Nx], (Nat.eqb_spec y v) as [->|Ny]; [contradiction| | |].
        - right. split; auto. rewrite <- (unskip_skip v k y), <- (unskip_skip v k u) by auto. now rewrite EP.
        - left. split; auto. rewrite <- (unskip_skip v k x), <- (unskip_skip v k u) by auto. now rewrite EP.
        - exfalso. apply Hxy. rewrite <- (unskip_skip v k x), <- (unskip_skip v k y) by auto. now rewrite EP. }
      assert (W3 : merged_w v u w (pi x) = w u + w v) by (rewrite WM by auto; destruct XY as [(-> & ->)|(-> & ->)]; rewrite Nat.eqb_refl; [now rewrite orb_true_r|reflexivity]).
      pose proof (HW u Hu) as W1. pose proof (HW v Hv) as W2. destruct (Nat.eq_dec (w u + w v) 2) as [E2|N2].
      * left. assert (Wu : w u = 1) by lia. assert (Wv : w v = 1) by lia. specialize (HST Wu Wv). assert (Ead : a = d) by (destruct XY as [(-> & ->)|(-> & ->)]; auto).
        assert (Eq : q = (- (1))%Qc) by (unfold q; rewrite HST, unit_sq by auto; reflexivity). rewrite Ead. left. unfold sg. destruct XY as [(-> & ->)|(-> & ->)]; rewrite Nat.eqb_refl; destruct (Nat.eqb_spec u v); try contradiction; rewrite Eq; ring.
      * pose proof (unit_mul _ _ Ua (Usg x)) as U1. pose proof (unit_mul _ _ Ud (Usg y)) as U2. rewrite W3. destruct U1 as [-> | ->], U2 as [-> | ->].
        -- right. split; [left; apply Qc_is_canon; reflexivity|lia].
        -- left. left. ring.
        -- left. left. ring.
        -- right. split; [right; apply Qc_is_canon; reflexivity|lia].
    + right. exists (pi x), (pi y), (a * sg x)%Qc, (d * sg y)%Qc. split; auto. split; auto. split; auto. split; [now apply unit_mul|]. split; [now apply unit_mul|]. split; [exact EM|].
      rewrite !WM by auto. pose proof (HW u Hu) as W1. pose proof (HW v Hv) as W2. intros H1 H2. unfold sg.
      destruct (Nat.eqb_spec x v); cbn [orb] in H1; [lia|]. destruct (Nat.eqb_spec x u); [lia|]. destruct (Nat.eqb_spec y v); cbn [orb] in H2; [lia|]. destruct (Nat.eqb_spec y u); [lia|]. now rewrite (HA H1 H2).
Qed.
Lemma pow3_mono a b : a <= b -> (qz (2 ^ Z.of_nat (a / 3)) <= qz (2 ^ Z.of_nat (b / 3)))%Qc.
Proof. intros H. apply qz_le. apply Z.pow_le_mono_r; [lia|]. apply inj_le. apply Nat.div_le_mono; lia. Qed.
Lemma pow3_step a w : 3 <= w -> (qz 2 * qz (2 ^ Z.of_nat (a / 3)) <= qz (2 ^ Z.of_nat ((w + a) / 3)))%Qc.
Proof.
  intros H. rewrite <- qz_mul. apply qz_le. change 2%Z with (2 ^ 1)%Z at 1. rewrite <- Z.pow_add_r by lia. apply Z.pow_le_mono_r; [lia|].
  assert (a / 3 + 1 <= (w + a) / 3) by (replace (a / 3 + 1) with ((a + 1 * 3) / 3) by (apply Nat.div_add; lia); apply Nat.div_le_mono; lia). lia.
Qed.
Theorem two_entries_det : forall k w M, (forall j, j < k -> 1 <= w j) -> (forall i, i < k -> single k w (M i) \/ pair_row k w (M i)) ->
  (qabs (det k M) <= qz (2 ^ Z.of_nat (nsum k w / 3)))%Qc.
Proof.
  induction k as [|k IH]; intros w M HW HM; [discriminate|].
  assert (P0 : forall a, (0 <= qz (2 ^ Z.of_nat (a / 3)))%Qc) by (intros a; change 0%Qc with (qz 0); apply qz_le; apply Z.pow_nonneg; lia).
  destruct (HM 0 ltac:(lia)) as [(u & c & E & Hc)|(u & v & s & t & Hu & Hv & Huv & Us & Ut & E & HST)].
  - rewrite (det_row k M 0 ltac:(lia)). destruct (le_lt_dec (S k) u) as [Hu|Hu].
    + rewrite Sum_none; [apply P0|]. intros j Hj. rewrite E, (indicator_out j u (S k)) by auto. ring.
    + rewrite (Sum_single (S k) u); auto. 2:{ intros j Hj Hne. rewrite E, indicator_diff by auto. ring. }
      rewrite E, indicator_same, Qcmult_1_r, qabs_mul, qabs_alt by auto. rewrite (nsum_skip k w u Hu).
      assert (D : (qabs (det k (fun a b => M (skip 0 a) (skip u b))) <= qz (2 ^ Z.of_nat (nsum k (fun b => w (skip u b)) / 3)))%Qc).
      { apply IH; [intros j Hj; apply HW; apply skip_lt; lia|]. intros i Hi. apply (row_skip k w (M (skip 0 i)) u Hu). apply HM. apply skip_lt; lia. }
      set (N := nsum k (fun b => w (skip u b))) in *. set (X := qabs (det k _)) in *. destruct Hc as [Tc|(Hc & H3)].
      * apply trit_abs1 in Tc. apply Qcle_trans with (1 * X)%Qc; [apply qmul_le_r; auto; apply qabs_nonneg|]. rewrite Qcmult_1_l. eapply Qcle_trans; [exact D|]. apply pow3_mono. lia.
      * assert (Ec : qabs c = qz 2) by (destruct Hc as [-> | ->]; reflexivity). rewrite Ec. eapply Qcle_trans; [|apply pow3_step; apply H3; exact Hu].
        rewrite !(Qcmult_comm (qz 2)). apply qmul_le_r; auto. discriminate.
  - set (q := (- (s * t))%Qc). rewrite <- (det_add_column (S k) M u v q Hu Hv Huv). set (M' := fun i j => if Nat.eqb j u then (M i u + q * M i v)%Qc else M i j).
    change (qabs (det (S k) M') <= qz (2 ^ Z.of_nat (nsum (S k) w / 3)))%Qc. rewrite (det_row k M' 0 ltac:(lia)).
    assert (E0 : forall j, j < S k -> M' 0 j = (t * indicator j v)%Qc).
    { intros j Hj. unfold M'. destruct (Nat.eqb_spec j u) as [->|Hne].
      - rewrite !E, !indicator_same, !(indicator_diff u v), !(indicator_diff v u) by auto. unfold q. replace (s * 1 + t * 0 + - (s * t) * (s * 0 + t * 1))%Qc with (s - s * (t * t))%Qc by ring. rewrite unit_sq by auto. ring.
      - rewrite E, (indicator_diff j u) by auto. ring. }
    rewrite (Sum_single (S k) v); auto. 2:{ intros j Hj Hne. rewrite E0, indicator_diff by auto. ring. }
    rewrite E0, indicator_same, Qcmult_1_r, qabs_mul, qabs_alt by auto.
    assert (Et : qabs t = 1%Qc) by (destruct Ut as [-> | ->]; reflexivity). rewrite Et, Qcmult_1_l.
    rewrite (@det_ext k _ (fun a b => merged v u q (M (skip 0 a)) b)) by (intros a b Ha Hb; reflexivity).
    replace (nsum (S k) w) with (nsum k (merged_w v u w)).
    + apply IH.
      * intros j Hj. unfold merged_w. cbv zeta. destruct (Nat.eqb _ _); [pose proof (HW u Hu); lia|]. apply HW. apply skip_lt; lia.
      * intros i Hi. apply (row_merge k w (M (skip 0 i)) u v s t); auto. apply HM. apply skip_lt; lia.
    + rewrite (nsum_skip k w v Hv). rewrite (nsum_ext k (merged_w v u w) (fun j => if Nat.eqb j (unskip v k u) then w (skip v j) + w v else w (skip v j))).
      * rewrite (nsum_change k (fun j => w (skip v j)) (unskip v k u) (w v)) by (apply unskip_lt; auto). lia.
      * intros j Hj. unfold merged_w. cbv zeta. destruct (Nat.eqb_spec (skip v j) u) as [Q|Q], (Nat.eqb_spec j (unskip v k u)) as [Q'|Q'].
        -- rewrite <- Q. reflexivity.
        -- exfalso. apply Q'. apply (skip_inj v). rewrite unskip_skip by auto. exact Q.
        -- exfalso. apply Q. rewrite Q'. now apply unskip_skip.
        -- reflexivity.
Qed.
(** ** the submatrices of a matrix whose rows have at most two entries 1 *)
Definition two_ones (F : nat -> nat -> Qc) (m n : nat) : Prop :=
  forall i, i < m -> exists x y, forall j, j < n -> F i j = (indicator j x + (if Nat.eqb x y then 0 else indicator j y))%Qc.
Lemma duplicate_or_inj k (s : nat -> nat) : (exists i j, i < k /\ j < k /\ i <> j /\ s i = s j) \/ (forall i j, i < k -> j < k -> s i = s j -> i = j).
Proof.
  destruct (find_column (fun i => existsb (fun j => negb (Nat.eqb i j) && Nat.eqb (s i) (s j)) (seq 0 k)) k) as [(i & Hi & E)|H].
  - left. apply existsb_exists in E. destruct E as (j & Hj & E). apply in_seq in Hj. apply andb_true_iff in E. destruct E as (E1 & E2). apply negb_true_iff, Nat.eqb_neq in E1. apply Nat.eqb_eq in E2. exists i, j. repeat split; auto. lia.
  - right. intros i j Hi Hj E. destruct (Nat.eq_dec i j) as [|N]; auto. exfalso. specialize (H i Hi). rewrite <- not_true_iff_false in H. apply H. apply existsb_exists. exists j. split; [apply in_seq; lia|].
    apply andb_true_iff. split; [now apply negb_true_iff, Nat.eqb_neq|now apply Nat.eqb_eq].
Qed.
Lemma nodup_map_inj (s : nat -> nat) l : (forall a b, In a l -> In b l -> s a = s b -> a = b) -> NoDup l -> NoDup (map s l).
Proof.
  induction l as [|a l IH]; intros Hi Hn; [constructor|]. inversion_clear Hn. cbn [map]. constructor.
  - intros K. apply in_map_iff in K. destruct K as (b & E & Hb). apply Hi in E; simpl; auto. congruence.
  - apply IH; auto. intros x y Hx Hy. apply Hi; simpl; auto.
Qed.
Lemma inj_le_bound k n (s : nat -> nat) : (forall j, j < k -> s j < n) -> (forall i j, i < k -> j < k -> s i = s j -> i = j) -> k <= n.
Proof.
  intros Hs Hi. assert (N : NoDup (map s (seq 0 k))). { apply nodup_map_inj; [|apply seq_NoDup]. intros a b Ha Hb. apply in_seq in Ha, Hb. apply Hi; lia. }
  assert (I : incl (map s (seq 0 k)) (seq 0 n)). { intros x Hx. apply in_map_iff in Hx. destruct Hx as (a & <- & Ha). apply in_seq in Ha. apply in_seq. specialize (Hs a ltac:(lia)). lia. }
  pose proof (NoDup_incl_length N I) as L. now rewrite map_length, !seq_length in L.
Qed.
(** the place of column [x] among the chosen columns, [k] when it is not there *)
Lemma place k (s : nat -> nat) x : (forall i j, i < k -> j < k -> s i = s j -> i = j) -> exists u, u <= k /\ (u < k -> s u = x) /\ forall j, j < k -> indicator (s j) x = indicator j u.
Proof.
  intros Hinj. destruct (find_column (fun j => Nat.eqb (s j) x) k) as [(u & Hu & E)|H].
  - apply Nat.eqb_eq in E. exists u. split; [lia|]. split; auto. intros j Hj. unfold indicator. destruct (Nat.eqb_spec (s j) x) as [Q|Q], (Nat.eqb_spec j u) as [->|N]; auto; [|contradiction]. exfalso. apply N. apply Hinj; auto. congruence.
  - exists k. split; [lia|]. split; [lia|]. intros j Hj. specialize (H j Hj). unfold indicator. rewrite H. destruct (Nat.eqb_spec j k); [lia|reflexivity].
Qed.
Theorem two_ones_minors F m n : two_ones F m n -> minors_within F m n (qz (2 ^ Z.of_nat (n / 3))).
Proof.
  intros HF k r s Hr Hs. assert (P0 : (0 <= qz (2 ^ Z.of_nat (n / 3)))%Qc) by (change 0%Qc with (qz 0); apply qz_le; apply Z.pow_nonneg; lia).
  destruct (duplicate_or_inj k s) as [(i & j & Hi & Hj & Hne & E)|Hinj].
  { rewrite (det_equal_columns (n := k) (f := fun i j => F (r i) (s j)) Hi Hj Hne); [exact P0|]. intros a Ha. now rewrite E. }
  apply Qcle_trans with (qz (2 ^ Z.of_nat (nsum k (fun _ => 1) / 3))).
  - apply two_entries_det; [auto|]. intros i Hi. destruct (HF (r i) (Hr i Hi)) as (x & y & E). destruct (place k s x Hinj) as (u & Lu & Su & Eu). destruct (place k s y Hinj) as (v & Lv & Sv & Ev).
    destruct (Nat.eqb_spec x y) as [->|Hxy].
    + left. exists u, 1%Qc. split; [|left; apply trit_1]. intros j Hj. rewrite E by auto. rewrite Eu by auto. change (Q2Qc 0) with 0%Qc. ring.
    + destruct (Nat.eq_dec u k) as [->|Nu]; [|destruct (Nat.eq_dec v k) as [->|Nv]].
      * left. exists v, 1%Qc. split; [|left; apply trit_1]. intros j Hj. rewrite E, Eu, Ev by auto. rewrite (indicator_diff j k) by lia. ring.
      * left. exists u, 1%Qc. split; [|left; apply trit_1]. intros j Hj. rewrite E, Eu, Ev by auto. rewrite (indicator_diff j k) by lia. ring.
      * right. exists u, v, 1%Qc, 1%Qc. split; [lia|]. split; [lia|]. split; [intros ->; apply Hxy; rewrite <- Su, <- Sv by lia; reflexivity|]. split; [now left|]. split; [now left|]. split; [|auto].
        intros j Hj. rewrite E, Eu, Ev by auto. ring.
  - apply pow3_mono. assert (N : forall k, nsum k (fun _ => 1) = k) by (clear; induction k; cbn [nsum]; lia). rewrite N. now apply (inj_le_bound k n s).
Qed.
(** rows with a 1 on each side of a partition of the columns *)
Definition across (F : nat -> nat -> Qc) (m n : nat) (side : nat -> bool) : Prop :=
  forall i, i < m -> exists x y, forall j, j < n -> F i j = (indicator j x + indicator j y)%Qc /\ (n <= y \/ n <= x \/ side x <> side y).
Theorem across_minors F m n side : across F m n side -> minors_within F m n 1.
Proof.
  intros HF k r s Hr Hs. destruct (duplicate_or_inj k s) as [(i & j & Hi & Hj & Hne & E)|Hinj].
  { rewrite (det_equal_columns (n := k) (f := fun i j => F (r i) (s j)) Hi Hj Hne); [discriminate|]. intros a Ha. now rewrite E. }
  apply trit_abs1. rewrite <- (det_tr k (fun i j => F (r i) (s j))). apply (arcs_det k (fun j => side_sign side (s j))); [intros; apply trit_side|].
  intros i Hi. destruct (HF (r i) (Hr i Hi)) as (x & y & E). destruct (place k s x Hinj) as (u & Lu & Su & Eu). destruct (place k s y Hinj) as (v & Lv & Sv & Ev).
  assert (Sd : forall j z, j < k -> (side_sign side (s j) * indicator (s j) z = side_sign side z * indicator (s j) z)%Qc).
  { intros j z Hj. destruct (Nat.eq_dec (s j) z) as [->|N]; [reflexivity|]. rewrite indicator_diff by auto. ring. }
  assert (Sq : forall z, (side_sign side z * side_sign side z = 1)%Qc) by (intros z; unfold side_sign; destruct (side z); ring).
  (* F (r i) (s j) = ind x + ind y; signs at x and y are opposite *)
  assert (EF : forall j, j < k -> F (r i) (s j) = (side_sign side (s j) * (side_sign side x * indicator j u + side_sign side y * indicator j v))%Qc).
  { intros j Hj. destruct (E (s j) (Hs j Hj)) as (-> & _). rewrite <- Eu, <- Ev by auto.
    replace (side_sign side (s j) * (side_sign side x * indicator (s j) x + side_sign side y * indicator (s j) y))%Qc with (side_sign side x * (side_sign side (s j) * indicator (s j) x) + side_sign side y * (side_sign side (s j) * indicator (s j) y))%Qc by ring.
    rewrite !Sd by auto. rewrite !Qcmult_assoc, !Sq. ring. }
  assert (Out : forall j z, j < k -> n <= z -> indicator (s j) z = 0%Qc) by (intros j z Hj Hz; apply indicator_diff; specialize (Hs j Hj); lia).
  destruct k as [|k]; [lia|]. destruct (E (s 0) (Hs 0 ltac:(lia))) as (_ & HX).
  assert (G : forall z w, (forall j, j < S k -> indicator (s j) z = indicator j w) -> signed_arc (fun j => side_sign side (s j)) (S k) (fun j => (side_sign side (s j) * (side_sign side z * indicator j w))%Qc)).
  { intros z w Ew. unfold side_sign at 3. destruct (side z).
    - exists w, (S k). intros j Hj. rewrite (indicator_diff j (S k)) by lia. ring.
    - exists (S k), w. intros j Hj. rewrite (indicator_diff j (S k)) by lia. ring. }
  destruct HX as [HX|[HX|HX]].
  - destruct (G x u Eu) as (h & t & Q). exists h, t. intros j Hj. rewrite <- Q by auto. rewrite EF by auto. rewrite <- Ev, Out by auto. ring.
  - destruct (G y v Ev) as (h & t & Q). exists h, t. intros j Hj. rewrite <- Q by auto. rewrite EF by auto. rewrite <- Eu, Out by auto. ring.
  - unfold side_sign at 2 3 in EF. destruct (side x), (side y); try congruence.
    + exists u, v. intros j Hj. rewrite EF by auto. ring.
    + exists v, u. intros j Hj. rewrite EF by auto. ring.
Qed.
