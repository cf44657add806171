(** Lemmas about the list matrices of MatModel. *)
From Coq Require Import List Bool Arith QArith Qcanon Lia.
From Verif Require Import Py QcTac QSum QInt MatModel DetTheory.
Import ListNotations.
Open Scope nat_scope.
Open Scope list_scope.

(** ** sums over an initial segment *)
Lemma Sum_0 f : Sum 0 f = 0%Qc. Proof. reflexivity. Qed.
Lemma Sum_S n f : Sum (S n) f = (Sum n f + f n)%Qc.
Proof. unfold Sum. rewrite seq_S, Sigma_app, Sigma_cons, Sigma_nil. simpl. ring. Qed.
Lemma Sum_ext n f g : (forall i, i < n -> f i = g i) -> Sum n f = Sum n g.
Proof. intros H. apply Sigma_ext. intros i Hi. apply in_seq in Hi. apply H. lia. Qed.
Lemma Sum_zero n : Sum n (fun _ => 0%Qc) = 0%Qc. Proof. apply Sigma_zero. Qed.
Lemma Sum_none n f : (forall i, i < n -> f i = 0%Qc) -> Sum n f = 0%Qc.
Proof. intros H. rewrite (Sum_ext n f (fun _ => 0%Qc) H). apply Sum_zero. Qed.
Lemma Sum_add n f g : Sum n (fun i => f i + g i)%Qc = (Sum n f + Sum n g)%Qc. Proof. apply Sigma_add. Qed.
Lemma Sum_sub n f g : Sum n (fun i => f i - g i)%Qc = (Sum n f - Sum n g)%Qc. Proof. apply Sigma_sub. Qed.
Lemma Sum_scal n f k : Sum n (fun i => k * f i)%Qc = (k * Sum n f)%Qc. Proof. apply Sigma_scal. Qed.
Lemma Sum_scalr n f k : Sum n (fun i => f i * k)%Qc = (Sum n f * k)%Qc.
Proof. rewrite (Sum_ext n _ (fun i => k * f i)%Qc) by (intros; ring). rewrite Sum_scal. ring. Qed.
Lemma Sum_opp n f : Sum n (fun i => - f i)%Qc = (- Sum n f)%Qc.
Proof. rewrite (Sum_ext n _ (fun i => - (1) * f i)%Qc) by (intros; ring). rewrite Sum_scal. ring. Qed.
Lemma Sum_le n f g : (forall i, i < n -> (f i <= g i)%Qc) -> (Sum n f <= Sum n g)%Qc.
Proof. intros H. apply Sigma_le. intros i Hi. apply in_seq in Hi. apply H. lia. Qed.
Lemma Sum_nonneg n f : (forall i, i < n -> (0 <= f i)%Qc) -> (0 <= Sum n f)%Qc.
Proof. intros H. rewrite <- (Sum_zero n). now apply Sum_le. Qed.
Lemma Sum_single n i f : i < n -> (forall j, j < n -> j <> i -> f j = 0%Qc) -> Sum n f = f i.
Proof.
  intros Hi H. apply Sigma_single; [apply seq_NoDup|apply in_seq; lia|].
  intros j Hj. apply in_seq in Hj. apply H. lia.
Qed.
Lemma Sum_change n i f g : i < n -> (forall j, j < n -> j <> i -> g j = f j) -> Sum n g = (Sum n f + (g i - f i))%Qc.
Proof.
  intros Hi H. apply Sigma_change; [apply seq_NoDup|apply in_seq; lia|].
  intros j Hj. apply in_seq in Hj. apply H. lia.
Qed.
Lemma Sum_pos n f i : (forall j, j < n -> (0 <= f j)%Qc) -> i < n -> (0 < f i)%Qc -> (0 < Sum n f)%Qc.
Proof.
  intros H Hi Hp. apply (Sigma_pos _ _ i); [|apply in_seq; lia|auto]. intros j Hj. apply in_seq in Hj. apply H. lia.
Qed.
Lemma Sum_swap m n (f : nat -> nat -> Qc) : Sum m (fun i => Sum n (f i)) = Sum n (fun j => Sum m (fun i => f i j)).
Proof. apply Sigma_swap. Qed.
Lemma Sum_app m n f : Sum (m + n) f = (Sum m f + Sum n (fun i => f (m + i)%nat))%Qc.
Proof.
  induction n as [|n IH].
  - rewrite Nat.add_0_r, Sum_0. ring.
  - rewrite Nat.add_succ_r, !Sum_S, IH. ring.
Qed.
(** sum over the positions of a duplicate-free list of indices below n *)
Lemma Sum_nth (B : list nat) n f : NoDup B -> (forall j, In j B -> j < n) ->
  (forall j, j < n -> ~ In j B -> f j = 0%Qc) -> Sum n f = Sum (length B) (fun i => f (nth i B 0)).
Proof.
  intros Hnd Hlt H.
  assert (E : Sum (length B) (fun i => f (nth i B 0)) = Sigma B f).
  { clear. induction B as [|x B IH]; [reflexivity|]. unfold Sum. cbn [length seq]. rewrite !Sigma_cons, <- seq_shift, Sigma_map. cbn [nth].
    unfold Sum in IH. rewrite IH. reflexivity. }
  rewrite E. clear E. unfold Sum.
  transitivity (Sigma (filter (fun j => existsb (Nat.eqb j) B) (seq 0 n)) f).
  - rewrite Sigma_filter. apply Sigma_ext. intros j Hj. apply in_seq in Hj.
    destruct (existsb (Nat.eqb j) B) eqn:E; unfold ind; [ring|]. rewrite H; [ring|lia|]. intros HB.
    assert (existsb (Nat.eqb j) B = true); [|congruence]. apply existsb_exists. exists j. split; auto. apply Nat.eqb_refl.
  - apply Sigma_perm, Permutation.NoDup_Permutation; auto.
    + apply NoDup_filter, seq_NoDup.
    + intros j. rewrite filter_In, in_seq, existsb_exists. split.
      * intros (_ & y & Hy & Ey). apply Nat.eqb_eq in Ey. now subst.
      * intros Hj. split; [split; [lia|apply Hlt; auto]|]. exists j. split; auto. apply Nat.eqb_refl.
Qed.

(** ** entries *)
Lemma at_mkvec n f i : i < n -> at_ (mkvec n f) i = f i.
Proof.
  intros H. unfold at_, mkvec. rewrite (nth_indep _ _ (f 0)) by (rewrite map_length, seq_length; auto).
  rewrite map_nth, seq_nth; auto.
Qed.
Lemma length_mkvec n f : length (mkvec n f) = n.
Proof. unfold mkvec. now rewrite map_length, seq_length. Qed.
Lemma length_mkmat m n f : length (mkmat m n f) = m.
Proof. unfold mkmat. now rewrite map_length, seq_length. Qed.
Lemma nth_mkmat m n f i : i < m -> nth i (mkmat m n f) [] = mkvec n (f i).
Proof.
  intros H. unfold mkmat. rewrite (nth_indep _ _ (mkvec n (f 0))) by (rewrite map_length, seq_length; auto).
  rewrite (map_nth (fun i => mkvec n (f i))), seq_nth; auto.
Qed.
Lemma ent_mkmat m n f i j : i < m -> j < n -> ent (mkmat m n f) i j = f i j.
Proof. intros. unfold ent. now rewrite nth_mkmat, at_mkvec. Qed.
Lemma at_over v i : length v <= i -> at_ v i = 0%Qc.
Proof. apply nth_overflow. Qed.
Lemma at_map f v i : f 0%Qc = 0%Qc -> at_ (map f v) i = f (at_ v i).
Proof. intros H. unfold at_. rewrite <- H at 1. apply map_nth. Qed.
Lemma at_app1 u v i : i < length u -> at_ (u ++ v) i = at_ u i.
Proof. apply app_nth1. Qed.
Lemma at_app2 u v i : length u <= i -> at_ (u ++ v) i = at_ v (i - length u).
Proof. apply app_nth2. Qed.
Lemma at_repeat x n i : i < n -> at_ (repeat x n) i = x.
Proof. revert i. induction n as [|n IH]; intros i H; [lia|]. destruct i; [reflexivity|]. apply IH. lia. Qed.
Lemma at_repeat0 n i : at_ (repeat 0%Qc n) i = 0%Qc.
Proof. destruct (Nat.lt_ge_cases i n); [now apply at_repeat|]. apply at_over. now rewrite repeat_length. Qed.
Lemma vec_ext u v : length u = length v -> (forall i, i < length u -> at_ u i = at_ v i) -> u = v.
Proof. intros H1 H2. apply (nth_ext _ _ 0%Qc 0%Qc); auto. Qed.
Lemma nth_ent M i : i < length M -> nth i M [] = mkvec (length (nth i M [])) (ent M i).
Proof.
  intros H. apply vec_ext; [now rewrite length_mkvec|]. intros j Hj. rewrite at_mkvec; auto.
Qed.

(** all rows have [n] entries *)
Definition shaped (n : nat) (M : list (list Qc)) : Prop := Forall (fun r => length r = n) M.
Lemma shaped_nth n M i : shaped n M -> i < length M -> length (nth i M []) = n.
Proof. intros H Hi. exact (proj1 (Forall_forall _ _) H _ (nth_In _ _ Hi)). Qed.
Lemma shaped_mkmat m n f : shaped n (mkmat m n f).
Proof. apply Forall_forall. intros r Hr. apply in_map_iff in Hr. destruct Hr as (i & <- & _). apply length_mkvec. Qed.
Lemma mat_ext n M N : shaped n M -> shaped n N -> length M = length N ->
  (forall i j, i < length M -> j < n -> ent M i j = ent N i j) -> M = N.
Proof.
  intros HM HN HL H. apply (nth_ext _ _ [] []); auto. intros i Hi.
  apply vec_ext; [rewrite (shaped_nth n), (shaped_nth n N); auto; lia|]. intros j Hj. rewrite (shaped_nth n) in Hj by auto. apply H; auto.
Qed.

Lemma dot_Sum n u v : length u = n -> dot u v = Sum n (fun i => at_ u i * at_ v i)%Qc.
Proof. intros <-. reflexivity. Qed.
Lemma length_mulmv M v : length (mulmv M v) = length M. Proof. apply map_length. Qed.
Lemma at_mulmv n M v i : shaped n M -> i < length M -> at_ (mulmv M v) i = Sum n (fun j => ent M i j * at_ v j)%Qc.
Proof.
  intros H Hi. unfold at_ at 1, mulmv. rewrite (nth_indep _ _ (dot [] v)) by (rewrite map_length; auto).
  rewrite (map_nth (fun r => dot r v)). apply dot_Sum. now apply shaped_nth.
Qed.
Lemma length_mulvm n v M : length (mulvm n v M) = n. Proof. apply length_mkvec. Qed.
Lemma at_mulvm n v M j : j < n -> at_ (mulvm n v M) j = Sum (length v) (fun i => at_ v i * ent M i j)%Qc.
Proof. apply at_mkvec. Qed.
Lemma length_mulmm n M N : length (mulmm n M N) = length M. Proof. apply map_length. Qed.
Lemma shaped_mulmm n M N : shaped n (mulmm n M N).
Proof. apply Forall_forall. intros r Hr. apply in_map_iff in Hr. destruct Hr as (i & <- & _). apply length_mulvm. Qed.
Lemma ent_mulmm n k M N i j : shaped k M -> i < length M -> j < n ->
  ent (mulmm n M N) i j = Sum k (fun l => ent M i l * ent N l j)%Qc.
Proof.
  intros H Hi Hj. unfold ent at 1, mulmm. rewrite (nth_indep _ _ (mulvm n [] N)) by (rewrite map_length; auto).
  rewrite (map_nth (fun r => mulvm n r N)), at_mulvm by auto. now rewrite (shaped_nth k).
Qed.
Lemma length_transpose n M : length (transpose n M) = n. Proof. apply length_mkmat. Qed.
Lemma shaped_transpose n M : shaped (length M) (transpose n M). Proof. apply shaped_mkmat. Qed.
Lemma ent_transpose n M i j : i < n -> j < length M -> ent (transpose n M) i j = ent M j i.
Proof. intros. unfold transpose. now rewrite ent_mkmat. Qed.
Lemma length_take s v : length (take s v) = length s. Proof. apply map_length. Qed.
Lemma at_take s v i : i < length s -> at_ (take s v) i = at_ v (nth i s 0).
Proof.
  intros H. unfold at_ at 1, take. rewrite (nth_indep _ _ (at_ v 0)) by (rewrite map_length; auto). apply map_nth.
Qed.
Lemma length_columns s M : length (columns_of s M) = length M. Proof. apply map_length. Qed.
Lemma shaped_columns s M : shaped (length s) (columns_of s M).
Proof. apply Forall_forall. intros r Hr. apply in_map_iff in Hr. destruct Hr as (i & <- & _). apply length_take. Qed.
Lemma ent_columns s M i j : i < length M -> j < length s -> ent (columns_of s M) i j = ent M i (nth j s 0).
Proof.
  intros Hi Hj. unfold ent at 1, columns_of. rewrite (nth_indep _ _ (take s [])) by (rewrite map_length; auto).
  rewrite (map_nth (take s)). now apply at_take.
Qed.
Lemma length_vsub u v : length u = length v -> length (vsub u v) = length u.
Proof. intros H. unfold vsub. rewrite map_length, combine_length. lia. Qed.
Lemma at_vsub u v i : length u = length v -> at_ (vsub u v) i = (at_ u i - at_ v i)%Qc.
Proof.
  revert v i. induction u as [|x u IH]; intros [|y v] i H; simpl in H; try lia.
  - unfold at_. destruct i; simpl; ring.
  - destruct i as [|i]; [reflexivity|]. apply (IH v i). lia.
Qed.
Lemma length_vopp v : length (vopp v) = length v. Proof. apply map_length. Qed.
Lemma at_vopp v i : at_ (vopp v) i = (- at_ v i)%Qc.
Proof. apply (at_map Qcopp). apply Qc_is_canon. reflexivity. Qed.
Lemma ent_over M i j : length M <= i -> ent M i j = 0%Qc.
Proof. intros H. unfold ent. rewrite nth_overflow by auto. destruct j; reflexivity. Qed.

(** ** the inverse *)
Lemma minv_ok M n : length M = n -> mdet M <> 0%Qc -> exists X, minv M = Ok X /\ length X = n /\ shaped n X /\
  (forall i j, i < n -> j < n -> Sum n (fun k => ent X i k * ent M k j)%Qc = delta i j) /\
  (forall i j, i < n -> j < n -> Sum n (fun k => ent M i k * ent X k j)%Qc = delta i j).
Proof.
  intros <- H. unfold minv. destruct (qeq_spec (mdet M) 0); [contradiction|].
  eexists. split; [reflexivity|]. split; [apply length_mkmat|]. split; [apply shaped_mkmat|]. split; intros i j Hi Hj.
  - rewrite <- (inverse_left H Hi Hj). apply Sum_ext. intros k Hk. now rewrite ent_mkmat.
  - rewrite <- (inverse_right H Hi Hj). apply Sum_ext. intros k Hk. now rewrite ent_mkmat.
Qed.
Lemma minv_inv M X : minv M = Ok X -> mdet M <> 0%Qc.
Proof. unfold minv. destruct (qeq_spec (mdet M) 0); [discriminate|auto]. Qed.
Lemma Sum_delta_l n i f : i < n -> Sum n (fun k => delta i k * f k)%Qc = f i.
Proof.
  intros H. rewrite (Sum_single n i) by (auto; intros j Hj Hne; unfold delta; destruct (Nat.eqb_spec i j); try lia; ring).
  unfold delta. rewrite Nat.eqb_refl. ring.
Qed.
Lemma Sum_delta_r n i f : i < n -> Sum n (fun k => f k * delta k i)%Qc = f i.
Proof.
  intros H. rewrite (Sum_single n i) by (auto; intros j Hj Hne; unfold delta; destruct (Nat.eqb_spec j i); try lia; ring).
  unfold delta. rewrite Nat.eqb_refl. ring.
Qed.
Lemma delta_sym i j : delta i j = delta j i.
Proof. unfold delta. now rewrite Nat.eqb_sym. Qed.
(** associativity of triple products *)
Lemma Sum_assoc m n (f g : nat -> Qc) (a : nat -> nat -> Qc) :
  Sum m (fun i => f i * Sum n (fun j => a i j * g j))%Qc = Sum n (fun j => Sum m (fun i => f i * a i j) * g j)%Qc.
Proof.
  rewrite (Sum_ext m _ (fun i => Sum n (fun j => f i * a i j * g j)%Qc)).
  - rewrite Sum_swap. apply Sum_ext. intros j Hj. now rewrite Sum_scalr.
  - intros i Hi. rewrite <- Sum_scal. apply Sum_ext. intros; ring.
Qed.
Lemma qmul_nonneg (a b : Qc) : (0 <= a -> 0 <= b -> 0 <= a * b)%Qc. Proof. qcnra. Qed.
Lemma qmul_le_r (a b c : Qc) : (a <= b -> 0 <= c -> a * c <= b * c)%Qc. Proof. qcnra. Qed.
Lemma qmul_pos (a b : Qc) : (0 < a -> 0 < b -> 0 < a * b)%Qc. Proof. qcnra. Qed.
