(** The simplex iteration and its loop. *)
From Coq Require Import String List Bool Arith ZArith QArith Qcanon Lia Sorted.
From Verif Require Import Py QcTac QSum QInt ComparatorModel MatModel DetTheory MatTheory LinearModel LinearSpec LinearProofs SefProofs LinearInv BasisProofs BlandProofs.
Import ListNotations.
Open Scope nat_scope.
Open Scope string_scope.
Open Scope list_scope.

(** ** negating rows *)
Definition sg (p : lp) (i : nat) : Qc := if qlt (at_ (lb p) i) 0 then Qcopp 1%Qc else 1%Qc.
Lemma sg_sq p i : (sg p i * sg p i)%Qc = 1%Qc.
Proof. unfold sg. destruct (qlt _ _); ring. Qed.
Lemma rows_neg p : wf p -> rows (negate_rows p) = rows p.
Proof. intros H. unfold rows. cbn [negate_rows lA]. apply length_flip_A. apply (wf_b _ H). Qed.
Lemma cols_neg p : cols (negate_rows p) = cols p. Proof. reflexivity. Qed.
Lemma ent_neg p i j : wf p -> i < rows p -> ent (lA (negate_rows p)) i j = (sg p i * ent (lA p) i j)%Qc.
Proof.
  intros H Hi. unfold ent. cbn [negate_rows lA]. rewrite nth_flip_A by (auto; apply (wf_b _ H)). unfold sg.
  destruct (qlt (at_ (lb p) i) 0); rewrite ?at_vopp; ring.
Qed.
Lemma lb_neg p i : at_ (lb (negate_rows p)) i = (sg p i * at_ (lb p) i)%Qc.
Proof.
  cbn [negate_rows lb]. unfold flip_b. rewrite at_map by reflexivity. unfold sg. destruct (qlt (at_ (lb p) i) 0); ring.
Qed.
Lemma lb_neg_nonneg p i : (0 <= at_ (lb (negate_rows p)) i)%Qc.
Proof. rewrite lb_neg. unfold sg. destruct (qlt_spec (at_ (lb p) i) 0); qclra. Qed.
Lemma neg_again p : wf p -> negate_rows (negate_rows p) = negate_rows p.
Proof.
  intros H. apply negate_nonneg; [now apply wf_negate|]. intros v Hv. apply (In_nth _ _ 0%Qc) in Hv. destruct Hv as (i & _ & <-).
  apply lb_neg_nonneg.
Qed.
Lemma lhs_neg p i f : wf p -> i < rows p -> lhs (negate_rows p) i f = (sg p i * lhs p i f)%Qc.
Proof. intros H Hi. unfold lhs. rewrite <- Sum_scal. apply Sum_ext. intros j Hj. rewrite ent_neg by auto. ring. Qed.
Lemma solves_neg t p f : wf p -> (solves t (negate_rows p) f <-> solves t p f).
Proof.
  intros H. unfold solves. rewrite rows_neg by auto. split; intros K i Hi; specialize (K i Hi); rewrite lhs_neg, lb_neg in * by auto.
  - replace (lhs p i f) with (sg p i * (sg p i * lhs p i f))%Qc by (rewrite Qcmult_assoc, sg_sq; ring). rewrite K.
    replace (sg p i * (t * (sg p i * at_ (lb p) i)))%Qc with (t * (sg p i * sg p i * at_ (lb p) i))%Qc by ring. rewrite sg_sq. ring.
  - rewrite K. ring.
Qed.
Fixpoint Prod (n : nat) (s : nat -> Qc) : Qc := match n with 0 => 1%Qc | S n' => (s O * Prod n' (fun i => s (S i)))%Qc end.
Lemma alt_scal i s x : alt i (s * x)%Qc = (s * alt i x)%Qc.
Proof. unfold alt. destruct (Nat.even i); ring. Qed.
Lemma det_rows n : forall s f, det n (fun i j => s i * f i j)%Qc = (Prod n s * det n f)%Qc.
Proof.
  induction n as [|n IH]; intros s f; [cbn; ring|]. cbn [det Prod]. rewrite <- Sum_scal. apply Sum_ext. intros j Hj.
  rewrite (IH (fun i => s (S i)) (fun a b => f (S a) (skip j b))).
  rewrite <- alt_scal. f_equal. ring.
Qed.
Lemma Prod_one n : forall s, (forall i, s i * s i = 1)%Qc -> (Prod n s = 1 \/ Prod n s = - (1))%Qc.
Proof.
  induction n as [|n IH]; intros s H; [cbn; auto|]. cbn [Prod].
  assert (E0 : (s O = 1 \/ s O = - (1))%Qc).
  { specialize (H O). assert (K : ((s O - 1) * (s O + 1) = 0)%Qc) by (replace ((s O - 1) * (s O + 1))%Qc with (s O * s O - 1)%Qc by ring; rewrite H; ring).
    apply Qcmult_integral in K. destruct K as [K|K]; [left|right]; qclra. }
  destruct (IH (fun i => s (S i))) as [E|E]; auto; rewrite E; destruct E0 as [E0|E0]; rewrite E0; [left|right|right|left]; ring.
Qed.
Lemma qabs_opp x : qabs (- x) = qabs x.
Proof. unfold qabs. destruct (qlt_spec (- x) 0), (qlt_spec x 0); qclra. Qed.
Lemma det_neg p s : wf p -> length s = rows p -> (forall j, In j s -> j < cols p) ->
  qabs (mdet (columns_of s (lA (negate_rows p)))) = qabs (mdet (columns_of s (lA p))).
Proof.
  intros H L Hs. unfold mdet. rewrite !length_columns. change (length (lA (negate_rows p))) with (rows (negate_rows p)).
  rewrite rows_neg by auto. change (length (lA p)) with (rows p).
  rewrite (@det_ext (rows p) _ (fun i j => sg p i * ent (columns_of s (lA p)) i j)%Qc).
  - rewrite det_rows. destruct (Prod_one (rows p) (sg p) (sg_sq p)) as [->| ->]; [now rewrite Qcmult_1_l|].
    replace (- (1) * det (rows p) (ent (columns_of s (lA p))))%Qc with (- det (rows p) (ent (columns_of s (lA p))))%Qc by ring. apply qabs_opp.
  - intros i j Hi Hj. rewrite !ent_columns; auto; try lia; [now apply ent_neg|]. change (length (lA (negate_rows p))) with (rows (negate_rows p)).
    now rewrite rows_neg.
Qed.
Lemma qabs_0 x : qabs x = 0%Qc <-> x = 0%Qc.
Proof. unfold qabs. destruct (qlt_spec x 0); split; intros; qclra. Qed.
Lemma basis_neg p B : wf p -> (basis (negate_rows p) B <-> basis p B).
Proof.
  intros H. split; intros [H1 H2 H3 H4]; rewrite ?rows_neg in H1 by auto.
  - constructor; auto. intros E. apply H4. apply qabs_0. rewrite det_neg; auto. now apply qabs_0.
  - constructor; rewrite ?rows_neg; auto. intros E. apply H4. apply qabs_0. rewrite <- det_neg; auto. now apply qabs_0.
Qed.
Lemma is_basis_neg p Bz : wf p -> is_basis (negate_rows p) Bz = is_basis p Bz.
Proof.
  intros H. unfold is_basis. rewrite rows_neg, cols_neg by auto. destruct (Nat.eqb_spec (rows p) (length Bz)) as [L|]; auto. cbn [negb].
  destruct (Nat.eqb (length Bz) 0); auto. destruct (forallb _ Bz) eqn:F; auto. cbn [negb]. f_equal. f_equal. unfold is_close_to_zero.
  rewrite det_neg; auto.
  - rewrite length_sort, length_array_indexing. auto.
  - intros j Hj. apply (proj1 (In_sort _ _)) in Hj. unfold to_array_indexing in Hj. apply in_map_iff in Hj. destruct Hj as (i & <- & Hi).
    rewrite forallb_forall in F. specialize (F i Hi). apply andb_true_iff in F. rewrite !Z.leb_le in F. lia.
Qed.
Lemma is_basis_sorted p Bz B : is_basis p Bz = Ok true -> B = sort (to_array_indexing Bz) -> is_basis p (to_math_indexing B) = Ok true.
Proof.
  intros E ->. pose proof (is_basis_basis p Bz E) as HB. apply basis_is_basis; auto.
  - now apply is_basis_true in E.
  - unfold is_basis in E. destruct (negb _); [discriminate|]. destruct (Nat.eqb _ 0); [discriminate|]. destruct (negb _); [discriminate|].
    injection E as E. apply negb_true_iff in E. unfold is_close_to_zero in E.
    destruct (qlt_spec (qabs (mdet (columns_of (sort (to_array_indexing Bz)) (lA p)))) tol_zero); [discriminate|]. qclra.
Qed.

(** ** one iteration *)
Lemma find_first (P : nat -> bool) l k : StronglySorted lt l -> find P l = Some k -> In k l /\ P k = true /\ forall j, In j l -> j < k -> P j = false.
Proof.
  induction l as [|x l IH]; intros Hs E; [discriminate|]. cbn [find] in E. inversion Hs as [|? ? Hs' Hx]; subst. rewrite Forall_forall in Hx.
  destruct (P x) eqn:Ex.
  - injection E as <-. split; [simpl; auto|]. split; auto. intros j [<-|Hj] Hlt; [lia|]. specialize (Hx j Hj). lia.
  - destruct (IH Hs' E) as (H1 & H2 & H3). split; [simpl; auto|]. split; auto. intros j [<-|Hj] Hlt; auto.
Qed.
Lemma seq_sorted n : forall a, StronglySorted lt (seq a n).
Proof. induction n as [|n IH]; intros a; cbn [seq]; constructor; auto. apply Forall_forall. intros x Hx. apply in_seq in Hx. lia. Qed.
Lemma filter_sorted (P : nat -> bool) l : StronglySorted lt l -> StronglySorted lt (filter P l).
Proof.
  induction 1 as [|x l Hs IH Hx]; cbn [filter]; [constructor|]. destruct (P x); auto. constructor; auto.
  apply Forall_forall. intros y Hy. apply filter_In in Hy. rewrite Forall_forall in Hx. apply Hx, Hy.
Qed.
Lemma forallb_take (P : Qc -> bool) N v : forallb P (take N v) = true <-> forall j, In j N -> P (at_ v j) = true.
Proof.
  unfold take. rewrite forallb_forall. split.
  - intros H j Hj. apply H. now apply in_map.
  - intros H x Hx. apply in_map_iff in Hx. destruct Hx as (j & <- & Hj). auto.
Qed.
Lemma at_column (A : list (list Qc)) k i : at_ (map (fun r => at_ r k) A) i = ent A i k.
Proof.
  unfold ent. destruct (Nat.lt_ge_cases i (length A)) as [Hi|Hi].
  - unfold at_ at 1. rewrite (nth_indep _ _ (at_ [] k)) by now rewrite map_length. now rewrite (map_nth (fun r => at_ r k)).
  - rewrite at_over by now rewrite map_length. rewrite (nth_overflow A) by auto. unfold at_. now destruct k.
Qed.

Definition it_basis (it : iter) : list nat := match it with Optimal _ B _ | Unbounded _ B _ | Next B _ => B end.

(** what a result of one iteration tells *)
Record iterated (p : lp) (B : list nat) (q : lp) : Prop := mkit {
  it_B : basis p B;
  it_q : canonical p B = Ok q;
  it_canon : canon p B q }.
Definition result_of (p : lp) (B : list nat) (q : lp) (it : iter) : Prop :=
  match it with
  | Optimal x B' q' => B' = B /\ q' = q /\ x = scatter (cols p) B (lb q) /\
      (forall j, j < cols p -> (at_ (lc q) j < tol_zero)%Qc) /\ (forall j, j < cols p -> (- tol_zero < at_ x j)%Qc)
  | Unbounded x B' q' => B' = B /\ q' = q /\ x = scatter (cols p) B (lb q) /\ exists k, k < cols p /\ ~ In k B /\
      (tol_zero <= at_ (lc q) k)%Qc /\ (forall j, j < k -> (at_ (lc q) j < tol_zero)%Qc) /\
      (forall i, i < rows p -> (ent (lA q) i k < tol_zero)%Qc)
  | Next B' q' => q' = q /\ exists k l, k < cols p /\ ~ In k B /\
      (tol_zero <= at_ (lc q) k)%Qc /\ (forall j, j < k -> (at_ (lc q) j < tol_zero)%Qc) /\
      (exists i, i < rows p /\ (tol_zero <= ent (lA q) i k)%Qc) /\
      ratio_test 0 (lb q) (map (fun r => at_ r k) (lA q)) None None = Some l /\
      B' = sort (remove_first (bk B l) B ++ [k])
  end.

Lemma iteration_cases p Bz : wf p -> lsef p = true -> is_basis p Bz = Ok true ->
  let B := sort (to_array_indexing Bz) in let p' := negate_rows p in
  exists q, iterated p' B q /\
    ((exists it, simplex_iteration p Bz = Ok it /\ result_of p' B q it) \/
     (simplex_iteration p Bz = Raise ArithmeticError /\ exists i, i < rows p /\ (at_ (lb q) i <= - tol_zero)%Qc) \/
     (simplex_iteration p Bz = Raise TypeError /\ exists k, k < cols p /\ (exists i, i < rows p /\ (tol_zero <= ent (lA q) i k)%Qc) /\
         ratio_test 0 (lb q) (map (fun r => at_ r k) (lA q)) None None = None)).
Proof.
  intros H Hs HB B p'. pose proof (wf_negate p H) as H'. fold p' in H'.
  assert (HBB : basis p' B) by (apply basis_neg; auto; now apply is_basis_basis).
  destruct (basis_canon p' B H' HBB) as (q & Eq & HC). exists q. split; [now constructor|].
  unfold simplex_iteration. rewrite Hs, HB. cbn [negb bind]. fold B. fold p'. rewrite Eq. cbn [bind].
  destruct (canon_again p' B q HBB HC) as (x & Ex & Ex2). rewrite Ex. cbn [bind]. rewrite (cn_cols _ _ _ HC).
  assert (Rp : rows p' = rows p) by now apply rows_neg.
  set (N := filter (fun i => negb (inb i B)) (seq 0 (cols p'))).
  assert (HN : forall j, In j N <-> j < cols p' /\ ~ In j B).
  { intros j. unfold N. rewrite filter_In, in_seq, negb_true_iff, inb_false. split; intros (? & ?); split; auto; lia. }
  assert (SN : StronglySorted lt N) by (apply filter_sorted, seq_sorted).
  assert (CB : forall j, In j B -> at_ (lc q) j = 0%Qc) by (intros j Hj; apply (In_bk p') in Hj; auto; destruct Hj as (i & Hi & <-); now apply (cn_cost _ _ _ HC)).
  assert (Lb : length (lb q) = rows p') by now apply (length_lb p' B).
  destruct (forallb _ (take N (lc q))) eqn:F.
  - destruct (existsb is_negative x) eqn:En.
    + right. left. split; auto. apply existsb_exists in En. destruct En as (v & Hv & Hn). apply neg_true in Hn.
      subst x. apply (In_nth _ _ 0%Qc) in Hv. destruct Hv as (j & Hj & Ev). rewrite length_scatter in Hj. change (at_ (scatter (cols p') B (lb q)) j = v) in Ev.
      destruct (in_dec Nat.eq_dec j B) as [Hi|Hi].
      * apply (In_bk p') in Hi; auto. destruct Hi as (i & Hi & <-). exists i. split; [lia|].
        rewrite <- (bsol_at p' B q HBB HC _ (bsol_scatter p' B q HBB HC) i Hi). now rewrite Ev.
      * rewrite (proj2 (bsol_scatter p' B q HBB HC)) in Ev by auto. rewrite <- Ev in Hn. discriminate (Hn eq_refl) || (exfalso; pose proof tol_pos; qclra).
    + left. eexists. split; [reflexivity|]. cbn [result_of]. split; auto. split; auto. split; auto. split.
      * intros j Hj. destruct (in_dec Nat.eq_dec j B) as [Hi|Hi]; [rewrite CB by auto; apply tol_pos|].
        apply le0_true. apply (proj1 (forallb_take _ _ _) F). now apply HN.
      * intros j Hj. assert (Hx : In (at_ x j) x) by (apply nth_In; subst x; now rewrite length_scatter).
        destruct (is_negative (at_ x j)) eqn:K.
        { exfalso. assert (T : existsb is_negative x = true) by (apply existsb_exists; eauto). congruence. }
        destruct (Qclt_le_dec (- tol_zero) (at_ x j)); auto. apply neg_true in q0. congruence.
  - destruct (find _ N) as [k|] eqn:Fk.
    2: { exfalso. assert (T : forallb (fun v => cc_le v 0) (take N (lc q)) = true); [|congruence]. apply forallb_take. intros j Hj.
      pose proof (find_none _ _ Fk j Hj) as K. cbn beta in K. apply le0_true. destruct (Qclt_le_dec (at_ (lc q) j) tol_zero); auto. apply pos_true in q0. congruence. }
    apply find_first in Fk; auto. destruct Fk as (K1 & K2 & K3). apply HN in K1. destruct K1 as (K1 & K1'). apply pos_true in K2.
    assert (Kf : forall j, j < k -> (at_ (lc q) j < tol_zero)%Qc).
    { intros j Hj. destruct (in_dec Nat.eq_dec j B) as [Hi|Hi]; [rewrite CB by auto; apply tol_pos|].
      assert (T : is_positive (at_ (lc q) j) = false) by (apply K3; auto; apply HN; split; auto; lia).
      destruct (Qclt_le_dec (at_ (lc q) j) tol_zero); auto. apply pos_true in q0. congruence. }
    set (Ak := map (fun r => at_ r k) (lA q)).
    assert (LA : length Ak = rows p') by (unfold Ak; rewrite map_length; apply HC).
    destruct (forallb _ Ak) eqn:FA.
    + left. eexists. split; [reflexivity|]. cbn [result_of]. split; auto. split; auto. split; auto. exists k. repeat split; auto.
      intros i Hi. rewrite forallb_forall in FA. apply le0_true. apply FA. rewrite <- at_column. apply nth_In. fold Ak. lia.
    + assert (Ei : exists i, i < rows p' /\ (tol_zero <= ent (lA q) i k)%Qc).
      { assert (G : forall l, forallb (fun v => cc_le v 0) l = false -> exists i, i < length l /\ (tol_zero <= at_ l i)%Qc).
        { clear. induction l as [|v l IH]; [discriminate|]. cbn [forallb]. intros E. apply andb_false_iff in E. destruct E as [E|E].
          - exists 0. split; [simpl; lia|]. unfold at_. cbn [nth]. destruct (Qclt_le_dec v tol_zero) as [L|L]; auto. apply le0_true in L. congruence.
          - destruct (IH E) as (i & Hi & HH). exists (S i). split; [simpl; lia|exact HH]. }
        destruct (G Ak FA) as (i & Hi & HH). exists i. split; [lia|]. now rewrite <- at_column. }
      destruct (ratio_test 0 (lb q) Ak None None) as [l|] eqn:RT.
      * left. eexists. split; [reflexivity|]. cbn [result_of]. split; auto. exists k, l. repeat split; auto.
      * right. right. split; auto. exists k. split; [auto|]. split; [|exact RT]. destruct Ei as (i & Hi & HH). exists i. split; [lia|auto].
Qed.

(** ** the ratio test *)
Lemma ratio_test_none : forall b a i, ratio_test i b a None None = None -> forall j, j < length b -> j < length a -> (at_ a j < tol_zero)%Qc.
Proof.
  assert (G : forall b a i t l, ratio_test i b a t (Some l) <> None).
  { induction b as [|v b IH]; intros [|w a] i t l; cbn [ratio_test]; try discriminate. destruct (is_positive w); auto. destruct (match t with None => _ | Some _ => _ end); auto. }
  induction b as [|v b IH]; intros [|w a] i E j Hj Ha; cbn [length] in *; try lia. cbn [ratio_test] in E.
  destruct (is_positive w) eqn:P; [exfalso; eapply G; eauto|]. destruct j as [|j].
  - unfold at_. cbn [nth]. destruct (Qclt_le_dec w tol_zero) as [L|L]; auto. apply pos_true in L. congruence.
  - change (at_ (w :: a) (S j)) with (at_ a j). eapply IH; eauto; lia.
Qed.
Lemma cc_lt_lt a b : cc_lt a b = true -> (a < b)%Qc.
Proof. unfold cc_lt. intros H. apply andb_true_iff in H. destruct H as (_ & H). now destruct (qlt_spec a b). Qed.
Definition ratio (b a : list Qc) (i : nat) : Qc := (at_ b i / at_ a i)%Qc.
Definition best (b a : list Qc) (n l : nat) : Prop :=
  l < n /\ (tol_zero <= at_ a l)%Qc /\ (forall i, i < n -> (tol_zero <= at_ a i)%Qc -> (ratio b a l <= ratio b a i)%Qc) /\
  (forall i, i < l -> (tol_zero <= at_ a i)%Qc -> (ratio b a l < ratio b a i)%Qc).
Lemma ratio_test_best b a : length b = length a ->
  (forall i j, i < length b -> j < length b -> (tol_zero <= at_ a i)%Qc -> (tol_zero <= at_ a j)%Qc -> (ratio b a i < ratio b a j)%Qc -> cc_lt (ratio b a i) (ratio b a j) = true) ->
  forall l, ratio_test 0 b a None None = Some l -> best b a (length b) l.
Proof.
  intros L Hsep.
  assert (G : forall n i, i + n = length b -> forall t leave, 
    match leave with
    | None => t = None /\ forall j, j < i -> (at_ a j < tol_zero)%Qc
    | Some l => best b a i l /\ t = Some (ratio b a l) end ->
    forall l, ratio_test i (skipn i b) (skipn i a) t leave = Some l -> best b a (length b) l).
  { induction n as [|n IH]; intros i Hi t leave Hinv l E.
    - rewrite !skipn_all2 in E by lia. cbn [ratio_test] in E. subst leave. destruct Hinv as (Hb & _). now replace (length b) with i by lia.
    - assert (Sb : skipn i b = at_ b i :: skipn (S i) b).
      { clear - Hi. revert i Hi. induction b as [|v b IHb]; intros i Hi; [simpl in Hi; lia|]. destruct i; [reflexivity|]. cbn [skipn]. rewrite IHb by (simpl in Hi; lia). reflexivity. }
      assert (Sa : skipn i a = at_ a i :: skipn (S i) a).
      { assert (Ha : i + S n = length a) by lia. clear - Ha. revert i Ha. induction a as [|v a IHb]; intros i Hi; [simpl in Hi; lia|]. destruct i; [reflexivity|]. cbn [skipn]. rewrite IHb by (simpl in Hi; lia). reflexivity. }
      rewrite Sb, Sa in E. cbn [ratio_test] in E. fold (ratio b a i) in E.
      destruct (is_positive (at_ a i)) eqn:P.
      + apply pos_true in P. destruct leave as [l0|].
        * destruct Hinv as ((B1 & B2 & B3 & B4) & ->). destruct (cc_lt (ratio b a i) (ratio b a l0)) eqn:C.
          -- apply cc_lt_lt in C. apply (IH (S i) ltac:(lia) _ (Some i)) in E; auto. split; auto. split; [lia|]. split; auto. split.
             ++ intros j Hj Pj. destruct (Nat.eq_dec j i) as [->|]; [apply Qcle_refl|]. specialize (B3 j ltac:(lia) Pj). qclra.
             ++ intros j Hj Pj. specialize (B3 j ltac:(lia) Pj). qclra.
          -- apply (IH (S i) ltac:(lia) _ (Some l0)) in E; auto. split; auto. split; [lia|]. split; auto. split; auto.
             intros j Hj Pj. destruct (Nat.eq_dec j i) as [->|]; [|apply B3; auto; lia].
             apply Qcnot_lt_le. intros K. rewrite (Hsep i l0 ltac:(lia) ltac:(lia) P B2 K) in C. discriminate C.
        * destruct Hinv as (-> & Hn). apply (IH (S i) ltac:(lia) _ (Some i)) in E; auto. split; auto. split; [lia|]. split; auto. split.
          -- intros j Hj Pj. destruct (Nat.eq_dec j i) as [->|]; [apply Qcle_refl|]. specialize (Hn j ltac:(lia)). exfalso. qclra.
          -- intros j Hj Pj. specialize (Hn j ltac:(lia)). exfalso. qclra.
      + assert (P' : (at_ a i < tol_zero)%Qc) by (destruct (Qclt_le_dec (at_ a i) tol_zero) as [K|K]; auto; apply pos_true in K; congruence).
        apply (IH (S i) ltac:(lia) t leave) in E; auto. destruct leave as [l0|].
        * destruct Hinv as ((B1 & B2 & B3 & B4) & ->). split; auto. split; [lia|]. split; auto. split; auto.
          intros j Hj Pj. destruct (Nat.eq_dec j i) as [->|]; [exfalso; qclra|]. apply B3; auto; lia.
        * destruct Hinv as (-> & Hn). split; auto. intros j Hj. destruct (Nat.eq_dec j i) as [->|]; auto. apply Hn. lia. }
  intros l E. apply (G (length b) 0 ltac:(lia) None None); auto. split; auto. intros; lia.
Qed.

(** ** programs on which the tolerances make no difference *)
Record separated_at (p : lp) (B : list nat) (q : lp) : Prop := mksep {
  sp_det : (tol_zero <= qabs (mdet (columns_of B (lA p))))%Qc;
  sp_c : forall j, j < cols p -> (0 < at_ (lc q) j -> tol_zero <= at_ (lc q) j)%Qc;
  sp_a : forall i j, i < rows p -> j < cols p -> (0 < ent (lA q) i j -> tol_zero <= ent (lA q) i j)%Qc;
  sp_b : forall i, i < rows p -> (at_ (lb q) i < 0 -> at_ (lb q) i <= - tol_zero)%Qc;
  sp_p : forall i, i < rows p -> (0 < at_ (lb q) i -> tol_zero <= at_ (lb q) i)%Qc;
  sp_ratio : forall i i' j, i < rows p -> i' < rows p -> j < cols p ->
    (0 < ent (lA q) i j)%Qc -> (0 < ent (lA q) i' j)%Qc -> (0 <= at_ (lb q) i)%Qc -> (0 <= at_ (lb q) i')%Qc ->
    (at_ (lb q) i / ent (lA q) i j < at_ (lb q) i' / ent (lA q) i' j)%Qc ->
    cc_lt (at_ (lb q) i / ent (lA q) i j)%Qc (at_ (lb q) i' / ent (lA q) i' j)%Qc = true }.
Definition separated (p : lp) : Prop := forall B q, basis p B -> canonical p B = Ok q -> separated_at p B q.

Definition fbasis (p : lp) (B : list nat) : Prop := exists f, bsol p B f /\ forall j, j < cols p -> (0 <= f j)%Qc.

Lemma In_remove_first x l j : NoDup l -> (In j (remove_first x l) <-> In j l /\ j <> x).
Proof.
  induction l as [|y l IH]; intros H; [simpl; tauto|]. inversion H as [|? ? Hy Hl]; subst. cbn [remove_first].
  destruct (Nat.eqb_spec x y) as [->|Hne].
  - simpl. split; [intros K; split; auto; intros ->; contradiction|]. intros ([->|K] & K2); auto. contradiction.
  - simpl. rewrite IH by auto. split; [intros [->|(K1 & K2)]; auto|]. intros ([->|K1] & K2); auto.
Qed.
Lemma NoDup_remove_first x l : NoDup l -> NoDup (remove_first x l).
Proof.
  induction 1 as [|y l Hy Hl IH]; cbn [remove_first]; [constructor|]. destruct (Nat.eqb x y); auto. constructor; auto.
  rewrite In_remove_first by auto. tauto.
Qed.
Lemma length_remove_first x l : In x l -> S (length (remove_first x l)) = length l.
Proof.
  induction l as [|y l IH]; [intros []|]. cbn [remove_first]. destruct (Nat.eqb_spec x y) as [->|Hne]; auto.
  intros [->|K]; [contradiction|]. cbn [length]. rewrite IH by auto. reflexivity.
Qed.
Lemma qdiv_le (a b c d : Qc) : (0 < b -> 0 < d -> a / b <= c / d -> a * d <= c * b)%Qc.
Proof.
  intros Hb Hd H. assert (E : (a * d = a / b * (b * d))%Qc) by (field; intros E; rewrite E in Hb; discriminate Hb).
  assert (E2 : (c * b = c / d * (b * d))%Qc) by (field; intros E2; rewrite E2 in Hd; discriminate Hd).
  rewrite E, E2. apply qmul_le_r; auto. apply Qclt_le_weak. now apply qmul_pos.
Qed.
Lemma qdiv_lt (a b c d : Qc) : (0 < b -> 0 < d -> a / b < c / d -> a * d < c * b)%Qc.
Proof.
  intros Hb Hd H. assert (E : (a * d = a / b * (b * d))%Qc) by (field; intros E; rewrite E in Hb; discriminate Hb).
  assert (E2 : (c * b = c / d * (b * d))%Qc) by (field; intros E2; rewrite E2 in Hd; discriminate Hd).
  rewrite E, E2. assert (0 < b * d)%Qc by now apply qmul_pos. qcnra.
Qed.

Lemma next_step p B q B' : wf p -> iterated p B q -> separated_at p B q -> (forall i, i < rows p -> (0 <= at_ (lb q) i)%Qc) ->
  result_of p B q (Next B' q) -> exists k l, step p B B' q k l.
Proof.
  intros H [HB _ HC] HS Hb. cbn [result_of]. intros (_ & k & l & Hk & HkB & Hck & Hfirst & _ & HR & ->). exists k, l.
  assert (Lb : length (lb q) = rows p) by now apply (length_lb p B).
  assert (LA : length (lA q) = rows p) by apply HC.
  pose proof tol_pos as T.
  assert (Hbest : best (lb q) (map (fun r => at_ r k) (lA q)) (length (lb q)) l).
  { apply ratio_test_best; auto.
    - rewrite map_length. congruence.
    - unfold ratio. intros i j Hi Hj. rewrite !at_column. rewrite Lb in Hi, Hj. intros P1 P2 Hlt. apply (sp_ratio _ _ _ HS); auto; qclra. }
  destruct Hbest as (L1 & L2 & L3 & L4). rewrite Lb in L1, L3. rewrite at_column in L2.
  assert (Apos : forall i, i < rows p -> (0 < ent (lA q) i k)%Qc -> (tol_zero <= at_ (map (fun r => at_ r k) (lA q)) i)%Qc).
  { intros i Hi P. rewrite at_column. now apply (sp_a _ _ _ HS). }
  pose proof (bs_NoDup _ _ HB) as ND.
  constructor; auto.
  - qclra.
  - intros j Hj. apply Qcnot_lt_le. intros K. apply (sp_c _ _ _ HS) in K; [|lia]. specialize (Hfirst j Hj). qclra.
  - qclra.
  - intros i Hi P. specialize (L3 i Hi (Apos i Hi P)). unfold ratio in L3. rewrite !at_column in L3. apply qdiv_le in L3; auto. qclra.
  - intros i Hi P. assert (Hi' : i < rows p) by lia. specialize (L4 i Hi (Apos i Hi' P)). unfold ratio in L4. rewrite !at_column in L4. apply qdiv_lt in L4; auto. qclra.
  - apply sort_strict. apply NoDup_rev'; [now apply NoDup_remove_first|]. rewrite In_remove_first by auto. tauto.
  - rewrite length_sort, app_length. cbn [length]. pose proof (length_remove_first (bk B l) B (bk_In _ _ _ HB L1)) as E. rewrite (bs_len _ _ HB) in E. lia.
  - intros j. rewrite In_sort, in_app_iff, In_remove_first by auto. cbn [In]. intuition.
Qed.

(** ** the loop *)
Definition final (it : iter) : Prop := match it with Next _ _ => False | _ => True end.
Lemma fbasis_b p B q : iterated p B q -> fbasis p B -> forall i, i < rows p -> (0 <= at_ (lb q) i)%Qc.
Proof.
  intros [HB _ HC] (f & Hf & Hpos) i Hi. rewrite <- (bsol_at p B q HB HC f Hf i Hi). apply Hpos. now apply bk_lt.
Qed.
Lemma loop_steps p : wf p -> lsef p = true -> negate_rows p = p -> separated p -> forall fuel Bz,
  is_basis p Bz = Ok true -> fbasis p (sort (to_array_indexing Bz)) ->
  (exists it B q, simplex_loop fuel p Bz = Ok it /\ final it /\ iterated p B q /\ fbasis p B /\ result_of p B q it /\ is_basis p (to_math_indexing B) = Ok true) \/
  (exists bas, bas 0 = sort (to_array_indexing Bz) /\ forall i, i < fuel -> exists q k l, step p (bas i) (bas (S i)) q k l).
Proof.
  intros H Hs Hn HS. induction fuel as [|fuel IH]; intros Bz HBz HF.
  - right. exists (fun _ => sort (to_array_indexing Bz)). split; auto. intros; lia.
  - set (B := sort (to_array_indexing Bz)) in *. cbn [simplex_loop].
    destruct (iteration_cases p Bz H Hs HBz) as (q & HI & HR). fold B in HI, HR. rewrite Hn in HI, HR.
    assert (HSB : separated_at p B q) by (apply HS; apply HI).
    pose proof (fbasis_b p B q HI HF) as Hb.
    assert (HBm : is_basis p (to_math_indexing B) = Ok true) by (apply (is_basis_sorted p Bz); auto).
    destruct HR as [(it & Eit & HR)|[(_ & i & Hi & Hneg)|(_ & k & Hk & (i & Hi & Hpos) & RT)]].
    + rewrite Eit. cbn [bind]. destruct it as [x B1 q1|x B1 q1|B' q1].
      * left. exists (Optimal x B1 q1), B, q. exact (conj eq_refl (conj I (conj HI (conj HF (conj HR HBm))))).
      * left. exists (Unbounded x B1 q1), B, q. exact (conj eq_refl (conj I (conj HI (conj HF (conj HR HBm))))).
      * assert (q1 = q) by apply HR. subst q1. destruct (next_step p B q B' H HI HSB Hb HR) as (k & l & St).
        destruct HF as (f & Hf & Hfp). destruct (step_sol p B B' q k l f H St Hf Hfp) as (HB' & g & Hg & Hgp & _).
        assert (EB' : sort (to_array_indexing (to_math_indexing B')) = B') by (rewrite array_math; apply sort_id, HB').
        destruct (IH (to_math_indexing B')) as [(it & B2 & q2 & L)|(bas & E0 & Hst)].
        -- apply basis_is_basis; auto. { apply is_basis_true in HBz. lia. }
           destruct (basis_canon p B' H HB') as (q' & Eq' & _). apply (sp_det p B' q'). now apply HS.
        -- rewrite EB'. exists g. auto.
        -- left. exists it, B2, q2. exact L.
        -- right. exists (fun i => match i with 0 => B | S i => bas i end). split; auto. intros [|i] Hi.
           ++ exists q, k, l. rewrite E0, EB'. exact St.
           ++ apply Hst. lia.
    + exfalso. pose proof tol_pos. specialize (Hb i Hi). qclra.
    + exfalso. pose proof (ratio_test_none _ _ _ RT i) as K. rewrite at_column in K.
      assert (Lb : length (lb q) = rows p) by (apply (length_lb p B); apply HI).
      assert (LA : length (lA q) = rows p) by (destruct HI as [_ _ HC]; apply HC).
      specialize (K ltac:(lia) ltac:(rewrite map_length; lia)). qclra.
Qed.
Lemma loop_terminates p : wf p -> lsef p = true -> negate_rows p = p -> separated p -> forall fuel Bz,
  is_basis p Bz = Ok true -> fbasis p (sort (to_array_indexing Bz)) -> 2 ^ cols p <= fuel ->
  exists it B q, simplex_loop fuel p Bz = Ok it /\ final it /\ iterated p B q /\ fbasis p B /\ result_of p B q it /\ is_basis p (to_math_indexing B) = Ok true.
Proof.
  intros H Hs Hn HS fuel Bz HBz HF Hfuel. destruct (loop_steps p H Hs Hn HS fuel Bz HBz HF) as [K|(bas & E0 & Hst)]; auto.
  exfalso. pose proof (is_basis_basis p Bz HBz) as HB. rewrite <- E0 in HF, HB. destruct HF as (f & Hf & Hfp).
  assert (G : forall i, i <= fuel -> basis p (bas i)) by (intros i Hi; now apply (chain_sol p H bas fuel Hst f Hf Hfp HB i Hi)).
  destruct (repetition (list_eq_dec Nat.eq_dec) bas (S fuel) (sublists (seq 0 (cols p)))) as (i & j & Hij & Hj & E).
  - intros i Hi. specialize (G i ltac:(lia)). apply In_sublists; [apply G|]. intros x Hx. apply (bs_lt _ _ G) in Hx. lia.
  - rewrite length_sublists, seq_length. lia.
  - apply (no_cycle p H bas fuel Hst f Hf Hfp HB i j Hij ltac:(lia) E).
Qed.

(** ** what the result says *)
Lemma loop_inv p : wf p -> lsef p = true -> forall fuel Bz it, simplex_loop fuel p Bz = Ok it ->
  final it /\ exists B q, iterated (negate_rows p) B q /\ result_of (negate_rows p) B q it /\ is_basis p (to_math_indexing B) = Ok true.
Proof.
  intros H Hs. induction fuel as [|fuel IH]; intros Bz it E; [discriminate|]. cbn [simplex_loop] in E.
  destruct (is_basis p Bz) as [[|]|e|] eqn:HBz;
    try (exfalso; unfold simplex_iteration in E; rewrite Hs, HBz in E; cbn [negb bind] in E; discriminate).
  destruct (iteration_cases p Bz H Hs HBz) as (q & HI & [(it' & E' & HR)|[(E' & _)|(E' & _)]]); rewrite E' in E; cbn [bind] in E; try discriminate.
  assert (HBm : is_basis p (to_math_indexing (sort (to_array_indexing Bz))) = Ok true) by (apply (is_basis_sorted p Bz); auto).
  destruct it' as [x B1 q1|x B1 q1|B' q1].
  - injection E as <-. split; [exact I|]. eauto.
  - injection E as <-. split; [exact I|]. eauto.
  - now apply (IH (to_math_indexing B')).
Qed.
Lemma simplex_inv fuel p Bz r : snd (simplex fuel p Bz) = Ok r -> lsef p = true /\
  exists it, simplex_loop fuel (negate_rows p) Bz = Ok it /\ simplex_result (lb p) (negate_rows p) it = Ok r.
Proof.
  unfold simplex. destruct (lsef p); cbn [negb]; [|discriminate]. intros E. split; auto. unfold bind in E.
  destruct (simplex_loop fuel (negate_rows p) Bz) as [it| |]; cbn [snd] in E; try discriminate. exists it. split; auto.
  destruct (simplex_result (lb p) (negate_rows p) it); cbn [snd] in E; congruence.
Qed.

Lemma at_flip_y b y i : length b = length y -> at_ (flip_y b y) i = if qlt (at_ b i) 0 then (- at_ y i)%Qc else at_ y i.
Proof.
  intros L. unfold flip_y. revert y i L. induction b as [|v b IH]; intros [|w y] i L; simpl in L; try lia.
  - unfold at_. destruct i; cbn; destruct (qlt 0 0); auto; ring.
  - destruct i as [|i]; [reflexivity|]. apply (IH y i). lia.
Qed.
Lemma length_flip_y b y : length b = length y -> length (flip_y b y) = length y.
Proof. intros L. unfold flip_y. rewrite map_length, combine_length. lia. Qed.

Lemma optimal_result p B q x : wf p -> iterated (negate_rows p) B q -> exists y,
  simplex_result (lb p) (negate_rows p) (Optimal x B q) = Ok (Some x, Some (to_math_indexing B), CVec y) /\ length y = rows p /\
  (forall j, j < cols p -> Sum (rows p) (fun i => at_ y i * ent (lA p) i j)%Qc = (at_ (lc p) j - at_ (lc q) j)%Qc) /\
  (Sum (rows p) (fun i => at_ y i * at_ (lb p) i) + lz p = lz q)%Qc.
Proof.
  intros H [HB _ HC]. set (p' := negate_rows p) in *. assert (Rp : rows p' = rows p) by now apply rows_neg.
  set (M := transpose (rows p') (columns_of B (lA p'))).
  assert (LM : length M = rows p') by apply length_transpose.
  assert (EM : forall i j, i < rows p' -> j < rows p' -> ent M i j = ent (lA p') j (bk B i)).
  { intros i j Hi Hj. unfold M. rewrite ent_transpose by (rewrite ?length_columns; auto). apply ent_columns; auto. now rewrite (bs_len _ _ HB). }
  assert (HD : mdet M <> 0%Qc).
  { unfold mdet. rewrite LM. rewrite (@det_ext _ _ (fun i j => ent (columns_of B (lA p')) j i)).
    - rewrite det_tr. pose proof (bs_det _ _ HB) as D. unfold mdet in D. rewrite length_columns in D. exact D.
    - intros i j Hi Hj. rewrite EM by auto. rewrite ent_columns; auto. now rewrite (bs_len _ _ HB). }
  destruct (minv_ok M (rows p') LM HD) as (X & E & LX & SX & HL & HR). cbn [simplex_result]. fold p'. fold M. rewrite E. cbn [bind].
  set (y0 := mulmv X (take B (lc p'))). assert (L0 : length y0 = rows p) by (unfold y0; rewrite length_mulmv; lia).
  assert (Lb : length (lb p) = length y0) by (rewrite L0; apply (wf_b _ H)).
  eexists. split; [reflexivity|]. split; [rewrite length_flip_y; auto|].
  assert (Ey : forall i, at_ (flip_y (lb p) y0) i = (sg p i * at_ y0 i)%Qc).
  { intros i. rewrite at_flip_y by auto. unfold sg. destruct (qlt (at_ (lb p) i) 0); ring. }
  assert (Hy : forall k, k < rows p' -> Sum (rows p') (fun i => at_ y0 i * ent (lA p') i (bk B k))%Qc = at_ (lc p') (bk B k)).
  { intros k Hk. rewrite (Sum_ext _ _ (fun i => ent M k i * at_ y0 i)%Qc) by (intros i Hi; rewrite EM by auto; ring).
    unfold y0. rewrite (Sum_ext _ _ (fun i => ent M k i * Sum (rows p') (fun l => ent X i l * at_ (take B (lc p')) l))%Qc).
    - rewrite Sum_assoc. rewrite (Sum_ext _ _ (fun l => delta k l * at_ (take B (lc p')) l)%Qc).
      + rewrite Sum_delta_l by auto. apply at_take. now rewrite (bs_len _ _ HB).
      + intros l Hl. now rewrite HR.
    - intros i Hi. rewrite (at_mulmv (rows p')) by (auto; lia). reflexivity. }
  destruct (cn_dual _ _ _ HC _ Hy) as (D1 & D2). split.
  - intros j Hj. rewrite D1 by auto. rewrite Rp. change (lc p') with (lc p).
    rewrite (Sum_ext _ _ (fun i => at_ y0 i * ent (lA p') i j)%Qc); [ring|]. intros i Hi. rewrite Ey. unfold p'. rewrite ent_neg by auto. ring.
  - rewrite D2, Rp. change (lz p') with (lz p). f_equal. apply Sum_ext. intros i Hi. rewrite Ey. unfold p'. rewrite lb_neg. ring.
Qed.
