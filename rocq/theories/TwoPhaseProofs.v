(** The two-phase method: the search for a starting basis. *)
From Coq Require Import String List Bool Arith ZArith QArith Qcanon Lia Sorted.
From Verif Require Import Py QcTac QSum QInt ComparatorModel MatModel DetTheory DetExpand MatTheory LinearModel LinearSpec LinearProofs SefProofs LinearInv DualProofs BasisProofs BlandProofs SimplexProofs SmallProofs LinearProps SimplexProps.
Import ListNotations.
Open Scope nat_scope.
Open Scope string_scope.
Open Scope list_scope.

(** ** the depth-first search *)
Lemma is_basis_total p B : 0 < rows p -> exists b, is_basis p B = Ok b.
Proof.
  intros H. unfold is_basis. destruct (Nat.eqb_spec (rows p) (length B)); cbn [negb]; eauto.
  destruct (Nat.eqb_spec (length B) 0); [lia|]. destruct (forallb _ B); cbn [negb]; eauto.
Qed.
Section Search.
  Context (p : lp) (Pb Zs : list nat) (size : nat) (Hrows : 0 < rows p).
  Let z := length Zs.
  Definition chosen (l : list nat) : list nat := map (fun i => nth i Zs 0) l.
  Definition weight (q : list (nat * list nat)) : nat := fold_right (fun e n => 2 ^ (z - 1 - fst e) + n) 0 q.
  Lemma weight_app q1 q2 : weight (q1 ++ q2) = weight q1 + weight q2.
  Proof. induction q1 as [|e q1 IH]; [reflexivity|]. unfold weight in *. cbn [app fold_right]. rewrite IH. lia. Qed.
  Lemma weight_rev q : weight (rev q) = weight q.
  Proof. induction q as [|e q IH]; [reflexivity|]. cbn [rev]. rewrite weight_app, IH. unfold weight. cbn [fold_right]. lia. Qed.
  Lemma weight_seq (g : nat -> list nat) : forall k a, a + k = z -> S (weight (map (fun j => (j, g j)) (seq a k))) = 2 ^ k.
  Proof.
    induction k as [|k IH]; intros a E; [reflexivity|]. cbn [seq map weight fold_right fst]. fold (weight (map (fun j => (j, g j)) (seq (S a) k))).
    specialize (IH (S a) ltac:(lia)). replace (z - 1 - a) with k by lia. cbn [Nat.pow]. lia.
  Qed.
  Lemma search_spec : forall fuel queue, weight queue < fuel ->
    (exists B, complete_basis fuel p Pb Zs size queue = Ok (Some B) /\ is_basis p (map Z.of_nat B) = Ok true /\ exists cur, length cur = size /\ B = sort (Pb ++ cur)) \/
    (complete_basis fuel p Pb Zs size queue = Ok None /\
     forall i cur ext, In (i, cur) queue -> StronglySorted lt (i :: ext) -> (forall j, In j ext -> j < z) -> length cur + length ext = size ->
       is_basis p (map Z.of_nat (sort (Pb ++ cur ++ chosen ext))) <> Ok true).
  Proof.
    induction fuel as [|fuel IH]; intros queue Hw; [lia|]. cbn [complete_basis]. destruct queue as [|(i & cur) queue].
    - right. split; auto.
    - cbn [weight fold_right fst] in Hw. fold (weight queue) in Hw. pose proof (Nat.pow_nonzero 2 (z - 1 - i) ltac:(lia)) as Hp.
      destruct (Nat.eqb_spec (length cur) size) as [L|L].
      + destruct (is_basis_total p (map Z.of_nat (sort (Pb ++ cur))) Hrows) as (b & Eb). rewrite Eb. cbn [bind]. destruct b.
        * left. exists (sort (Pb ++ cur)). split; auto. split; auto. eauto.
        * destruct (IH queue ltac:(lia)) as [F|(F & G)]; [left; exact F|right]. split; auto. intros i' cur' ext [K|K] Hs Hz Hl; [|now apply (G i')].
          injection K as <- <-. assert (ext = []) by (destruct ext; auto; simpl in Hl; lia). subst ext. cbn [chosen map]. rewrite app_nil_r. congruence.
      + fold z. set (next := map (fun j => (j, cur ++ [nth j Zs 0])) (seq (S i) (z - S i))).
        assert (Hn : S (weight (rev next)) <= 2 ^ (z - 1 - i)).
        { rewrite weight_rev. destruct (le_lt_dec (S i) z) as [K|K].
          - unfold next. pose proof (weight_seq (fun j => cur ++ [nth j Zs 0]) (z - S i) (S i) ltac:(lia)) as W. rewrite W. apply Nat.pow_le_mono_r; lia.
          - unfold next. replace (z - S i) with 0 by lia. cbn. lia. }
        destruct (IH (rev next ++ queue)) as [F|(F & G)]; [rewrite weight_app; lia|left; exact F|right]. split; auto.
        intros i' cur' ext [K|K] Hs Hz Hl; [|apply (G i'); auto; apply in_or_app; auto].
        injection K as <- <-. destruct ext as [|e ext]; [simpl in Hl; lia|]. inversion Hs as [|? ? Hs' Hf]; subst. inversion Hf as [|? ? He Hf']; subst.
        replace (Pb ++ cur ++ chosen (e :: ext)) with (Pb ++ (cur ++ [nth e Zs 0]) ++ chosen ext) by (cbn [chosen map]; now rewrite <- !app_assoc).
        apply (G e); auto.
        * apply in_or_app. left. apply -> in_rev. unfold next. apply in_map_iff. exists e. split; auto. apply in_seq. specialize (Hz e (or_introl eq_refl)). lia.
        * intros j Hj. apply Hz. simpl; auto.
        * rewrite app_length. simpl in *. lia.
  Qed.
  (** the initial queue *)
  Lemma search_start fuel : 2 ^ z <= fuel -> 0 < size ->
    let start := map (fun i => (i, [nth i Zs 0])) (seq 0 (S z - size)) in
    (exists ext, StronglySorted lt ext /\ (forall j, In j ext -> j < z) /\ length ext = size /\ is_basis p (map Z.of_nat (sort (Pb ++ chosen ext))) = Ok true) ->
    exists B cur, complete_basis fuel p Pb Zs size (rev start) = Ok (Some B) /\ is_basis p (map Z.of_nat B) = Ok true /\ length cur = size /\ B = sort (Pb ++ cur).
  Proof.
    intros Hf Hsz start (ext & E1 & E2 & E3 & E4).
    assert (W : weight (rev start) < fuel).
    { rewrite weight_rev. pose proof (weight_seq (fun i => [nth i Zs 0]) z 0 eq_refl) as W.
      assert (Hseq : seq 0 z = seq 0 (S z - size) ++ seq (S z - size) (z - (S z - size))) by (rewrite <- seq_app; f_equal; lia).
      rewrite Hseq, map_app, weight_app in W. fold start in W. lia. }
    destruct (search_spec fuel (rev start) W) as [(B & F1 & F2 & cur & F3 & F4)|(F & G)]; [exists B, cur; auto|exfalso].
    destruct ext as [|e ext]; [simpl in E3; lia|]. apply (G e [nth e Zs 0] ext).
    - apply -> in_rev. apply in_map_iff. exists e. split; auto. apply in_seq. split; [lia|].
      assert (K : forall l a, StronglySorted lt (a :: l) -> (forall j, In j (a :: l) -> j < z) -> a + length l < z).
      { clear. induction l as [|b l IH]; intros a Hs Hj; [simpl; specialize (Hj a (or_introl eq_refl)); lia|].
        inversion Hs as [|? ? Hs' Hf]; subst. inversion Hf; subst. specialize (IH b Hs' ltac:(intros; apply Hj; simpl; auto)). simpl. lia. }
      specialize (K ext e E1 E2). simpl in E3. lia.
    - exact E1.
    - intros j Hj. apply E2. simpl; auto.
    - simpl in *. lia.
    - exact E4.
  Qed.
End Search.

(** ** the auxiliary program *)
Definition aux (p : lp) : lp :=
  mklp (map (fun ir => snd ir ++ mkvec (rows p) (fun j => if Nat.eqb (fst ir) j then 1%Qc else 0%Qc)) (combine (seq 0 (rows p)) (flip_A (lb p) (lA p))))
       (flip_b (lb p)) (vopp (repeat 0%Qc (cols p) ++ repeat 1%Qc (rows p))) 0%Qc "max" [] true [] [].
Lemma add_slacks_none is A c : add_slacks is [] A c = (A, c).
Proof. revert A c. induction is as [|i is IH]; intros A c; [reflexivity|]. apply IH. Qed.
Lemma auxiliary_aux p : lsef p = true -> exists a0, auxiliary p = Ok a0 /\ fst (to_sef a0) = aux p.
Proof.
  intros Hs. unfold auxiliary. rewrite Hs. cbn [negb]. eexists. split; [reflexivity|]. unfold to_sef. cbn [lsef lobj lineq lfree lneg lA lb lc lz String.eqb Ascii.eqb Bool.eqb split_free fold_left].
  rewrite add_slacks_none. cbn [fst]. unfold aux. f_equal. apply map_id.
Qed.
Section Aux.
  Context (p : lp) (H : wf p).
  Let a := aux p.
  Let n := cols p.
  Let m := rows p.
  Lemma rows_aux : rows a = m.
  Proof. unfold a, rows, aux. cbn [lA]. rewrite map_length, combine_length, seq_length. change (length (flip_A (lb p) (lA p))) with (rows (negate_rows p)). rewrite (rows_neg p H). apply Nat.min_id. Qed.
  Lemma cols_aux : cols a = n + m.
  Proof. unfold a, cols at 1, aux. cbn [lc]. now rewrite length_vopp, app_length, !repeat_length. Qed.
  Lemma nth_combine_seq {A} (l : list A) d k : k < length l -> nth k (combine (seq 0 (length l)) l) (0, d) = (k, nth k l d).
  Proof. intros Hk. rewrite combine_nth by apply seq_length. now rewrite seq_nth. Qed.
  Lemma row_aux i : i < m -> nth i (lA a) [] = nth i (lA (negate_rows p)) [] ++ mkvec m (fun j => if Nat.eqb i j then 1%Qc else 0%Qc).
  Proof.
    intros Hi. unfold a, aux. cbn [lA]. set (F := fun ir : nat * list Qc => _).
    assert (L : length (flip_A (lb p) (lA p)) = m) by exact (rows_neg p H).
    rewrite (nth_indep _ [] (F (0, []))). 2:{ rewrite map_length, combine_length, seq_length, L. fold m. rewrite Nat.min_id. auto. }
    rewrite (map_nth F). fold m. rewrite <- L at 1. rewrite nth_combine_seq by lia. reflexivity.
  Qed.
  Lemma neg_len i : i < m -> length (nth i (lA (negate_rows p)) []) = n.
  Proof. intros Hi. apply (shaped_nth n); [apply (wf_A _ (wf_negate p H))|]. change (i < rows (negate_rows p)). rewrite rows_neg; auto. Qed.
  Lemma ent_aux1 i j : i < m -> j < n -> ent (lA a) i j = ent (lA (negate_rows p)) i j.
  Proof. intros Hi Hj. unfold ent. rewrite row_aux by auto. apply at_app1. now rewrite neg_len. Qed.
  Lemma ent_aux2 i j : i < m -> j < m -> ent (lA a) i (n + j) = delta i j.
  Proof. intros Hi Hj. unfold ent. rewrite row_aux by auto. rewrite at_app2 by (rewrite neg_len by auto; lia). rewrite neg_len by auto. replace (n + j - n) with j by lia. now rewrite at_mkvec. Qed.
  Lemma lc_aux1 j : j < n -> at_ (lc a) j = 0%Qc.
  Proof. intros Hj. unfold a, aux. cbn [lc]. rewrite at_vopp, at_app1 by now rewrite repeat_length. rewrite at_repeat by auto. reflexivity. Qed.
  Lemma lc_aux2 j : j < m -> at_ (lc a) (n + j) = Qcopp 1%Qc.
  Proof. intros Hj. unfold a, aux. cbn [lc]. rewrite at_vopp, at_app2 by (rewrite repeat_length; lia). rewrite repeat_length. fold n. replace (n + j - n) with j by lia. rewrite at_repeat by auto. reflexivity. Qed.
  Lemma lb_aux : lb a = lb (negate_rows p). Proof. reflexivity. Qed.
  Lemma wf_aux : wf a.
  Proof.
    constructor.
    - rewrite rows_aux, lb_aux, (wf_b _ (wf_negate p H)). now apply rows_neg.
    - apply Forall_forall. intros r Hr. apply (In_nth _ _ []) in Hr. destruct Hr as (i & Hi & <-). change (i < rows a) in Hi. rewrite rows_aux in Hi.
      rewrite row_aux, app_length, neg_len, length_mkvec by auto. now rewrite cols_aux.
    - left. reflexivity.
    - constructor.
    - intros i s [].
    - constructor.
    - intros j [].
    - constructor.
    - intros j [].
    - intros j [].
    - reflexivity.
  Qed.
  Lemma neg_aux : negate_rows a = a.
  Proof. apply negate_nonneg; [apply wf_aux|]. intros v Hv. rewrite lb_aux in Hv. apply (In_nth _ _ 0%Qc) in Hv. destruct Hv as (i & _ & <-). apply lb_neg_nonneg. Qed.
  Lemma lhs_aux i f : i < m -> lhs a i f = (lhs (negate_rows p) i f + f (n + i)%nat)%Qc.
  Proof.
    intros Hi. unfold lhs. rewrite cols_aux, Sum_app, cols_neg. fold n. f_equal.
    - apply Sum_ext. intros j Hj. now rewrite ent_aux1.
    - rewrite (Sum_ext m _ (fun j => delta i j * f (n + j)%nat)%Qc) by (intros j Hj; now rewrite ent_aux2). now rewrite (Sum_delta_l m i (fun j => f (n + j)%nat)).
  Qed.
  Lemma obj_aux f : obj a f = (- Sum m (fun i => f (n + i)%nat))%Qc.
  Proof.
    unfold obj. rewrite cols_aux, Sum_app, (Sum_none n); [|intros j Hj; rewrite lc_aux1 by auto; ring].
    rewrite (Sum_ext m _ (fun i => - f (n + i)%nat)%Qc); [rewrite Sum_opp; ring|]. intros i Hi. rewrite lc_aux2 by auto. ring.
  Qed.
  (** bases of the program and of the auxiliary program *)
  Lemma basis_aux B : (forall j, In j B -> j < n) -> (basis a B <-> basis p B).
  Proof.
    intros HB. rewrite <- (basis_neg p B H).
    assert (G : length B = m -> mdet (columns_of B (lA a)) = mdet (columns_of B (lA (negate_rows p)))).
    { intros L. unfold mdet. rewrite !length_columns. change (length (lA a)) with (rows a). change (length (lA (negate_rows p))) with (rows (negate_rows p)). rewrite rows_aux, rows_neg by auto. fold m.
      apply det_ext. intros i j Hi Hj. rewrite !ent_columns; try lia; [|change (i < rows (negate_rows p)); rewrite rows_neg; auto|change (i < rows a); rewrite rows_aux; auto].
      apply ent_aux1; auto. apply HB, nth_In. lia. }
    split; intros [B1 B2 B3 B4]; constructor; auto.
    - rewrite rows_neg by auto. now rewrite rows_aux in B1.
    - rewrite <- G; auto. now rewrite rows_aux in B1.
    - rewrite rows_aux. now rewrite rows_neg in B1.
    - intros j Hj. rewrite cols_aux. specialize (HB j Hj). lia.
    - rewrite G; auto. now rewrite rows_neg in B1.
  Qed.
  (** the artificial columns *)
  Lemma start_basis : basis a (seq n m).
  Proof.
    constructor.
    - now rewrite seq_length, rows_aux.
    - apply seq_sorted.
    - intros j Hj. apply in_seq in Hj. rewrite cols_aux. lia.
    - unfold mdet. rewrite length_columns. change (length (lA a)) with (rows a). rewrite rows_aux. apply (det_nonzero (g := delta)). intros i j Hi Hj.
      rewrite (Sum_delta_l m i (fun k => ent (columns_of (seq n m) (lA a)) k j)) by auto.
      rewrite ent_columns; [|change (i < rows a); rewrite rows_aux; auto|now rewrite seq_length]. rewrite seq_nth by auto. now apply ent_aux2.
  Qed.
  Lemma start_feasible : fbasis a (seq n m).
  Proof.
    exists (fun j => if Nat.ltb j n then 0%Qc else at_ (lb a) (j - n)). split; [split|].
    - intros i Hi. rewrite rows_aux in Hi. rewrite lhs_aux by auto. destruct (Nat.ltb_spec (n + i) n); [lia|]. replace (n + i - n) with i by lia.
      unfold lhs. rewrite Sum_none; [ring|]. intros j Hj. rewrite cols_neg in Hj. fold n in Hj. destruct (Nat.ltb_spec j n); [ring|lia].
    - intros j Hj Hn. rewrite cols_aux in Hj. destruct (Nat.ltb_spec j n); auto. exfalso. apply Hn, in_seq. lia.
    - intros j Hj. destruct (Nat.ltb_spec j n); [discriminate|]. rewrite lb_aux. apply lb_neg_nonneg.
  Qed.
End Aux.

(** ** driving the artificial columns out of a basis *)
(** the rows of the matrix are linearly independent *)
Definition full_row_rank (p : lp) : Prop :=
  forall y, length y = length (lA p) -> (forall j, j < length (lc p) -> inner y (column (lA p) j) = 0%Qc) ->
    forall i, i < length y -> nth i y 0%Qc = 0%Qc.
Lemma canonical_rows p B q : wf p -> basis p B -> canonical p B = Ok q ->
  exists X : nat -> nat -> Qc, forall l j, l < rows p -> j < cols p -> ent (lA q) l j = Sum (rows p) (fun k => X l k * ent (lA p) k j)%Qc.
Proof.
  intros H HB E. destruct (minv_ok (columns_of B (lA p)) (rows p)) as (X & EX & LX & SX & _); [apply length_columns|apply HB|].
  unfold canonical, bind in E. rewrite EX in E. injection E as <-. cbn [lA]. exists (ent X). intros l j Hl Hj. now rewrite (ent_mulmm _ (rows p)) by (auto; lia).
Qed.
Lemma filter_length_le {A} (P Q : A -> bool) l : (forall x, In x l -> P x = true -> Q x = true) -> length (filter P l) <= length (filter Q l).
Proof.
  induction l as [|x l IH]; intros G; [simpl; lia|]. cbn [filter]. specialize (IH ltac:(intros y Hy; apply G; simpl; auto)). pose proof (G x (or_introl eq_refl)) as K.
  destruct (P x), (Q x); cbn [length]; try lia; specialize (K eq_refl); discriminate.
Qed.
Lemma count_remove (P : nat -> bool) x l : In x l -> P x = true -> S (length (filter P (remove_first x l))) = length (filter P l).
Proof.
  induction l as [|y l IH]; intros Hi Hx; [destruct Hi|]. cbn [remove_first]. destruct (Nat.eqb_spec x y) as [->|Hne].
  - cbn [filter]. now rewrite Hx.
  - destruct Hi as [->|Hi]; [contradiction|]. cbn [filter]. specialize (IH Hi Hx). destruct (P y); cbn [length]; lia.
Qed.
Lemma count_insert (P : nat -> bool) x l : length (filter P (insert_sorted x l)) = length (filter P (x :: l)).
Proof.
  induction l as [|y l IH]; [reflexivity|]. cbn [insert_sorted]. destruct (Nat.leb x y); [reflexivity|]. cbn [filter] in *. destruct (P x), (P y); cbn [length] in *; lia.
Qed.
Lemma count_sort (P : nat -> bool) l : length (filter P (sort l)) = length (filter P l).
Proof. induction l as [|x l IH]; [reflexivity|]. cbn [sort]. rewrite count_insert. cbn [filter]. destruct (P x); cbn [length]; now rewrite IH. Qed.

Lemma NoDup_snoc {A} (l : list A) x : NoDup l -> ~ In x l -> NoDup (l ++ [x]).
Proof.
  intros ND Hn. apply (NoDup_Add (a := x) (l := l)); auto. rewrite <- (app_nil_r l) at 1. apply Add_app.
Qed.
Lemma some_nonzero (f : nat -> Qc) k : (exists j, j < k /\ f j <> 0%Qc) \/ forall j, j < k -> f j = 0%Qc.
Proof.
  induction k as [|k IH]; [right; intros; lia|]. destruct IH as [(j & Hj & Hne)|IH]; [left; exists j; split; auto; lia|].
  destruct (Qc_eq_dec (f k) 0) as [Z|Z]; [right|left; exists k; split; auto; lia].
  intros j Hj. destruct (Nat.eq_dec j k) as [->|]; auto. apply IH. lia.
Qed.
Section Drive.
  Context (p : lp) (H : wf p) (HR : full_row_rank p).
  Let a := aux p.
  Let n := cols p.
  Let m := rows p.
  Lemma entering B q l : basis a B -> canonical a B = Ok q -> l < m -> n <= bk B l -> exists j, j < n /\ ~ In j B /\ ent (lA q) l j <> 0%Qc.
  Proof.
    intros HB Eq Hl Hbl. pose proof (wf_aux p H) as Ha. fold a in Ha.
    assert (HRa : rows a = m) by now apply rows_aux. assert (HCa : cols a = n + m) by now apply cols_aux.
    destruct (basis_canon a B Ha HB) as (q' & Eq' & HC). assert (q' = q) by congruence. subst q'.
    assert (D : (exists j, j < n /\ ent (lA q) l j <> 0%Qc) \/ forall j, j < n -> ent (lA q) l j = 0%Qc).
    { apply (some_nonzero (fun j => ent (lA q) l j)). }
    destruct D as [(j & Hj & Hne)|D].
    - exists j. split; auto. split; auto. intros Hi. apply (In_bk a) in Hi; auto. destruct Hi as (k & Hk & <-).
      rewrite (cn_unit _ _ _ HC) in Hne by (auto; lia). unfold delta in Hne. destruct (Nat.eqb_spec l k) as [El|]; [rewrite El in Hbl; lia|]. now apply Hne.
    - exfalso. destruct (canonical_rows a B q Ha HB Eq) as (X & HX). rewrite HRa in HX.
      set (y := mkvec m (fun k => X l k * sg p k)%Qc).
      assert (Hy : forall i, i < m -> X l i = 0%Qc).
      { intros i Hi. assert (K : nth i y 0%Qc = 0%Qc).
        { apply HR; [apply length_mkvec| |unfold y; now rewrite length_mkvec]. intros j Hj. rewrite (inner_column m) by apply length_mkvec.
          rewrite <- (D j Hj). rewrite (HX l j Hl) by (unfold cols in *; lia). apply Sum_ext. intros k Hk. unfold y. rewrite at_mkvec by auto.
          unfold a. rewrite ent_aux1, ent_neg by auto. ring. }
        fold (at_ y i) in K. unfold y in K. rewrite at_mkvec in K by auto. pose proof (sg_sq p i) as S2.
        replace (X l i) with (X l i * sg p i * sg p i)%Qc by (rewrite <- Qcmult_assoc, S2; ring). rewrite K. ring. }
      assert (K : ent (lA q) l (bk B l) = 1%Qc) by (rewrite (cn_unit _ _ _ HC) by lia; apply delta_eq).
      rewrite (HX l) in K by (auto; apply (bk_lt a); auto; lia). rewrite Sum_none in K; [discriminate K|]. intros k Hk. rewrite Hy by auto. ring.
  Qed.
  Lemma drive_out : forall k B, basis a B -> length (filter (Nat.leb n) B) = k ->
    exists B', basis a B' /\ (forall j, In j B' -> j < n) /\ (forall j, In j B -> j < n -> In j B').
  Proof.
    pose proof (wf_aux p H) as Ha. fold a in Ha. assert (HRa : rows a = m) by now apply rows_aux. assert (HCa : cols a = n + m) by now apply cols_aux.
    induction k as [|k IH]; intros B HB Hk.
    - exists B. split; auto. split; auto. intros j Hj. destruct (le_lt_dec n j) as [L|L]; auto. exfalso.
      assert (K : In j (filter (Nat.leb n) B)) by (apply filter_In; split; auto; now apply Nat.leb_le). destruct (filter (Nat.leb n) B); [destruct K|discriminate].
    - assert (E : exists l, l < m /\ n <= bk B l).
      { destruct (filter (Nat.leb n) B) as [|j r] eqn:EF; [discriminate|]. assert (K : In j (filter (Nat.leb n) B)) by (rewrite EF; simpl; auto).
        apply filter_In in K. destruct K as (K1 & K2). apply (In_bk a) in K1; auto. destruct K1 as (l & Hl & <-). exists l. split; [lia|]. now apply Nat.leb_le. }
      destruct E as (l & Hl & Hbl). destruct (basis_canon a B Ha HB) as (q & Eq & HC). destruct (entering B q l HB Eq Hl Hbl) as (j & Hj & HjB & Hne).
      assert (HBl : In (bk B l) B) by (apply (bk_In a); auto; lia). assert (ND : NoDup B) by now apply (bs_NoDup a).
      set (B1 := sort (remove_first (bk B l) B ++ [j])).
      assert (NDr : NoDup (remove_first (bk B l) B ++ [j])).
      { apply NoDup_snoc; [now apply NoDup_remove_first|]. intros K. apply In_remove_first in K; auto. tauto. }
      assert (HB1 : forall i, In i B1 <-> (In i B /\ i <> bk B l) \/ i = j).
      { intros i. unfold B1. rewrite In_sort, in_app_iff, In_remove_first by auto. simpl. intuition. }
      assert (Bas : basis a B1).
      { apply (pivot_basis a B q j l); auto; try lia.
        - unfold B1. now apply sort_strict.
        - unfold B1. rewrite length_sort, app_length, <- (bs_len _ _ HB). cbn [length]. pose proof (length_remove_first (bk B l) B HBl). lia. }
      destruct (IH B1 Bas) as (B' & P1 & P2 & P3).
      { unfold B1. rewrite count_sort, filter_app, app_length. cbn [filter]. destruct (Nat.leb_spec n j); [lia|]. cbn [length].
        pose proof (count_remove (Nat.leb n) (bk B l) B HBl ltac:(now apply Nat.leb_le)). lia. }
      exists B'. split; auto. split; auto. intros i Hi Hin. apply P3; auto. apply HB1. left. split; auto. lia.
  Qed.
End Drive.

Lemma map_NoDup_in {A B} (f : A -> B) l : (forall x y, In x l -> In y l -> f x = f y -> x = y) -> NoDup l -> NoDup (map f l).
Proof.
  intros Hi ND. induction ND as [|x l Hx ND IH]; cbn; constructor.
  - intros K. apply in_map_iff in K. destruct K as (y & E & Hy). apply Hx. rewrite (Hi x y); simpl; auto.
  - apply IH. intros; apply Hi; simpl; auto.
Qed.
Lemma NoDup_app_disj {A} (l1 l2 : list A) : NoDup l1 -> NoDup l2 -> (forall x, In x l1 -> In x l2 -> False) -> NoDup (l1 ++ l2).
Proof.
  intros N1 N2 D. induction N1 as [|x l1 Hx N1 IH]; auto. cbn. constructor.
  - intros K. apply in_app_or in K. destruct K; [contradiction|]. apply (D x); simpl; auto.
  - apply IH. intros y Hy. apply D. simpl; auto.
Qed.
Lemma sorted_ext : forall l1 l2, StronglySorted lt l1 -> StronglySorted lt l2 -> (forall x : nat, In x l1 <-> In x l2) -> l1 = l2.
Proof.
  induction l1 as [|x l1 IH]; intros [|y l2] S1 S2 E; auto.
  - exfalso. apply (E y). simpl; auto.
  - exfalso. apply (E x). simpl; auto.
  - inversion S1 as [|? ? S1' F1]; subst. inversion S2 as [|? ? S2' F2]; subst. rewrite Forall_forall in F1, F2.
    assert (x = y). { destruct (proj1 (E x) (or_introl eq_refl)) as [|K]; auto. destruct (proj2 (E y) (or_introl eq_refl)) as [|K']; auto. specialize (F1 _ K'). specialize (F2 _ K). lia. }
    subst y. f_equal. apply IH; auto. intros z. split; intros K.
    + destruct (proj1 (E z) (or_intror K)) as [->|]; auto. specialize (F1 _ K). lia.
    + destruct (proj2 (E z) (or_intror K)) as [->|]; auto. specialize (F2 _ K). lia.
Qed.
Lemma map_S_sorted l : StronglySorted lt l -> StronglySorted lt (map S l).
Proof.
  induction 1 as [|x l Hs IH Hx]; cbn; constructor; auto. rewrite Forall_forall in *. intros y Hy. apply in_map_iff in Hy. destruct Hy as (z & <- & Hz). specialize (Hx z Hz). lia.
Qed.

Lemma basis_independent p B : wf p -> basis p B -> full_row_rank p.
Proof.
  intros H HB y Ly Hy i Hi. destruct (Qc_eq_dec (nth i y 0%Qc) 0) as [|N]; auto. exfalso. apply (bs_det _ _ HB).
  unfold mdet. rewrite length_columns. apply (@det_left_kernel _ _ (fun k => at_ y k) i); [unfold rows in *; lia|exact N|].
  intros j Hj. pose proof (bs_lt _ _ HB (bk B j) (bk_In p B j HB Hj)) as Lj. rewrite <- (Hy (bk B j) Lj), (inner_column (rows p)) by auto.
  apply Sum_ext. intros k Hk. rewrite ent_columns; auto. now rewrite (bs_len _ _ HB).
Qed.

(** ** the first phase *)
Section Phases.
  Context (p : lp) (H : wf p) (Hs : lsef p = true) (HS : small_data p) (HA : small_data (aux p)) (HR : full_row_rank p) (Hm : 0 < rows p) (fuel : nat) (Hfuel : 2 ^ (cols p + rows p) <= fuel).
  Let a := aux p.
  Let n := cols p.
  Let m := rows p.
  Lemma small_is_basis r B : wf r -> small_data r -> 0 < rows r -> basis r B -> is_basis r (to_math_indexing B) = Ok true.
  Proof.
    intros Hr HSr Hrr HB. destruct (basis_canon r B Hr HB) as (q & Eq & _). apply basis_is_basis; auto. apply (sp_det _ _ _ (data_separated r Hr HSr B q HB Eq)).
  Qed.
  Lemma sorted_array B : StronglySorted lt B -> sort (to_array_indexing (to_math_indexing B)) = B.
  Proof. intros HB. rewrite array_math. now apply sort_id. Qed.
  Lemma flip_nonneg b w : length b = length w -> (forall i, (0 <= at_ b i)%Qc) -> flip_y b w = w.
  Proof.
    intros L Hb. apply vec_ext; [now apply length_flip_y|]. intros i Hi. rewrite at_flip_y by auto. destruct (qlt_spec (at_ b i) 0) as [K|]; auto.
    specialize (Hb i). exfalso. clear - K Hb. qclra.
  Qed.
  Lemma phase_one : exists x B cert X, simplex fuel a (map Z.of_nat (seq (S n) m)) = (a, Ok (Some x, Some (to_math_indexing B), cert)) /\
    basis a B /\ length x = n + m /\ bsol a B (at_ x) /\ (forall j, j < n + m -> (0 <= at_ x j)%Qc) /\ (forall j, j < n + m -> (0 < at_ x j -> tol_zero <= at_ x j)%Qc) /\
    optimal (meaning a) x /\ minv (transpose m (columns_of B (lA a))) = Ok X /\ let w := mulmv X (take B (lc a)) in
    length w = m /\ (forall j, j < n + m -> (at_ (lc a) j <= Sum m (fun i => at_ w i * ent (lA a) i j))%Qc) /\
    Sum m (fun i => at_ w i * at_ (lb a) i)%Qc = obj a (at_ x).
  Proof.
    pose proof (wf_aux p H) as Ha. fold a in Ha. assert (HRa : rows a = m) by now apply rows_aux. assert (HCa : cols a = n + m) by now apply cols_aux.
    assert (ES : map Z.of_nat (seq (S n) m) = to_math_indexing (seq n m)) by (unfold to_math_indexing; rewrite <- seq_shift, map_map; reflexivity). rewrite ES.
    assert (EB : is_basis a (to_math_indexing (seq n m)) = Ok true) by (apply small_is_basis; auto; [lia|now apply start_basis]).
    assert (FB : feasible_basis a (to_math_indexing (seq n m))).
    { apply feasible_fbasis; auto. rewrite sorted_array by apply seq_sorted. now apply start_feasible. }
    destruct (simplex_terminates a _ fuel Ha eq_refl HA EB FB) as (r & Er & D). { change (length (lc a)) with (cols a). now rewrite HCa. }
    destruct D as [(x & Bo & cert & -> & Ho)|(x & d & -> & (_ & Ld & _ & Hd & Hc))].
    - assert (Es : snd (simplex fuel a (to_math_indexing (seq n m))) = Ok (Some x, Some Bo, CVec cert)) by now rewrite Er.
      destruct (exact_facts fuel a _ x (Some Bo) (CVec cert) Ha HA Es) as (_ & B & q & y & EBo & Ey & HI & HBm & Lx & HX & _ & _ & _ & Ov & Hc0 & Hx0 & Hxt).
      injection EBo as ->. destruct (optimal_result a B q x Ha HI) as (y' & Er' & Ly & Y1 & Y2). assert (EN : negate_rows a = a) by now apply neg_aux.
      rewrite EN in *. cbn [simplex_result] in Er'. rewrite HRa, HCa in *. destruct HI as [HB Hq HC].
      destruct (minv (transpose m (columns_of B (lA a)))) as [X| |] eqn:EX; try discriminate Er'. cbn [bind] in Er'.
      assert (Er2 : flip_y (lb a) (mulmv X (take B (lc a))) = y') by congruence. clear Er'. rename Er2 into Er'.
      assert (Lw : length (mulmv X (take B (lc a))) = m).
      { rewrite <- Er' in Ly. unfold flip_y in Ly. rewrite map_length, combine_length in Ly. pose proof (wf_b _ Ha) as Lb. rewrite HRa in Lb. rewrite length_mulmv in *.
        destruct (minv_ok (transpose m (columns_of B (lA a))) m) as (X' & EX' & LX & _); [apply length_transpose|now apply minv_inv in EX|congruence]. }
      rewrite flip_nonneg in Er'; [|rewrite (wf_b _ Ha), Lw; auto|intros i; rewrite <- EN; apply lb_neg_nonneg].
      exists x, B, (CVec cert), X. split; auto. split; auto. split; auto. split; auto. split; auto. split; auto. split; auto. split; auto. cbv zeta. rewrite Er'. split; auto. split.
      + intros j Hj. rewrite Y1 by auto. specialize (Hc0 j Hj). clear - Hc0. qclra.
      + clear - Y2 Ov. qclra.
    - exfalso. rewrite obj_inner in Hc. unfold a in Hc. rewrite obj_aux in Hc by auto. fold n in Hc. fold m in Hc.
      assert (K : (0 <= Sum m (fun i => at_ d (n + i)%nat))%Qc). { apply Sum_nonneg. intros i Hi. apply Hd. change (length (lc a)) with (cols a) in Ld. lia. }
      clear - K Hc. qclra.
  Qed.
  (** no artificial part: a feasible point of the program *)
  Lemma drop_artificial x : length x = n + m -> solves 1 a (at_ x) -> (forall i, i < m -> at_ x (n + i) = 0%Qc) -> solves 1 p (at_ x).
  Proof.
    intros L Hx H0. apply solves_neg; auto. intros i Hi. rewrite rows_neg in Hi by auto. specialize (Hx i). unfold a in Hx. rewrite rows_aux in Hx by auto. specialize (Hx Hi).
    rewrite lhs_aux in Hx by auto. fold n in Hx. rewrite H0 in Hx by auto. rewrite lb_aux in Hx. rewrite <- Hx. ring.
  Qed.
  Lemma add_artificial x : length x = n -> sfeas p x -> sfeas a (x ++ repeat 0%Qc m).
  Proof.
    intros L (L' & Hx & Hp). assert (HRa : rows a = m) by now apply rows_aux. assert (HCa : cols a = n + m) by now apply cols_aux. split; [rewrite app_length, repeat_length; lia|]. split.
    - intros i Hi. rewrite HRa in Hi. fold (lhs a i (at_ (x ++ repeat 0%Qc m))). unfold a. rewrite lhs_aux, lhs_neg by auto. fold n. rewrite at_app2 by lia. rewrite at_repeat0. rewrite lb_aux, lb_neg.
      rewrite <- (Hx i Hi). unfold lhs. rewrite (Sum_ext (cols p) _ (fun j => ent (lA p) i j * at_ x j)%Qc); [ring|]. intros j Hj. rewrite at_app1 by (fold n in Hj; lia). reflexivity.
    - intros j Hj. rewrite HCa in Hj. destruct (le_lt_dec n j) as [K|K]; [rewrite at_app2, at_repeat0 by lia; discriminate|]. rewrite at_app1 by lia. now apply Hp.
  Qed.
  Lemma two_phase_cases :
    (exists Bz, two_phase_simplex fuel p = simplex fuel p Bz /\ is_basis p Bz = Ok true /\ feasible_basis p Bz) \/
    (exists y, two_phase_simplex fuel p = (p, Ok (None, None, CVec y)) /\ length y = m /\
       (forall j, j < n -> (0 <= Sum m (fun i => at_ y i * ent (lA p) i j))%Qc) /\ (Sum m (fun i => at_ y i * at_ (lb p) i) <= - tol_zero)%Qc).
  Proof.
    destruct phase_one as (x & B & cert & X & E1 & HB & Lx & HX & Hx0 & Hxt & Ho & EX & Lw & W1 & W2). set (w := mulmv X (take B (lc a))) in *.
    pose proof (wf_aux p H) as Ha. fold a in Ha. assert (HRa : rows a = m) by now apply rows_aux. assert (HCa : cols a = n + m) by now apply cols_aux.
    destruct (auxiliary_aux p Hs) as (a0 & Ea0 & Ea). fold a in Ea.
    assert (Ev : evaluate a x = Ok (obj a (at_ x))).
    { unfold evaluate. rewrite Lx, HCa, Nat.eqb_refl. f_equal. rewrite (dot_Sum (cols a)) by reflexivity. change (lz a) with 0%Qc. unfold obj. ring. }
    assert (E0 : two_phase_simplex fuel p = two_phase_simplex fuel p) by reflexivity. unfold two_phase_simplex in E0 at 2. rewrite Ea0, Ea in E0. cbv zeta in E0.
    change (cols p) with n in E0. change (rows p) with m in E0. rewrite E1, Ev in E0.
    assert (Hobj : obj a (at_ x) = (- Sum m (fun i => at_ x (n + i)%nat))%Qc) by now apply obj_aux.
    assert (Hsum : (0 <= Sum m (fun i => at_ x (n + i)%nat))%Qc) by (apply Sum_nonneg; intros i Hi; apply Hx0; lia).
    destruct (is_close_to_zero (obj a (at_ x))) eqn:Ec.
    - left. apply close0_true in Ec. destruct Ec as (C1 & C2).
      assert (HZ : forall i, i < m -> at_ x (n + i) = 0%Qc).
      { intros i Hi. apply Qcle_antisym; [|apply Hx0; lia]. apply Qcnot_lt_le. intros K. apply Hxt in K; [|lia].
        assert (G : (at_ x (n + i) <= Sum m (fun i => at_ x (n + i)%nat))%Qc).
        { pose proof (Sum_single m i (fun k => if Nat.eqb k i then at_ x (n + i) else 0%Qc) Hi) as G. cbv beta in G; rewrite Nat.eqb_refl in G. rewrite <- G.
          - apply Sum_le. intros k Hk. destruct (Nat.eqb_spec k i) as [->|]; [apply Qcle_refl|]. apply Hx0. lia.
          - intros k Hk Hne. destruct (Nat.eqb_spec k i); [contradiction|reflexivity]. }
        rewrite Hobj in C1. clear - C1 K G. qclra. }
      assert (SX : solves 1 p (at_ x)) by (apply drop_artificial; auto; apply HX).
      set (x0 := firstn n x). assert (Lx0 : length x0 = n) by (unfold x0; rewrite firstn_length; lia).
      assert (A0 : forall j, j < n -> at_ x0 j = at_ x j).
      { intros j Hj. unfold x0. rewrite <- (firstn_skipn n x) at 2. rewrite at_app1; auto. rewrite firstn_length. lia. }
      assert (F0 : feasible (meaning p) x0).
      { apply sfeas_iff; auto. split; auto. split; [|intros j Hj; rewrite A0 by auto; apply Hx0; fold n in Hj; lia]. intros i Hi. specialize (SX i Hi). unfold lhs in SX.
        rewrite Qcmult_1_l in SX. rewrite <- SX. apply Sum_ext. intros j Hj. now rewrite A0. }
      destruct (is_basis_total p (to_math_indexing B) Hm) as (b & Eb). rewrite Eb in E0. destruct b.
      + exists (to_math_indexing B). split; [exact E0|]. split; auto. exists x0. split; auto. intros j Hj Hn. rewrite Lx0 in Hj. fold (at_ x0 j). rewrite A0 by auto.
        apply (proj2 HX); [lia|]. intros K. apply Hn. apply In_math. eauto.
      + assert (Art : exists j0, In j0 B /\ n <= j0).
        { destruct (filter (Nat.leb n) B) as [|j0 r] eqn:EF.
          - exfalso. assert (HBn : forall j, In j B -> j < n).
            { intros j Hj. destruct (le_lt_dec n j) as [L|L]; auto. assert (K : In j (filter (Nat.leb n) B)) by (apply filter_In; split; auto; now apply Nat.leb_le). rewrite EF in K. destruct K. }
            apply (basis_aux p H B HBn) in HB. rewrite small_is_basis in Eb by auto. discriminate Eb.
          - exists j0. assert (K : In j0 (filter (Nat.leb n) B)) by (rewrite EF; simpl; auto). apply filter_In in K. destruct K as (K1 & K2). split; auto. now apply Nat.leb_le. }
        destruct Art as (j0 & Hj0 & Hj0n). destruct (drive_out p H HR _ B HB eq_refl) as (B' & HB' & HBn' & HBB'). fold n in HBn', HBB'.
        pose proof (proj1 (basis_aux p H B' HBn') HB') as HBp. pose proof (small_is_basis p B' H HS Hm HBp) as EB'.
        set (close := fun i => is_close_to_zero (at_ x i)) in *. set (P0 := filter (fun i => negb (close i)) (seq 0 n)) in *. set (Z0 := filter close (seq 0 n)) in *.
        change (filter (fun i => negb (is_close_to_zero (at_ x i))) (seq 0 n)) with P0 in E0. change (filter (fun i => is_close_to_zero (at_ x i)) (seq 0 n)) with Z0 in E0.
        assert (InP : forall j, In j P0 <-> j < n /\ close j = false) by (intros j; unfold P0; rewrite filter_In, in_seq, negb_true_iff; intuition lia).
        assert (InZ : forall j, In j Z0 <-> j < n /\ close j = true) by (intros j; unfold Z0; rewrite filter_In, in_seq; intuition lia).
        assert (close0 : forall j, j < n -> close j = true -> at_ x j = 0%Qc).
        { intros j Hj K. apply close0_true in K. destruct K as (K1 & K2). apply Qcle_antisym; [|apply Hx0; lia]. apply Qcnot_lt_le. intros K. apply Hxt in K; [|lia]. clear - K K2. qclra. }
        assert (PB : forall j, In j P0 -> In j B).
        { intros j Hj. apply InP in Hj. destruct Hj as (Hj & K). destruct (in_dec Nat.eq_dec j B) as [|Hn]; auto. exfalso.
          rewrite <- not_true_iff_false in K. apply K. apply close0_true. rewrite (proj2 HX) by (auto; lia). split; reflexivity. }
        assert (NP : NoDup P0) by (apply NoDup_filter, seq_NoDup).
        assert (LP : length P0 < m).
        { assert (K : length (j0 :: P0) <= length B).
          { apply NoDup_incl_length; [constructor; auto; intros K; apply InP in K; lia|]. intros j [<-|Hj]; auto. }
          rewrite (bs_len _ _ HB), HRa in K. simpl in K. lia. }
        set (z := length Z0). set (Zs := map S Z0) in *. assert (Lz : length Zs = z) by apply map_length.
        set (ext := filter (fun i => inb (nth i Z0 0) B') (seq 0 z)).
        assert (InE : forall i, In i ext <-> i < z /\ In (nth i Z0 0) B') by (intros i; unfold ext; rewrite filter_In, in_seq, inb_In; intuition lia).
        assert (NZ : NoDup Z0) by (apply NoDup_filter, seq_NoDup).
        assert (CH : chosen Zs ext = map S (map (fun i => nth i Z0 0) ext)).
        { unfold chosen. rewrite map_map. apply map_ext_in. intros i Hi. apply InE in Hi. unfold Zs. rewrite (nth_indep _ 0 1) by (rewrite map_length; apply Hi). now rewrite map_nth. }
        assert (InC : forall j, In j (map (fun i => nth i Z0 0) ext) <-> In j Z0 /\ In j B').
        { intros j. rewrite in_map_iff. split.
          - intros (i & <- & Hi). apply InE in Hi. split; [apply nth_In; apply Hi|apply Hi].
          - intros (K1 & K2). apply (In_nth _ _ 0) in K1. destruct K1 as (i & Hi & <-). exists i. split; auto. apply InE. auto. }
        assert (NC : NoDup (map (fun i => nth i Z0 0) ext)).
        { apply map_NoDup_in; [|apply NoDup_filter, seq_NoDup]. intros i i' Hi Hi' K. apply InE in Hi, Hi'. apply (proj1 (NoDup_nth Z0 0) NZ); tauto. }
        assert (ND : NoDup (P0 ++ map (fun i => nth i Z0 0) ext)).
        { apply NoDup_app_disj; auto. intros j K1 K2. apply InC in K2. destruct K2 as (K2 & _). apply InP in K1. apply InZ in K2. destruct K1, K2. congruence. }
        assert (ECand : sort (map S P0 ++ chosen Zs ext) = map S B').
        { rewrite CH, <- map_app. apply sorted_ext.
          - apply sort_strict. apply FinFun.Injective_map_NoDup; auto. intros i j K. now injection K.
          - apply map_S_sorted, HB'.
          - intros j. rewrite In_sort. rewrite !in_map_iff. split; intros (i & <- & Hi); exists i; split; auto.
            + apply in_app_or in Hi. destruct Hi as [Hi|Hi]; [apply HBB'; auto; apply InP in Hi; tauto|]. now apply InC in Hi.
            + apply in_or_app. destruct (close i) eqn:Eci; [right; apply InC; split; auto; apply InZ; auto|left; apply InP; auto]. }
        assert (LE : length ext = m - length (map S P0)).
        { apply (f_equal (@length nat)) in ECand. rewrite length_sort, app_length in ECand. unfold chosen in ECand. rewrite !map_length, (bs_len _ _ HBp) in ECand; fold m in ECand. rewrite map_length. lia. }
        destruct (search_start p (map S P0) Zs (m - length (map S P0)) Hm fuel) as (B2 & cur & S1 & S2 & S3 & S4).
        { rewrite Lz. apply Nat.le_trans with (2 ^ (n + m)); auto. apply Nat.pow_le_mono_r; [lia|]. unfold z, Z0. pose proof (filter_length_le close (fun _ => true) (seq 0 n) ltac:(auto)) as K.
          replace (filter (fun _ => true) (seq 0 n)) with (seq 0 n) in K by (clear; induction (seq 0 n) as [|? ? IH]; cbn; congruence). rewrite seq_length in K. lia. }
        { rewrite map_length. lia. }
        { exists ext. split; [apply filter_sorted, seq_sorted|]. split; [intros j Hj; apply InE in Hj; lia|]. split; auto. rewrite ECand, map_map. exact EB'. }
        rewrite map_length in E0 at 1. destruct (Nat.leb_spec m (length P0)); [lia|]. rewrite S1 in E0.
        exists (map Z.of_nat B2). split; [exact E0|]. split; auto. exists x0. split; auto. intros j Hj Hn. rewrite Lx0 in Hj. fold (at_ x0 j). rewrite A0 by auto.
        apply close0; auto. destruct (close j) eqn:Ecj; auto. exfalso. apply Hn. apply in_map. rewrite S4. apply In_sort, in_or_app. left. apply in_map. apply InP. auto.
    - right. rewrite array_math in E0. rewrite EX in E0. fold w in E0. exists (flip_y (lb p) w). split; [exact E0|].
      assert (Lb : length (lb p) = length w) by (rewrite (wf_b _ H), Lw; reflexivity). split; [rewrite length_flip_y; auto|].
      assert (Ey : forall i, at_ (flip_y (lb p) w) i = (sg p i * at_ w i)%Qc).
      { intros i. rewrite at_flip_y by auto. unfold sg. destruct (qlt (at_ (lb p) i) 0); ring. }
      split.
      + intros j Hj. rewrite (Sum_ext m _ (fun i => at_ w i * ent (lA a) i j)%Qc).
        * eapply Qcle_trans; [|apply W1; lia]. unfold a. rewrite lc_aux1 by auto. apply Qcle_refl.
        * intros i Hi. rewrite Ey. unfold a. rewrite ent_aux1, ent_neg by auto. ring.
      + rewrite (Sum_ext m _ (fun i => at_ w i * at_ (lb a) i)%Qc).
        * rewrite W2. apply Qcnot_lt_le. intros K. rewrite <- not_true_iff_false in Ec. apply Ec. apply close0_true. split; auto. rewrite Hobj. pose proof tol_pos as T. clear - Hsum T. qclra.
        * intros i Hi. rewrite Ey. unfold a. rewrite lb_aux, lb_neg. ring.
  Qed.
  (** dependent equations *)
  Lemma not_a_basis r Bz : wf r -> is_basis r Bz = Ok false -> lsef r = true -> 0 < fuel -> simplex fuel r Bz = (negate_rows r, Raise ValueError).
  Proof.
    intros Hr E Hsef Hf. unfold simplex. rewrite Hsef. cbn [negb]. destruct fuel as [|f]; [lia|]. cbn [simplex_loop]. unfold simplex_iteration.
    assert (En : is_basis (negate_rows r) Bz = Ok false) by (rewrite <- E; now apply is_basis_neg). rewrite En.
    change (lsef (negate_rows r)) with (lsef r). rewrite Hsef. reflexivity.
  Qed.
  Lemma two_phase_dependent : (forall Bz, is_basis p Bz <> Ok true) ->
    (two_phase_simplex fuel p = (negate_rows p, Raise ValueError) /\ exists x, feasible (meaning p) x) \/
    (exists y, two_phase_simplex fuel p = (p, Ok (None, None, CVec y)) /\ length y = m /\
       (forall j, j < n -> (0 <= Sum m (fun i => at_ y i * ent (lA p) i j))%Qc) /\ (Sum m (fun i => at_ y i * at_ (lb p) i) <= - tol_zero)%Qc).
  Proof.
    intros HN.
    destruct phase_one as (x & B & cert & X & E1 & HB & Lx & HX & Hx0 & Hxt & Ho & EX & Lw & W1 & W2). set (w := mulmv X (take B (lc a))) in *.
    pose proof (wf_aux p H) as Ha. fold a in Ha. assert (HRa : rows a = m) by now apply rows_aux. assert (HCa : cols a = n + m) by now apply cols_aux.
    destruct (auxiliary_aux p Hs) as (a0 & Ea0 & Ea). fold a in Ea.
    assert (Ev : evaluate a x = Ok (obj a (at_ x))).
    { unfold evaluate. rewrite Lx, HCa, Nat.eqb_refl. f_equal. rewrite (dot_Sum (cols a)) by reflexivity. change (lz a) with 0%Qc. unfold obj. ring. }
    assert (E0 : two_phase_simplex fuel p = two_phase_simplex fuel p) by reflexivity. unfold two_phase_simplex in E0 at 2. rewrite Ea0, Ea in E0. cbv zeta in E0.
    change (cols p) with n in E0. change (rows p) with m in E0. rewrite E1, Ev in E0.
    assert (Hobj : obj a (at_ x) = (- Sum m (fun i => at_ x (n + i)%nat))%Qc) by now apply obj_aux.
    assert (Hsum : (0 <= Sum m (fun i => at_ x (n + i)%nat))%Qc) by (apply Sum_nonneg; intros i Hi; apply Hx0; lia).
    destruct (is_close_to_zero (obj a (at_ x))) eqn:Ec.
    - left. apply close0_true in Ec. destruct Ec as (C1 & C2).
      assert (HZ : forall i, i < m -> at_ x (n + i) = 0%Qc).
      { intros i Hi. apply Qcle_antisym; [|apply Hx0; lia]. apply Qcnot_lt_le. intros K. apply Hxt in K; [|lia].
        assert (G : (at_ x (n + i) <= Sum m (fun i => at_ x (n + i)%nat))%Qc).
        { pose proof (Sum_single m i (fun k => if Nat.eqb k i then at_ x (n + i) else 0%Qc) Hi) as G. cbv beta in G; rewrite Nat.eqb_refl in G. rewrite <- G.
          - apply Sum_le. intros k Hk. destruct (Nat.eqb_spec k i) as [->|]; [apply Qcle_refl|]. apply Hx0. lia.
          - intros k Hk Hne. destruct (Nat.eqb_spec k i); [contradiction|reflexivity]. }
        rewrite Hobj in C1. clear - C1 K G. qclra. }
      assert (SX : solves 1 p (at_ x)) by (apply drop_artificial; auto; apply HX).
      set (x0 := firstn n x). assert (Lx0 : length x0 = n) by (unfold x0; rewrite firstn_length; lia).
      assert (A0 : forall j, j < n -> at_ x0 j = at_ x j).
      { intros j Hj. unfold x0. rewrite <- (firstn_skipn n x) at 2. rewrite at_app1; auto. rewrite firstn_length. lia. }
      assert (F0 : feasible (meaning p) x0).
      { apply sfeas_iff; auto. split; auto. split; [|intros j Hj; rewrite A0 by auto; apply Hx0; fold n in Hj; lia]. intros i Hi. specialize (SX i Hi). unfold lhs in SX.
        rewrite Qcmult_1_l in SX. rewrite <- SX. apply Sum_ext. intros j Hj. now rewrite A0. }
      split; [|exists x0; exact F0].
      destruct (is_basis_total p (to_math_indexing B) Hm) as (b & Eb). rewrite Eb in E0. destruct b; [destruct (HN _ Eb)|].
      assert (Art : exists j0, In j0 B /\ n <= j0).
        { destruct (filter (Nat.leb n) B) as [|j0 r] eqn:EF.
          - exfalso. assert (HBn : forall j, In j B -> j < n).
            { intros j Hj. destruct (le_lt_dec n j) as [L|L]; auto. assert (K : In j (filter (Nat.leb n) B)) by (apply filter_In; split; auto; now apply Nat.leb_le). rewrite EF in K. destruct K. }
            apply (basis_aux p H B HBn) in HB. rewrite small_is_basis in Eb by auto. discriminate Eb.
          - exists j0. assert (K : In j0 (filter (Nat.leb n) B)) by (rewrite EF; simpl; auto). apply filter_In in K. destruct K as (K1 & K2). split; auto. now apply Nat.leb_le. }
        destruct Art as (j0 & Hj0 & Hj0n).
        set (close := fun i => is_close_to_zero (at_ x i)) in *. set (P0 := filter (fun i => negb (close i)) (seq 0 n)) in *. set (Z0 := filter close (seq 0 n)) in *.
        change (filter (fun i => negb (is_close_to_zero (at_ x i))) (seq 0 n)) with P0 in E0. change (filter (fun i => is_close_to_zero (at_ x i)) (seq 0 n)) with Z0 in E0.
        assert (InP : forall j, In j P0 <-> j < n /\ close j = false) by (intros j; unfold P0; rewrite filter_In, in_seq, negb_true_iff; intuition lia).
        assert (InZ : forall j, In j Z0 <-> j < n /\ close j = true) by (intros j; unfold Z0; rewrite filter_In, in_seq; intuition lia).
        assert (close0 : forall j, j < n -> close j = true -> at_ x j = 0%Qc).
        { intros j Hj K. apply close0_true in K. destruct K as (K1 & K2). apply Qcle_antisym; [|apply Hx0; lia]. apply Qcnot_lt_le. intros K. apply Hxt in K; [|lia]. clear - K K2. qclra. }
        assert (PB : forall j, In j P0 -> In j B).
        { intros j Hj. apply InP in Hj. destruct Hj as (Hj & K). destruct (in_dec Nat.eq_dec j B) as [|Hn]; auto. exfalso.
          rewrite <- not_true_iff_false in K. apply K. apply close0_true. rewrite (proj2 HX) by (auto; lia). split; reflexivity. }
        assert (NP : NoDup P0) by (apply NoDup_filter, seq_NoDup).
        assert (LP : length P0 < m).
        { assert (K : length (j0 :: P0) <= length B).
          { apply NoDup_incl_length; [constructor; auto; intros K; apply InP in K; lia|]. intros j [<-|Hj]; auto. }
          rewrite (bs_len _ _ HB), HRa in K. simpl in K. lia. }
        assert (HZs : 2 ^ length (map S Z0) <= fuel).
        { rewrite map_length. apply Nat.le_trans with (2 ^ (n + m)); auto. apply Nat.pow_le_mono_r; [lia|]. unfold Z0. pose proof (filter_length_le close (fun _ => true) (seq 0 n) ltac:(auto)) as K.
          replace (filter (fun _ => true) (seq 0 n)) with (seq 0 n) in K by (clear; induction (seq 0 n) as [|? ? IH]; cbn; congruence). rewrite seq_length in K. lia. }
        assert (F : 0 < fuel) by (pose proof (Nat.pow_nonzero 2 (length (map S Z0)) ltac:(lia)); lia).
        rewrite map_length in E0 at 1. destruct (Nat.leb_spec m (length P0)); [lia|].
        match type of E0 with context [complete_basis fuel p ?P ?Z ?s ?q] => destruct (search_spec p P Z s Hm fuel q) as [(B2 & S1 & S2 & _)|(S1 & _)] end.
        * rewrite (weight_rev p) by exact Hm. match goal with |- weight _ (map _ (seq 0 (_ - ?s))) < _ => set (sz := s) end.
          pose proof (weight_seq p (map S Z0) Hm (fun i => [nth i (map S Z0) 0]) (length (map S Z0)) 0 eq_refl) as W.
          assert (Hsz : 0 < sz) by (unfold sz; rewrite map_length; lia).
          assert (Hseq : seq 0 (length (map S Z0)) = seq 0 (S (length (map S Z0)) - sz) ++ seq (S (length (map S Z0)) - sz) (length (map S Z0) - (S (length (map S Z0)) - sz))) by (rewrite <- seq_app; f_equal; lia).
          rewrite Hseq, map_app, (weight_app p _ Hm) in W. lia.
        * destruct (HN _ S2).
        * rewrite S1 in E0. rewrite E0. apply not_a_basis; auto. match goal with |- is_basis p ?Q = _ => destruct (is_basis_total p Q Hm) as (b & Eb'); rewrite Eb'; destruct b; [destruct (HN _ Eb')|reflexivity] end.
    - right. rewrite array_math in E0. rewrite EX in E0. fold w in E0. exists (flip_y (lb p) w). split; [exact E0|].
      assert (Lb : length (lb p) = length w) by (rewrite (wf_b _ H), Lw; reflexivity). split; [rewrite length_flip_y; auto|].
      assert (Ey : forall i, at_ (flip_y (lb p) w) i = (sg p i * at_ w i)%Qc).
      { intros i. rewrite at_flip_y by auto. unfold sg. destruct (qlt (at_ (lb p) i) 0); ring. }
      split.
      + intros j Hj. rewrite (Sum_ext m _ (fun i => at_ w i * ent (lA a) i j)%Qc).
        * eapply Qcle_trans; [|apply W1; lia]. unfold a. rewrite lc_aux1 by auto. apply Qcle_refl.
        * intros i Hi. rewrite Ey. unfold a. rewrite ent_aux1, ent_neg by auto. ring.
      + rewrite (Sum_ext m _ (fun i => at_ w i * at_ (lb a) i)%Qc).
        * rewrite W2. apply Qcnot_lt_le. intros K. rewrite <- not_true_iff_false in Ec. apply Ec. apply close0_true. split; auto. rewrite Hobj. pose proof tol_pos as T. clear - Hsum T. qclra.
        * intros i Hi. rewrite Ey. unfold a. rewrite lb_aux, lb_neg. ring.
  Qed.
End Phases.
