(** Proofs about [to_sef] and the way back. *)
From Coq Require Import String List Bool Arith ZArith QArith Qcanon Lia Sorted.
From Verif Require Import Py QcTac QSum QInt ComparatorModel MatModel DetTheory MatTheory LinearModel LinearSpec LinearProofs.
Import ListNotations.
Open Scope nat_scope.
Open Scope string_scope.
Open Scope list_scope.

(** ** inner products of concatenations *)
Lemma inner_app u v x y : length u = length x -> inner (u ++ v) (x ++ y) = (inner u x + inner v y)%Qc.
Proof.
  revert x. induction u as [|a u IH]; intros [|b x] H; simpl in H; try lia.
  - simpl. ring.
  - cbn [app inner]. rewrite IH by lia. ring.
Qed.
Lemma inner_zero_l n x : inner (repeat 0%Qc n) x = 0%Qc.
Proof. revert x. induction n as [|n IH]; intros [|a x]; auto. cbn [repeat inner]. rewrite IH. ring. Qed.
Lemma inner_opp_l u x : inner (vopp u) x = (- inner u x)%Qc.
Proof. revert x. induction u as [|a u IH]; intros [|b x]; cbn [vopp map inner]; try ring. fold (vopp u). rewrite IH. ring. Qed.

(** ** negating positions *)
Lemma length_set_at v i x : length (set_at v i x) = length v.
Proof. revert i. induction v as [|y v IH]; intros [|i]; simpl; auto. Qed.
Lemma at_set_at v i x j : at_ (set_at v i x) j = if Nat.eqb j i && Nat.ltb i (length v) then x else at_ v j.
Proof.
  revert i j. induction v as [|y v IH]; intros i j.
  - simpl length. rewrite andb_comm. destruct i; simpl; reflexivity.
  - destruct i as [|i], j as [|j]; try reflexivity. cbn [set_at]. unfold at_. cbn [nth length]. apply (IH i j).
Qed.
Lemma length_neg_at i v : length (neg_at i v) = length v. Proof. apply length_set_at. Qed.
Lemma length_neg_all l v : length (fold_left (fun r i => neg_at i r) l v) = length v.
Proof. revert v. induction l as [|i l IH]; intros v; simpl; auto. now rewrite IH, length_neg_at. Qed.
Lemma at_neg_at i v j : at_ (neg_at i v) j = if Nat.eqb j i then (- at_ v j)%Qc else at_ v j.
Proof.
  unfold neg_at. rewrite at_set_at. destruct (Nat.eqb_spec j i) as [->|H]; cbn [andb]; auto.
  destruct (Nat.ltb_spec i (length v)); auto. rewrite at_over by auto. apply Qc_is_canon. reflexivity.
Qed.
Lemma at_neg_all l v j : NoDup l -> at_ (fold_left (fun r i => neg_at i r) l v) j = if inb j l then (- at_ v j)%Qc else at_ v j.
Proof.
  revert v. induction l as [|i l IH]; intros v H; [reflexivity|]. inversion H; subst. cbn [fold_left].
  rewrite IH by auto. rewrite at_neg_at. unfold inb. cbn [existsb]. fold (inb j l).
  destruct (Nat.eqb_spec j i) as [->|Hne]; cbn [orb]; auto.
  replace (inb i l) with false; auto. symmetry. now apply inb_false.
Qed.
Lemma inner_neg_all l u x : length u = length x -> NoDup l ->
  inner (fold_left (fun r i => neg_at i r) l u) x = inner u (fold_left (fun r i => neg_at i r) l x).
Proof.
  intros HL H. rewrite (inner_Sum (length u)) by apply length_neg_all. rewrite (inner_Sum (length u)) by auto.
  apply Sum_ext. intros j Hj. rewrite !at_neg_all by auto. destruct (inb j l); ring.
Qed.
Lemma neg_all_twice l v : NoDup l -> fold_left (fun r i => neg_at i r) l (fold_left (fun r i => neg_at i r) l v) = v.
Proof.
  intros H. apply vec_ext; [now rewrite !length_neg_all|]. intros j Hj. rewrite !at_neg_all by auto.
  destruct (inb j l); auto. ring.
Qed.

(** ** splitting free variables *)
Fixpoint sv (i : nat) (free : list nat) (r : list Qc) : list Qc :=
  match free with [] => r | f :: free' => sv (S i) free' (insert_at (S (f + i)) (- at_ r (f + i))%Qc r) end.
Fixpoint cat (i : nat) (free : list nat) : list nat :=
  match free with [] => [] | f :: free' => (f + i) :: cat (S i) free' end.
Lemma split_free_eq i free A c k : split_free i free A c k = (map (sv i free) A, sv i free c, k ++ cat i free).
Proof.
  revert i A c k. induction free as [|f free IH]; intros i A c k; cbn [split_free sv cat].
  - now rewrite map_id, app_nil_r.
  - rewrite IH, map_map, <- app_assoc. reflexivity.
Qed.
Fixpoint expand (k : nat) (fs : list nat) (r : list Qc) : list Qc :=
  match r with
  | [] => []
  | a :: r' =>
    match fs with
    | [] => r
    | f :: fs' => if Nat.eqb f k then a :: (- a)%Qc :: expand (S k) fs' r' else a :: expand (S k) fs r'
    end
  end.
Lemma expand_nil k r : expand k [] r = r. Proof. now destruct r. Qed.
Definition from (k n : nat) (fs : list nat) : Prop :=
  StronglySorted lt fs /\ forall f, In f fs -> k <= f < k + n.
Lemma from_tail k n f fs : from k n (f :: fs) -> f = k -> from (S k) (pred n) fs.
Proof.
  intros (H1 & H2) ->. inversion H1 as [|? ? H3 H4]; subst. split; auto. intros g Hg.
  rewrite Forall_forall in H4. specialize (H4 g Hg). specialize (H2 g (or_intror Hg)). lia.
Qed.
Lemma from_skip k n f fs : from k n (f :: fs) -> f <> k -> from (S k) (pred n) (f :: fs).
Proof.
  intros (H1 & H2) Hne. split; auto. inversion H1 as [|? ? H3 H4]; subst. rewrite Forall_forall in H4.
  pose proof (H2 f (or_introl eq_refl)). intros g [<-|Hg]; [lia|]. specialize (H4 g Hg). specialize (H2 g (or_intror Hg)). lia.
Qed.
Lemma from_nonempty k n f fs : from k n (f :: fs) -> 0 < n.
Proof. intros (_ & H). specialize (H f (or_introl eq_refl)). lia. Qed.
Lemma sv_expand suf : forall pre i k fs, length pre = k + i -> from k (length suf) fs ->
  sv i fs (pre ++ suf) = pre ++ expand k fs suf.
Proof.
  induction suf as [|a suf IH]; intros pre i k fs HL HF.
  - destruct fs as [|f fs]; [now cbn; rewrite app_nil_r|]. apply from_nonempty in HF. simpl in HF. lia.
  - destruct fs as [|f fs]; [reflexivity|]. cbn [expand]. destruct (Nat.eqb_spec f k) as [->|Hne].
    + cbn [sv]. unfold insert_at.
      rewrite (firstn_app (S (k + i))), (skipn_app (S (k + i))).
      rewrite firstn_all2, skipn_all2 by lia. replace (S (k + i) - length pre) with 1 by lia.
      rewrite at_app2 by lia. replace (k + i - length pre) with 0 by lia. cbn [firstn skipn app at_ nth].
      specialize (IH (pre ++ [a; (- a)%Qc]) (S i) (S k) fs).
      replace ((pre ++ [a]) ++ (- a)%Qc :: suf) with ((pre ++ [a; (- a)%Qc]) ++ suf).
      * rewrite IH; [now rewrite <- app_assoc|rewrite app_length; simpl; lia|]. apply (from_tail k (S (length suf)) k fs HF eq_refl).
      * rewrite <- !app_assoc. reflexivity.
    + replace (pre ++ a :: suf) with ((pre ++ [a]) ++ suf) by now rewrite <- app_assoc.
      rewrite (IH (pre ++ [a]) i (S k) (f :: fs)).
      * now rewrite <- app_assoc.
      * rewrite app_length. simpl. lia.
      * apply (from_skip k (S (length suf)) f fs HF Hne).
Qed.
Lemma length_expand r : forall k fs, from k (length r) fs -> length (expand k fs r) = length r + length fs.
Proof.
  induction r as [|a r IH]; intros k fs HF.
  - destruct fs as [|f fs]; [reflexivity|]. apply from_nonempty in HF. simpl in HF. lia.
  - destruct fs as [|f fs]; [simpl; lia|]. cbn [expand]. destruct (Nat.eqb_spec f k) as [->|Hne]; cbn [length].
    + rewrite IH; [lia|]. apply (from_tail k (S (length r)) k fs HF eq_refl).
    + rewrite IH; [simpl; lia|]. apply (from_skip k (S (length r)) f fs HF Hne).
Qed.

(** ** merging them again *)
Fixpoint collapse (k : nat) (fs : list nat) (x : list Qc) : list Qc :=
  match fs with
  | [] => x
  | f :: fs' =>
    match x with
    | [] => []
    | a :: x' =>
      if Nat.eqb f k then match x' with [] => x | b :: x'' => (a - b)%Qc :: collapse (S k) fs' x'' end
      else a :: collapse (S k) fs x'
    end
  end.
Lemma collapse_nil k x : collapse k [] x = x. Proof. destruct x; reflexivity. Qed.
Lemma merge_collapse n : forall suf pre i k fs, length suf = n + length fs -> length pre = k -> from k n fs ->
  merge_free i (cat i fs) (pre ++ suf) = pre ++ collapse k fs suf.
Proof.
  induction n as [|n IH]; intros suf pre i k fs HL Hp HF.
  - destruct fs as [|f fs]; [now rewrite collapse_nil|]. apply from_nonempty in HF. lia.
  - destruct fs as [|f fs]; [now rewrite collapse_nil|]. destruct suf as [|a suf]; [simpl in HL; lia|].
    cbn [collapse]. destruct (Nat.eqb_spec f k) as [->|Hne].
    + destruct suf as [|b suf]; [simpl in HL; lia|]. cbn [cat merge_free].
      replace (k + i - i) with k by lia.
      assert (E : delete_at (S k) (set_at (pre ++ a :: b :: suf) k (at_ (pre ++ a :: b :: suf) k - at_ (pre ++ a :: b :: suf) (S k)))%Qc
                = (pre ++ [(a - b)%Qc]) ++ suf).
      { rewrite !at_app2 by lia. replace (k - length pre) with 0 by lia. replace (S k - length pre) with 1 by lia.
        cbn [at_ nth]. change (at_ (a :: b :: suf) 0) with a. change (at_ (a :: b :: suf) 1) with b.
        assert (F : forall v, set_at (pre ++ a :: b :: suf) k v = pre ++ v :: b :: suf).
        { intros v. rewrite <- Hp. clear. induction pre as [|y pre IH]; simpl; auto. now rewrite IH. }
        rewrite F. unfold delete_at. rewrite firstn_app, skipn_app.
        rewrite firstn_all2, skipn_all2 by lia. replace (S k - length pre) with 1 by lia.
        replace (S (S k) - length pre) with 2 by lia. reflexivity. }
      rewrite E, (IH suf (pre ++ [(a - b)%Qc]) (S i) (S k) fs).
      * now rewrite <- app_assoc.
      * simpl in HL. lia.
      * rewrite app_length. simpl. lia.
      * apply (from_tail k (S n) k fs HF eq_refl).
    + replace (pre ++ a :: suf) with ((pre ++ [a]) ++ suf) by now rewrite <- app_assoc.
      rewrite (IH suf (pre ++ [a]) i (S k) (f :: fs)).
      * now rewrite <- app_assoc.
      * simpl in *. lia.
      * rewrite app_length. simpl. lia.
      * apply (from_skip k (S n) f fs HF Hne).
Qed.
Lemma length_collapse n : forall x k fs, length x = n + length fs -> from k n fs -> length (collapse k fs x) = n.
Proof.
  induction n as [|n IH]; intros x k fs HL HF.
  - destruct fs as [|f fs]; [rewrite collapse_nil; simpl in HL; lia|]. apply from_nonempty in HF. lia.
  - destruct fs as [|f fs]; [rewrite collapse_nil; simpl in HL; lia|]. destruct x as [|a x]; [simpl in HL; lia|].
    cbn [collapse]. destruct (Nat.eqb_spec f k) as [->|Hne].
    + destruct x as [|b x]; [simpl in HL; lia|]. cbn [length]. f_equal. apply IH; [simpl in HL; lia|].
      apply (from_tail k (S n) k fs HF eq_refl).
    + cbn [length]. f_equal. apply IH; [simpl in *; lia|]. apply (from_skip k (S n) f fs HF Hne).
Qed.
Lemma inner_expand r : forall x k fs, length x = length r + length fs -> from k (length r) fs ->
  inner (expand k fs r) x = inner r (collapse k fs x).
Proof.
  induction r as [|a r IH]; intros x k fs HL HF.
  - reflexivity.
  - destruct fs as [|f fs]; [now rewrite collapse_nil|]. destruct x as [|b x]; [simpl in HL; lia|].
    cbn [expand collapse]. destruct (Nat.eqb_spec f k) as [->|Hne].
    + destruct x as [|b' x]; [simpl in HL; lia|]. cbn [inner]. rewrite IH; [ring|simpl in HL; lia|].
      apply (from_tail k (S (length r)) k fs HF eq_refl).
    + cbn [inner]. rewrite IH; [ring|simpl in *; lia|]. apply (from_skip k (S (length r)) f fs HF Hne).
Qed.
(** positions that are not free keep their sign *)
Lemma collapse_nonneg n : forall x k fs, length x = n + length fs -> from k n fs ->
  (forall v, In v x -> (0 <= v)%Qc) -> forall j, j < n -> ~ In (k + j) fs -> (0 <= at_ (collapse k fs x) j)%Qc.
Proof.
  induction n as [|n IH]; intros x k fs HL HF Hx j Hj Hn; [lia|].
  destruct fs as [|f fs].
  - rewrite collapse_nil. apply Hx, nth_In. simpl in HL. lia.
  - destruct x as [|a x]; [simpl in HL; lia|]. cbn [collapse]. destruct (Nat.eqb_spec f k) as [->|Hne].
    + destruct x as [|b x]; [simpl in HL; lia|]. destruct j as [|j]; [exfalso; apply Hn; left; lia|].
      unfold at_. cbn [nth]. apply (IH x (S k) fs); [simpl in HL; lia|apply (from_tail k (S n) k fs HF eq_refl)| |lia|].
      * intros v Hv. apply Hx. simpl; auto.
      * intros Hi. apply Hn. right. now replace (k + S j) with (S k + j) by lia.
    + destruct j as [|j]; [apply Hx; simpl; auto|]. unfold at_. cbn [nth].
      apply (IH x (S k) (f :: fs)); [simpl in *; lia|apply (from_skip k (S n) f fs HF Hne)| |lia|].
      * intros v Hv. apply Hx. simpl; auto.
      * intros Hi. apply Hn. now replace (k + S j) with (S k + j) by lia.
Qed.
(** a point of the split program above a given one *)
Fixpoint unmerge (k : nat) (fs : list nat) (x : list Qc) : list Qc :=
  match x with
  | [] => []
  | a :: x' =>
    match fs with
    | [] => x
    | f :: fs' => if Nat.eqb f k then qmax a 0 :: qmax (- a) 0 :: unmerge (S k) fs' x' else a :: unmerge (S k) fs x'
    end
  end.
Lemma qmax_0 a : (0 <= qmax a 0)%Qc.
Proof. unfold qmax. destruct (qle_spec a 0); qclra. Qed.
Lemma qmax_split a : (qmax a 0 - qmax (- a) 0)%Qc = a.
Proof. unfold qmax. destruct (qle_spec a 0), (qle_spec (- a) 0); qclra. Qed.
Lemma length_unmerge x : forall k fs, from k (length x) fs -> length (unmerge k fs x) = length x + length fs.
Proof.
  induction x as [|a r IH]; intros k fs HF.
  - destruct fs as [|f fs]; [reflexivity|]. apply from_nonempty in HF. simpl in HF. lia.
  - destruct fs as [|f fs]; [simpl; lia|]. cbn [unmerge]. destruct (Nat.eqb_spec f k) as [->|Hne]; cbn [length].
    + rewrite IH; [lia|]. apply (from_tail k (S (length r)) k fs HF eq_refl).
    + rewrite IH; [simpl; lia|]. apply (from_skip k (S (length r)) f fs HF Hne).
Qed.
Lemma collapse_unmerge x : forall k fs, from k (length x) fs -> collapse k fs (unmerge k fs x) = x.
Proof.
  induction x as [|a r IH]; intros k fs HF.
  - destruct fs as [|f fs]; [reflexivity|]. apply from_nonempty in HF. simpl in HF. lia.
  - destruct fs as [|f fs]; [reflexivity|]. cbn [unmerge]. destruct (Nat.eqb_spec f k) as [->|Hne].
    + cbn [collapse]. rewrite Nat.eqb_refl, qmax_split. f_equal. apply IH. apply (from_tail k (S (length r)) k fs HF eq_refl).
    + cbn [collapse]. destruct (Nat.eqb_spec f k); [contradiction|]. f_equal. apply IH. apply (from_skip k (S (length r)) f fs HF Hne).
Qed.
Lemma unmerge_nonneg x : forall k fs, (forall j, j < length x -> ~ In (k + j) fs -> (0 <= at_ x j)%Qc) ->
  from k (length x) fs -> forall v, In v (unmerge k fs x) -> (0 <= v)%Qc.
Proof.
  induction x as [|a r IH]; intros k fs H HF v Hv; [contradiction|].
  destruct fs as [|f fs].
  - apply (In_nth _ _ 0%Qc) in Hv. destruct Hv as (j & Hj & <-). apply H; auto.
  - cbn [unmerge] in Hv. destruct (Nat.eqb_spec f k) as [->|Hne].
    + destruct Hv as [<-|[<-|Hv]]; [apply qmax_0|apply qmax_0|].
      apply (IH (S k) fs); auto; [|apply (from_tail k (S (length r)) k fs HF eq_refl)].
      intros j Hj Hn. apply (H (S j)); [simpl; lia|]. intros [Hi|Hi]; [lia|]. apply Hn. now replace (S k + j) with (k + S j) by lia.
    + destruct Hv as [<-|Hv].
      * apply (H 0); [simpl; lia|]. rewrite Nat.add_0_r. intros [Hi|Hi]; [lia|].
        destruct HF as (H1 & H2). inversion H1 as [|? ? H3 H4]; subst. rewrite Forall_forall in H4. specialize (H4 k Hi).
        specialize (H2 f (or_introl eq_refl)). lia.
      * apply (IH (S k) (f :: fs)); auto; [|apply (from_skip k (S (length r)) f fs HF Hne)].
        intros j Hj Hn. apply (H (S j)); [simpl; lia|]. now replace (k + S j) with (S k + j) by lia.
Qed.

(** the entries of the merged point *)
Definition below (fs : list nat) (j : nat) : nat := length (filter (fun f => Nat.ltb f j) fs).
Lemma below_none fs j : (forall f, In f fs -> j <= f) -> below fs j = 0.
Proof.
  unfold below. induction fs as [|f fs IH]; intros H; [reflexivity|]. simpl.
  destruct (Nat.ltb_spec f j); [specialize (H f (or_introl eq_refl)); lia|]. apply IH. intros; apply H; simpl; auto.
Qed.
Lemma collapse_at n : forall x k fs j, length x = n + length fs -> from k n fs -> j < n ->
  at_ (collapse k fs x) j =
  if inb (k + j) fs then (at_ x (j + below fs (k + j)) - at_ x (S (j + below fs (k + j))))%Qc
  else at_ x (j + below fs (k + j)).
Proof.
  induction n as [|n IH]; intros x k fs j HL HF Hj; [lia|].
  destruct fs as [|f fs]; [rewrite collapse_nil; cbn; now rewrite Nat.add_0_r|].
  destruct x as [|a x]; [simpl in HL; lia|]. cbn [collapse]. destruct (Nat.eqb_spec f k) as [->|Hne].
  - destruct x as [|b x]; [simpl in HL; lia|].
    pose proof (from_tail k (S n) k fs HF eq_refl) as HT. cbn [pred] in HT.
    destruct j as [|j].
    + rewrite Nat.add_0_r. unfold inb. cbn [existsb]. rewrite Nat.eqb_refl. cbn [orb].
      rewrite below_none; [reflexivity|]. intros f [<-|Hf]; [lia|]. apply HT in Hf. lia.
    + unfold at_ at 1. cbn [nth]. specialize (IH x (S k) fs j). unfold at_ at 1 in IH. rewrite IH; [|simpl in HL; lia|auto|lia].
      unfold inb. cbn [existsb]. destruct (Nat.eqb_spec (k + S j) k); [lia|]. cbn [orb].
      replace (k + S j) with (S k + j) by lia. unfold below. cbn [filter]. destruct (Nat.ltb_spec k (S k + j)); [|lia].
      cbn [length]. rewrite !Nat.add_succ_l, !Nat.add_succ_r. reflexivity.
  - pose proof (from_skip k (S n) f fs HF Hne) as HT. cbn [pred] in HT.
    destruct j as [|j].
    + rewrite Nat.add_0_r. rewrite below_none by (intros g Hg; apply HT in Hg; lia).
      replace (inb k (f :: fs)) with false; [reflexivity|]. symmetry. apply inb_false. intros Hi. apply HT in Hi. lia.
    + unfold at_ at 1. cbn [nth]. specialize (IH x (S k) (f :: fs) j). unfold at_ at 1 in IH. rewrite IH; [|simpl in *; lia|auto|lia].
      replace (k + S j) with (S k + j) by lia. reflexivity.
Qed.

(** ** slacks *)
Definition slack_coeff (op : string) : Qc :=
  if String.eqb op ">=" then Qcopp 1%Qc else if String.eqb op "<=" then 1%Qc else 0%Qc.
Definition has (ineq : list (nat * string)) (i : nat) : bool := dmem Nat.eqb i ineq.
Definition op_at (ineq : list (nat * string)) (i : nat) : string :=
  match dget Nat.eqb i ineq with Some s => s | None => "=" end.
Definition slack_row (ineq : list (nat * string)) (ks : list nat) (r : nat) : list Qc :=
  map (fun k => if Nat.eqb r k then slack_coeff (op_at ineq k) else 0%Qc) ks.
Lemma nth_combine_map {A B} (f : nat * A -> B) (l : list A) d d' r : r < length l ->
  nth r (map f (combine (seq 0 (length l)) l)) d' = f (r, nth r l d).
Proof.
  intros H. rewrite (nth_indep _ _ (f (0, d))) by (rewrite map_length, combine_length, seq_length; lia).
  rewrite map_nth, combine_nth by now rewrite seq_length. now rewrite seq_nth.
Qed.
Lemma add_slacks_spec ineq is : forall A c, let '(A', c') := add_slacks is ineq A c in
  length A' = length A /\ c' = c ++ repeat 0%Qc (length (filter (has ineq) is)) /\
  (forall r, r < length A -> nth r A' [] = nth r A [] ++ slack_row ineq (filter (has ineq) is) r).
Proof.
  induction is as [|i is IH]; intros A c; cbn [add_slacks filter].
  - repeat split; auto. + now rewrite app_nil_r. + intros. unfold slack_row. simpl. now rewrite app_nil_r.
  - assert (Eh : has ineq i = match dget Nat.eqb i ineq with Some _ => true | None => false end) by reflexivity.
    destruct (dget Nat.eqb i ineq) as [op|] eqn:E; rewrite Eh; [|apply IH].
    fold (slack_coeff op).
    set (A1 := map _ _). set (c1 := c ++ [0%Qc]). specialize (IH A1 c1).
    destruct (add_slacks is ineq A1 c1) as [A' c']. destruct IH as (H1 & H2 & H3).
    assert (L : length A1 = length A) by (unfold A1; rewrite map_length, combine_length, seq_length; lia).
    repeat split.
    + lia.
    + rewrite H2. unfold c1. now rewrite <- app_assoc.
    + intros r Hr. rewrite H3 by lia. unfold A1. rewrite (nth_combine_map _ A []) by auto. cbn [fst snd].
      rewrite <- app_assoc. f_equal. cbn [slack_row map]. unfold op_at at 1. rewrite E. reflexivity.
Qed.
Lemma inner_slack_row ineq ks : forall r s, length s = length ks -> NoDup ks ->
  inner (slack_row ineq ks r) s =
  if inb r ks then (slack_coeff (op_at ineq r) * inner (map (fun k => if Nat.eqb r k then 1%Qc else 0%Qc) ks) s)%Qc else 0%Qc.
Proof.
  induction ks as [|k ks IH]; intros r s HL Hnd; [reflexivity|]. destruct s as [|v s]; [simpl in HL; lia|].
  inversion Hnd as [|? ? H1 H2]; subst. cbn [slack_row map inner]. fold (slack_row ineq ks r). rewrite IH by (simpl in HL; auto).
  unfold inb. cbn [existsb]. fold (inb r ks). destruct (Nat.eqb_spec r k) as [->|Hne]; cbn [orb].
  - apply inb_false in H1. rewrite H1.
    replace (inner (map (fun k0 => if Nat.eqb k k0 then 1%Qc else 0%Qc) ks) s) with 0%Qc; [ring|].
    apply inb_false in H1. clear - H1. revert s. induction ks as [|k' ks IH]; intros [|v s]; try reflexivity. cbn [map inner].
    destruct (Nat.eqb_spec k k') as [->|Hne]; [exfalso; apply H1; simpl; auto|].
    rewrite <- IH by (intros Hi; apply H1; simpl; auto). ring.
  - destruct (inb r ks); ring.
Qed.
(** the value of the slack of row [r] *)
Definition slack_value (ks : list nat) (s : list Qc) (r : nat) : Qc :=
  inner (map (fun k => if Nat.eqb r k then 1%Qc else 0%Qc) ks) s.
Lemma slack_value_nonneg ks s r : (forall v, In v s -> (0 <= v)%Qc) -> (0 <= slack_value ks s r)%Qc.
Proof.
  revert s. unfold slack_value. induction ks as [|k ks IH]; intros [|v s] H; cbn [map inner]; try apply Qcle_refl.
  assert (0 <= v)%Qc by (apply H; simpl; auto). assert (0 <= inner (map (fun k => if Nat.eqb r k then 1%Qc else 0%Qc) ks) s)%Qc.
  { apply IH. intros; apply H; simpl; auto. }
  destruct (Nat.eqb r k); qclra.
Qed.
Lemma slack_value_map ks g r : NoDup ks -> In r ks -> slack_value ks (map g ks) r = g r.
Proof.
  unfold slack_value. induction ks as [|k ks IH]; intros Hnd Hr; [contradiction|]. inversion Hnd as [|? ? H1 H2]; subst.
  cbn [map inner]. destruct (Nat.eqb_spec r k) as [->|Hne].
  - replace (inner (map (fun k0 => if Nat.eqb k k0 then 1%Qc else 0%Qc) ks) (map g ks)) with 0%Qc; [ring|].
    clear - H1. induction ks as [|k' ks IH]; [reflexivity|]. cbn [map inner].
    destruct (Nat.eqb_spec k k') as [->|Hne]; [exfalso; apply H1; simpl; auto|].
    rewrite <- IH by (intros Hi; apply H1; simpl; auto). ring.
  - destruct Hr as [->|Hr]; [contradiction|]. rewrite IH by auto. ring.
Qed.

(** ** the whole transformation *)
Section Sef.
  Variable p : lp.
  Hypothesis Hp : wf p.
  Hypothesis Hs : lsef p = false.
  Let n := cols p.
  Let m := rows p.
  Let ks := filter (has (lineq p)) (seq 0 m).
  Let nf := length (lfree p).
  Let sef := fst (to_sef p).
  Let negs (v : list Qc) := fold_left (fun r i => neg_at i r) (lneg p) v.
  Let c1 := if String.eqb (lobj p) "min" then vopp (lc p) else lc p.

  Lemma ks_NoDup : NoDup ks. Proof. apply NoDup_filter, seq_NoDup. Qed.
  Lemma ks_In i : In i ks <-> In i (dkeys (lineq p)).
  Proof.
    unfold ks. rewrite filter_In, in_seq. unfold has. rewrite (dmem_keys _ eqb_reflect). split; [tauto|]. intros H. split; auto.
    apply (dget_keys _ eqb_reflect) in H. destruct (dget Nat.eqb i (lineq p)) as [s|] eqn:E; [|congruence].
    apply (dget_In _ eqb_reflect) in E. apply (wf_ineq _ Hp) in E. unfold m. lia.
  Qed.
  Lemma ks_length : length ks = length (lineq p).
  Proof.
    unfold dkeys in *. rewrite <- (map_length fst (lineq p)). apply Permutation.Permutation_length.
    apply Permutation.NoDup_Permutation; [apply ks_NoDup|apply (wf_keys _ Hp)|]. apply ks_In.
  Qed.
  Lemma free_from : from 0 n (lfree p).
  Proof. split; [apply (wf_free _ Hp)|]. intros f Hf. apply (wf_free_lt _ Hp) in Hf. unfold n. lia. Qed.
  Lemma neg_nodup : NoDup (lneg p). Proof. apply strict_NoDup, (wf_neg _ Hp). Qed.
  Lemma length_c1 : length c1 = n.
  Proof. unfold c1, n, cols. destruct (String.eqb (lobj p) "min"); auto. apply length_vopp. Qed.

  Lemma sv_0 r : length r = n -> sv 0 (lfree p) r = expand 0 (lfree p) r.
  Proof. intros H. apply (sv_expand r [] 0 0); auto. rewrite H. apply free_from. Qed.

  Lemma to_sef_parts :
    lb sef = lb p /\ lz sef = lz p /\ lobj sef = "max" /\ lineq sef = [] /\ lsef sef = true /\ lfree sef = [] /\ lneg sef = [] /\
    snd (to_sef p) = Some (mkrev (length (lineq p)) (cat 0 (lfree p)) (lneg p)) /\
    length (lA sef) = m /\
    lc sef = expand 0 (lfree p) (negs c1) ++ repeat 0%Qc (length ks) /\
    (forall r, r < m -> nth r (lA sef) [] = expand 0 (lfree p) (negs (nth r (lA p) [])) ++ slack_row (lineq p) ks r).
  Proof.
    unfold sef, to_sef. rewrite Hs. cbv zeta. rewrite split_free_eq. cbn iota beta.
    set (A3 := map (sv 0 (lfree p)) _). set (c3 := sv 0 (lfree p) _).
    pose proof (add_slacks_spec (lineq p) (seq 0 (length (lb p))) A3 c3) as H.
    destruct (add_slacks (seq 0 (length (lb p))) (lineq p) A3 c3) as [A4 c4]. destruct H as (H1 & H2 & H3).
    cbn [fst snd lA lb lc lz lobj lineq lsef lfree lneg]. rewrite (wf_b _ Hp) in *. fold m in H2, H3. fold ks in H2, H3.
    assert (LA : length A3 = m) by (unfold A3; rewrite !map_length; reflexivity).
    repeat split; auto.
    - lia.
    - rewrite H2. f_equal. unfold c3. apply sv_0. rewrite <- length_c1. apply length_neg_all.
    - intros r Hr. rewrite H3 by lia. f_equal. unfold A3. rewrite map_map.
      rewrite (nth_indep _ _ ((fun r => sv 0 (lfree p) (fold_left (fun r i => neg_at i r) (lneg p) r)) [])) by (rewrite map_length; auto).
      rewrite (map_nth (fun r => sv 0 (lfree p) (fold_left (fun r i => neg_at i r) (lneg p) r))).
      apply sv_0. etransitivity; [apply length_neg_all|]. apply shaped_nth; auto. apply (wf_A _ Hp).
  Qed.
  Let parts := to_sef_parts.
  Lemma len_negs v : length (negs v) = length v. Proof. apply length_neg_all. Qed.
  Lemma len_part r : length r = n -> length (expand 0 (lfree p) (negs r)) = n + nf.
  Proof. intros H. rewrite length_expand; [now rewrite len_negs, H|]. rewrite len_negs, H. apply free_from. Qed.
  Lemma sef_cols : cols sef = n + nf + length ks.
  Proof.
    destruct parts as (_ & _ & _ & _ & _ & _ & _ & _ & _ & H & _). unfold cols at 1. rewrite H, app_length, repeat_length.
    rewrite len_part; auto. apply length_c1.
  Qed.
  Lemma length_slack_row r : length (slack_row (lineq p) ks r) = length ks. Proof. apply map_length. Qed.
  Lemma sef_wf : wf sef.
  Proof.
    pose proof sef_cols as HC. destruct parts as (H1 & H2 & H3 & H4 & H5 & H6 & H7 & _ & H8 & H9 & H10).
    constructor; rewrite ?H3, ?H4, ?H5, ?H6, ?H7; auto; try constructor; try contradiction.
    - rewrite H1, (wf_b _ Hp). unfold rows at 2. now rewrite H8.
    - apply Forall_forall. intros r Hr. apply (In_nth _ _ []) in Hr. destruct Hr as (i & Hi & <-). rewrite H8 in Hi.
      rewrite H10, app_length, length_slack_row, HC by auto. rewrite len_part; auto. apply shaped_nth; auto. apply (wf_A _ Hp).
  Qed.

  (** the point of the original program under a point of the SEF program *)
  Definition down (x : list Qc) : list Qc := from_sef (mkrev (length (lineq p)) (cat 0 (lfree p)) (lneg p)) x.
  Lemma down_split x1 x2 : length x1 = n + nf -> length x2 = length ks -> down (x1 ++ x2) = negs (collapse 0 (lfree p) x1).
  Proof.
    intros H1 H2. unfold down, from_sef. cbn [r_drop r_concat r_negative].
    assert (E : (if Nat.ltb 0 (length (lineq p)) then firstn (length (x1 ++ x2) - length (lineq p)) (x1 ++ x2) else x1 ++ x2) = x1).
    { rewrite <- ks_length. destruct (Nat.ltb_spec 0 (length ks)).
      - rewrite app_length. replace (length x1 + length x2 - length ks) with (length x1) by lia.
        rewrite firstn_app, Nat.sub_diag, firstn_all. simpl. apply app_nil_r.
      - destruct x2; [apply app_nil_r|simpl in H2; lia]. }
    rewrite E. unfold negs. f_equal. apply (merge_collapse n x1 [] 0 0); auto. apply free_from.
  Qed.
  Lemma split_point (x : list Qc) : length x = cols sef -> exists x1 x2, x = (x1 ++ x2)%list /\ length x1 = n + nf /\ length x2 = length ks.
  Proof.
    rewrite sef_cols. intros H. exists (firstn (n + nf) x), (skipn (n + nf) x).
    split; [now rewrite firstn_skipn|]. rewrite firstn_length, skipn_length. lia.
  Qed.
  Lemma part_inner r x1 : length r = n -> length x1 = n + nf ->
    inner (expand 0 (lfree p) (negs r)) x1 = inner r (negs (collapse 0 (lfree p) x1)).
  Proof.
    intros H1 H2. rewrite inner_expand.
    - unfold negs. apply inner_neg_all; [|apply neg_nodup]. rewrite (length_collapse n); auto. apply free_from.
    - now rewrite len_negs, H1.
    - rewrite len_negs, H1. apply free_from.
  Qed.
  Lemma row_inner r x1 x2 : r < m -> length x1 = n + nf -> length x2 = length ks ->
    inner (nth r (lA sef) []) (x1 ++ x2) =
    (inner (nth r (lA p) []) (down (x1 ++ x2)) +
     (if inb r ks then slack_coeff (op_at (lineq p) r) * slack_value ks x2 r else 0))%Qc.
  Proof.
    intros Hr H1 H2. destruct parts as (_ & _ & _ & _ & _ & _ & _ & _ & _ & _ & H). rewrite H by auto.
    assert (L : length (nth r (lA p) []) = n) by (apply shaped_nth; auto; apply (wf_A _ Hp)).
    rewrite inner_app by (rewrite len_part; auto). rewrite part_inner, down_split by auto.
    rewrite inner_slack_row by (auto; apply ks_NoDup). reflexivity.
  Qed.
  Lemma cost_inner x1 x2 : length x1 = n + nf -> length x2 = length ks ->
    inner (lc sef) (x1 ++ x2) = inner c1 (down (x1 ++ x2)).
  Proof.
    intros H1 H2. destruct parts as (_ & _ & _ & _ & _ & _ & _ & _ & _ & H & _). rewrite H.
    rewrite inner_app by (rewrite len_part; auto; apply length_c1). rewrite part_inner by (auto; apply length_c1).
    rewrite inner_zero_l, down_split by auto. ring.
  Qed.

  Lemma sef_sgn_ok y : (forall j, j < n -> signed (sgn p j) (at_ (negs y) j)) <->
    (forall j, j < n -> ~ In j (lfree p) -> (0 <= at_ y j)%Qc).
  Proof.
    split; intros H j Hj.
    - intros Hf. specialize (H j Hj). unfold sgn in H. apply inb_false in Hf. rewrite Hf in H. unfold negs in H.
      rewrite at_neg_all in H by apply neg_nodup. destruct (inb j (lneg p)); cbn [signed] in H; auto. qclra.
    - unfold sgn. destruct (inb j (lfree p)) eqn:E; [exact I|]. apply inb_false in E. specialize (H j Hj E).
      unfold negs. rewrite at_neg_all by apply neg_nodup. destruct (inb j (lneg p)); cbn [signed]; auto. qclra.
  Qed.

  Lemma rel_slack r : r < m ->
    (inb r ks = false /\ rel p r = Equal) \/
    (inb r ks = true /\ slack_coeff (op_at (lineq p) r) = 1%Qc /\ rel p r = AtMost) \/
    (inb r ks = true /\ slack_coeff (op_at (lineq p) r) = Qcopp 1%Qc /\ rel p r = AtLeast).
  Proof.
    intros Hr. unfold rel, op_at. destruct (inb r ks) eqn:E.
    - right. apply inb_In, ks_In in E. apply (dget_keys _ eqb_reflect) in E.
      destruct (dget Nat.eqb r (lineq p)) as [s|] eqn:E2; [|congruence]. apply (dget_In _ eqb_reflect) in E2.
      apply (wf_ineq _ Hp) in E2. destruct E2 as (_ & [->| ->]); [left|right]; repeat split.
    - left. split; auto. apply inb_false in E. rewrite ks_In in E. apply (dget_None _ eqb_reflect) in E. now rewrite E.
  Qed.

  Lemma down_feasible x : feasible (meaning sef) x -> feasible (meaning p) (down x).
  Proof.
    rewrite (feas_iff p) by auto. rewrite (sfeas_iff sef) by (try apply sef_wf; apply parts).
    intros (H1 & H2 & H3). destruct (split_point x H1) as (x1 & x2 & -> & L1 & L2).
    assert (HS : forall v, In v (x1 ++ x2) -> (0 <= v)%Qc).
    { intros v Hv. apply (In_nth _ _ 0%Qc) in Hv. destruct Hv as (j & Hj & <-). apply H3. now rewrite <- H1. }
    assert (HR : rows sef = m) by (unfold rows; apply parts).
    split; [|split].
    - rewrite down_split, len_negs by auto. apply length_collapse; auto. apply free_from.
    - intros r Hr. specialize (H2 r). rewrite HR in H2. specialize (H2 Hr).
      rewrite <- inner_row in H2 by (try apply (wf_A _ sef_wf); rewrite ?(proj1 (proj2 (proj2 (proj2 (proj2 (proj2 (proj2 (proj2 (proj2 parts)))))))));  auto).
      rewrite <- inner_row by (try apply (wf_A _ Hp); auto).
      rewrite row_inner in H2 by auto. destruct parts as (Eb & _). rewrite Eb in H2.
      pose proof (slack_value_nonneg ks x2 r (fun v Hv => HS v (in_or_app _ _ _ (or_intror Hv)))) as HN.
      destruct (rel_slack r Hr) as [(E1 & E2)|[(E1 & E2 & E3)|(E1 & E2 & E3)]]; rewrite E1 in H2.
      + rewrite E2. cbn [related]. rewrite <- H2. ring.
      + rewrite E3. rewrite E2 in H2. cbn [related]. qclra.
      + rewrite E3. rewrite E2 in H2. cbn [related]. qclra.
    - rewrite down_split by auto. apply sef_sgn_ok. intros j Hj Hf.
      apply (collapse_nonneg n); auto; [apply free_from|]. intros v Hv. apply HS, in_or_app. auto.
  Qed.

  Lemma down_value x : length x = cols sef ->
    value (meaning sef) x = if String.eqb (lobj p) "min" then (lz p + lz p - value (meaning p) (down x))%Qc else value (meaning p) (down x).
  Proof.
    intros H. destruct (split_point x H) as (x1 & x2 & -> & L1 & L2). unfold value.
    change (costs (meaning sef)) with (lc sef). change (costs (meaning p)) with (lc p).
    change (constant (meaning sef)) with (lz sef). change (constant (meaning p)) with (lz p).
    rewrite cost_inner by auto. destruct parts as (_ & Ez & _). rewrite Ez. unfold c1.
    generalize (String.eqb (lobj p) "min"). intros []; auto. rewrite inner_opp_l. ring.
  Qed.

  (** a point of the SEF program over [y]: free variables split, slacks made to fit *)
  Definition up (y : list Qc) : list Qc :=
    unmerge 0 (lfree p) (negs y) ++ map (fun r => qabs (at_ (lb p) r - inner (nth r (lA p) []) y)%Qc) ks.
  Lemma up_ok y : feasible (meaning p) y -> feasible (meaning sef) (up y) /\ down (up y) = y.
  Proof.
    unfold up.
    rewrite (feas_iff p) by auto. intros (H1 & H2 & H3).
    set (y' := negs y). assert (Ly : length y' = n) by (unfold y'; now rewrite len_negs).
    assert (Ey : negs y' = y) by (apply neg_all_twice, neg_nodup).
    set (x1 := unmerge 0 (lfree p) y').
    assert (L1 : length x1 = n + nf) by (unfold x1; rewrite length_unmerge; rewrite Ly; auto; apply free_from).
    set (g := fun r => qabs (at_ (lb p) r - inner (nth r (lA p) []) y)%Qc).
    set (x2 := map g ks). assert (L2 : length x2 = length ks) by apply map_length.
    assert (Hd : down (x1 ++ x2) = y).
    { rewrite down_split by auto. unfold x1. rewrite collapse_unmerge; auto. rewrite Ly. apply free_from. }
    fold y' x1 g x2. split; auto. rewrite (sfeas_iff sef) by (try apply sef_wf; apply parts).
    assert (HR : rows sef = m) by (unfold rows; apply parts).
    split; [|split].
    - rewrite app_length, sef_cols. lia.
    - rewrite HR. intros r Hr.
      rewrite <- inner_row by (try apply (wf_A _ sef_wf); rewrite ?(proj1 (proj2 (proj2 (proj2 (proj2 (proj2 (proj2 (proj2 (proj2 parts))))))))); auto).
      rewrite row_inner by auto. rewrite Hd. destruct parts as (Eb & _). rewrite Eb.
      specialize (H2 r Hr). rewrite <- inner_row in H2 by (try apply (wf_A _ Hp); auto).
      destruct (rel_slack r Hr) as [(E1 & E2)|[(E1 & E2 & E3)|(E1 & E2 & E3)]]; rewrite E1.
      + rewrite E2 in H2. cbn [related] in H2. rewrite H2. ring.
      + rewrite E3 in H2. cbn [related] in H2. rewrite E2. unfold x2. rewrite slack_value_map; [|apply ks_NoDup|now apply inb_In].
        unfold g, qabs. destruct (qlt_spec (at_ (lb p) r - inner (nth r (lA p) []) y) 0); qclra.
      + rewrite E3 in H2. cbn [related] in H2. rewrite E2. unfold x2. rewrite slack_value_map; [|apply ks_NoDup|now apply inb_In].
        unfold g, qabs. destruct (qlt_spec (at_ (lb p) r - inner (nth r (lA p) []) y) 0); qclra.
    - assert (HS : forall v, In v (x1 ++ x2) -> (0 <= v)%Qc).
      { intros v Hv. apply in_app_or in Hv. destruct Hv as [Hv|Hv].
        - unfold x1 in Hv. revert v Hv. apply unmerge_nonneg; [|rewrite Ly; apply free_from]. rewrite Ly. intros j Hj. simpl.
          revert j Hj. apply sef_sgn_ok. rewrite Ey. auto.
        - unfold x2 in Hv. apply in_map_iff in Hv. destruct Hv as (r & <- & _). apply qabs_nonneg. }
      intros j Hj. apply HS, nth_In. rewrite app_length, L1, L2. rewrite sef_cols in Hj. lia.
  Qed.
  Lemma up_feasible y : feasible (meaning p) y -> exists x, feasible (meaning sef) x /\ down x = y.
  Proof. intros Hy. exists (up y). now apply up_ok. Qed.

  (** entry [j] of the original point *)
  Lemma down_at x j : length x = cols sef -> j < n ->
    let k := j + below (lfree p) j in
    at_ (down x) j = if inb j (lfree p) then (at_ x k - at_ x (S k))%Qc else if inb j (lneg p) then (- at_ x k)%Qc else at_ x k.
  Proof.
    intros H Hj k. destruct (split_point x H) as (x1 & x2 & -> & L1 & L2). rewrite down_split by auto.
    unfold negs. rewrite at_neg_all by apply neg_nodup. rewrite (collapse_at n) by (auto; apply free_from). cbn [Nat.add].
    fold k. assert (HB : below (lfree p) j <= nf).
    { unfold below, nf. clear. induction (lfree p) as [|f l IH]; simpl; [lia|]. destruct (Nat.ltb f j); simpl; lia. }
    destruct (inb j (lfree p)) eqn:E.
    - assert (HB' : below (lfree p) j < nf).
      { apply inb_In in E. clear - E. unfold below, nf. induction (lfree p) as [|f l IH]; simpl in *; [contradiction|].
        assert (length (filter (fun f => Nat.ltb f j) l) <= length l) by (clear; induction l as [|g l IH]; simpl; [lia|]; destruct (Nat.ltb g j); simpl; lia).
        destruct E as [->|E]; [rewrite Nat.ltb_irrefl; lia|]. specialize (IH E). destruct (Nat.ltb f j); simpl; lia. }
      rewrite !at_app1 by (unfold k; lia).
      replace (inb j (lneg p)) with false; [reflexivity|]. symmetry. apply inb_false. intros Hn. apply inb_In in E. now apply (wf_disj _ Hp j).
    - rewrite at_app1 by (unfold k; lia). reflexivity.
  Qed.
End Sef.
