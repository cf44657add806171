(** C28, C29, C36-C40, C43, C45: construction, standard equality form, duals, certificates,
    feasibility, in-place changes. *)
From Coq Require Import String List Bool Arith ZArith QArith Qcanon Lia Sorted.
From Verif Require Import Py QcTac QSum QInt ComparatorModel MatModel DetTheory MatTheory LinearModel LinearSpec LinearProofs SefProofs LinearInv DualProofs.
Import ListNotations.
Open Scope nat_scope.
Open Scope string_scope.
Open Scope list_scope.

Definition vec (l : list Z) : source := Nd (Vec (map qz l)).
Definition mat (n : nat) (l : list (list Z)) : source := Nd (Mat n (map (map qz) l)).

(** * C28 *)

(** what the documentation of the constructor asks of its arguments *)
Definition indices_ok (n : nat) (l : list Z) : Prop := NoDup l /\ forall i, In i l -> (1 <= i <= Z.of_nat n)%Z.
Definition arguments_ok (A : list (list Qc)) (n : nat) (b c : list Qc) (objective : string)
    (ineq : option (list string)) (free neg : option (list Z)) : Prop :=
  length b = length A /\ length c = n /\
  (objective = "max" \/ objective = "min") /\
  match ineq with
  | None => True
  | Some l => length l = length A /\ forall s, In s l -> s = "=" \/ s = "<=" \/ s = ">="
  end /\
  indices_ok n (opt_list free) /\ indices_ok n (opt_list neg) /\
  forall i, In i (opt_list free) -> ~ In i (opt_list neg).

Lemma read_ok l : forall i, (exists d, read_inequalities i l = Ok d) <-> forall s, In s l -> s = "=" \/ s = "<=" \/ s = ">=".
Proof.
  induction l as [|s l IH]; intros i; simpl.
  - split; [contradiction|]. intros _. now exists [].
  - specialize (IH (S i)). split.
    + intros (d & H) t [<-|Ht].
      * destruct (String.eqb_spec s ">="); auto. destruct (String.eqb_spec s "<="); auto. cbn [orb] in H.
        destruct (String.eqb_spec s "="); auto. discriminate.
      * apply IH; auto. destruct (String.eqb s ">=" || String.eqb s "<=").
        -- destruct (read_inequalities (S i) l) as [d'| |]; try discriminate. now exists d'.
        -- destruct (String.eqb s "="); [|discriminate]. now exists d.
    + intros H. destruct (proj2 IH) as (d & E); [auto|]. rewrite E.
      destruct (H s (or_introl eq_refl)) as [->|[->| ->]]; cbn; eexists; reflexivity.
Qed.
Lemma read_error l : forall i, (exists d, read_inequalities i l = Ok d) \/ read_inequalities i l = Raise ValueError.
Proof.
  induction l as [|s l IH]; intros i; simpl; [left; now exists []|].
  destruct (String.eqb s ">=" || String.eqb s "<="); [|destruct (String.eqb s "="); [apply IH|auto]].
  destruct (IH (S i)) as [(d & ->)| ->]; cbn; [left; eexists; reflexivity|auto].
Qed.

(** lists of numbers and of equally long rows of numbers are read entry by entry *)
Theorem C28_reads_arrays :
  (forall a, to_ndarray (Nd a) = Ok a) /\
  (forall v, to_ndarray (PyList (map INum v)) = Ok (Vec v)) /\
  (forall n r M, Forall (fun row => length row = n) (r :: M) ->
     to_ndarray (PyList (map (fun row => IRow (map CNum row)) (r :: M))) = Ok (Mat n (r :: M))) /\
  (forall r1 r2 M, length r1 <> length r2 ->
     to_ndarray (PyList (IRow r1 :: IRow r2 :: M)) = Raise ValueError) /\
  to_ndarray SOther = Raise ValueError.
Proof.
  split; [reflexivity|]. split.
  - intros v. unfold to_ndarray. assert (E : items_vec (map INum v) = Some v); [|now rewrite E].
    induction v as [|x v IH]; [reflexivity|]. cbn [map items_vec]. now rewrite IH.
  - split; [|split; [|reflexivity]].
    + intros n r M H. unfold to_ndarray. cbn [map items_vec].
      assert (E : forall rows, Forall (fun row => length row = n) rows -> items_mat n (map (fun row => IRow (map CNum row)) rows) = Some rows).
      { induction 1 as [|row rows Hr Hrows IH]; [reflexivity|]. cbn [map items_mat]. rewrite map_length, Hr, Nat.eqb_refl, IH.
        assert (N : all_num (map CNum row) = Some row); [|now rewrite N].
        clear. induction row as [|x row IH]; [reflexivity|]. cbn [map all_num]. now rewrite IH. }
      assert (Hr : length (map CNum r) = n) by (rewrite map_length; now inversion H).
      rewrite Hr. specialize (E (r :: M) H). cbn [map] in E. now rewrite E.
    + intros r1 r2 M H. unfold to_ndarray. cbn [items_vec items_mat]. rewrite Nat.eqb_refl.
      destruct (Nat.eqb_spec (length r2) (length r1)); [congruence|]. destruct (all_num r1); reflexivity.
Qed.
Print Assumptions C28_reads_arrays.

Theorem C28_accepts_exactly n MA vb vc A b c z objective ineq free neg :
  to_ndarray A = Ok (Mat n MA) -> to_ndarray b = Ok (Vec vb) -> to_ndarray c = Ok (Vec vc) ->
  (arguments_ok MA n vb vc objective ineq free neg ->
     exists p, linear_program A b c z objective ineq free neg = Ok p) /\
  (~ arguments_ok MA n vb vc objective ineq free neg ->
     linear_program A b c z objective ineq free neg = Raise ValueError).
Proof.
  intros EA Eb Ec. assert (D : (exists p, linear_program A b c z objective ineq free neg = Ok p) \/
    linear_program A b c z objective ineq free neg = Raise ValueError).
  { unfold linear_program, bind. rewrite EA, Eb, Ec.
    destruct (_ || _); auto. destruct (negb _); auto. destruct (negb _); auto. destruct (existsb _ _); auto.
    destruct ineq as [l|].
    - destruct (Nat.eqb (length l) (length vb)); auto. destruct (read_error l 0) as [(d & ->)| ->]; auto.
      destruct (_ || _); eauto.
    - destruct (_ || _); eauto. }
  assert (K : (exists p, linear_program A b c z objective ineq free neg = Ok p) <-> arguments_ok MA n vb vc objective ineq free neg).
  { split.
    - intros (p & H). apply linear_program_spec in H.
      destruct H as (n' & MA' & vb' & vc' & d & H1 & H2 & H3 & H4 & H5 & H6 & H7 & H8 & H9 & H10 & _).
      rewrite EA in H1. rewrite Eb in H2. rewrite Ec in H3. injection H1 as <- <-. injection H2 as <-. injection H3 as <-.
      apply check_indices_spec in H6, H7. split; [auto|]. split; [auto|]. split; [tauto|]. split.
      { destruct ineq as [l|]; auto. destruct H9 as (L & R). split; [lia|]. apply (read_ok l 0). now exists d. }
      split; [exact H6|]. split; [exact H7|]. intros i Hi Hn. now apply (H8 i).
    - intros (H1 & H2 & H3 & H4 & H5 & H6 & H7). unfold linear_program, bind. rewrite EA, Eb, Ec, H1, H2, !Nat.eqb_refl. cbn [negb orb].
      apply check_indices_spec in H5, H6. rewrite H5, H6. cbn [negb].
      replace (existsb _ (opt_list free)) with false.
      + destruct ineq as [l|].
        * destruct H4 as (L & Hl). rewrite L, Nat.eqb_refl. destruct (proj2 (read_ok l 0) Hl) as (d & ->).
          destruct H3 as [->| ->]; cbn; eauto.
        * destruct H3 as [->| ->]; cbn; eauto.
      + symmetry. destruct (existsb _ (opt_list free)) eqn:E; auto. apply existsb_exists in E. destruct E as (i & Hi & E).
        apply existsb_exists in E. destruct E as (i' & Hi' & E). apply Z.eqb_eq in E. subst. exfalso. now apply (H7 i'). }
  split; [apply K|]. intros H. destruct D as [D|D]; auto. exfalso. apply H, K, D.
Qed.
Print Assumptions C28_accepts_exactly.

(** arguments that are not a matrix and two vectors are refused *)
Theorem C28_wrong_dimension A b c z objective ineq free neg p :
  linear_program A b c z objective ineq free neg = Ok p ->
  exists n MA vb vc, to_ndarray A = Ok (Mat n MA) /\ to_ndarray b = Ok (Vec vb) /\ to_ndarray c = Ok (Vec vc).
Proof.
  intros H. apply linear_program_spec in H. destruct H as (n & MA & vb & vc & d & H1 & H2 & H3 & _).
  exists n, MA, vb, vc. auto.
Qed.
Print Assumptions C28_wrong_dimension.

Theorem C28_reads_back n MA vb vc A b c z objective ineq free neg p :
  to_ndarray A = Ok (Mat n MA) -> to_ndarray b = Ok (Vec vb) -> to_ndarray c = Ok (Vec vc) ->
  linear_program A b c z objective ineq free neg = Ok p ->
  lA p = MA /\ lb p = vb /\ lc p = vc /\ lz p = z /\ lobj p = objective /\
  inequalities p = match ineq with Some l => l | None => repeat "=" (length MA) end /\
  (StronglySorted Z.lt (free_variables p) /\ forall i, In i (free_variables p) <-> In i (opt_list free)) /\
  (StronglySorted Z.lt (negative_variables p) /\ forall i, In i (negative_variables p) <-> In i (opt_list neg)) /\
  (forall i, In i (positive_variables p) <->
     (1 <= i <= Z.of_nat n)%Z /\ ~ In i (opt_list free) /\ ~ In i (opt_list neg)) /\
  (lsef p = true <-> objective = "max" /\ (forall s, In s (inequalities p) -> s = "=") /\
                     opt_list free = [] /\ opt_list neg = []).
Proof.
  intros EA Eb Ec H. apply linear_program_spec in H.
  destruct H as (n' & MA' & vb' & vc' & d & H1 & H2 & H3 & H4 & H5 & H6 & H7 & H8 & H9 & H10 & Hp).
  rewrite EA in H1. rewrite Eb in H2. rewrite Ec in H3. injection H1 as <- <-. injection H2 as <-. injection H3 as <-.
  apply check_indices_spec in H6, H7. destruct H6 as (F1 & F2), H7 as (G1 & G2).
  assert (HI : inequalities p = match ineq with Some l => l | None => repeat "=" (length MA) end).
  { unfold inequalities. rewrite Hp. cbn [lineq lb]. destruct ineq as [l|].
    - destruct H9 as (L & R). apply read_inequalities_spec in R. destruct R as (_ & _ & R).
      apply (nth_ext _ _ "=" "="); [rewrite map_length, seq_length; lia|]. rewrite map_length, seq_length. intros i Hi.
      rewrite nth_map_seq by auto. rewrite R by lia. reflexivity.
    - subst d. rewrite <- H4. cbn [dget]. clear. induction (length vb) as [|k IH]; [reflexivity|].
      rewrite seq_S, map_app, IH. cbn. now rewrite <- repeat_cons. }
  assert (HS : forall l, NoDup l -> (forall i, In i l -> (1 <= i <= Z.of_nat n)%Z) ->
    StronglySorted Z.lt (to_math_indexing (sort (to_array_indexing l))) /\
    forall i, In i (to_math_indexing (sort (to_array_indexing l))) <-> In i l).
  { intros l Hnd Hr. split.
    - assert (S1 : StronglySorted lt (sort (to_array_indexing l))).
      { apply sort_strict, array_indexing_NoDup; auto. intros i Hi. apply Hr in Hi. lia. }
      clear - S1. induction S1 as [|x l' H IH Hx]; cbn; constructor; auto.
      apply Forall_forall. intros y Hy. apply in_map_iff in Hy. destruct Hy as (k & <- & Hk).
      rewrite Forall_forall in Hx. specialize (Hx k Hk). lia.
    - intros i. unfold to_math_indexing, to_array_indexing. rewrite in_map_iff. split.
      + intros (k & <- & Hk). apply In_sort, in_map_iff in Hk. destruct Hk as (i' & <- & Hi'). pose proof (Hr i' Hi').
        replace (Z.of_nat (S (Z.to_nat (i' - 1)))) with i' by lia. auto.
      + intros Hi. exists (Z.to_nat (i - 1)). pose proof (Hr i Hi). split; [lia|]. apply In_sort, in_map_iff. now exists i. }
  assert (HE : forall l, sort (to_array_indexing l) = [] <-> l = []).
  { intros l. split; intros E; [|now subst]. destruct l as [|x l]; auto. exfalso.
    assert (L : length (sort (to_array_indexing (x :: l))) = 0) by now rewrite E.
    rewrite length_sort, length_array_indexing in L. discriminate. }
  pose proof (HS _ F1 F2) as HF. pose proof (HS _ G1 G2) as HG.
  rewrite Hp. cbn [lA lb lc lz lobj]. rewrite <- Hp.
  split; [auto|]. split; [auto|]. split; [auto|]. split; [auto|]. split; [auto|]. split; [exact HI|].
  assert (Elf : lfree p = sort (to_array_indexing (opt_list free))) by (rewrite Hp; reflexivity).
  assert (Eln : lneg p = sort (to_array_indexing (opt_list neg))) by (rewrite Hp; reflexivity).
  unfold free_variables, negative_variables. rewrite Elf, Eln.
  split; [exact HF|]. split; [exact HG|]. split.
  - intros i. unfold positive_variables, to_math_indexing. rewrite in_map_iff.
    rewrite Elf, Eln. unfold cols. rewrite Hp. cbn [lc]. rewrite H5. split.
    + intros (k & <- & Hk). apply filter_In in Hk. destruct Hk as (Hk & E). apply in_seq in Hk.
      apply andb_true_iff in E. rewrite !negb_true_iff, !inb_false in E. destruct E as (E1 & E2).
      split; [lia|]. split; intros Hi.
      * apply E2, In_sort, in_map_iff. exists (Z.of_nat (S k)). split; [lia|auto].
      * apply E1, In_sort, in_map_iff. exists (Z.of_nat (S k)). split; [lia|auto].
    + intros (Hr & Hf & Hn). exists (Z.to_nat (i - 1)). split; [lia|]. apply filter_In. split; [apply in_seq; lia|].
      apply andb_true_iff. rewrite !negb_true_iff, !inb_false. split; intros Hi; apply In_sort, in_map_iff in Hi; destruct Hi as (i' & E & Hi').
      * apply Hn. apply G2 in Hi' as Q. replace i with i' by lia. auto.
      * apply Hf. apply F2 in Hi' as Q. replace i with i' by lia. auto.
  - rewrite Hp at 1. cbn [lsef]. rewrite sef_of_true, !HE. split.
    + intros (-> & Ef & En & ->). repeat split; auto. intros s Hs. unfold inequalities in Hs. rewrite Hp in Hs. cbn in Hs.
      apply in_map_iff in Hs. destruct Hs as (i & <- & _). reflexivity.
    + intros (-> & Hall & Ef & En). repeat split; auto. destruct d as [|(k & s) d]; auto. exfalso.
      destruct ineq as [l|]; [|discriminate]. destruct H9 as (L & R). apply read_inequalities_spec in R.
      destruct R as (R1 & R2 & R3). destruct (R2 k s (or_introl eq_refl)) as (Hk & Hs).
      assert (In s (inequalities p)).
      { unfold inequalities. rewrite Hp. cbn [lb lineq]. apply in_map_iff. exists k. split; [cbn [dget]; now rewrite Nat.eqb_refl|].
        apply in_seq. lia. }
      apply Hall in H. subst s. destruct Hs; discriminate.
Qed.
Print Assumptions C28_reads_back.

(** a program with every kind of row and variable *)
Definition sample : res lp :=
  linear_program (mat 3 [[1; 2; 0]; [0; 1; 1]; [1; 0; 3]]%Z) (vec [4; -2; 3]%Z) (vec [1; -1; 2]%Z) (qz 5) "min"
    (Some ["<="; "="; ">="]) (Some [3%Z]) (Some [2%Z]).
Example C28_nontrivial : exists p, sample = Ok p /\ free_variables p = [3%Z] /\ negative_variables p = [2%Z] /\
  positive_variables p = [1%Z] /\ inequalities p = ["<="; "="; ">="] /\ lsef p = false.
Proof. eexists. repeat split. Qed.
Lemma sample_reachable p : sample = Ok p -> reachable p.
Proof. intros H. apply (r_new _ _ _ _ _ _ _ _ p) in H; auto. repeat constructor. Qed.

(** * C29 *)

(** The way back from the standard equality form, in words: forget the slacks (one for each
    inequality, at the end), replace each pair of columns that came from a free variable by its
    difference, and negate the variables that were nonpositive.  [down p] is that map
    (SefProofs.down; the steps are those of [solve], lines 941-951). *)
Theorem C29_to_sef p : reachable p -> lsef p = false ->
  let sef := fst (to_sef p) in
  (lobj sef = "max" /\ inequalities sef = repeat "=" (rows p) /\ free_variables sef = [] /\ negative_variables sef = []) /\
  (forall x, feasible (meaning sef) x -> feasible (meaning p) (down p x)) /\
  (forall y, feasible (meaning p) y -> exists x, feasible (meaning sef) x /\ down p x = y) /\
  (forall x, feasible (meaning sef) x ->
     inner (lc sef) x = if String.eqb (lobj p) "max" then inner (lc p) (down p x) else (- inner (lc p) (down p x))%Qc) /\
  (forall x, optimal (meaning sef) x -> optimal (meaning p) (down p x)) /\
  (forall y, optimal (meaning p) y -> exists x, optimal (meaning sef) x /\ down p x = y) /\
  (infeasible (meaning sef) <-> infeasible (meaning p)) /\
  (unbounded (meaning sef) <-> unbounded (meaning p)).
Proof.
  intros Hr Hs sef. pose proof (reachable_wf p Hr) as H. pose proof (to_sef_parts p H Hs) as HP. fold sef in HP.
  destruct HP as (P1 & P2 & P3 & P4 & P5 & P6 & P7 & P8 & P9 & _).
  pose proof (sef_wf p H Hs) as Hsw. fold sef in Hsw.
  pose proof (down_feasible p H Hs) as HD. pose proof (up_feasible p H Hs) as HU. fold sef in HD, HU.
  assert (HV : forall x, feasible (meaning sef) x -> value (meaning sef) x =
    if String.eqb (lobj p) "min" then (lz p + lz p - value (meaning p) (down p x))%Qc else value (meaning p) (down p x)).
  { intros x (L & _). apply (down_value p H Hs). exact L. }
  assert (Hmx : maximise (meaning sef) = true) by (apply max_sef; auto).
  assert (Hobj : String.eqb (lobj p) "min" = negb (maximise (meaning p)) /\ maximise (meaning p) = String.eqb (lobj p) "max").
  { unfold meaning. cbn. destruct (wf_obj _ H) as [->| ->]; auto. }
  destruct Hobj as (HO1 & HO2).
  split.
  { split; [auto|]. split.
    - unfold inequalities. rewrite P1, P4, (wf_b _ H). cbn [dget]. clear. induction (rows p) as [|k IH]; [reflexivity|].
      rewrite seq_S, map_app, IH. cbn. now rewrite <- repeat_cons.
    - unfold free_variables, negative_variables. rewrite P6, P7. auto. }
  split; [exact HD|]. split; [exact HU|]. split.
  { intros x Hx. specialize (HV x Hx). unfold value in HV. change (constant (meaning sef)) with (lz sef) in HV.
    change (constant (meaning p)) with (lz p) in HV. rewrite P2, HO1, HO2 in HV.
    change (costs (meaning sef)) with (lc sef) in HV. change (costs (meaning p)) with (lc p) in HV.
    destruct (String.eqb (lobj p) "max"); cbn [negb] in HV; qclra. }
  assert (HC : forall x1 x2, feasible (meaning sef) x1 -> feasible (meaning sef) x2 ->
     (as_good (meaning sef) (value (meaning sef) x1) (value (meaning sef) x2) <->
      as_good (meaning p) (value (meaning p) (down p x1)) (value (meaning p) (down p x2)))).
  { intros x1 x2 H1 H2. rewrite (HV x1 H1), (HV x2 H2). unfold as_good. rewrite Hmx, HO1.
    destruct (maximise (meaning p)); cbn [negb]; [tauto|]. split; intros; qclra. }
  split; [|split; [|split]].
  - intros x (Hx & Ho). split; auto. intros y Hy. destruct (HU y Hy) as (x' & Hx' & <-). apply HC; auto.
  - intros y (Hy & Ho). destruct (HU y Hy) as (x & Hx & <-). exists x. split; auto. split; auto. intros x' Hx'. apply HC; auto.
  - split; intros HI.
    + intros y Hy. destruct (HU y Hy) as (x & Hx & _). now apply (HI x).
    + intros x Hx. apply (HI (down p x)). auto.
  - split; intros HU2 M.
    + destruct (HU2 (if maximise (meaning p) then M else (lz p + lz p - M)%Qc)) as (x & Hx & Hg).
      exists (down p x). split; auto. rewrite (HV x Hx) in Hg. unfold as_good in *. rewrite Hmx, HO1 in Hg.
      destruct (maximise (meaning p)); cbn [negb] in Hg; auto. qclra.
    + destruct (HU2 (if maximise (meaning p) then M else (lz p + lz p - M)%Qc)) as (y & Hy & Hg).
      destruct (HU y Hy) as (x & Hx & <-). exists x. split; auto. rewrite (HV x Hx). unfold as_good in *. rewrite Hmx, HO1.
      destruct (maximise (meaning p)); cbn [negb]; auto. qclra.
Qed.
Print Assumptions C29_to_sef.
Theorem C29_already_sef p : lsef p = true -> to_sef p = (p, None).
Proof. intros H. unfold to_sef. now rewrite H. Qed.
Print Assumptions C29_already_sef.
Example C29_nontrivial : exists p, sample = Ok p /\ lsef p = false /\
  down p (map qz [2; 1; 0; 3; 4; 5]%Z) = map qz [2; -1; -3]%Z.
Proof. eexists. split; [reflexivity|]. split; [reflexivity|]. cbv. repeat f_equal; apply Qc_is_canon; reflexivity. Qed.
(** entry by entry: variable [j] of the original program sits at position
    [j + (number of free variables before j)] of the SEF program; a free variable is the difference
    of that column and the next *)
Theorem C29_way_back p x j : reachable p -> lsef p = false ->
  feasible (meaning (fst (to_sef p))) x -> j < cols p ->
  let k := j + length (filter (fun f => Z.ltb f (Z.of_nat (S j))) (free_variables p)) in
  nth j (down p x) 0%Qc =
    if existsb (Z.eqb (Z.of_nat (S j))) (free_variables p) then (nth k x 0 - nth (S k) x 0)%Qc
    else if existsb (Z.eqb (Z.of_nat (S j))) (negative_variables p) then (- nth k x 0)%Qc
    else nth k x 0%Qc.
Proof.
  intros Hr Hs Hx Hj k. pose proof (reachable_wf p Hr) as H. destruct Hx as (L & _).
  change (length (costs (meaning (fst (to_sef p))))) with (cols (fst (to_sef p))) in L.
  pose proof (down_at p H Hs x j L Hj) as E. cbn zeta in E. unfold at_ in E. rewrite E.
  unfold free_variables, negative_variables. rewrite !math_In.
  assert (EK : k = j + below (lfree p) j).
  { unfold k, below, free_variables, to_math_indexing. f_equal. clear. induction (lfree p) as [|f l IH]; [reflexivity|].
    cbn [map filter]. destruct (Z.ltb_spec (Z.of_nat (S f)) (Z.of_nat (S j))), (Nat.ltb_spec f j); try lia; cbn [length]; lia. }
  rewrite EK. reflexivity.
Qed.
Print Assumptions C29_way_back.

(** * C36 *)
Definition total (x : list Qc) : Qc := Sigma x (fun v => v).
Definition column (M : list (list Qc)) (j : nat) : list Qc := map (fun r => nth j r 0%Qc) M.
Lemma total_Sum x : total x = Sum (length x) (at_ x).
Proof.
  unfold total, Sum. induction x as [|a x IH]; [reflexivity|]. cbn [length seq]. rewrite !Sigma_cons, <- seq_shift, Sigma_map, IH. reflexivity.
Qed.
Lemma at_column M j i : at_ (column M j) i = ent M i j.
Proof.
  revert i. induction M as [|r M IH]; intros i.
  - destruct i, j; reflexivity.
  - destruct i as [|i]; [reflexivity|]. apply IH.
Qed.

Lemma inner_column n y M j : length y = n -> inner y (column M j) = Sum n (fun i => at_ y i * ent M i j)%Qc.
Proof. intros L. rewrite (inner_Sum n) by auto. apply Sum_ext. intros i Hi. now rewrite at_column. Qed.

(** the certificate is right whenever its products with the columns are nonnegative ... *)
Theorem C36_certificate_partial p y : reachable p -> verify_infeasibility p y = Ok true ->
  (forall j, j < length (lc p) -> (0 <= inner y (column (lA p) j))%Qc) -> infeasible (meaning p).
Proof.
  intros Hr. pose proof (reachable_wf p Hr) as H. unfold verify_infeasibility. destruct (lsef p) eqn:Es; [|discriminate]. cbn [negb].
  destruct (Nat.eqb_spec (length y) (rows p)) as [L|]; [|discriminate]. cbn [negb]. intros E HA x Hx. injection E as E.
  apply andb_true_iff in E. destruct E as (_ & E). apply neg_true in E.
  apply sfeas_iff in Hx; auto. destruct Hx as (X1 & X2 & X3).
  rewrite (dot_Sum (rows p)) in E by auto.
  assert (Q : Sum (rows p) (fun i => at_ y i * at_ (lb p) i)%Qc = Sum (cols p) (fun j => Sum (rows p) (fun i => at_ y i * ent (lA p) i j) * at_ x j)%Qc).
  { rewrite <- Sum_assoc. apply Sum_ext. intros i Hi. now rewrite X2. }
  rewrite Q in E. assert (0 <= Sum (cols p) (fun j => Sum (rows p) (fun i => at_ y i * ent (lA p) i j) * at_ x j))%Qc.
  { apply Sum_nonneg. intros j Hj. apply qmul_nonneg; [|auto]. specialize (HA j Hj).
    rewrite (inner_column (rows p)) in HA by auto. exact HA. }
  pose proof tol_pos. qclra.
Qed.
Print Assumptions C36_certificate_partial.

(** ... and in every case the program has no feasible point whose entries sum to less than
    10^10 times the violation *)
Theorem C36_small_points_partial p y x : reachable p -> verify_infeasibility p y = Ok true -> feasible (meaning p) x ->
  (- inner y (lb p) <= Q2Qc (1 # 10000000000) * total x)%Qc /\ (1 <= total x)%Qc.
Proof.
  intros Hr. pose proof (reachable_wf p Hr) as H. unfold verify_infeasibility. destruct (lsef p) eqn:Es; [|discriminate]. cbn [negb].
  destruct (Nat.eqb_spec (length y) (rows p)) as [L|]; [|discriminate]. cbn [negb]. intros E Hx. injection E as E.
  apply andb_true_iff in E. destruct E as (E1 & E). apply neg_true in E. rewrite forallb_forall in E1.
  apply sfeas_iff in Hx; auto. destruct Hx as (X1 & X2 & X3).
  rewrite (dot_Sum (rows p)) in E by auto. rewrite (inner_Sum (rows p)) by auto. change (Q2Qc (1 # 10000000000)) with tol_zero.
  assert (Q : Sum (rows p) (fun i => at_ y i * at_ (lb p) i)%Qc = Sum (cols p) (fun j => Sum (rows p) (fun i => at_ y i * ent (lA p) i j) * at_ x j)%Qc).
  { rewrite <- Sum_assoc. apply Sum_ext. intros i Hi. now rewrite X2. }
  assert (K : (- tol_zero * total x <= Sum (rows p) (fun i => at_ y i * at_ (lb p) i))%Qc).
  { rewrite Q, total_Sum, X1, <- Sum_scal. apply Sum_le. intros j Hj. apply qmul_le_r; [|auto].
    assert (E2 : cc_ge (at_ (mulvm (cols p) y (lA p)) j) 0 = true).
    { apply E1, nth_In. now rewrite length_mulvm. }
    apply ge0_true in E2. rewrite at_mulvm, L in E2 by auto. qclra. }
  split; [qclra|]. pose proof tol_pos. apply Qcnot_lt_le. intros Hl.
  assert (tol_zero * total x < tol_zero * 1)%Qc by (clear - H0 Hl; qcnra). qclra.
Qed.
Print Assumptions C36_small_points_partial.

(** the tolerance admits a false certificate *)
Theorem C36_tolerance_refuted : exists p y x, reachable p /\ verify_infeasibility p y = Ok true /\ feasible (meaning p) x.
Proof.
  set (e := Q2Qc (-1 # 100000000000)).
  destruct (linear_program (Nd (Mat 1 [[e]])) (vec [-1]%Z) (vec [0]%Z) 0%Qc "max" None None None) as [p| |] eqn:E; try discriminate E.
  exists p, [qz 1], [qz 100000000000]. split; [|split].
  - refine (r_new _ _ _ _ _ _ _ _ _ _ E). repeat constructor.
  - injection E as <-. reflexivity.
  - injection E as <-. split; [reflexivity|]. split.
    + intros [|i] Hi; [|cbn in Hi; lia]. cbn. apply Qc_is_canon. reflexivity.
    + intros [|j] Hj; [|cbn in Hj; lia]. cbn. discriminate.
Qed.
Print Assumptions C36_tolerance_refuted.
Example C36_nontrivial : exists p y, reachable p /\ verify_infeasibility p y = Ok true /\
  (forall j, j < length (lc p) -> (0 <= inner y (column (lA p) j))%Qc).
Proof.
  destruct (linear_program (mat 3 [[1; 1; -1]; [2; 1; 0]]%Z) (vec [3; 2]%Z) (vec [1; 0; 0]%Z) 0%Qc "max" None None None) as [p| |] eqn:E; try discriminate E.
  exists p, (map qz [-1; 1]%Z). split; [|split].
  - refine (r_new _ _ _ _ _ _ _ _ _ _ E). repeat constructor.
  - injection E as <-. reflexivity.
  - injection E as <-. intros [|[|[|j]]] Hj; try (cbn in Hj; lia); cbn; discriminate.
Qed.

(** * C37 *)
Definition shift (x d : list Qc) (t : Qc) : list Qc := map (fun ab => (fst ab + t * snd ab)%Qc) (combine x d).
Lemma at_shift x d t i : length x = length d -> at_ (shift x d t) i = (at_ x i + t * at_ d i)%Qc.
Proof.
  unfold shift. revert d i. induction x as [|a x IH]; intros [|b d] i H; simpl in H; try lia.
  - unfold at_. destruct i; simpl; ring.
  - destruct i as [|i]; [reflexivity|]. apply (IH d i). lia.
Qed.
Lemma length_shift x d t : length x = length d -> length (shift x d t) = length x.
Proof. intros H. unfold shift. rewrite map_length, combine_length. lia. Qed.

(** a feasible point and a nonnegative direction that keeps every row and increases the objective *)
Lemma ray_unbounded p x d : wf p -> lsef p = true -> feasible (meaning p) x -> length d = length (lc p) ->
  (forall i, i < rows p -> inner (nth i (lA p) []) d = 0%Qc) -> (forall j, j < cols p -> (0 <= at_ d j)%Qc) ->
  (0 < inner (lc p) d)%Qc ->
  (forall t, (0 <= t)%Qc -> feasible (meaning p) (shift x d t)) /\ unbounded (meaning p).
Proof.
  intros H Hs Hx Ld HA Hd Hc. pose proof Hx as Hx'. apply sfeas_iff in Hx; auto. destruct Hx as (X1 & X2 & X3).
  assert (F : forall t, (0 <= t)%Qc -> feasible (meaning p) (shift x d t)).
  { intros t Ht. apply sfeas_iff; auto. split; [|split].
    - rewrite length_shift; auto. unfold cols in X1. lia.
    - intros i Hi. specialize (HA i Hi). rewrite (inner_row (cols p)) in HA by (auto; apply (wf_A _ H)).
      rewrite <- (X2 i Hi). rewrite (Sum_ext _ _ (fun j => ent (lA p) i j * at_ x j + t * (ent (lA p) i j * at_ d j))%Qc).
      + rewrite Sum_add, Sum_scal, HA. ring.
      + intros j Hj. rewrite at_shift by (unfold cols in X1; lia). ring.
    - intros j Hj. rewrite at_shift by (unfold cols in X1; lia). specialize (X3 j Hj). specialize (Hd j Hj). qcnra. }
  split; auto. intros M. set (v := inner (lc p) d) in *.
  set (t := qmax 0 ((M - value (meaning p) x) / v)).
  assert (Ht : (0 <= t)%Qc) by (unfold t, qmax; destruct (qle_spec 0 ((M - value (meaning p) x) / v)); auto; apply Qcle_refl).
  exists (shift x d t). split; auto. unfold as_good. rewrite max_sef by auto.
  assert (EV : value (meaning p) (shift x d t) = (value (meaning p) x + t * v)%Qc).
  { rewrite !value_Sum. unfold v. rewrite (inner_Sum (cols p)) by reflexivity.
    rewrite (Sum_ext _ _ (fun j => at_ (lc p) j * at_ x j + t * (at_ (lc p) j * at_ d j))%Qc).
    - rewrite Sum_add, Sum_scal. ring.
    - intros j Hj. rewrite at_shift by (unfold cols in X1; lia). ring. }
  rewrite EV. assert (L : ((M - value (meaning p) x) <= t * v)%Qc).
  { replace (M - value (meaning p) x)%Qc with ((M - value (meaning p) x) / v * v)%Qc.
    - apply qmul_le_r; [|now apply Qclt_le_weak]. unfold t, qmax. destruct (qle_spec 0 ((M - value (meaning p) x) / v)); [apply Qcle_refl|].
      apply Qclt_le_weak, Qcnot_le_lt. auto.
    - field. intros E0. rewrite E0 in Hc. discriminate Hc. }
  qclra.
Qed.

Theorem C37_certificate_partial p x d : reachable p -> verify_unboundedness p x d = Ok true ->
  feasible (meaning p) x -> (forall i, i < length (lA p) -> inner (nth i (lA p) []) d = 0%Qc) ->
  (forall j, j < length (lc p) -> (0 <= nth j d 0)%Qc) -> unbounded (meaning p).
Proof.
  intros Hr. pose proof (reachable_wf p Hr) as H. unfold verify_unboundedness, bind. destruct (lsef p) eqn:Es; [|discriminate]. cbn [negb].
  destruct (is_feasible p x) as [[]| |]; try discriminate. cbn [negb].
  destruct (Nat.eqb_spec (length d) (cols p)) as [L|]; [|discriminate]. cbn [negb].
  destruct (cc_le (dot (lc p) d) 0) eqn:E; [discriminate|]. intros _ Hx HA Hd.
  apply (ray_unbounded p x d); auto. rewrite inner_dot. apply Qcnot_le_lt. intros Hc.
  assert (cc_le (dot (lc p) d) 0 = true); [|congruence]. apply le0_true. pose proof tol_pos. qclra.
Qed.
Print Assumptions C37_certificate_partial.

Theorem C37_tolerance_refuted : exists p x d, reachable p /\ verify_unboundedness p x d = Ok true /\ ~ unbounded (meaning p).
Proof.
  destruct (linear_program (mat 1 [[1]]%Z) (vec [1]%Z) (vec [1]%Z) 0%Qc "max" None None None) as [p| |] eqn:E; try discriminate E.
  exists p, [qz 1], [Q2Qc (1 # 1000000000)]. split; [|split].
  - refine (r_new _ _ _ _ _ _ _ _ _ _ E). repeat constructor.
  - injection E as <-. vm_compute. reflexivity.
  - injection E as <-. intros HU. destruct (HU (qz 2)) as (x & (L & Hx & _) & Hg). specialize (Hx 0). cbn in Hx.
    destruct x as [|x0 [|]]; cbn in L; try lia. specialize (Hx (le_n 1)). cbn in Hg, Hx. unfold as_good, value in Hg. cbn in Hg.
    change (qz 2) with (Q2Qc 2) in Hg. change (qz 1) with (Q2Qc 1) in *. qclra.
Qed.
Print Assumptions C37_tolerance_refuted.
Example C37_nontrivial : exists p x d, reachable p /\ verify_unboundedness p x d = Ok true /\ feasible (meaning p) x /\
  (forall i, i < length (lA p) -> inner (nth i (lA p) []) d = 0%Qc) /\ (forall j, j < length (lc p) -> (0 <= nth j d 0)%Qc).
Proof.
  destruct (linear_program (mat 3 [[1; -1; 1]]%Z) (vec [2]%Z) (vec [1; 0; -1]%Z) 0%Qc "max" None None None) as [p| |] eqn:E; try discriminate E.
  exists p, (map qz [2; 0; 0]%Z), (map qz [1; 1; 0]%Z). split; [|split; [|split; [|split]]].
  - refine (r_new _ _ _ _ _ _ _ _ _ _ E). repeat constructor.
  - injection E as <-. vm_compute. reflexivity.
  - injection E as <-. split; [reflexivity|]. split.
    + intros [|i] Hi; [|cbn in Hi; lia]. cbn. apply Qc_is_canon. reflexivity.
    + intros [|[|[|j]]] Hj; try (cbn in Hj; lia); cbn; discriminate.
  - injection E as <-. intros [|i] Hi; [|cbn in Hi; lia]. cbn. apply Qc_is_canon. reflexivity.
  - injection E as <-. intros [|[|[|j]]] Hj; try (cbn in Hj; lia); cbn; discriminate.
Qed.

(** * C38 *)
Theorem C38_bounds_objective_partial p y x : reachable p -> verify_optimality p y = Ok true -> feasible (meaning p) x ->
  (inner (lc p) x <= inner y (lb p) + Q2Qc (1 # 10000000000) * total x)%Qc.
Proof.
  intros Hr. pose proof (reachable_wf p Hr) as H. unfold verify_optimality. destruct (lsef p) eqn:Es; [|discriminate]. cbn [negb].
  destruct (Nat.eqb_spec (length y) (rows p)) as [L|]; [|discriminate]. cbn [negb]. intros E Hx. injection E as E.
  rewrite forallb_forall in E. apply sfeas_iff in Hx; auto. destruct Hx as (X1 & X2 & X3).
  rewrite (inner_Sum (cols p)) by reflexivity. rewrite (inner_Sum (rows p)) by auto. change (Q2Qc (1 # 10000000000)) with tol_zero.
  assert (Q : Sum (rows p) (fun i => at_ y i * at_ (lb p) i)%Qc = Sum (cols p) (fun j => Sum (rows p) (fun i => at_ y i * ent (lA p) i j) * at_ x j)%Qc).
  { rewrite <- Sum_assoc. apply Sum_ext. intros i Hi. now rewrite X2. }
  rewrite Q, total_Sum, X1, <- Sum_scal, <- Sum_add. apply Sum_le. intros j Hj.
  assert (LV : length (lc p) = length (mulvm (cols p) y (lA p))) by now rewrite length_mulvm.
  assert (E2 : cc_le (at_ (vsub (lc p) (mulvm (cols p) y (lA p))) j) 0 = true).
  { apply E, nth_In. now rewrite length_vsub. }
  apply le0_true in E2. rewrite at_vsub, at_mulvm, L in E2 by auto. specialize (X3 j Hj).
  clear Q. set (s := Sum (rows p) _) in *. clearbody s.
  replace (s * at_ x j + tol_zero * at_ x j)%Qc with ((s + tol_zero) * at_ x j)%Qc by ring. apply qmul_le_r; auto. qclra.
Qed.
Print Assumptions C38_bounds_objective_partial.
(** without the tolerance the bound is exact, and a feasible point that attains it is optimal *)
Theorem C38_exact_partial p y : reachable p -> verify_optimality p y = Ok true ->
  (forall j, j < length (lc p) -> (nth j (lc p) 0 <= inner y (column (lA p) j))%Qc) ->
  (forall x, feasible (meaning p) x -> (inner (lc p) x <= inner y (lb p))%Qc) /\
  (forall x, feasible (meaning p) x -> inner (lc p) x = inner y (lb p) -> optimal (meaning p) x).
Proof.
  intros Hr. pose proof (reachable_wf p Hr) as H. unfold verify_optimality. destruct (lsef p) eqn:Es; [|discriminate]. cbn [negb].
  destruct (Nat.eqb_spec (length y) (rows p)) as [L|]; [|discriminate]. cbn [negb]. intros _ HA.
  assert (K : forall x, feasible (meaning p) x -> (inner (lc p) x <= inner y (lb p))%Qc).
  { intros x Hx. apply sfeas_iff in Hx; auto. destruct Hx as (X1 & X2 & X3).
    rewrite (inner_Sum (cols p)) by reflexivity. rewrite (inner_Sum (rows p)) by auto.
    assert (Q : Sum (rows p) (fun i => at_ y i * at_ (lb p) i)%Qc = Sum (cols p) (fun j => Sum (rows p) (fun i => at_ y i * ent (lA p) i j) * at_ x j)%Qc).
    { rewrite <- Sum_assoc. apply Sum_ext. intros i Hi. now rewrite X2. }
    rewrite Q. apply Sum_le. intros j Hj. apply qmul_le_r; auto. specialize (HA j Hj).
    rewrite (inner_column (rows p)) in HA by auto. exact HA. }
  split; auto. intros x Hx E. split; auto. intros x' Hx'. unfold as_good. rewrite max_sef by auto. unfold value.
  specialize (K x' Hx'). change (costs (meaning p)) with (lc p). rewrite <- E in K. qclra.
Qed.
Print Assumptions C38_exact_partial.
(** every exact certificate is accepted *)
Theorem C38_accepts_certificates p y : reachable p -> lsef p = true -> length y = length (lA p) ->
  (forall j, j < length (lc p) -> (nth j (lc p) 0 <= inner y (column (lA p) j))%Qc) -> verify_optimality p y = Ok true.
Proof.
  intros Hr Es L HA. unfold verify_optimality. rewrite Es. cbn [negb]. unfold rows. rewrite L, Nat.eqb_refl. cbn [negb]. f_equal.
  apply forallb_forall. intros v Hv. apply (In_nth _ _ 0%Qc) in Hv. destruct Hv as (j & Hj & <-).
  assert (LV : length (lc p) = length (mulvm (cols p) y (lA p))) by now rewrite length_mulvm.
  rewrite length_vsub in Hj by auto. change (cc_le (at_ (vsub (lc p) (mulvm (cols p) y (lA p))) j) 0 = true).
  apply le0_true. rewrite at_vsub, at_mulvm by auto. specialize (HA j Hj).
  rewrite (inner_column (length y)) in HA by auto. pose proof tol_pos. unfold at_ at 1. qclra.
Qed.
Print Assumptions C38_accepts_certificates.
Theorem C38_tolerance_refuted : exists p y x, reachable p /\ verify_optimality p y = Ok true /\ feasible (meaning p) x /\
  (inner y (lb p) + qz 9 < inner (lc p) x)%Qc.
Proof.
  set (e := Q2Qc (1 # 100000000000)).
  destruct (linear_program (mat 1 [[0]]%Z) (vec [0]%Z) (Nd (Vec [e])) 0%Qc "max" None None None) as [p| |] eqn:E; try discriminate E.
  exists p, [qz 0], [qz 1000000000000]. split; [|split; [|split]].
  - refine (r_new _ _ _ _ _ _ _ _ _ _ E). repeat constructor.
  - injection E as <-. reflexivity.
  - injection E as <-. split; [reflexivity|]. split.
    + intros [|i] Hi; [|cbn in Hi; lia]. cbn. apply Qc_is_canon. reflexivity.
    + intros [|j] Hj; [|cbn in Hj; lia]. cbn. discriminate.
  - injection E as <-. reflexivity.
Qed.
Print Assumptions C38_tolerance_refuted.
Example C38_nontrivial : exists p y x, reachable p /\ verify_optimality p y = Ok true /\ feasible (meaning p) x /\
  (forall j, j < length (lc p) -> (nth j (lc p) 0 <= inner y (column (lA p) j))%Qc) /\ inner (lc p) x = inner y (lb p).
Proof.
  destruct (linear_program (mat 4 [[1; 2; 1; 0]; [1; 0; 0; 1]]%Z) (vec [4; 2]%Z) (vec [1; 1; 0; 0]%Z) 0%Qc "max" None None None) as [p| |] eqn:E; try discriminate E.
  exists p, [Q2Qc (1 # 2); Q2Qc (1 # 2)], (map qz [2; 1; 0; 0]%Z). split; [|split; [|split; [|split]]].
  - refine (r_new _ _ _ _ _ _ _ _ _ _ E). repeat constructor.
  - injection E as <-. vm_compute. reflexivity.
  - injection E as <-. split; [reflexivity|]. split.
    + intros [|[|i]] Hi; try (cbn in Hi; lia); cbn; apply Qc_is_canon; reflexivity.
    + intros [|[|[|[|j]]]] Hj; try (cbn in Hj; lia); cbn; discriminate.
  - injection E as <-. intros [|[|[|[|j]]]] Hj; try (cbn in Hj; lia); cbn; discriminate.
  - injection E as <-. apply Qc_is_canon. reflexivity.
Qed.

(** * C39 *)
Theorem C39_weak_duality p x y : reachable p -> feasible (meaning p) x -> feasible (meaning (dual p)) y ->
  (lobj p = "max" -> lobj (dual p) = "min" /\ (inner (lc p) x <= inner (lc (dual p)) y)%Qc) /\
  (lobj p = "min" -> lobj (dual p) = "max" /\ (inner (lc (dual p)) y <= inner (lc p) x)%Qc).
Proof.
  intros Hr Hx Hy. pose proof (reachable_wf p Hr) as H. pose proof (weak_duality p x y H Hx Hy) as W.
  change (lc (dual p)) with (lb p). split; intros K; rewrite K in W; cbn in W; (split; [unfold dual; cbn [lobj]; rewrite K; reflexivity|exact W]).
Qed.
Print Assumptions C39_weak_duality.
Theorem C39_involution p : reachable p ->
  lA (dual (dual p)) = lA p /\ lb (dual (dual p)) = lb p /\ lc (dual (dual p)) = lc p /\ lobj (dual (dual p)) = lobj p /\
  inequalities (dual (dual p)) = inequalities p /\ free_variables (dual (dual p)) = free_variables p /\
  negative_variables (dual (dual p)) = negative_variables p.
Proof.
  intros Hr. pose proof (reachable_wf p Hr) as H. split; [now apply dual_dual_A|]. split; [reflexivity|]. split; [reflexivity|].
  split; [now apply dual_dual_obj|]. split; [now apply dual_dual_ineq|]. unfold free_variables, negative_variables.
  rewrite dual_dual_free, dual_dual_neg by auto. auto.
Qed.
Print Assumptions C39_involution.
Example C39_nontrivial : exists p, sample = Ok p /\ reachable p /\ lobj (dual p) = "max" /\
  inequalities (dual p) = ["<="; ">="; "="] /\ free_variables (dual p) = [2%Z] /\ negative_variables (dual p) = [1%Z].
Proof. eexists. split; [reflexivity|]. split; [now apply sample_reachable|]. repeat split. Qed.

(** * C40 *)
(** [x] satisfies every row and sign restriction, with the tolerances that the code uses: for a
    program in SEF, entries above -10^-10 and rows within numpy's allclose of [b]; otherwise
    inequalities and signs exactly, and equality rows within the relative tolerance 10^-9 *)
Definition nearly_feasible (p : lp) (x : list Qc) : Prop :=
  let P := meaning p in
  (forall i, i < length (rhs P) ->
     let lhs := inner (nth i (coefficients P) []) x in
     let r := nth i (rhs P) 0%Qc in
     if lsef p then (qabs (lhs - r) <= Q2Qc (1 # 100000000) + Q2Qc (1 # 100000) * qabs r)%Qc
     else match nth i (relations P) Equal with
          | Equal => (qabs (lhs - r) <= Q2Qc (1 # 1000000000) * qmax (qabs lhs) (qabs r))%Qc
          | op => related op lhs r
          end) /\
  (forall j, j < length (costs P) ->
     if lsef p then (- Q2Qc (1 # 10000000000) < nth j x 0)%Qc else signed (nth j (signs P) Nonnegative) (nth j x 0%Qc)).
Lemma is_feasible_spec p x : wf p -> length x = length (lc p) -> exists r, is_feasible p x = Ok r /\ (r = true <-> nearly_feasible p x).
Proof.
  intros H L. unfold is_feasible. fold (cols p) in L. rewrite L, Nat.eqb_refl. cbn [negb]. unfold nearly_feasible.
  destruct (lsef p) eqn:Es; eexists; (split; [reflexivity|]); rewrite andb_true_iff.
  - rewrite and_comm. assert (AB : forall A B C D : Prop, (A <-> C) -> (B <-> D) -> (A /\ B <-> C /\ D)) by tauto. apply AB; clear AB.
    + unfold allclose. rewrite forallb_forall. change (rhs (meaning p)) with (lb p). change (coefficients (meaning p)) with (lA p).
      assert (LL : length (mulmv (lA p) x) = length (lb p)) by (rewrite length_mulmv; symmetry; apply (wf_b _ H)).
      split.
      * intros HF i Hi. assert (Hi' : i < rows p) by (rewrite <- (wf_b _ H); auto).
        specialize (HF (at_ (mulmv (lA p) x) i, at_ (lb p) i)). cbn [fst snd] in HF.
        assert (K : np_isclose (at_ (mulmv (lA p) x) i) (at_ (lb p) i) = true).
        { apply HF. unfold at_. rewrite <- combine_nth by auto. apply nth_In. rewrite combine_length. lia. }
        unfold np_isclose in K. destruct (qle_spec (qabs (at_ (mulmv (lA p) x) i - at_ (lb p) i)) (np_atol + np_rtol * qabs (at_ (lb p) i))) as [K2|]; [|discriminate].
        rewrite (at_mulmv (cols p)) in K2 by (auto; apply (wf_A _ H)). rewrite (inner_row (cols p)) by (auto; apply (wf_A _ H)). exact K2.
      * intros HF (a, b) Hab. cbn [fst snd]. apply (In_nth _ _ (0%Qc, 0%Qc)) in Hab. destruct Hab as (i & Hi & E).
        rewrite combine_nth in E by auto. injection E as <- <-. rewrite combine_length, LL in Hi.
        assert (Hi' : i < length (lb p)) by lia. specialize (HF i Hi'). rewrite (wf_b _ H) in Hi'.
        unfold np_isclose. destruct (qle_spec (qabs (nth i (mulmv (lA p) x) 0 - nth i (lb p) 0)) (np_atol + np_rtol * qabs (nth i (lb p) 0)))%Qc as [|K]; auto.
        exfalso. apply K. change (nth i (mulmv (lA p) x) 0%Qc) with (at_ (mulmv (lA p) x) i). rewrite (at_mulmv (cols p)) by (auto; apply (wf_A _ H)).
        rewrite (inner_row (cols p)) in HF by (auto; apply (wf_A _ H)). exact HF.
    + rewrite forallb_forall. split.
      * intros HF j Hj. apply (ge0_true (nth j x 0%Qc)). apply HF, nth_In. unfold cols in L. cbn in Hj. lia.
      * intros HF v Hv. apply (In_nth _ _ 0%Qc) in Hv. destruct Hv as (j & Hj & <-). apply ge0_true. apply HF. unfold cols in L. cbn. lia.
  - rewrite and_comm. assert (AB : forall A B C D : Prop, (A <-> C) -> (B <-> D) -> (A /\ B <-> C /\ D)) by tauto. apply AB; clear AB.
    + rewrite forallb_forall. change (rhs (meaning p)) with (lb p). change (coefficients (meaning p)) with (lA p). rewrite (wf_b _ H).
      assert (KK : forall i, i < rows p -> forall r : bool, 
         r = (let value := dot (nth i (lA p) []) x in
             match dget Nat.eqb i (lineq p) with
             | Some s => negb (String.eqb s "<=" && qlt (at_ (lb p) i) value) && negb (String.eqb s ">=" && qlt value (at_ (lb p) i))
             | None => math_isclose value (at_ (lb p) i)
             end) ->
         (r = true <-> match nth i (relations (meaning p)) Equal with
          | Equal => (qabs (inner (nth i (lA p) []) x - nth i (lb p) 0) <= Q2Qc (1 # 1000000000) * qmax (qabs (inner (nth i (lA p) []) x)) (qabs (nth i (lb p) 0)))%Qc
          | op => related op (inner (nth i (lA p) []) x) (nth i (lb p) 0%Qc)
          end)).
      { intros i Hi r ->. rewrite nth_relations by now rewrite (wf_b _ H). rewrite (rel_cases p i H). rewrite inner_dot. cbv zeta.
        change (nth i (lb p) 0%Qc) with (at_ (lb p) i).
        set (v := dot (nth i (lA p) []) x). destruct (dget Nat.eqb i (lineq p)) as [s|] eqn:Ed.
        - apply (dget_In _ eqb_reflect), (wf_ineq _ H) in Ed. destruct Ed as (_ & [->| ->]); cbn [String.eqb Ascii.eqb Bool.eqb andb negb related].
          + rewrite andb_true_r. destruct (qlt_spec (at_ (lb p) i) v) as [K|K]; cbn [negb]; split; intros; try discriminate; auto; first [exfalso; qclra | now apply Qcnot_lt_le].
          + destruct (qlt_spec v (at_ (lb p) i)) as [K|K]; cbn [negb]; split; intros; try discriminate; auto; first [exfalso; qclra | now apply Qcnot_lt_le].
        - unfold math_isclose. destruct (qle_spec (qabs (v - at_ (lb p) i)) (Q2Qc (1 # 1000000000) * qmax (qabs v) (qabs (at_ (lb p) i)))) as [K|K];
          split; intros; try discriminate; auto; contradiction. }
      split; intros HF i Hi.
      * eapply (KK i Hi _ eq_refl). apply (HF i), in_seq. lia.
      * apply in_seq in Hi. apply (KK i) with (r := _); [lia|reflexivity|]. apply HF. lia.
    + rewrite forallb_forall. change (length (costs (meaning p))) with (cols p).
      assert (KK : forall j, j < cols p -> ((if inb j (lneg p) then qle (at_ x j) 0 else if inb j (lfree p) then true else qle 0 (at_ x j)) = true <->
         signed (nth j (signs (meaning p)) Nonnegative) (nth j x 0%Qc))).
      { intros j Hj. rewrite nth_signs by auto. unfold sgn. change (nth j x 0%Qc) with (at_ x j).
        destruct (inb j (lneg p)) eqn:E1.
        - replace (inb j (lfree p)) with false by (symmetry; apply inb_false; intros Hf; apply inb_In in E1; now apply (wf_disj _ H j)).
          cbn [signed]. destruct (qle_spec (at_ x j) 0); split; intros; try discriminate; auto; contradiction.
        - destruct (inb j (lfree p)); cbn [signed]; [tauto|]. destruct (qle_spec 0 (at_ x j)); split; intros; try discriminate; auto; contradiction. }
      split; intros HF j Hj.
      * apply KK; auto. apply (HF j), in_seq. lia.
      * apply in_seq in Hj. apply KK; [lia|]. apply HF. lia.
Qed.
Theorem C40_decides_near_feasibility_partial p x : reachable p ->
  (length x <> length (lc p) -> is_feasible p x = Raise ValueError) /\
  (length x = length (lc p) -> exists r, is_feasible p x = Ok r /\ (r = true <-> nearly_feasible p x)).
Proof.
  intros Hr. split; intros L; [|apply is_feasible_spec; auto; now apply reachable_wf].
  unfold is_feasible, cols. destruct (Nat.eqb_spec (length x) (length (lc p))); [contradiction|reflexivity].
Qed.
Print Assumptions C40_decides_near_feasibility_partial.
Lemma feasible_near p x : wf p -> feasible (meaning p) x -> nearly_feasible p x.
Proof.
  intros H. assert (A0 : qabs 0 = 0%Qc) by reflexivity. destruct (lsef p) eqn:Es.
  - intros Hx. pose proof Hx as (L & HR & _). apply sfeas_iff in Hx; auto. destruct Hx as (X1 & X2 & X3). unfold nearly_feasible. rewrite Es. split.
    + intros i Hi. specialize (HR i Hi). rewrite nth_relations in HR by auto. unfold rel in HR. destruct (sef_parts p H Es) as (E1 & _).
      rewrite E1 in HR. cbn [dget related] in HR. cbv zeta. rewrite HR.
      set (r := nth i (rhs (meaning p)) 0%Qc). replace (r - r)%Qc with 0%Qc by ring. rewrite A0.
      assert (0 <= Q2Qc (1 # 100000) * qabs r)%Qc by (apply qmul_nonneg; [discriminate|apply qabs_nonneg]). qclra.
    + intros j Hj. specialize (X3 j Hj). unfold at_ in X3. qclra.
  - intros (L & HR & HS). unfold nearly_feasible. rewrite Es. split; auto.
    intros i Hi. specialize (HR i Hi). cbv zeta. destruct (nth i (relations (meaning p)) Equal); auto. cbn [related] in HR. rewrite HR.
    set (r := nth i (rhs (meaning p)) 0%Qc). replace (r - r)%Qc with 0%Qc by ring. rewrite A0. apply qmul_nonneg; [discriminate|].
    unfold qmax. destruct (qle (qabs r) (qabs r)); apply qabs_nonneg.
Qed.
(** every feasible point is accepted; without equality rows, exactly the feasible points are *)
Theorem C40_accepts_feasible p x : reachable p -> feasible (meaning p) x -> is_feasible p x = Ok true.
Proof.
  intros Hr Hx. pose proof (reachable_wf p Hr) as H. destruct (is_feasible_spec p x H) as (r & E & K).
  { apply Hx. } rewrite E. f_equal. apply K. now apply feasible_near.
Qed.
Print Assumptions C40_accepts_feasible.
Theorem C40_exact_without_equalities_partial p x : reachable p -> lsef p = false ->
  (forall s, In s (inequalities p) -> s <> "=") -> is_feasible p x = Ok true -> feasible (meaning p) x.
Proof.
  intros Hr Es HI E. pose proof (reachable_wf p Hr) as H. destruct (Nat.eq_dec (length x) (length (lc p))) as [L|L].
  - destruct (is_feasible_spec p x H L) as (r & E' & K). rewrite E in E'. injection E' as <-. destruct (proj1 K eq_refl) as (N1 & N2).
    rewrite Es in *. split; [exact L|]. split; auto. intros i Hi. specialize (N1 i Hi). cbv zeta in N1.
    destruct (nth i (relations (meaning p)) Equal) eqn:ER; auto. exfalso.
    change (rhs (meaning p)) with (lb p) in Hi. rewrite nth_relations in ER by auto. rewrite (rel_cases p i H) in ER.
    apply (HI "="); auto. unfold inequalities. apply in_map_iff. exists i. split; [|apply in_seq; lia].
    destruct (dget Nat.eqb i (lineq p)) as [s|]; auto. destruct (String.eqb s "<="); discriminate.
  - unfold is_feasible, cols in E. destruct (Nat.eqb_spec (length x) (length (lc p))); [contradiction|discriminate].
Qed.
Print Assumptions C40_exact_without_equalities_partial.
Theorem C40_negative_entry_refuted : exists p x, reachable p /\ is_feasible p x = Ok true /\ exists j, j < length x /\ (nth j x 0 < 0)%Qc /\
  free_variables p = [] /\ negative_variables p = [].
Proof.
  set (e := Q2Qc (-1 # 100000000000)).
  destruct (linear_program (mat 2 [[1; 0]]%Z) (vec [1]%Z) (vec [1; 1]%Z) 0%Qc "max" None None None) as [p| |] eqn:E; try discriminate E.
  exists p, [qz 1; e]. split; [|split].
  - refine (r_new _ _ _ _ _ _ _ _ _ _ E). repeat constructor.
  - injection E as <-. vm_compute. reflexivity.
  - exists 1. injection E as <-. repeat split; auto.
Qed.
Print Assumptions C40_negative_entry_refuted.
Example C40_nontrivial : exists p, sample = Ok p /\ reachable p /\ is_feasible p (map qz [0; 0; -2]%Z) = Ok false /\
  is_feasible p (map qz [6; -3; 1]%Z) = Ok true.
Proof. eexists. split; [reflexivity|]. split; [now apply sample_reachable|]. split; vm_compute; reflexivity. Qed.

(** * C43 *)
Lemma inequalities_at p i : i < length (lb p) -> nth i (inequalities p) "=" = match dget Nat.eqb i (lineq p) with Some s => s | None => "=" end.
Proof. intros H. unfold inequalities. now rewrite nth_map_seq. Qed.
Theorem C43_add_constraint p a av op v : reachable p -> to_ndarray a = Ok (Vec av) ->
  let '(q, r) := add_constraint p a op v in
  (length av = length (lc p) /\ (op = "=" \/ op = "<=" \/ op = ">=") ->
     r = Ok tt /\
     lA q = lA p ++ [av] /\ lb q = lb p ++ [v] /\ inequalities q = inequalities p ++ [op] /\
     (forall x, feasible (meaning q) x <-> feasible (meaning p) x /\ related (relation_of op) (inner av x) v) /\
     (forall x, value (meaning q) x = value (meaning p) x) /\ lobj q = lobj p) /\
  (~ (length av = length (lc p) /\ (op = "=" \/ op = "<=" \/ op = ">=")) -> r = Raise ValueError /\ q = p).
Proof.
  intros Hr Ea. pose proof (reachable_wf p Hr) as H. pose proof (wf_constraint p a op v H) as Hq.
  unfold add_constraint in *. rewrite Ea in *. unfold cols in *.
  destruct (Nat.eqb_spec (length av) (length (lc p))) as [L|L]; cbn [negb] in *; [|split; [tauto|auto]].
  destruct (existsb (String.eqb op) ["="; ">="; "<="]) eqn:Eo; cbn [negb] in *.
  2:{ split; auto. intros (_ & Ho). destruct Ho as [->|[->| ->]]; discriminate Eo. }
  cbn [fst] in Hq. set (strict := String.eqb op ">=" || String.eqb op "<=") in *.
  set (q := mklp _ _ _ _ _ _ _ _ _) in *. split; [|intros K; exfalso; apply K; split; auto].
  2:{ cbn in Eo. rewrite orb_false_r in Eo. apply orb_true_iff in Eo. rewrite String.eqb_eq in Eo. destruct Eo as [Eo|Eo]; auto.
      apply orb_true_iff in Eo. rewrite !String.eqb_eq in Eo. tauto. }
  intros (_ & Hop). assert (EI : inequalities q = inequalities p ++ [op]).
  { unfold inequalities. unfold q. cbn [lb lineq]. rewrite app_length. cbn [length]. rewrite Nat.add_1_r, seq_S, map_app. cbn [map Nat.add].
    f_equal.
    - apply map_ext_in. intros i Hi. apply in_seq in Hi. destruct strict; auto. rewrite (dget_dset_ne _ eqb_reflect); auto.
      rewrite (wf_b _ H) in Hi. lia.
    - rewrite (wf_b _ H). unfold strict. destruct Hop as [->|[->| ->]]; cbn [String.eqb Ascii.eqb Bool.eqb orb].
      + destruct (dget Nat.eqb (rows p) (lineq p)) as [s|] eqn:E; auto. apply (dget_In _ eqb_reflect), (wf_ineq _ H) in E. lia.
      + now rewrite (dget_dset_eq _ eqb_reflect).
      + now rewrite (dget_dset_eq _ eqb_reflect). }
  split; [reflexivity|]. split; [reflexivity|]. split; [reflexivity|]. split; [exact EI|]. split; [|split; [|reflexivity]].
  - intros x. unfold feasible. change (costs (meaning q)) with (lc p). change (costs (meaning p)) with (lc p).
    change (signs (meaning q)) with (signs (meaning p)).
    change (rhs (meaning q)) with (lb p ++ [v]). change (rhs (meaning p)) with (lb p).
    change (coefficients (meaning q)) with (lA p ++ [av]). change (coefficients (meaning p)) with (lA p).
    change (relations (meaning q)) with (map relation_of (inequalities q)). change (relations (meaning p)) with (map relation_of (inequalities p)).
    rewrite EI. rewrite app_length. cbn [length].
    assert (LI : length (map relation_of (inequalities p)) = length (lb p)) by (unfold inequalities; rewrite !map_length; apply seq_length).
    assert (LA : length (lA p) = length (lb p)) by (symmetry; apply (wf_b _ H)).
    rewrite map_app. split.
    + intros (F1 & F2 & F3). split; [split; [auto|split; auto]|].
      * intros i Hi. specialize (F2 i ltac:(lia)). rewrite !app_nth1 in F2 by lia. exact F2.
      * specialize (F2 (length (lb p)) ltac:(lia)). rewrite !app_nth2 in F2 by lia. rewrite LI, LA, Nat.sub_diag in F2. exact F2.
    + intros ((F1 & F2 & F3) & F4). split; [auto|split; auto]. intros i Hi. destruct (Nat.lt_ge_cases i (length (lb p))) as [Hl|Hl].
      * rewrite !app_nth1 by lia. now apply F2.
      * replace i with (length (lb p)) by lia. rewrite !app_nth2 by lia. rewrite LI, LA, Nat.sub_diag. exact F4.
  - intros x. reflexivity.
Qed.
Print Assumptions C43_add_constraint.

Theorem C43_add_variable p coefficient col free neg q : reachable p -> length col = length (lA p) ->
  add_variable p coefficient (Some col) free neg = (q, Ok tt) ->
  free && neg = false /\ lobj q = lobj p /\
  (forall x t, length x = length (lc p) ->
     (feasible (meaning q) (x ++ [t]) <->
      (forall i, i < length (lb p) ->
         related (relation_of (nth i (inequalities p) "=")) (inner (nth i (lA p) []) x + nth i col 0 * t)%Qc (nth i (lb p) 0%Qc)) /\
      (forall j, j < length (lc p) -> signed (nth j (signs (meaning p)) Nonnegative) (nth j x 0%Qc)) /\
      signed (if free then Unrestricted else if neg then Nonpositive else Nonnegative) t)) /\
  (forall x t, length x = length (lc p) -> value (meaning q) (x ++ [t]) = (value (meaning p) x + coefficient * t)%Qc).
Proof.
  intros Hr L E. pose proof (reachable_wf p Hr) as H. pose proof (wf_variable _ _ _ _ _ _ H E) as Hq.
  unfold add_variable in E. destruct (free && neg) eqn:Ef; [discriminate|]. unfold rows in E. rewrite L, Nat.eqb_refl in E. injection E as <-.
  split; [auto|]. split; [reflexivity|]. split.
  - intros x t Lx. rewrite feas_iff by auto. unfold feas, rows, cols. cbn [lA lb lc].
    rewrite length_append_column by auto. rewrite !app_length. cbn [length].
    assert (ER : forall i, i < length (lb p) -> relation_of (nth i (inequalities p) "=") = rel p i).
    { intros i Hi. rewrite inequalities_at by auto. unfold rel. destruct (dget Nat.eqb i (lineq p)); reflexivity. }
    assert (EA : forall i, i < length (lA p) -> Sum (length (lc p) + 1) (fun j => ent (append_column (lA p) col) i j * at_ (x ++ [t]) j)%Qc
                 = (inner (nth i (lA p) []) x + nth i col 0 * t)%Qc).
    { intros i Hi. assert (LR : length (nth i (lA p) []) = length (lc p)) by (apply shaped_nth; auto; apply (wf_A _ H)).
      rewrite <- (inner_Sum _ (nth i (append_column (lA p) col) [])); [|rewrite nth_append_column, app_length, LR by auto; reflexivity].
      rewrite nth_append_column by auto. rewrite inner_app by lia. cbn [inner]. unfold at_. ring. }
    assert (EN : forall j, j < length (lc p) -> nth j (signs (meaning p)) Nonnegative = sgn p j) by (intros; now apply nth_signs).
    assert (LA : length (lA p) = length (lb p)) by (symmetry; apply (wf_b _ H)).
    assert (ES : forall j, j < length (lc p) -> sgn (mklp (append_column (lA p) col) (lb p) (lc p ++ [coefficient]) (lz p) (lobj p) (lineq p)
        (if free || neg then false else lsef p) (if free then lfree p ++ [length (lc p)] else lfree p)
        (if free then lneg p else if neg then lneg p ++ [length (lc p)] else lneg p)) j = sgn p j).
    { intros j Hj. unfold sgn. cbn [lfree lneg]. assert (KI : forall l, inb j (l ++ [length (lc p)]) = inb j l).
      { intros l. unfold inb. rewrite existsb_app. cbn [existsb]. destruct (Nat.eqb_spec j (length (lc p))); [unfold cols in *; lia|]. now rewrite !orb_false_r. }
      destruct free; [now rewrite KI|]. destruct neg; [now rewrite KI|reflexivity]. }
    assert (ESn : sgn (mklp (append_column (lA p) col) (lb p) (lc p ++ [coefficient]) (lz p) (lobj p) (lineq p)
        (if free || neg then false else lsef p) (if free then lfree p ++ [length (lc p)] else lfree p)
        (if free then lneg p else if neg then lneg p ++ [length (lc p)] else lneg p)) (length (lc p)) = if free then Unrestricted else if neg then Nonpositive else Nonnegative).
    { unfold sgn. cbn [lfree lneg]. assert (KI : forall l, inb (length (lc p)) (l ++ [length (lc p)]) = true).
      { intros l. apply inb_In, in_or_app. right. now left. }
      assert (KF : inb (length (lc p)) (lfree p) = false) by (apply inb_false; intros Hi; apply (wf_free_lt _ H) in Hi; unfold cols in Hi; lia).
      assert (KN : inb (length (lc p)) (lneg p) = false) by (apply inb_false; intros Hi; apply (wf_neg_lt _ H) in Hi; unfold cols in Hi; lia).
      destruct free; [now rewrite KI|]. rewrite KF. destruct neg; [now rewrite KI|now rewrite KN]. }
    split.
    + intros (F1 & F2 & F3). split; [|split].
      * intros i Hi. rewrite ER by auto. specialize (F2 i ltac:(lia)). rewrite EA in F2 by lia. exact F2.
      * intros j Hj. rewrite EN by auto. specialize (F3 j ltac:(lia)). rewrite ES in F3 by auto. rewrite at_app1 in F3 by lia. exact F3.
      * specialize (F3 (length (lc p)) ltac:(lia)). rewrite ESn in F3. rewrite at_app2, Lx, Nat.sub_diag in F3 by lia. exact F3.
    + intros (F1 & F2 & F3). split; [lia|]. split.
      * intros i Hi. rewrite EA by lia. specialize (F1 i ltac:(lia)). rewrite ER in F1 by lia. exact F1.
      * intros j Hj. destruct (Nat.lt_ge_cases j (length (lc p))) as [Hl|Hl].
        -- rewrite ES by auto. rewrite at_app1 by lia. rewrite <- EN by auto. now apply F2.
        -- replace j with (length (lc p)) by lia. rewrite ESn. rewrite at_app2, Lx, Nat.sub_diag by lia. exact F3.
  - intros x t Lx. unfold value. change (costs (meaning p)) with (lc p). cbn [meaning costs constant lc lz].
    rewrite inner_app by auto. cbn [inner]. ring.
Qed.
Print Assumptions C43_add_variable.
(** a column of the wrong length is refused, but the sign list has been extended by then *)
Theorem C43_failed_add_variable_refuted : exists p, reachable p /\
  let '(q, r) := add_variable p 0%Qc (Some [qz 1; qz 1]) true false in
  r = Raise ValueError /\ free_variables q = [3%Z] /\ length (lc q) = 2 /\ q <> p.
Proof.
  destruct (linear_program (mat 2 [[1; 0]]%Z) (vec [1]%Z) (vec [1; 1]%Z) 0%Qc "max" None None None) as [p| |] eqn:E; try discriminate E.
  exists p. split; [refine (r_new _ _ _ _ _ _ _ _ _ _ E); repeat constructor|]. injection E as <-. cbn. repeat split. discriminate.
Qed.
Print Assumptions C43_failed_add_variable_refuted.
Example C43_nontrivial : exists p, sample = Ok p /\ reachable p /\
  (exists q, add_variable p (qz 2) (Some (map qz [1; 2; 3]%Z)) false true = (q, Ok tt) /\ negative_variables q = [2; 4]%Z) /\
  (exists q, add_constraint p (vec [1; 1; 1]%Z) ">=" (qz 2) = (q, Ok tt) /\ inequalities q = ["<="; "="; ">="; ">="]).
Proof.
  eexists. split; [reflexivity|]. split; [now apply sample_reachable|]. split; eexists; split; reflexivity.
Qed.

(** * C45 *)
Theorem C45_unchanged_when_returning_partial fuel p : reachable p ->
  (forall B r, snd (simplex fuel p B) = Ok r -> fst (simplex fuel p B) = p) /\
  (forall r, snd (two_phase_simplex fuel p) = Ok r -> fst (two_phase_simplex fuel p) = p) /\
  (forall r, snd (solve fuel p) = Ok r -> fst (solve fuel p) = p).
Proof.
  intros Hr. pose proof (reachable_wf p Hr) as H.
  assert (S1 : forall B r, snd (simplex fuel p B) = Ok r -> fst (simplex fuel p B) = p).
  { intros B r E. destruct (simplex_state fuel p B H) as [K|(_ & K)]; auto. exfalso. now apply (K r). }
  assert (S2 : forall r, snd (two_phase_simplex fuel p) = Ok r -> fst (two_phase_simplex fuel p) = p).
  { intros r E. destruct (two_phase_state fuel p) as [K|(B & K)]; auto. rewrite K in *. now apply (S1 B r). }
  split; [exact S1|]. split; [exact S2|]. intros r. unfold solve. destruct (lsef p).
  - destruct (two_phase_simplex fuel p) as [p' o] eqn:E. cbn [fst snd] in *. intros Ho. destruct o as [o'| |]; try discriminate. now apply (S2 o').
  - destruct (to_sef p). match goal with |- context [match ?x with Some _ => _ | None => _ end] => destruct x end; reflexivity.
Qed.
Print Assumptions C45_unchanged_when_returning_partial.
(** with a nonnegative right-hand side the program is unchanged even when an exception escapes *)
Theorem C45_unchanged_with_nonnegative_b_partial fuel p B : reachable p -> (forall v, In v (lb p) -> (0 <= v)%Qc) ->
  fst (simplex fuel p B) = p /\ fst (two_phase_simplex fuel p) = p.
Proof.
  intros Hr Hb. pose proof (reachable_wf p Hr) as H.
  assert (S1 : forall B, fst (simplex fuel p B) = p).
  { intros B'. destruct (simplex_state fuel p B' H) as [K|(K & _)]; auto. rewrite K. now apply negate_nonneg. }
  split; auto. destruct (two_phase_state fuel p) as [K|(B' & ->)]; auto.
Qed.
Print Assumptions C45_unchanged_with_nonnegative_b_partial.
(** an exception leaves the rows with negative right-hand side negated *)
Theorem C45_exception_refuted : exists p,  reachable p /\
  (let '(q, r) := simplex 5 p [1%Z] in r = Raise ValueError /\ map this (lb q) = [2; 3]%Q /\ map this (lb p) = [(-2)%Q; 3%Q]) /\
  (let '(q, r) := two_phase_simplex 20 p in r = Raise ValueError /\ map this (lb q) = [2; 3]%Q).
Proof.
  destruct (linear_program (mat 1 [[-2]; [3]]%Z) (vec [-2; 3]%Z) (vec [1]%Z) 0%Qc "max" None None None) as [p| |] eqn:E; try discriminate E.
  exists p. split; [refine (r_new _ _ _ _ _ _ _ _ _ _ E); repeat constructor|]. injection E as <-. vm_compute. repeat split.
Qed.
Print Assumptions C45_exception_refuted.
Example C45_nontrivial : exists p, reachable p /\ map this (lb p) = [(-2)%Q; 3%Q] /\ exists r, snd (simplex 20 p [1%Z; 2%Z]) = Ok r.
Proof.
  destruct (linear_program (mat 3 [[-2; 0; 1]; [0; 1; 1]]%Z) (vec [-2; 3]%Z) (vec [1; 0; 2]%Z) 0%Qc "max" None None None) as [p| |] eqn:E; try discriminate E.
  exists p. split; [refine (r_new _ _ _ _ _ _ _ _ _ _ E); repeat constructor|]. injection E as <-. split; [reflexivity|].
  eexists. vm_compute. reflexivity.
Qed.
