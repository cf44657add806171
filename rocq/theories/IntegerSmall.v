(** Branch and bound: termination on bounded programs, and programs whose minors are bounded. *)
From Coq Require Import String List Bool Arith ZArith QArith Qcanon Qround Lia.
From Verif Require Import Py QcTac QSum QInt ComparatorModel ComparatorSpec ComparatorProofs MatModel DetTheory DetExpand MatTheory LinearModel LinearSpec LinearProofs LinearInv DualProofs LinearProps SefProofs BasisProofs SimplexProofs SmallProofs SimplexProps TwoPhaseProps NetSpec NetProofs MinorProofs IntegerModel IntegerSpec IntegerProofs.
Import ListNotations.
Open Scope nat_scope.
Open Scope string_scope.
Open Scope list_scope.

(** ** termination *)
(** bounds on the variables, and the number of integers between them *)
Definition boxed (ints : option (list Z)) (q : lp) (lo hi : nat -> Z) : Prop :=
  (forall i, (lo i <= hi i)%Z) /\
  forall y, feasible (meaning q) y -> forall i, i < cols q -> required ints i -> (qz (lo i) <= nth i y 0 /\ nth i y 0 <= qz (hi i))%Qc.
Definition width (n : nat) (lo hi : nat -> Z) : nat := list_sum (map (fun i => Z.to_nat (hi i - lo i)) (seq 0 n)).
Definition upd (f : nat -> Z) (i : nat) (k : Z) (j : nat) : Z := if Nat.eqb j i then k else f j.
Lemma width_le n lo hi lo' hi' : (forall j, j < n -> (hi' j - lo' j <= hi j - lo j)%Z) -> width n lo' hi' <= width n lo hi.
Proof.
  intros H. unfold width. assert (K : forall l, (forall j, In j l -> j < n) -> list_sum (map (fun i => Z.to_nat (hi' i - lo' i)) l) <= list_sum (map (fun i => Z.to_nat (hi i - lo i)) l)).
  { induction l as [|a l IH]; intros Hl; [cbn; lia|]. cbn [map list_sum fold_right]. specialize (IH ltac:(intros; apply Hl; simpl; auto)). pose proof (H a (Hl a (or_introl eq_refl))). unfold list_sum in IH. lia. }
  apply K. intros j Hj. apply in_seq in Hj. lia.
Qed.
Lemma width_lt n i lo hi lo' hi' : i < n -> (forall j, j < n -> (hi' j - lo' j <= hi j - lo j)%Z) -> (lo' i <= hi' i)%Z -> (hi' i - lo' i < hi i - lo i)%Z -> width n lo' hi' < width n lo hi.
Proof.
  intros Hi H H0 H1. unfold width. assert (K : forall l, In i l -> (forall j, In j l -> j < n) -> list_sum (map (fun i => Z.to_nat (hi' i - lo' i)) l) < list_sum (map (fun i => Z.to_nat (hi i - lo i)) l)).
  { induction l as [|a l IH]; intros Hin Hl; [destruct Hin|]. cbn [map list_sum fold_right].
    assert (W : list_sum (map (fun i => Z.to_nat (hi' i - lo' i)) l) <= list_sum (map (fun i => Z.to_nat (hi i - lo i)) l)).
    { clear IH Hin. induction l as [|b l IH]; [cbn; lia|]. cbn [map list_sum fold_right]. pose proof (H b (Hl b (or_intror (or_introl eq_refl)))). unfold list_sum in IH. specialize (IH ltac:(intros j [->|Hj]; apply Hl; simpl; auto)). lia. }
    pose proof (H a (Hl a (or_introl eq_refl))). unfold list_sum in *. destruct Hin as [->|Hin]; [lia|]. specialize (IH Hin ltac:(intros; apply Hl; simpl; auto)). lia. }
  apply K; [apply in_seq; lia|]. intros j Hj. apply in_seq in Hj. lia.
Qed.
(** a branch cuts the box *)
Lemma fraction_between lo hi v : (qz lo <= v)%Qc -> (v <= qz hi)%Qc -> ~ isint v -> (lo <= floor v)%Z /\ (floor v < hi)%Z /\ (lo < ceil v)%Z /\ (ceil v <= hi)%Z.
Proof.
  intros H1 H2 H3. pose proof (floor_int v lo H1) as A. pose proof (ceil_int v hi H2) as B. pose proof (floor_le v) as C. pose proof (ceil_ge v) as D.
  split; auto. split; [|split; auto].
  - assert (K : (floor v <= hi)%Z) by (apply qz_le; clear - C H2; qclra). destruct (Z.eq_dec (floor v) hi) as [E|]; [|lia]. exfalso. apply H3. exists hi. rewrite E in C. apply Qcle_antisym; auto.
  - assert (K : (lo <= ceil v)%Z) by (apply qz_le; clear - D H1; qclra). destruct (Z.eq_dec (ceil v) lo) as [E|]; [|lia]. exfalso. apply H3. exists lo. rewrite E in D. apply Qcle_antisym; auto.
Qed.
Lemma branch_box ints q i x lo hi : reachable q -> nonnegative_variables q -> feasible (meaning q) x -> i < cols q -> required ints i -> ~ near_integer (nth i x 0%Qc) -> boxed ints q lo hi ->
  (forall r, child q i "<=" (floor (nth i x 0%Qc)) = Ok r -> boxed ints r lo (upd hi i (floor (nth i x 0%Qc))) /\ width (cols q) lo (upd hi i (floor (nth i x 0%Qc))) < width (cols q) lo hi) /\
  (forall r, child q i ">=" (ceil (nth i x 0%Qc)) = Ok r -> boxed ints r (upd lo i (ceil (nth i x 0%Qc))) hi /\ width (cols q) (upd lo i (ceil (nth i x 0%Qc))) hi < width (cols q) lo hi).
Proof.
  intros Hr Hn Hx Hi Hq Hf (B1 & B2). pose proof (reachable_wf q Hr) as H. destruct (B2 x Hx i Hi Hq) as (X1 & X2). set (v := nth i x 0%Qc) in *.
  destruct (fraction_between (lo i) (hi i) v X1 X2) as (F1 & F2 & F3 & F4); [intros K; apply Hf; now apply isint_near|].
  split; intros r E.
  - destruct (child_spec q i "<=" _ r H Hi (or_introl eq_refl) E) as (_ & Cr & _ & _ & _ & _ & _ & _ & _ & _ & Fr). split; [split|].
    + intros j. unfold upd. destruct (Nat.eqb_spec j i) as [->|]; [lia|apply B1].
    + intros y Hy j Hj Hq'. apply Fr in Hy. destruct Hy as (Y1 & Y2 & Y3 & Y4). rewrite Cr in Hj. destruct (B2 y ltac:(now apply nonneg_feasible) j Hj Hq') as (Z1 & Z2). split; auto. unfold upd. destruct (Nat.eqb_spec j i) as [->|]; auto.
    + apply (width_lt _ i); auto; unfold upd; rewrite ?Nat.eqb_refl; try lia. intros j Hj. destruct (Nat.eqb_spec j i) as [->|]; lia.
  - destruct (child_spec q i ">=" _ r H Hi (or_intror eq_refl) E) as (_ & Cr & _ & _ & _ & _ & _ & _ & _ & _ & Fr). split; [split|].
    + intros j. unfold upd. destruct (Nat.eqb_spec j i) as [->|]; [lia|apply B1].
    + intros y Hy j Hj Hq'. apply Fr in Hy. destruct Hy as (Y1 & Y2 & Y3 & Y4). rewrite Cr in Hj. destruct (B2 y ltac:(now apply nonneg_feasible) j Hj Hq') as (Z1 & Z2). split; auto. unfold upd. destruct (Nat.eqb_spec j i) as [->|]; auto.
    + apply (width_lt _ i); auto; unfold upd; rewrite ?Nat.eqb_refl; try lia. intros j Hj. destruct (Nat.eqb_spec j i) as [->|]; lia.
Qed.
Lemma branch_terminates fuel ints : forall depth q lo hi, reachable q -> nonnegative_variables q -> boxed ints q lo hi -> width (cols q) lo hi < depth ->
  (forall q', visited fuel ints q q' -> answers fuel q' /\ forall x, snd (solve fuel q') = Ok (Some x) -> feasible (meaning q') x) -> exists r, branch depth fuel ints q = Ok r.
Proof.
  induction depth as [|depth IH]; intros q lo hi Hr Hn HB Hw HV; [lia|]. cbn [branch]. pose proof (reachable_wf q Hr) as H.
  destruct (HV q (v_root _ _ _)) as ((s & Es) & Fs). destruct (solve fuel q) as (q' & s') eqn:ES. cbn [snd] in Es, Fs. subst s'. cbn [bind].
  assert (Eq : q' = q) by (destruct (C45_unchanged_when_returning_partial fuel q Hr) as (_ & _ & K); specialize (K s); rewrite ES in K; now apply K). subst q'.
  destruct s as [x|]; [|eexists; reflexivity]. specialize (Fs x eq_refl). assert (Lx : length x = cols q) by apply Fs. rewrite evaluate_ok by auto. cbn [bind].
  pose proof (first_fraction_spec ints x 0) as FF. destruct (first_fraction ints 0 x) as [i|]; [|eexists; reflexivity].
  destruct FF as (_ & F2 & F3 & F4). rewrite Nat.sub_0_r in *. assert (Hi : i < cols q) by lia.
  destruct (branch_box ints q i x lo hi Hr Hn Fs Hi F3 F4 HB) as (BL & BH).
  destruct (child_total q i "<=" (floor (nth i x 0%Qc)) H Hi (or_introl eq_refl)) as (ql & El). destruct (child_total q i ">=" (ceil (nth i x 0%Qc)) H Hi (or_intror eq_refl)) as (qh & Eh).
  destruct (child_spec q i "<=" _ ql H Hi (or_introl eq_refl) El) as (Rl & Cl & _ & _ & _ & _ & _ & _ & _ & Nl & _).
  destruct (child_spec q i ">=" _ qh H Hi (or_intror eq_refl) Eh) as (Rh & Ch & _ & _ & _ & _ & _ & _ & _ & Nh & _).
  destruct (BL ql El) as (BL1 & BL2). destruct (BH qh Eh) as (BH1 & BH2).
  assert (Vl : visited fuel ints q ql) by (eapply v_lower; [apply v_root|rewrite ES; reflexivity|exact F2|exact F3|exact F4|exact El]).
  assert (Vh : visited fuel ints q qh) by (eapply v_higher; [apply v_root|rewrite ES; reflexivity|exact F2|exact F3|exact F4|exact Eh]).
  destruct (IH ql _ _ Rl Nl BL1) as (rl & Bl); [rewrite Cl; lia|intros q' Hq'; apply HV; exact (visited_trans _ _ _ _ _ Vl Hq')|].
  destruct (IH qh _ _ Rh Nh BH1) as (rh & Bh); [rewrite Ch; lia|intros q' Hq'; apply HV; exact (visited_trans _ _ _ _ _ Vh Hq')|].
  rewrite El. cbn [bind]. rewrite Bl. cbn [bind]. rewrite Eh. cbn [bind]. rewrite Bh. eexists. reflexivity.
Qed.
Lemma width_const n U : width n (fun _ => 0%Z) (fun _ => Z.of_nat U) = n * U.
Proof.
  unfold width. enough (K : forall l : list nat, list_sum (map (fun _ => Z.to_nat (Z.of_nat U - 0)) l) = length l * U) by (rewrite K, seq_length; reflexivity).
  induction l as [|a l IH]; [reflexivity|]. cbn [map list_sum fold_right length] in *. unfold list_sum in IH. rewrite IH. lia.
Qed.

(** ** values of small programs *)
Definition small_fraction (v : Qc) : Prop := exists D, isint D /\ D <> 0%Qc /\ (qabs D <= qz 10000)%Qc /\ isint (D * v)%Qc.
Lemma small_fraction_near v : small_fraction v -> near_integer v -> isint v.
Proof.
  intros (D & ID & D0 & DB & IV) (n & (K1 & K2)). change (Q2Qc (inject_Z n)) with (qz n) in *. exists n.
  assert (E : isint (D * v - D * qz n)%Qc). { apply isint_sub; auto. apply isint_mul; auto. now exists n. }
  destruct (Qc_eq_dec (D * v - D * qz n)%Qc 0%Qc) as [Z|Z].
  - assert (K : (D * (v - qz n) = 0)%Qc) by (replace (D * (v - qz n))%Qc with (D * v - D * qz n)%Qc by ring; exact Z). apply Qcmult_integral in K. destruct K as [K|K]; [contradiction|]. clear - K. replace v with (v - qz n + qz n)%Qc by ring. rewrite K. ring.
  - exfalso. assert (A : (qabs (D * (v - qz n)) < 1)%Qc).
    { rewrite qabs_mul. assert (B : (qabs (v - qz n) <= eps10)%Qc) by (apply qabs_le; split; clear - K1 K2; qclra).
      assert (C : (qabs D * qabs (v - qz n) <= qz 10000 * eps10)%Qc).
      { apply Qcle_trans with (qz 10000 * qabs (v - qz n))%Qc; [apply qmul_le_r; auto; apply qabs_nonneg|]. rewrite !(Qcmult_comm (qz 10000)). apply qmul_le_r; auto. discriminate. }
      assert (T : (qz 10000 * eps10 < 1)%Qc) by reflexivity. clear - C T. qclra. }
    replace (D * (v - qz n))%Qc with (D * v - D * qz n)%Qc in A by ring. set (w := (D * v - D * qz n)%Qc) in *. destruct (int_nonzero w E Z) as [K|K]; unfold qabs in A; destruct (qlt_spec w 0) as [W|W]; clear - K A W; qclra.
Qed.
Lemma simplex_small fuel p Bz x Bo cert : wf p -> small_data p -> snd (simplex fuel p Bz) = Ok (Some x, Bo, cert) -> length x = cols p /\ forall j, j < cols p -> small_fraction (nth j x 0%Qc).
Proof.
  intros H HS E. destruct (exact_facts fuel p Bz x Bo cert H HS E) as (Hs & B & q & y & -> & -> & HI & HBm & Lx & HX & _). split; auto.
  pose proof (wf_negate p H) as Hn. pose proof HS as (d & e & K0 & L0 & HF). pose proof (fractions_neg p d e K0 L0 H HF) as HSn. destruct HI as [HB Eq HC]. assert (HX' : bsol (negate_rows p) B (at_ x)) by (split; [apply solves_neg; auto; apply HX|apply HX]).
  intros j Hj. change (nth j x 0%Qc) with (at_ x j). destruct (in_dec Nat.eq_dec j B) as [HIn|HIn].
  - apply (In_bk (negate_rows p)) in HIn; auto. destruct HIn as (k & Hk & <-). rewrite (bsol_at _ _ _ HB HC _ HX' k Hk). rewrite (canonical_b _ _ _ Hn HB Eq k Hk).
    pose proof (minor_nonzero _ _ Hn HB) as D0. set (np := negate_rows p) in *. pose proof (product_pos d (sf_pos _ _ _ HSn)) as HP.
    assert (P0 : qz (product d) <> 0%Qc). { intros K. change 0%Qc with (qz 0) in K. apply qz_inj in K. lia. }
    assert (BLe : forall i, In i B -> i <= cols np). { intros i Hi. apply (bs_lt _ _ HB) in Hi. lia. } pose proof (bs_len _ _ HB) as LB.
    assert (ID : isint (scaled_minor np d B)) by (apply (minor_int np d e); auto; apply HSn). assert (DN : scaled_minor np d B <> 0%Qc) by (unfold scaled_minor; intros K; apply Qcmult_integral in K; tauto).
    assert (AE : forall X, (qz (product d) * qabs (minor np B) <= X)%Qc -> (qabs (scaled_minor np d B) <= X)%Qc).
    { intros X K. unfold scaled_minor. rewrite qabs_mul. replace (qabs (qz (product d))) with (qz (product d)); [exact K|].
      unfold qabs. destruct (qlt_spec (qz (product d)) 0) as [K'|]; [|reflexivity]. exfalso. assert (Pp : (0 < qz (product d))%Qc) by (change 0%Qc with (qz 0); now apply qz_lt). clear - K' Pp. qclra. }
    exists (scaled_minor np d B). split; [exact ID|]. split; [exact DN|]. split.
    + pose proof (AE _ (sf_minor _ _ _ _ _ HSn B LB (bs_lt _ _ HB))) as BK. pose proof (AE _ (sf_minor_b _ _ _ _ _ HSn B LB BLe)) as BL.
      assert (D1 : (1 <= qabs (scaled_minor np d B))%Qc) by (destruct (int_nonzero _ ID DN) as [K|K]; unfold qabs; destruct (qlt_spec (scaled_minor np d B) 0); qclra).
      assert (K1 : (1 <= K0)%Z) by (apply qz_le; change (qz 1) with 1%Qc; clear - D1 BK; qclra). assert (L1 : (1 <= L0)%Z) by (apply qz_le; change (qz 1) with 1%Qc; clear - D1 BL; qclra).
      destruct (sf_apart _ _ _ _ _ HSn) as (_ & _ & AP). assert (K2 : (K0 <= 10000)%Z) by (change (10 ^ 8)%Z with 100000000%Z in AP; nia). apply qz_le in K2. clear - BK K2. qclra.
    + replace (scaled_minor np d B * (minor np (with_column B k (cols np)) / minor np B))%Qc with (scaled_minor np d (with_column B k (cols np))) by (unfold scaled_minor; field; auto).
      apply (minor_int np d e); auto; [apply HSn|now rewrite length_with_column|]. intros i Hi. unfold with_column in Hi. apply in_map_iff in Hi. destruct Hi as (l & <- & Hl). apply in_seq in Hl.
      destruct (Nat.eqb l k); auto. apply BLe. apply nth_In. lia.
  - destruct HX as (_ & HX). rewrite HX by auto. exists 1%Qc. split; [apply isint_1|]. split; [discriminate|]. split; [discriminate|]. exists 0%Z. reflexivity.
Qed.
Lemma solve_small fuel p p' x : reachable p -> nonnegative_variables p -> moderate_data p -> solve fuel p = (p', Ok (Some x)) -> forall j, j < cols p -> small_fraction (nth j x 0%Qc).
Proof.
  intros Hr (F & N) HE E j Hj. pose proof (reachable_wf p Hr) as H. assert (Hrs : reachable (fst (to_sef p))) by now constructor. apply solve_some in E; auto. destruct E as (Bz & xs & Bo & cert & E & ->).
  destruct (simplex_small fuel _ Bz xs Bo cert (reachable_wf _ Hrs)) as (Lx & K); auto; [apply moderate_small; [now apply reachable_wf|now apply moderate_sef]|].
  assert (F' : lfree p = []) by (unfold free_variables, to_math_indexing in F; destruct (lfree p); [auto|discriminate F]).
  assert (N' : lneg p = []) by (unfold negative_variables, to_math_indexing in N; destruct (lneg p); [auto|discriminate N]).
  unfold down_if. destruct (lsef p) eqn:Hs; [apply K; now rewrite C29_already_sef by auto|].
  destruct (split_point p H Hs xs Lx) as (x1 & x2 & -> & L1 & L2). rewrite (down_split p H) by auto. rewrite F', N'. replace (collapse 0 [] x1) with x1 by (destruct x1; reflexivity). cbn [fold_left].
  rewrite F' in L1. cbn [length] in L1. specialize (K j). rewrite app_nth1 in K by lia. apply K. rewrite (sef_cols p H Hs), F'. cbn [length]. lia.
Qed.

(** ** small bounded programs: every relaxation on the way is answered correctly *)
Lemma length_ineq p : length (inequalities p) = length (lb p).
Proof. unfold inequalities. now rewrite map_length, seq_length. Qed.
Lemma all_slack p : wf p -> (forall s, In s (inequalities p) -> s <> "=") -> length (filter (has (lineq p)) (seq 0 (rows p))) = rows p.
Proof.
  intros H HI. replace (filter (has (lineq p)) (seq 0 (rows p))) with (seq 0 (rows p)); [apply seq_length|]. symmetry.
  assert (K : forall l, (forall i, In i l -> i < rows p) -> filter (has (lineq p)) l = l).
  { induction l as [|a l IH]; intros Hl; [reflexivity|]. cbn [filter]. rewrite IH by (intros; apply Hl; simpl; auto). destruct (has (lineq p) a) eqn:E; auto. exfalso.
    assert (Ha : a < length (lb p)) by (rewrite (wf_b _ H); apply Hl; simpl; auto). apply (HI (nth a (inequalities p) "=")); [apply nth_In; now rewrite length_ineq|].
    unfold inequalities. rewrite nth_map_seq by auto. unfold has, dmem in E. now destruct (dget Nat.eqb a (lineq p)). }
  apply K. intros i Hi. apply in_seq in Hi. lia.
Qed.
Lemma sef_size p : wf p -> nonnegative_variables p -> (forall s, In s (inequalities p) -> s <> "=") ->
  (lsef p = false -> length (lc (fst (to_sef p))) = cols p + rows p) /\ length (lc (fst (to_sef p))) <= cols p + rows p.
Proof.
  intros H (F & N) HI. assert (F' : lfree p = []) by (unfold free_variables, to_math_indexing in F; destruct (lfree p); [auto|discriminate F]).
  assert (K : lsef p = false -> length (lc (fst (to_sef p))) = cols p + rows p).
  { intros Hs. change (length (lc (fst (to_sef p)))) with (cols (fst (to_sef p))). rewrite (sef_cols p H Hs), F', all_slack by auto. cbn [length]. lia. }
  split; auto. destruct (lsef p) eqn:Hs; [rewrite C29_already_sef by auto; cbn [fst]; unfold cols; lia|rewrite K by auto; lia].
Qed.
(** the rows added by branching are unit vectors: the minors of a relaxation are bounded by those of the program *)
Lemma ent_unit n i j : j < n -> nth j (unit_row n i) 0%Qc = indicator j i.
Proof. intros Hj. unfold unit_row. now rewrite nth_map_seq by auto. Qed.
Lemma total_cons v l : NetSpec.total (v :: l) = (qabs v + NetSpec.total l)%Qc. Proof. reflexivity. Qed.
Lemma total_app l l' : NetSpec.total (l ++ l') = (NetSpec.total l + NetSpec.total l')%Qc.
Proof. induction l as [|v l IH]; [change (NetSpec.total []) with 0%Qc; cbn [app]; now rewrite Qcplus_0_l|]. cbn [app]. rewrite !total_cons, IH. ring. Qed.
Lemma total_bounds (ks : list Z) U : (forall k, In k ks -> (0 <= k <= Z.of_nat U)%Z) -> (NetSpec.total (map qz ks) <= qz (Z.of_nat (length ks * U)))%Qc.
Proof.
  induction ks as [|k ks IH]; intros H; [discriminate|]. cbn [map length]. rewrite total_cons. specialize (IH ltac:(intros; apply H; simpl; auto)). specialize (H k ltac:(simpl; auto)).
  assert (Ek : qabs (qz k) = qz k). { unfold qabs. destruct (qlt_spec (qz k) 0) as [L|]; auto. change 0%Qc with (qz 0) in L. apply (proj1 (qz_lt _ _)) in L. lia. }
  rewrite Ek. replace (Z.of_nat (S (length ks) * U)) with (Z.of_nat U + Z.of_nat (length ks * U))%Z by lia. rewrite qz_add. assert (K : (qz k <= qz (Z.of_nat U))%Qc) by (apply qz_le; lia). clear - IH K. qclra.
Qed.
Lemma extended_moderate_same p e K T U q us ks : wf q -> bounded_minors p e K T U -> length (lc q) = length (lc p) -> lc q = lc p -> lA q = lA p ++ map (unit_row (length (lc p))) us -> lb q = lb p ++ map qz ks -> length (lb p) = length (lA p) ->
  length us <= length (lc p) * U -> (forall k, In k ks -> (0 <= k <= Z.of_nat U)%Z) -> moderate q (repeat 1%Z (length (lA q))) e K (K * T).
Proof.
  intros H HB Lq Ecq EA Eb Lb Lus Hk. pose proof (wf_b _ H) as Lbq. unfold rows in Lbq. destruct HB as [B1 B2 B3 (B4 & B5) B6 B7 B8 B9].
  assert (LA : length (lA q) = length (lA p) + length us) by (rewrite EA, app_length, map_length; reflexivity).
  assert (Lks : length ks = length us) by (rewrite Eb, app_length, map_length in Lbq; lia).
  set (m := length (lA p)) in *. set (n := length (lc p)) in *. set (F := fun i j => nth j (nth i (lA p) []) 0%Qc).
  assert (HF : minors_within F m n (qz K)).
  { intros k r s Hr Hs. pose proof (B6 (map r (seq 0 k)) (map s (seq 0 k))) as D. rewrite !map_length, seq_length in D. rewrite (@det_ext k (fun i j => F (r i) (s j)) (fun i j => nth (nth j (map s (seq 0 k)) 0%nat) (nth (nth i (map r (seq 0 k)) 0%nat) (lA p) []) 0%Qc)).
    - apply D; auto.
      + intros i Hi. apply in_map_iff in Hi. destruct Hi as (a & <- & Ha). apply in_seq in Ha. apply Hr. lia.
      + intros i Hi. apply in_map_iff in Hi. destruct Hi as (a & <- & Ha). apply in_seq in Ha. apply Hs. lia.
    - intros i j Hi Hj. now rewrite !nth_map_seq by auto. }
  pose proof (minors_1 _ _ _ _ HF) as K1. change 1%Qc with (qz 1) in K1. apply (proj1 (qz_le _ _)) in K1.
  set (rl := fun i => if Nat.ltb i m then inl i else inr (nth (i - m) us 0) : (nat + nat)%type). set (cl := fun k => if Nat.ltb k n then inl k else inr (k - n) : (nat + nat)%type).
  assert (EW : forall i k, i < length (lA q) -> k < n + length (lA q) -> wide q i k = mixed F rl (fun _ => cl k) i 0).
  { intros i k Hi Hkk. unfold wide, mixed, cl. rewrite Lq. fold n. destruct (Nat.ltb_spec k n) as [Kn|Kn].
    - unfold rl. rewrite EA. unfold ent, at_. destruct (Nat.ltb_spec i m) as [Im|Im]; [now rewrite app_nth1 by auto|]. rewrite app_nth2 by auto. fold m.
      rewrite (nth_indep _ [] (unit_row n 0)) by (rewrite map_length; lia). rewrite map_nth. now rewrite ent_unit by auto.
    - rewrite (proj2 (Nat.ltb_lt _ _)) by auto. reflexivity. }
  assert (HT : (Sum (length (lA q)) (fun i => qabs (at_ (lb q) i)) <= qz T)%Qc).
  { rewrite <- Lbq, <- total_Sum, Eb, total_app. pose proof (total_bounds ks U Hk) as KT. rewrite Lks in KT.
    assert (KU : (qz (Z.of_nat (length us * U)) <= qz (Z.of_nat (n * U * U)))%Qc) by (apply qz_le; apply inj_le; apply Nat.mul_le_mono_r; exact Lus). clear - KT KU B8. qclra. }
  assert (Rl : forall i a, i < length (lA q) -> rl i = inl a -> a < m). { intros i a _ E. unfold rl in E. destruct (Nat.ltb_spec i m); [|discriminate E]. injection E as <-. auto. }
  assert (Cl : forall k a, cl k = inl a -> a < n). { intros k a E. unfold cl in E. destruct (Nat.ltb_spec k n); [|discriminate E]. injection E as <-. auto. }
  constructor; [constructor| | | |]; rewrite ?product_ones; auto; try lia.
  - apply repeat_length.
  - intros k Hk'. apply repeat_spec in Hk'. subst k. reflexivity.
  - intros i j Hi Hj. rewrite nth_ones. change (qz 1) with 1%Qc. rewrite Qcmult_1_l. apply ent_int. intros r v Hr Hv. rewrite EA in Hr. apply in_app_or in Hr. destruct Hr as [Hr|Hr]; [now apply (B1 r)|].
    apply in_map_iff in Hr. destruct Hr as (u & <- & _). unfold unit_row in Hv. apply in_map_iff in Hv. destruct Hv as (x & <- & _). destruct (Nat.eqb x u); [apply isint_1|apply isint_0].
  - intros i Hi. rewrite nth_ones. change (qz 1) with 1%Qc. rewrite Qcmult_1_l. apply at_int. intros v Hv. rewrite Eb in Hv. apply in_app_or in Hv. destruct Hv as [Hv|Hv]; auto. apply in_map_iff in Hv. destruct Hv as (z & <- & _). now exists z.
  - intros j Hj. rewrite Ecq. apply B3. apply nth_In. now rewrite <- Ecq.
  - split; [lia|]. split; [nia|]. nia.
  - intros s Ls Hs. change (qz 1) with 1%Qc. rewrite Qcmult_1_l. rewrite Lq in Hs. rewrite (@det_ext (length (lA q)) _ (mixed F rl (fun j => cl (nth j s 0)))).
    + apply (mixed_det F m n (qz K) HF); auto. intros j a Hj E. now apply (Cl _ _ E).
    + intros i j Hi Hj. rewrite EW; auto. apply Hs. apply nth_In. lia.
  - intros s Ls Hs. change (qz 1) with 1%Qc. rewrite Qcmult_1_l. rewrite Lq in Hs.
    rewrite (@det_ext (length (lA q)) _ (fun i j => if Nat.eqb (nth j s 0) (n + length (lA q)) then at_ (lb q) i else mixed F rl (fun j => cl (nth j s 0)) i j)).
    + apply (mixed_b_det F m n (qz K) _ HF _ rl (fun j => cl (nth j s 0)) (at_ (lb q)) (fun j => Nat.eqb (nth j s 0) (n + length (lA q)))); auto.
      * intros j a Hj E. now apply (Cl _ _ E).
      * apply qz_le. nia.
      * rewrite qz_mul, !(Qcmult_comm (qz K)). apply qmul_le_r; auto. change 0%Qc with (qz 0). apply qz_le. lia.
    + intros i j Hi Hj. assert (Hn : nth j s 0 <= n + length (lA q)) by (apply Hs, nth_In; lia). destruct (Nat.eqb_spec (nth j s 0) (n + length (lA q))) as [E|E].
      * rewrite E. unfold wide. rewrite Lq. fold n. now rewrite !(proj2 (Nat.ltb_ge _ _)) by lia.
      * rewrite EW by (auto; lia). reflexivity.
Qed.
Lemma extended_moderate p e K T U q us ks : wf q -> bounded_minors p e K T U -> length (lc q) = length (lc p) -> lc q = lc p -> lA q = lA p ++ map (unit_row (length (lc p))) us -> lb q = lb p ++ map qz ks -> length (lb p) = length (lA p) ->
  length us <= length (lc p) * U -> (forall k, In k ks -> (0 <= k <= Z.of_nat U)%Z) -> moderate_data q.
Proof. intros H HB Lq Ecq EA Eb Lb Lus Hk. exists (repeat 1%Z (length (lA q))), e, K, (K * T)%Z. now apply (extended_moderate_same p e K T U q us ks). Qed.
Section Small.
  Context (p : lp) (ints : option (list Z)) (e KK TT : Z) (U : nat) (fuel : nat).
  Context (HS : bounded_minors p e KK TT U) (Hb : length (lb p) = length (lA p)) (Hmn : cols p < rows p) (Hfuel : 2 ^ (cols p + 2 * (rows p + cols p * U)) <= fuel).
  Definition inv (q : lp) : Prop :=
    reachable q /\ nonnegative_variables q /\ cols q = cols p /\ rows p <= rows q /\ lobj q = lobj p /\ lc q = lc p /\
    (forall s, In s (inequalities q) -> s <> "=") /\
    (exists us ks, lA q = lA p ++ map (unit_row (length (lc p))) us /\ lb q = lb p ++ map qz ks /\ forall k, In k ks -> (0 <= k <= Z.of_nat U)%Z) /\
    exists lo hi, boxed ints q lo hi /\ (forall i, (0 <= lo i)%Z /\ (hi i <= Z.of_nat U)%Z) /\ rows q + width (cols p) lo hi <= rows p + cols p * U.
  Lemma inv_moderate q : inv q -> moderate_data q.
  Proof.
    intros (I1 & I2 & I3 & I4 & I5 & I6 & I7 & (us & ks & I8 & I9 & IA) & lo & hi & _ & _ & IB). apply (extended_moderate p e KK TT U q us ks); auto; [now apply reachable_wf|].
    unfold rows, cols in *. rewrite I8, app_length, map_length in IB. lia.
  Qed.
  Lemma inv_solve q : inv q -> (exists x, solve fuel q = (q, Ok (Some x)) /\ optimal (meaning q) x) \/ (solve fuel q = (q, Ok None) /\ (infeasible (meaning q) \/ unbounded (meaning q))).
  Proof.
    intros HI. pose proof (inv_moderate q HI) as HE. destruct HI as (I1 & I2 & I3 & I4 & I5 & I6 & I9 & _ & lo & hi & _ & _ & I10).
    pose proof (reachable_wf q I1) as H. destruct (sef_size q H I2 I9) as (S1 & S2). apply (C42_complete_partial q); auto.
    - unfold rows, cols in *. lia.
    - apply no_equations. intros i Hi. apply I9. apply nth_In. rewrite length_ineq, (wf_b _ H). exact Hi.
    - apply Nat.le_trans with (2 := Hfuel). apply Nat.pow_le_mono_r; [lia|]. unfold rows, cols in *. lia.
    - destruct (lsef q) eqn:Hs; auto. right. left. rewrite S1 by auto. unfold rows, cols in *. lia.
  Qed.
  Lemma inv_child q i s k r : inv q -> i < cols q -> bound_sign s -> child q i s k = Ok r -> (0 <= k <= Z.of_nat U)%Z ->
    (forall lo hi, boxed ints q lo hi -> (forall i, (0 <= lo i)%Z /\ (hi i <= Z.of_nat U)%Z) -> exists lo' hi', boxed ints r lo' hi' /\ (forall i, (0 <= lo' i)%Z /\ (hi' i <= Z.of_nat U)%Z) /\ width (cols q) lo' hi' < width (cols q) lo hi) -> inv r.
  Proof.
    intros (I1 & I2 & I3 & I4 & I5 & I6 & I9 & (us & ks & I7 & I8 & I11) & lo & hi & B1 & B2 & I10) Hi Hs E Hk HB.
    destruct (child_spec q i s k r (reachable_wf q I1) Hi Hs E) as (R1 & R2 & R3 & R4 & R5 & R6 & R7 & R8 & R9 & R10 & _).
    split; auto. split; auto. split; [congruence|]. split; [lia|]. split; [congruence|]. split; [congruence|]. split; [|split].
    - intros t Ht. rewrite R9 in Ht. apply in_app_iff in Ht. destruct Ht as [Ht|[<-|[]]]; [now apply I9|]. destruct Hs as [-> | ->]; discriminate.
    - exists (us ++ [i]), (ks ++ [k]). rewrite R4, R5, I7, I8, !map_app, <- !app_assoc. unfold cols in I3. unfold cols. rewrite I3. split; [reflexivity|]. split; [reflexivity|].
      intros z Hz. apply in_app_iff in Hz. destruct Hz as [Hz|[<-|[]]]; auto.
    - destruct (HB lo hi B1 B2) as (lo' & hi' & C1 & C2 & C3). exists lo', hi'. split; auto. split; auto. rewrite I3 in C3. lia.
  Qed.
  Lemma inv_visited q : inv p -> visited fuel ints p q -> inv q.
  Proof.
    intros HP HV. induction HV as [|q x i r HV IH Es Hi Hq Hf Ec|q x i r HV IH Es Hi Hq Hf Ec]; auto.
    - pose proof (inv_solve q IH) as K. assert (O : optimal (meaning q) x) by (destruct K as [(x' & K & O)|(K & _)]; rewrite K in Es; cbn [snd] in Es; [injection Es as <-; exact O|discriminate Es]).
      destruct O as (Fx & _). assert (Lx : length x = cols q) by apply Fx. assert (Hi' : i < cols q) by lia. pose proof IH as (I1 & I2 & _ & _ & _ & _ & _ & _ & lo & hi & B1 & B2 & _).
      destruct B1 as (B0 & B1). destruct (B1 x Fx i Hi' Hq) as (X1 & X2). destruct (fraction_between _ _ _ X1 X2) as (F1 & F2 & F3 & F4); [intros Z; apply Hf; now apply isint_near|]. pose proof (B2 i) as (B3 & B4).
      apply (inv_child q i "<=" (floor (nth i x 0%Qc))); auto; [now left|lia|]. intros l h C1 C2. destruct (branch_box ints q i x l h I1 I2 Fx Hi' Hq Hf C1) as (D1 & _). destruct (D1 r Ec) as (D2 & D3).
      exists l, (upd h i (floor (nth i x 0%Qc))). split; auto. split; auto. intros j. destruct (C2 j). split; auto. unfold upd. destruct (Nat.eqb j i); lia.
    - pose proof (inv_solve q IH) as K. assert (O : optimal (meaning q) x) by (destruct K as [(x' & K & O)|(K & _)]; rewrite K in Es; cbn [snd] in Es; [injection Es as <-; exact O|discriminate Es]).
      destruct O as (Fx & _). assert (Lx : length x = cols q) by apply Fx. assert (Hi' : i < cols q) by lia. pose proof IH as (I1 & I2 & _ & _ & _ & _ & _ & _ & lo & hi & B1 & B2 & _).
      destruct B1 as (B0 & B1). destruct (B1 x Fx i Hi' Hq) as (X1 & X2). destruct (fraction_between _ _ _ X1 X2) as (F1 & F2 & F3 & F4); [intros Z; apply Hf; now apply isint_near|]. pose proof (B2 i) as (B3 & B4).
      apply (inv_child q i ">=" (ceil (nth i x 0%Qc))); auto; [now right|lia|]. intros l h C1 C2. destruct (branch_box ints q i x l h I1 I2 Fx Hi' Hq Hf C1) as (_ & D1). destruct (D1 r Ec) as (D2 & D3).
      exists (upd l i (ceil (nth i x 0%Qc))), h. split; auto. split; auto. intros j. destruct (C2 j). split; auto. unfold upd. destruct (Nat.eqb j i); lia.
  Qed.
  Lemma inv_answer q : inv q -> answers fuel q /\ right_answer fuel q.
  Proof.
    intros HI. unfold answers, right_answer. destruct (inv_solve q HI) as [(x & -> & O)|(-> & O)]; cbn [snd]; split; eauto; split; try discriminate; auto. intros y K. injection K as <-. exact O.
  Qed.
  (** the vector of a result is the solution of a relaxation, hence a vector of small fractions *)
  Lemma branch_result : forall depth q x v, (forall q', visited fuel ints q q' -> inv q') -> branch depth fuel ints q = Ok (Some (x, v)) -> length x = cols p -> forall j, j < cols p -> small_fraction (nth j x 0%Qc).
  Proof.
    induction depth as [|depth IH]; intros q x v HV E Lx j Hj; [discriminate E|]. cbn [branch] in E. pose proof (HV q (v_root _ _ _)) as HI. pose proof (inv_moderate q HI) as HE. pose proof HI as (I1 & I2 & I3 & _).
    pose proof (reachable_wf q I1) as H. destruct (solve fuel q) as (q' & s) eqn:Es.
    destruct s as [[xs|]| |]; cbn [bind] in E; try discriminate E.
    assert (Eq : q' = q) by (destruct (C45_unchanged_when_returning_partial fuel q I1) as (_ & _ & K); specialize (K (Some xs)); rewrite Es in K; now apply K). subst q'.
    destruct (evaluate q xs) as [ov| |]; cbn [bind] in E; try discriminate E. assert (Fx : feasible (meaning q) xs) by (destruct (inv_answer q HI) as (_ & (K & _)); apply (K xs); now rewrite Es). assert (Ls : length xs = cols q) by apply Fx.
    pose proof (first_fraction_spec ints xs 0) as FF. destruct (first_fraction ints 0 xs) as [i|].
    2:{ injection E as <- <-. apply (solve_small fuel q q xs I1 I2 HE Es). congruence. }
    destruct FF as (_ & F2 & F3 & F4). rewrite Nat.sub_0_r in *. set (w := nth i xs 0%Qc) in *. 
    destruct (child q i "<=" (floor w)) as [ql| |] eqn:El; cbn [bind] in E; try discriminate E. destruct (branch depth fuel ints ql) as [rl| |] eqn:Bl; cbn [bind] in E; try discriminate E.
    destruct (child q i ">=" (ceil w)) as [qh| |] eqn:Eh; cbn [bind] in E; try discriminate E. destruct (branch depth fuel ints qh) as [rh| |] eqn:Bh; cbn [bind] in E; try discriminate E. injection E as E.
    assert (Vl : visited fuel ints q ql) by (eapply v_lower; [apply v_root|rewrite Es; reflexivity|exact F2|exact F3|exact F4|exact El]).
    assert (Vh : visited fuel ints q qh) by (eapply v_higher; [apply v_root|rewrite Es; reflexivity|exact F2|exact F3|exact F4|exact Eh]).
    assert (KL : rl = Some (x, v) -> small_fraction (nth j x 0%Qc)) by (intros ->; apply (IH ql x v); auto; intros q' Hq'; apply HV; exact (visited_trans _ _ _ _ _ Vl Hq')).
    assert (KH : rh = Some (x, v) -> small_fraction (nth j x 0%Qc)) by (intros ->; apply (IH qh x v); auto; intros q' Hq'; apply HV; exact (visited_trans _ _ _ _ _ Vh Hq')).
    unfold better in E. destruct rl as [rl|], rh as [rh|]; auto; try discriminate E. destruct (String.eqb (lobj q) "max"), (qlt (snd rl) (snd rh)); auto.
  Qed.
End Small.

(** ** deciding the hypothesis for a given matrix *)
Definition minors_check (A : list (list Qc)) (m n : nat) (K : Z) : bool :=
  forallb (fun k => forallb (fun rs => forallb (fun cs => qle (qabs (det k (fun i j => nth (nth j cs 0%nat) (nth (nth i rs 0%nat) A []) 0%Qc))) (qz K)) (tuples k n)) (tuples k m)) (seq 0 (S n)).
Lemma minors_check_ok A m n K : minors_check A m n K = true -> forall rs cs, length rs = length cs -> (forall i, In i rs -> i < m) -> (forall j, In j cs -> j < n) ->
  (qabs (det (length rs) (fun i j => nth (nth j cs 0%nat) (nth (nth i rs 0%nat) A []) 0)) <= qz K)%Qc.
Proof.
  intros E rs cs L Hr Hc. unfold minors_check in E. rewrite forallb_forall in E.
  assert (G : forall k, k <= n -> forall rs cs, length rs = k -> length cs = k -> (forall i, In i rs -> i < m) -> (forall j, In j cs -> j < n) -> (qabs (det k (fun i j => nth (nth j cs 0%nat) (nth (nth i rs 0%nat) A []) 0)) <= qz K)%Qc).
  { intros k Hk rs' cs' L1 L2 Hr' Hc'. specialize (E k ltac:(apply in_seq; lia)). rewrite forallb_forall in E. specialize (E rs' (In_tuples _ _ _ L1 Hr')). rewrite forallb_forall in E. specialize (E cs' (In_tuples _ _ _ L2 Hc')).
    cbn beta in E. now destruct (qle_spec (qabs (det k (fun i j => nth (nth j cs' 0%nat) (nth (nth i rs' 0%nat) A []) 0%Qc))) (qz K)). }
  destruct (le_lt_dec (length rs) n) as [Hl|Hl]; [apply G; auto|].
  destruct (duplicate_or_inj (length rs) (fun j => nth j cs 0)) as [(i & j & Hi & Hj & Hne & Q)|Hinj].
  - rewrite (det_equal_columns (n := length rs) (f := fun i j => nth (nth j cs 0%nat) (nth (nth i rs 0%nat) A []) 0%Qc) Hi Hj Hne); [|intros a Ha; now rewrite Q].
    change (qabs (Q2Qc 0)) with 0%Qc. apply Qcle_trans with 1%Qc; [discriminate|]. apply (G 0 ltac:(lia) [] []); auto; intros ? [].
  - exfalso. assert (length rs <= n); [|lia]. apply (inj_le_bound _ n (fun j => nth j cs 0)); auto. intros j Hj. apply Hc. apply nth_In. lia.
Qed.
