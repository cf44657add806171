(** The two-phase method with rounding errors takes the steps of the exact one. *)
From Coq Require Import String List Bool Arith ZArith QArith Qcanon Lia Sorted.
From Verif Require Import Py QcTac QSum QInt ComparatorModel ComparatorProofs MatModel DetTheory MatTheory LinearModel LinearSpec LinearProofs SefProofs LinearInv DualProofs BasisProofs BlandProofs SimplexProofs SmallProofs TwoPhaseProofs LinearProps SimplexProps RoundedModel RoundedSpec RoundedProofs RoundedExact RoundedProps RoundedSolveModel RoundedSolveSpec RoundedSolveProofs RoundedRunModel RoundedRunSpec RoundedRunProofs.
Import ListNotations.
Open Scope nat_scope.
Open Scope string_scope.
Open Scope list_scope.

(** the test of the determinant, for any program with whole numbers *)
Lemma check_any e r Bz ok : wf r -> whole_numbers r -> (0 <= e)%Qc -> (qz 16 * e < tol_zero)%Qc -> run_is_basis e r Bz ok -> ok = is_basis r Bz.
Proof.
  intros Hr HI He T. unfold run_is_basis, is_basis. destruct (negb (Nat.eqb (rows r) (length Bz))) eqn:E1; auto. destruct (Nat.eqb (length Bz) 0) eqn:E2; auto. destruct (negb (forallb _ Bz)) eqn:E3; auto. intros (d & Hd & ->). f_equal. f_equal.
  apply negb_false_iff, Nat.eqb_eq in E1. apply negb_false_iff in E3. rewrite forallb_forall in E3.
  set (B := sort (to_array_indexing Bz)) in *. assert (LB : length B = rows r) by (unfold B; rewrite length_sort; unfold to_array_indexing; now rewrite map_length).
  assert (RB : forall j, In j B -> j < cols r). { intros j Hj. unfold B in Hj. apply (proj1 (In_sort _ _)) in Hj. unfold to_array_indexing in Hj. apply in_map_iff in Hj. destruct Hj as (z & <- & Hz). specialize (E3 z Hz). apply andb_true_iff in E3. rewrite !Z.leb_le in E3. lia. }
  assert (ED : mdet (columns_of B (lA r)) = minor r B).
  { unfold mdet. rewrite length_columns. symmetry. apply minor_ext; auto. intros i j Hi Hj. rewrite (append_A r Hr) by (auto; apply RB, nth_In; rewrite LB; exact Hj). rewrite ent_columns; auto. now rewrite LB. }
  assert (IM : isint (minor r B)) by (apply at_int_minors; auto; intros j Hj; apply Nat.lt_le_incl, RB; exact Hj). rewrite ED in *. clear ED. set (D := minor r B) in *. clearbody D. unfold within in Hd. apply qabs_le in Hd.
  unfold is_close_to_zero. destruct (qeq_spec D 0) as [->|N].
  - assert (A : (qabs d < tol_zero)%Qc). { unfold qabs. destruct (qlt_spec d 0); clear - Hd T He; destruct Hd; unfold qz, inject_Z in *; qclra. }
    destruct (qlt_spec (qabs d) tol_zero); [|contradiction]. reflexivity.
  - apply int_nonzero in IM; auto. assert (A : (tol_zero <= qabs d)%Qc /\ (tol_zero <= qabs D)%Qc).
    { unfold qabs. clear - IM T He Hd. destruct Hd. unfold qz, inject_Z, tol_zero in *. split; [destruct (qlt_spec d 0)|destruct (qlt_spec D 0)]; destruct IM; qclra. }
    destruct (qlt_spec (qabs d) tol_zero) as [C|_]; [exfalso; clear - C A; destruct A; qclra|]. destruct (qlt_spec (qabs D) tol_zero) as [C|_]; auto. exfalso. clear - C A. destruct A. qclra.
Qed.
(** the entries of a basic solution *)
Lemma bsol_quotient r K B f j : wf r -> whole_numbers r -> minors_at_most K r -> basis r B -> bsol r B f -> j < cols r -> (0 < f j)%Qc -> (1 <= f j * qz K)%Qc.
Proof.
  intros Hr HI HM HB HX Hj Hpos. destruct (basis_canon r B Hr HB) as (q & Eq & HC). destruct (in_dec Nat.eq_dec j B) as [I|I]; [|rewrite (proj2 HX j Hj I) in Hpos; discriminate Hpos].
  destruct (In_bk r B j HB I) as (i & Hi & <-). rewrite (bsol_at r B q HB HC f HX i Hi) in *. rewrite (canonical_b r B q Hr HB Eq i Hi) in *.
  assert (Bl : forall l, In l B -> l <= cols r) by (intros l Hl; apply Nat.lt_le_incl, (bs_lt _ _ HB), Hl).
  apply quotient_ge; auto; [|now apply minor_nonzero|apply HM; [apply HB|exact Bl]].
  apply at_int_minors; auto; [rewrite length_with_column; apply HB|]. intros l Hl. unfold with_column in Hl. apply in_map_iff in Hl. destruct Hl as (n & <- & Hn). apply in_seq in Hn. destruct (Nat.eqb n i); auto. apply Bl, nth_In. lia.
Qed.
(** the search *)
Lemma complete_same e r Pb Zs size : wf r -> whole_numbers r -> (0 <= e)%Qc -> (qz 16 * e < tol_zero)%Qc -> forall queue c, run_complete e r Pb Zs size queue c ->
  forall fuel, complete_basis fuel r Pb Zs size queue <> Diverges -> c = complete_basis fuel r Pb Zs size queue.
Proof.
  intros Hr HI He T queue c R. induction R as [|i cur queue L E|i cur queue x L E|i cur queue o L E R IH|i cur queue o L R IH]; intros [|fuel] D; try (now elim D); cbn [complete_basis] in *.
  - reflexivity.
  - rewrite L, Nat.eqb_refl in *. apply check_any in E; auto. now rewrite <- E.
  - rewrite L, Nat.eqb_refl in *. apply check_any in E; auto. now rewrite <- E.
  - rewrite L, Nat.eqb_refl in *. apply check_any in E; auto. rewrite <- E in *. cbn [bind] in *. now apply IH.
  - destruct (Nat.eqb_spec (length cur) size); [contradiction|]. now apply IH.
Qed.
(** what starts the second phase of the exact method *)
Definition exact_start (fuel : nat) (p : lp) (x : list Qc) (basis : list Z) : res (list Z) :=
  match is_basis p basis with
  | Raise y => Raise y
  | Diverges => Diverges
  | Ok true => Ok basis
  | Ok false =>
    let positive := map S (filter (fun i => negb (is_close_to_zero (at_ x i))) (seq 0 (cols p))) in
    let zero_set := map S (filter (fun i => is_close_to_zero (at_ x i)) (seq 0 (cols p))) in
    let size := rows p - length positive in
    let start := map (fun i => (i, [nth i zero_set 0])) (seq 0 (S (length zero_set) - size)) in
    if Nat.leb (rows p) (length positive) then Raise IndexError
    else match complete_basis fuel p positive zero_set size (rev start) with
         | Ok (Some B) => Ok (map Z.of_nat B)
         | Ok None => Ok (map Z.of_nat positive)
         | Raise y => Raise y
         | Diverges => Diverges
         end
  end.
Lemma phases_of fuel p a x B cert : wf p -> lsef p = true -> simplex fuel (aux p) (map Z.of_nat (seq (S (cols p)) (rows p))) = (a, Ok (Some x, Some B, cert)) -> forall v, evaluate a x = Ok v -> is_close_to_zero v = true ->
  two_phase_simplex fuel p = match exact_start fuel p x B with Ok B => simplex fuel p B | Raise e => (p, Raise e) | Diverges => (p, Diverges) end.
Proof.
  intros H Hs E1 v Ev C. destruct (auxiliary_aux p Hs) as (a0 & Ea0 & Ea). unfold two_phase_simplex, exact_start. rewrite Ea0. cbv zeta. rewrite Ea, E1, Ev, C. destruct (is_basis p B) as [[|]| |]; auto. destruct (Nat.leb _ _); auto. destruct (complete_basis _ _ _ _ _ _) as [[?|]| |]; auto.
Qed.

Section Two.
  Variables (e : Qc) (K : Z) (p : lp).
  Hypothesis Hp : wf p.
  Hypothesis Hs : lsef p = true.
  Hypothesis HS : steady e K p.
  Hypothesis Hm : 0 < rows p.
  Variable fuel : nat.
  Hypothesis Hfuel : 2 ^ (cols p + rows p) <= fuel.
  Let a := aux p.
  Let n := cols p.
  Let m := rows p.
  Let k := qz K.
  Let mq := qz (Z.of_nat m).
  Let h := (e * (1 + mq * k))%Qc.
  Let He : (0 <= e)%Qc := st_e0 _ _ _ HS.
  Let HI : whole_numbers p := st_whole _ _ _ HS.
  Let HIa : whole_numbers a := whole_aux p Hp HI.
  Let HK := st_K _ _ _ HS.
  Let HM : minors_at_most K p := minors_sub K p Hp (st_minors _ _ _ HS).
  Let HMa : minors_at_most K a. Proof. apply minors_aux; auto; [lia|apply (st_minors _ _ _ HS)]. Qed.
  Let HRa : rows a = m := rows_aux p Hp.
  Let HCa : cols a = n + m := cols_aux p.
  Let Ha : wf a := wf_aux p Hp.
  Let HN : negate_rows a = a := neg_aux p Hp.
  Let k1 : (1 <= k)%Qc. Proof. unfold k. change 1%Qc with (qz 1). apply qz_le. lia. Qed.
  Let k0 : (0 <= k)%Qc. Proof. eapply Qcle_trans; [|exact k1]. discriminate. Qed.
  Let m0 : (0 <= mq)%Qc. Proof. unfold mq. change 0%Qc with (qz 0). apply qz_le. lia. Qed.
  Let mk1 : (1 <= 1 + mq * k)%Qc.
  Proof. assert (0 <= mq * k)%Qc by (apply qmul_nonneg; [exact m0|exact k0]). set (u := (mq * k)%Qc) in *. clear - H. clearbody u. qclra. Qed.
  Let h0 : (0 <= h)%Qc. Proof. unfold h. apply qmul_nonneg; auto. eapply Qcle_trans; [|exact mk1]. discriminate. Qed.
  Let eh : (e <= h)%Qc. Proof. unfold h. rewrite (Qcmult_comm e). rewrite <- (Qcmult_1_l e) at 1. now apply qmul_le_r. Qed.
  Let w1 : (1 <= weight p)%Qc. Proof. apply (weight_ge p Hp). Qed.
  Let hk0 : (0 <= h * k)%Qc. Proof. now apply qmul_nonneg. Qed.
  Let all16 : (qz 16 * ((weight p + qz 2 * mq) * (h * k)) < tol_zero)%Qc.
  Proof. replace (qz 16 * ((weight p + qz 2 * mq) * (h * k)))%Qc with (qz 16 * e * (weight p + qz 2 * mq) * (1 + mq * k) * k)%Qc by (unfold h; ring). exact (st_e _ _ _ HS). Qed.
  Let Hcp : (qz 16 * e * weight p * (1 + qz (Z.of_nat (rows p)) * qz K) * qz K < tol_zero)%Qc.
  Proof.
    fold m mq k. replace (qz 16 * e * weight p * (1 + mq * k) * k)%Qc with (qz 16 * (weight p * (h * k)))%Qc by (unfold h; ring). assert (A : (weight p * (h * k) <= (weight p + qz 2 * mq) * (h * k))%Qc). { apply qmul_le_r; [|exact hk0]. pose proof m0. unfold qz at 1, inject_Z. clear - H. clearbody mq. qclra. }
    pose proof all16 as B. set (u := (weight p * (h * k))%Qc) in *. set (v := ((weight p + qz 2 * mq) * (h * k))%Qc) in *. clear - A B. clearbody u v. unfold qz, inject_Z in *. qclra.
  Qed.
  Let Hca : (qz 16 * e * weight a * (1 + qz (Z.of_nat (rows a)) * qz K) * qz K < tol_zero)%Qc.
  Proof.
    rewrite HRa. fold mq k. replace (qz 16 * e * weight a * (1 + mq * k) * k)%Qc with (qz 16 * (weight a * (h * k)))%Qc by (unfold h; ring). assert (A : (weight a * (h * k) <= (weight p + qz 2 * mq) * (h * k))%Qc) by (apply qmul_le_r; [exact (weight_aux p Hp)|exact hk0]).
    pose proof all16 as B. set (u := (weight a * (h * k))%Qc) in *. set (v := ((weight p + qz 2 * mq) * (h * k))%Qc) in *. clear - A B. clearbody u v. unfold qz, inject_Z in *. qclra.
  Qed.
  (** (1 + 2 m) h *)
  Let mh16 : (qz 16 * ((1 + qz 2 * mq) * h) < tol_zero)%Qc.
  Proof.
    assert (A : ((1 + qz 2 * mq) * h <= (weight p + qz 2 * mq) * (h * k))%Qc).
    { eapply Qcle_trans; [apply qmul_le_r; [|exact h0]; apply Qcplus_le_compat; [exact w1|apply Qcle_refl]|]. rewrite !(Qcmult_comm (weight p + qz 2 * mq)). apply qmul_le_r.
      - rewrite (Qcmult_comm h k). rewrite <- (Qcmult_1_l h) at 1. now apply qmul_le_r.
      - assert (0 <= qz 2 * mq)%Qc by (apply qmul_nonneg; [discriminate|exact m0]). pose proof w1 as W. set (u := (qz 2 * mq)%Qc) in *. set (w := weight p) in *. clear - H W. clearbody u w. qclra. }
    pose proof all16 as B. set (u := ((1 + qz 2 * mq) * h)%Qc) in *. set (v := ((weight p + qz 2 * mq) * (h * k))%Qc) in *. clear - A B. clearbody u v. unfold qz, inject_Z in *. qclra.
  Qed.
  Let mh0 : (0 <= mq * h)%Qc. Proof. now apply qmul_nonneg. Qed.
  Let e16 : (qz 16 * e < tol_zero)%Qc.
  Proof. pose proof mh16 as A. pose proof eh as B. pose proof mh0 as C. replace ((1 + qz 2 * mq) * h)%Qc with (h + qz 2 * (mq * h))%Qc in A by ring. set (u := (mq * h)%Qc) in *. clear - A B C. clearbody u h. unfold qz, inject_Z in *. qclra. Qed.
  Let hh16 : (qz 16 * h < tol_zero)%Qc.
  Proof. pose proof mh16 as A. pose proof mh0 as C. replace ((1 + qz 2 * mq) * h)%Qc with (h + qz 2 * (mq * h))%Qc in A by ring. set (u := (mq * h)%Qc) in *. clear - A C. clearbody u h. unfold qz, inject_Z in *. qclra. Qed.
  Let smp : small_data p := small_p K p HI HM HK.
  Let sma : small_data a := small_p K a HIa HMa HK.
  (** numbers that are 0 or at least 1/300 in absolute value keep their test *)
  Lemma zero_same v v0 t : (0 <= t)%Qc -> (t < tol_zero)%Qc -> (qabs (v - v0) <= t)%Qc -> (v0 = 0%Qc \/ (Q2Qc (1 # 300) <= qabs v0)%Qc) -> is_close_to_zero v = is_close_to_zero v0.
  Proof.
    intros T0 T1 Hv [->|G]; apply qabs_le in Hv; unfold is_close_to_zero.
    - assert (qabs v < tol_zero)%Qc by (unfold qabs; destruct (qlt_spec v 0); clear - Hv T1; destruct Hv; qclra). destruct (qlt_spec (qabs v) tol_zero); [reflexivity|contradiction].
    - unfold tol_zero in *. assert (A : (Q2Qc (1 # 400) <= qabs v)%Qc) by (unfold qabs in *; destruct (qlt_spec v0 0) as [C1|C1], (qlt_spec v 0) as [C2|C2]; clear - Hv T1 G C1 C2; destruct Hv; qclra).
      destruct (qlt_spec (qabs v) (Q2Qc (1 # 10000000000))) as [C|_]; [exfalso; set (u := qabs v) in *; clear - C A; clearbody u; qclra|]. destruct (qlt_spec (qabs v0) (Q2Qc (1 # 10000000000))) as [C|_]; auto. exfalso. set (u := qabs v0) in *. clear - C G. clearbody u. qclra.
  Qed.
  Lemma k300 f : (0 < f)%Qc -> (1 <= f * k)%Qc -> (Q2Qc (1 # 300) <= f)%Qc.
  Proof.
    intros P1 P2. assert (A : (f * k <= f * qz 300)%Qc) by (rewrite !(Qcmult_comm f); apply qmul_le_r; [unfold k; apply qz_le; lia|now apply Qclt_le_weak]). set (u := (f * k)%Qc) in *. clear - A P2. clearbody u. unfold qz, inject_Z in *. qclra.
  Qed.
  (** the two starts agree *)
  Lemma start_same x x0 B o : length x = n + m -> close_by (qz 8 * h)%Qc x x0 -> (forall j, j < n + m -> at_ x0 j = 0%Qc \/ (Q2Qc (1 # 300) <= at_ x0 j)%Qc) ->
    run_start e p x B o -> exact_start fuel p x0 B <> Diverges -> o = exact_start fuel p x0 B.
  Proof.
    intros Lx (_ & CX) X0 (ok & Hok & R) ND. unfold exact_start in *. apply check_any in Hok; auto. subst ok. destruct (is_basis p B) as [[|]| |]; auto; [|contradiction].
    assert (C : forall i, i < n -> is_close_to_zero (at_ x i) = is_close_to_zero (at_ x0 i)).
    { intros i Hi. apply (zero_same _ _ (qz 8 * h)%Qc).
      - apply qmul_nonneg; [discriminate|exact h0].
      - pose proof hh16 as A. pose proof h0 as A0. clear - A A0. clearbody h. unfold qz, inject_Z in *. qclra.
      - apply CX. rewrite Lx. lia.
      - destruct (X0 i ltac:(lia)) as [Z|Z]; auto. right. unfold qabs. destruct (qlt_spec (at_ x0 i) 0) as [C1|C1]; auto. exfalso. clear - C1 Z. qclra. }
    cbv zeta in R, ND. rewrite (filter_ext_in (fun i => negb (is_close_to_zero (at_ x i))) (fun i => negb (is_close_to_zero (at_ x0 i)))) in R by (intros i Hi; apply in_seq in Hi; rewrite C; auto; unfold n; lia).
    rewrite (filter_ext_in (fun i => is_close_to_zero (at_ x i)) (fun i => is_close_to_zero (at_ x0 i))) in R by (intros i Hi; apply in_seq in Hi; apply C; unfold n; lia).
    cbv zeta. destruct (Nat.leb _ _); auto. destruct R as (c & Rc & ->). rewrite (complete_same e p _ _ _ Hp HI He e16 _ _ Rc fuel); [reflexivity|]. intros Z. rewrite Z in ND. now apply ND.
  Qed.
  (** the start of the exact method is a feasible basis or no basis at all *)
  Lemma start_cases x B : length x = n + m -> basis a B -> bsol a B (at_ x) -> (forall j, j < n + m -> (0 <= at_ x j)%Qc) -> (forall j, j < n + m -> (0 < at_ x j -> tol_zero <= at_ x j)%Qc) -> (forall i, i < m -> at_ x (n + i) = 0%Qc) ->
    (exists Bz, exact_start fuel p x (to_math_indexing B) = Ok Bz /\ ((is_basis p Bz = Ok true /\ feasible_basis p Bz) \/ is_basis p Bz = Ok false)) \/ exact_start fuel p x (to_math_indexing B) = Raise IndexError.
  Proof.
    intros Lx HB HX Hx0 Hxt HZ. assert (SX : solves 1 p (at_ x)) by (apply drop_artificial; auto; apply HX).
    set (x0 := firstn n x). assert (Lx0 : length x0 = n) by (unfold x0; rewrite firstn_length; lia).
    assert (A0 : forall j, j < n -> at_ x0 j = at_ x j). { intros j Hj. unfold x0. rewrite <- (firstn_skipn n x) at 2. rewrite at_app1; auto. rewrite firstn_length. lia. }
    assert (F0 : feasible (meaning p) x0).
    { apply sfeas_iff; auto. split; auto. split; [|intros j Hj; rewrite A0 by auto; apply Hx0; fold n in Hj; lia]. intros i Hi. specialize (SX i Hi). unfold BasisProofs.lhs in SX. rewrite Qcmult_1_l in SX. rewrite <- SX. apply Sum_ext. intros j Hj. now rewrite A0. }
    unfold exact_start. destruct (is_basis_total p (to_math_indexing B) Hm) as (b & Eb). rewrite Eb. destruct b.
    - left. eexists. split; [reflexivity|]. left. split; auto. exists x0. split; auto. intros j Hj Hn. rewrite Lx0 in Hj. fold (at_ x0 j). rewrite A0 by auto. apply (proj2 HX); [rewrite HCa; lia|]. intros C. apply Hn. apply In_math. eauto.
    - cbv zeta. fold n. set (P0 := filter (fun i => negb (is_close_to_zero (at_ x i))) (seq 0 n)). set (Z0 := filter (fun i => is_close_to_zero (at_ x i)) (seq 0 n)). set (Zs := map S Z0). set (size := rows p - length (map S P0)).
      destruct (Nat.leb_spec (rows p) (length (map S P0))) as [|Hlt]; [now right|]. left.
      assert (HZs : 2 ^ length Zs <= fuel).
      { unfold Zs. rewrite map_length. apply Nat.le_trans with (2 ^ (n + m)); auto. apply Nat.pow_le_mono_r; [lia|]. unfold Z0. pose proof (filter_length_le (fun i => is_close_to_zero (at_ x i)) (fun _ => true) (seq 0 n) ltac:(auto)) as G.
        replace (filter (fun _ => true) (seq 0 n)) with (seq 0 n) in G by (clear; induction (seq 0 n) as [|? ? IH]; cbn; congruence). rewrite seq_length in G. lia. }
      destruct (search_spec p (map S P0) Zs size Hm fuel (rev (map (fun i => (i, [nth i Zs 0])) (seq 0 (S (length Zs) - size))))) as [(B2 & S1 & S2 & cur & S3 & S4)|(S1 & _)].
      + rewrite (weight_rev p) by exact Hm. pose proof (weight_seq p Zs Hm (fun i => [nth i Zs 0]) (length Zs) 0 eq_refl) as W.
        assert (Hsz : 0 < size) by (unfold size; lia). destruct (le_lt_dec size (length Zs)) as [Lz|Lz].
        * assert (Hseq : seq 0 (length Zs) = seq 0 (S (length Zs) - size) ++ seq (S (length Zs) - size) (length Zs - (S (length Zs) - size))) by (rewrite <- seq_app; f_equal; lia).
          rewrite Hseq, map_app, (weight_app p _ Hm) in W. lia.
        * replace (S (length Zs) - size) with 0 by lia. cbn. pose proof (Nat.pow_nonzero 2 (length Zs) ltac:(lia)). lia.
      + rewrite S1. eexists. split; [reflexivity|]. left. split; auto. exists x0. split; auto. intros j Hj Hn. rewrite Lx0 in Hj. fold (at_ x0 j). rewrite A0 by auto.
        destruct (is_close_to_zero (at_ x j)) eqn:Ecj.
        * apply close0_true in Ecj. destruct Ecj as (K1 & K2). apply Qcle_antisym; [|apply Hx0; lia]. apply Qcnot_lt_le. intros C. apply Hxt in C; [|lia]. clear - C K2. qclra.
        * exfalso. apply Hn. apply in_map. rewrite S4. apply In_sort, in_or_app. left. apply in_map. unfold P0. apply filter_In. split; [apply in_seq; lia|]. now rewrite Ecj.
      + rewrite S1. eexists. split; [reflexivity|]. right. unfold is_basis. rewrite map_length. destruct (Nat.eqb_spec (rows p) (length (map S P0))); [lia|]. reflexivity.
  Qed.
  (** a start that is no basis *)
  Lemma reject_same Bz nn o : is_basis p Bz = Ok false -> run_simplex e p Bz nn o -> nn = 1 /\ o = Raise ValueError.
  Proof.
    intros EB. unfold run_simplex. rewrite Hs. cbn [negb]. intros (oi & R & G). assert (EN : is_basis (negate_rows p) Bz = Ok false) by (rewrite <- EB; now apply is_basis_neg).
    assert (S1 : forall it, run_iteration e (negate_rows p) Bz it -> it = Raise ValueError).
    { intros it. unfold run_iteration. change (lsef (negate_rows p)) with (lsef p). rewrite Hs. cbn [negb]. intros (ok & Hok & E). apply (check_same e K p Hp HI HK He Hcp) in Hok. rewrite Hok, EN in E. exact E. }
    destruct R as [Bz oi R1 R2|Bz B' q' nn oi R1 R2].
    - apply S1 in R1. subst oi. auto.
    - apply S1 in R1. discriminate.
  Qed.
  Lemma reject_ends Bz : is_basis p Bz = Ok false -> ~ simplex_hangs e p Bz.
  Proof.
    intros EB (_ & s & S0 & S1). destruct (S1 0) as (B & q & R & _). rewrite S0 in R. assert (EN : is_basis (negate_rows p) Bz = Ok false) by (rewrite <- EB; now apply is_basis_neg).
    unfold run_iteration in R. change (lsef (negate_rows p)) with (lsef p) in R. rewrite Hs in R. cbn [negb] in R. destruct R as (ok & Hok & E). apply (check_same e K p Hp HI HK He Hcp) in Hok. rewrite Hok, EN in E. discriminate.
  Qed.
  (** the first phase *)
  Lemma first_same : exists x0 B cert0, simplex fuel a (map Z.of_nat (seq (S n) m)) = (a, Ok (Some x0, Some (to_math_indexing B), cert0)) /\ ~ simplex_hangs e a (map Z.of_nat (seq (S n) m)) /\
    basis a B /\ length x0 = n + m /\ bsol a B (at_ x0) /\ (forall j, j < n + m -> (0 <= at_ x0 j)%Qc) /\ (forall j, j < n + m -> (0 < at_ x0 j -> tol_zero <= at_ x0 j)%Qc) /\ (forall j, j < n + m -> at_ x0 j = 0%Qc \/ (Q2Qc (1 # 300) <= at_ x0 j)%Qc) /\
    (exists X, minv (transpose m (columns_of B (lA a))) = Ok X) /\
    forall nn o, run_simplex e a (map Z.of_nat (seq (S n) m)) nn o -> nn <= 2 ^ (n + m) /\ exists x cert, o = Ok (Some x, Some (to_math_indexing B), cert) /\ close_by (qz 8 * h)%Qc x x0.
  Proof.
    destruct (phase_one p Hp sma Hm fuel Hfuel) as (x0 & B & cert0 & X & E1 & HB & Lx & HX & Hx0 & Hxt & Ho & EX & _). fold a n m in E1, HB, Lx, HX, Hx0, Hxt, EX.
    assert (ES : map Z.of_nat (seq (S n) m) = to_math_indexing (seq n m)) by (unfold to_math_indexing; rewrite <- seq_shift, map_map; reflexivity).
    assert (EB : is_basis a (map Z.of_nat (seq (S n) m)) = Ok true) by (rewrite ES; apply small_is_basis; auto; [rewrite HRa; exact Hm|now apply start_basis]).
    assert (FB : feasible_basis a (map Z.of_nat (seq (S n) m))). { apply feasible_fbasis; auto. rewrite ES, sorted_array by apply seq_sorted. now apply start_feasible. }
    destruct (simplex_same e K a Ha HIa HMa HK He Hca (map Z.of_nat (seq (S n) m)) fuel eq_refl EB FB) as (r0 & Er & NH & R). { rewrite HCa. exact Hfuel. }
    rewrite E1 in Er. cbn [snd] in Er. injection Er as <-. exists x0, B, cert0. split; auto. split; auto. split; auto. split; auto. split; auto. split; auto. split; auto. split; [|split; [eauto|]].
    - intros j Hj. destruct (Qclt_le_dec 0 (at_ x0 j)) as [L|L]; [right|left; apply Qcle_antisym; auto]. apply k300; auto. apply (bsol_quotient a K B (at_ x0) j); auto. now rewrite HCa.
    - intros nn o Ro. rewrite HCa, HRa in R. destruct (R nn o Ro) as (L & r & -> & V). split; auto. destruct r as [[[x|] Bo] [c|c d]]; cbn [same_verdict] in V; try contradiction.
      + destruct cert0; [|contradiction]. destruct V as (-> & CX). eauto.
      + destruct Bo; contradiction.
      + destruct Bo; contradiction.
  Qed.
  (** the value of the first phase *)
  Lemma value_same x x0 v : length x0 = n + m -> close_by (qz 8 * h)%Qc x x0 -> (forall j, j < n + m -> at_ x0 j = 0%Qc \/ (Q2Qc (1 # 300) <= at_ x0 j)%Qc) -> within e v (dot (lc a) x + lz a)%Qc -> is_close_to_zero v = is_close_to_zero (dot (lc a) x0 + lz a)%Qc.
  Proof.
    intros L0 (LX & CX) X0 Hv. assert (Lx : length x = n + m) by congruence.
    assert (OV : forall z, length z = n + m -> (dot (lc a) z + lz a = - Sum m (fun i => at_ z (n + i)%nat))%Qc).
    { intros z Lz. rewrite (dot_Sum (cols a)) by (reflexivity || congruence). change (lz a) with 0%Qc. fold (obj a (at_ z)). unfold a. pose proof (obj_aux p (at_ z)) as O. unfold obj in O. change (Sum (cols (aux p)) (fun j => at_ (lc (aux p)) j * at_ z j) + 0 = - Sum m (fun i => at_ z (n + i)%nat))%Qc. rewrite Qcplus_0_r. unfold n, m. rewrite <- O. reflexivity. }
    rewrite (OV x Lx) in Hv. rewrite (OV x0 L0). apply (zero_same _ _ (e + mq * (qz 8 * h))%Qc).
    - assert (0 <= mq * (qz 8 * h))%Qc by (apply qmul_nonneg; [exact m0|apply qmul_nonneg; [discriminate|exact h0]]). pose proof He as E0. set (u := (mq * (qz 8 * h))%Qc) in *. clear - H E0. clearbody u. qclra.
    - pose proof mh16 as A. pose proof eh as B. pose proof mh0 as C. replace (mq * (qz 8 * h))%Qc with (qz 8 * (mq * h))%Qc by ring. replace ((1 + qz 2 * mq) * h)%Qc with (h + qz 2 * (mq * h))%Qc in A by ring. set (u := (mq * h)%Qc) in *. pose proof He as E0. pose proof tol_pos as TP. clear - A B C E0 TP. clearbody u h. unfold qz, inject_Z in *. qclra.
    - unfold within in Hv. set (s := Sum m (fun i => at_ x (n + i)%nat)) in *. set (s0 := Sum m (fun i => at_ x0 (n + i)%nat)) in *. replace (v - - s0)%Qc with ((v - - s) + (s0 - s))%Qc by ring. apply abs_le_add; auto. unfold s, s0. rewrite <- Sum_sub. unfold mq. apply qabs_Sum. intros i Hi. specialize (CX (n + i) ltac:(lia)). apply qabs_le in CX. apply qabs_le. unfold at_ in *. clear - CX. destruct CX. split; qclra.
    - destruct (some_nonzero (fun i => at_ x0 (n + i)) m) as [(i & Hi & Nz)|Z].
      + right. destruct (X0 (n + i) ltac:(lia)) as [Z|G]; [contradiction|]. assert (S0 : (at_ x0 (n + i) <= Sum m (fun i => at_ x0 (n + i)%nat))%Qc).
        { assert (NN : forall l, l < m -> (0 <= at_ x0 (n + l))%Qc) by (intros l Hl; destruct (X0 (n + l) ltac:(lia)) as [Zl|Gl]; [rewrite Zl; apply Qcle_refl|eapply Qcle_trans; [|exact Gl]; discriminate]).
          pose proof (Sum_single m i (fun l => if Nat.eqb l i then at_ x0 (n + i) else 0%Qc) Hi) as S1. cbv beta in S1. rewrite Nat.eqb_refl in S1. rewrite <- S1.
          - apply Sum_le. intros l Hl. destruct (Nat.eqb_spec l i) as [->|]; [apply Qcle_refl|]. now apply NN.
          - intros l Hl Hne. destruct (Nat.eqb_spec l i); [contradiction|reflexivity]. }
        set (s0 := Sum m (fun i => at_ x0 (n + i)%nat)) in *. unfold qabs. destruct (qlt_spec (- s0) 0) as [C1|C1]; clear - C1 S0 G; qclra.
      + left. rewrite (Sum_ext m _ (fun _ => 0%Qc)) by exact Z. rewrite Sum_zero. ring.
  Qed.
  Lemma two_same : ~ two_phase_hangs e p /\ forall nn o, run_two_phase e p nn o -> nn <= 2 ^ (n + m) + 2 ^ n /\ same_result (qz 8 * h)%Qc o (snd (two_phase_simplex fuel p)).
  Proof.
    destruct first_same as (x0 & B & cert0 & E1 & NH & HB & Lx0 & HX & Hx0 & Hxt & HG & (X & EX) & R1). destruct (auxiliary_aux p Hs) as (a0 & Ea0 & Ea). fold a in Ea.
    set (v0 := (dot (lc a) x0 + lz a)%Qc) in *. assert (Ev : evaluate a x0 = Ok v0) by (unfold evaluate; rewrite Lx0, HCa, Nat.eqb_refl; reflexivity).
    assert (Z0 : is_close_to_zero v0 = true -> forall i, i < m -> at_ x0 (n + i) = 0%Qc).
    { intros C i Hi. destruct (HG (n + i) ltac:(lia)) as [|G]; auto. exfalso. apply close0_true in C. destruct C as (C1 & C2).
      assert (OV : (v0 = - Sum m (fun i => at_ x0 (n + i)%nat))%Qc). { unfold v0. rewrite (dot_Sum (cols a)) by (reflexivity || congruence). change (lz a) with 0%Qc. pose proof (obj_aux p (at_ x0)) as O. unfold obj in O. change (Sum (cols (aux p)) (fun j => at_ (lc (aux p)) j * at_ x0 j) + 0 = - Sum m (fun i => at_ x0 (n + i)%nat))%Qc. rewrite Qcplus_0_r. unfold n, m. rewrite <- O. reflexivity. }
      assert (S0 : (at_ x0 (n + i) <= Sum m (fun i => at_ x0 (n + i)%nat))%Qc).
      { pose proof (Sum_single m i (fun l => if Nat.eqb l i then at_ x0 (n + i) else 0%Qc) Hi) as S1. cbv beta in S1. rewrite Nat.eqb_refl in S1. rewrite <- S1.
        - apply Sum_le. intros l Hl. destruct (Nat.eqb_spec l i) as [->|]; [apply Qcle_refl|]. apply Hx0. lia.
        - intros l Hl Hne. destruct (Nat.eqb_spec l i); [contradiction|reflexivity]. }
      rewrite OV in C1. set (s0 := Sum m (fun i => at_ x0 (n + i)%nat)) in *. clear - C1 S0 G. unfold tol_zero in *. qclra. }
    assert (P0 : forall Bz, is_basis p Bz = Ok true -> feasible_basis p Bz -> exists r0, snd (simplex fuel p Bz) = Ok r0 /\ ~ simplex_hangs e p Bz /\ forall nn o, run_simplex e p Bz nn o -> nn <= 2 ^ n /\ exists r, o = Ok r /\ same_verdict (qz 8 * h)%Qc r r0).
    { intros Bz EB FB. apply (simplex_same e K p Hp HI HM HK He Hcp Bz fuel Hs EB FB). apply Nat.le_trans with (2 ^ (cols p + rows p)); auto. apply Nat.pow_le_mono_r; lia. }
    assert (F0 : 0 < fuel) by (pose proof (Nat.pow_nonzero 2 (cols p + rows p) ltac:(lia)); lia).
    split.
    - intros (a1 & Ea1 & D). rewrite Ea0 in Ea1. injection Ea1 as <-. cbv zeta in D. rewrite Ea in D. destruct D as [D|(n1 & x & bz & cert & v & Bs & D1 & D2 & D3 & D4 & D5)]; [now apply NH|].
      destruct (R1 _ _ D1) as (_ & x' & cert' & Ex & CX). injection Ex as <- -> <-. rewrite (value_same x x0 v Lx0 CX HG D2) in D3. fold v0 in D3. specialize (Z0 D3).
      assert (ND : exact_start fuel p x0 (to_math_indexing B) <> Diverges) by (destruct (start_cases x0 B Lx0 HB HX Hx0 Hxt Z0) as [(Bz & -> & _)| -> ]; discriminate).
      apply (start_same x x0) in D4; auto; [|destruct CX; congruence]. destruct (start_cases x0 B Lx0 HB HX Hx0 Hxt Z0) as [(Bz & EBz & [(EB & FB)|EB])|EBz]; rewrite EBz in D4; try discriminate; injection D4 as ->.
      + destruct (P0 Bz EB FB) as (_ & _ & G & _). now apply G.
      + now apply (reject_ends Bz EB).
    - intros nn o R. unfold run_two_phase in R. rewrite Ea0 in R. cbv zeta in R. rewrite Ea in R. destruct R as (n1 & o1 & D1 & R). destruct (R1 _ _ D1) as (L1 & x & cert & -> & CX). assert (Lx : length x = n + m) by (destruct CX; congruence).
      rewrite Lx, HCa, Nat.eqb_refl in R. destruct R as (v & Hv & R). pose proof (value_same x x0 v Lx0 CX HG Hv) as VS. fold v0 in VS. rewrite VS in R. destruct (is_close_to_zero v0) eqn:C0.
      + specialize (Z0 eq_refl). destruct R as (st & Rs & R). assert (ND : exact_start fuel p x0 (to_math_indexing B) <> Diverges) by (destruct (start_cases x0 B Lx0 HB HX Hx0 Hxt Z0) as [(Bz & -> & _)| -> ]; discriminate).
        apply (start_same x x0) in Rs; auto. rewrite (phases_of fuel p a x0 _ _ Hp Hs E1 v0 Ev C0).
        destruct (start_cases x0 B Lx0 HB HX Hx0 Hxt Z0) as [(Bz & EBz & [(EB & FB)|EB])|EBz]; rewrite EBz in *; subst st.
        * destruct R as (n2 & R2 & ->). destruct (P0 Bz EB FB) as (r0 & Er & _ & G). destruct (G _ _ R2) as (L2 & r & -> & V). split; [lia|]. rewrite Er. exact V.
        * destruct R as (n2 & R2 & ->). destruct (reject_same Bz n2 o EB R2) as (-> & ->). pose proof (Nat.pow_nonzero 2 n ltac:(lia)). split; [lia|]. rewrite (not_a_basis p Hm fuel Hfuel p Bz Hp EB Hs F0). reflexivity.
        * destruct R as (-> & ->). split; [lia|reflexivity].
      + destruct R as (-> & XX & y & _ & _ & ->). split; [lia|]. unfold two_phase_simplex. rewrite Ea0. cbv zeta. rewrite Ea. fold n m. rewrite E1, Ev, C0. rewrite array_math, EX. exact I.
  Qed.
End Two.
