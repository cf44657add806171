(** The programs of formulate_max_stable_set have moderate minors. *)
From Coq Require Import String List Bool Arith ZArith QArith Qcanon Lia.
From Verif Require Import Py QcTac QSum QInt ComparatorModel MatModel DetTheory MatTheory LinearModel LinearSpec LinearProofs SmallProofs NetSpec NetProofs MinorProofs
  IntegerModel IntegerSpec IntegerProofs IntegerSmall UndirectedModel UndirectedSpec UndirectedProofs StableModel StableSpec StableProofs.
Import ListNotations.
Open Scope nat_scope.
Open Scope string_scope.
Open Scope list_scope.

Lemma edge_numbers g u v : UndirectedProofs.inv g -> let m := numbering (ug_vertices g) in let n := length (ug_vertices g) in
  In (u, v) (dkeys (ug_edges g)) -> ix m u < n /\ ix m v < n /\ ix m u <> ix m v /\ nth (ix m u) (dkeys (ug_vertices g)) "" = u /\ nth (ix m v) (dkeys (ug_vertices g)) "" = v.
Proof.
  intros I m n H. pose proof (i_nd3 _ I) as N. destruct (i_edge _ I u v H) as (Lt1 & _ & _ & H1 & H2).
  assert (Q : forall a, In a (dkeys (ug_vertices g)) -> nth_error (dkeys (ug_vertices g)) (ix m a) = Some a).
  { intros a Ha. apply In_nth_error in Ha as (i & Ha). assert (E : lookup a m = Ok i).
    { apply lookup_in; [unfold m; now rewrite keys_numbering|]. now apply in_numbering. }
    now rewrite (lookup_ix _ _ _ E). }
  assert (L : length (dkeys (ug_vertices g)) = n) by (unfold dkeys; now rewrite map_length).
  pose proof (Q u H1) as Qu. pose proof (Q v H2) as Qv. split; [rewrite <- L; apply nth_error_Some; congruence|]. split; [rewrite <- L; apply nth_error_Some; congruence|].
  split; [|split; now apply nth_error_nth]. intros E. rewrite E, Qv in Qu. injection Qu as ->. now apply compare_irrefl in Lt1.
Qed.
Lemma pair_entry n i j k : i < n -> j < n -> k < n -> i <> j -> nth k (StableProofs.pair_row n i j) 0%Qc = (indicator k i + indicator k j)%Qc.
Proof.
  intros Hi Hj Hk Hne. unfold StableProofs.pair_row. rewrite nth_set_at by (rewrite length_set_at, repeat_length; auto). rewrite nth_set_at by (rewrite repeat_length; auto). rewrite nth_repeat0.
  unfold indicator. destruct (Nat.eqb_spec k j), (Nat.eqb_spec k i); try ring. lia.
Qed.
Definition sprows (g : ugraph) : nat := length (ug_edges g) + length (ug_vertices g).
Lemma stable_rows g p : UndirectedProofs.inv g -> stable_program g p -> let n := length (ug_vertices g) in let m := numbering (ug_vertices g) in
  length (lA p) = sprows g /\
  forall i, i < sprows g -> (exists u v, In (u, v) (dkeys (ug_edges g)) /\ forall j, j < n -> nth j (nth i (lA p) []) 0%Qc = (indicator j (ix m u) + indicator j (ix m v))%Qc) \/
    (exists u, forall j, j < n -> nth j (nth i (lA p) []) 0%Qc = indicator j u).
Proof.
  intros I (HA & _) n m. fold n m in HA. assert (LE : length (dkeys (ug_edges g)) = length (ug_edges g)) by (unfold dkeys; now rewrite map_length). split.
  - rewrite HA, app_length, !map_length, seq_length, LE. reflexivity.
  - intros i Hi. rewrite HA. destruct (Nat.lt_ge_cases i (length (ug_edges g))) as [K|K].
    + left. destruct (nth i (dkeys (ug_edges g)) ("", "")) as [u v] eqn:E. exists u, v. assert (HIn : In (u, v) (dkeys (ug_edges g))) by (rewrite <- E; apply nth_In; lia). split; auto.
      intros j Hj. rewrite app_nth1 by (rewrite map_length; lia). rewrite (nth_indep _ [] (row_of n m ("", ""))) by (rewrite map_length; lia). rewrite map_nth, E. unfold row_of. cbn [fst snd].
      destruct (edge_numbers g u v I HIn) as (B1 & B2 & B3 & _). now apply pair_entry.
    + right. exists (i - length (ug_edges g)). intros j Hj. rewrite app_nth2 by (rewrite map_length; lia). rewrite map_length, LE.
      assert (B : i - length (ug_edges g) < n) by (unfold sprows in Hi; fold n in Hi; lia).
      rewrite (nth_indep _ [] (unit_row n 0)) by (rewrite map_length, seq_length; exact B). rewrite (map_nth (unit_row n)), seq_nth by exact B. cbn [Nat.add]. now apply ent_unit.
Qed.
Lemma total_ones k : NetSpec.total (repeat 1%Qc k) = qz (Z.of_nat k).
Proof. induction k as [|k IH]; [reflexivity|]. cbn [repeat]. rewrite total_cons, IH. change (qabs 1) with (qz 1). rewrite <- qz_add. f_equal. lia. Qed.
Lemma lists_of_minors F m n K : minors_within F m n K -> forall rs cs, length rs = length cs -> (forall i, In i rs -> i < m) -> (forall j, In j cs -> j < n) ->
  (qabs (det (length rs) (fun i j => F (nth i rs 0%nat) (nth j cs 0%nat))) <= K)%Qc.
Proof. intros H rs cs L Hr Hc. apply (H (length rs) (fun i => nth i rs 0) (fun j => nth j cs 0)); [intros i Hi; apply Hr; now apply nth_In|intros j Hj; apply Hc; apply nth_In; lia]. Qed.
Lemma stable_bounded g p e K : UndirectedProofs.inv g -> stable_program g p -> ug_edges g <> [] -> (forall v w, In (v, w) (ug_vertices g) -> isint (qz e * w)%Qc) -> (0 < e /\ K * e <= 10 ^ 10)%Z ->
  minors_within (fun i j => nth j (nth i (lA p) []) 0%Qc) (sprows g) (length (ug_vertices g)) (qz K) ->
  (K * K * (1 + 1000 * Z.of_nat (length (ug_edges g) + 2 * length (ug_vertices g))) < 10 ^ 8)%Z ->
  bounded_minors p e K (Z.of_nat (length (ug_edges g) + 2 * length (ug_vertices g))) 1.
Proof.
  intros I SP NE Hw He HM HK. destruct (stable_rows g p I SP) as (LA & Rows). cbv zeta in Rows. destruct SP as (HA & Hb & Hc & _).
  assert (Lc : length (lc p) = length (ug_vertices g)) by (rewrite Hc; apply map_length). constructor; auto.
  - intros r v Hr Hv. rewrite HA in Hr. apply in_app_or in Hr. destruct Hr as [Hr|Hr]; apply in_map_iff in Hr; destruct Hr as (x & <- & Hx).
    + unfold row_of in Hv. apply (In_nth _ _ 0%Qc) in Hv. destruct Hv as (j & Hj & <-). rewrite length_pair_row in Hj. destruct x as [u v]. destruct (edge_numbers g u v I Hx) as (B1 & B2 & B3 & _).
      cbn [fst snd]. rewrite pair_entry by auto. apply isint_add; unfold indicator; destruct (Nat.eqb _ _); (apply isint_1 || apply isint_0).
    + unfold unit_row in Hv. apply in_map_iff in Hv. destruct Hv as (y & <- & _). destruct (Nat.eqb y x); [apply isint_1|apply isint_0].
  - intros v Hv. rewrite Hb in Hv. apply repeat_spec in Hv. subst v. apply isint_1.
  - intros v Hv. rewrite Hc in Hv. apply in_map_iff in Hv. destruct Hv as ([a w] & <- & Ha). now apply (Hw a).
  - rewrite LA, Lc. exact (lists_of_minors _ _ _ _ HM).
  - destruct (ug_edges g) as [|x es]; [congruence|]. cbn [length]. lia.
  - rewrite Hb, Lc, total_ones, <- qz_add. apply qz_le. lia.
Qed.
Lemma stable_two_ones g p : UndirectedProofs.inv g -> stable_program g p -> two_ones (fun i j => nth j (nth i (lA p) []) 0%Qc) (sprows g) (length (ug_vertices g)).
Proof.
  intros I SP i Hi. destruct (stable_rows g p I SP) as (_ & Rows). cbv zeta in Rows. destruct (Rows i Hi) as [(u & v & Huv & E)|(u & E)].
  - exists (ix (numbering (ug_vertices g)) u), (ix (numbering (ug_vertices g)) v). destruct (edge_numbers g u v I Huv) as (_ & _ & B3 & _). intros j Hj. rewrite E by auto. now destruct (Nat.eqb_spec (ix (numbering (ug_vertices g)) u) (ix (numbering (ug_vertices g)) v)).
  - exists u, u. intros j Hj. rewrite E, Nat.eqb_refl by auto. change (Q2Qc 0) with 0%Qc. ring.
Qed.
Lemma stable_across g p side : UndirectedProofs.inv g -> stable_program g p -> two_sided (is_edge (ug_edges g)) side ->
  across (fun i j => nth j (nth i (lA p) []) 0%Qc) (sprows g) (length (ug_vertices g)) (fun i => side (nth i (dkeys (ug_vertices g)) "")).
Proof.
  intros I SP HS i Hi. destruct (stable_rows g p I SP) as (_ & Rows). cbv zeta in Rows. destruct (Rows i Hi) as [(u & v & Huv & E)|(u & E)].
  - exists (ix (numbering (ug_vertices g)) u), (ix (numbering (ug_vertices g)) v). destruct (edge_numbers g u v I Huv) as (_ & _ & B3 & B4 & B5). intros j Hj. split; [now apply E|]. right. right. rewrite B4, B5. apply HS.
    apply in_map_iff in Huv as ([e w] & Q & H). cbn in Q. subst e. left. now exists w.
  - exists u, (length (ug_vertices g)). intros j Hj. split; [|now left]. rewrite E by auto. rewrite (indicator_diff j (length (ug_vertices g))) by lia. ring.
Qed.
