(** Proofs about graph_polyhedron. *)
From Coq Require Import String List Bool Arith ZArith QArith Qcanon Qround Lia Permutation.
From Verif Require Import Py QcTac QSum QInt ComparatorModel MatModel MatTheory LinearModel LinearSpec LinearProofs LinearInv DualProofs Farkas PolyModel PolySpec.
Import ListNotations.
Open Scope nat_scope.
Open Scope string_scope.
Open Scope list_scope.

(** ** dictionaries *)
Lemma dset_new d k (s : string) : (forall i t, In (i, t) d -> i < k) -> dset Nat.eqb k s d = d ++ [(k, s)].
Proof.
  induction d as [|(i & t) d IH]; intros H; cbn [dset app]; [reflexivity|].
  destruct (Nat.eqb_spec k i) as [E|N]; [specialize (H i t (or_introl eq_refl)); lia|]. rewrite IH; [reflexivity|]. intros; eapply H; right; eauto.
Qed.
Lemma ddel_last d k (s : string) e : (forall i t, In (i, t) d -> i < k) -> ddel Nat.eqb k (d ++ (k, s) :: e) = d ++ e.
Proof.
  induction d as [|(i & t) d IH]; intros H; cbn [ddel app]; [now rewrite Nat.eqb_refl|].
  destruct (Nat.eqb_spec k i) as [E|N]; [specialize (H i t (or_introl eq_refl)); lia|]. rewrite IH; [reflexivity|]. intros; eapply H; right; eauto.
Qed.
Definition four (n : nat) : list (nat * string) := [(n, "<="); (n + 1, ">="); (n + 2, "<="); (n + 3, ">=")].
Lemma with_bounds_eq d : (forall i t, In (i, t) d -> i < length d) -> with_bounds d = d ++ four (length d).
Proof.
  intros H. unfold with_bounds, four. set (n := length d) in *. clearbody n.
  assert (G : forall (e : list (nat * string)) m, (forall i t, In (i, t) e -> i < m) -> forall i t, In (i, t) (d ++ e) -> i < Nat.max n m).
  { intros e m He i t Hi. apply in_app_or in Hi as [Hi|Hi]; [apply H in Hi; lia|apply He in Hi; lia]. }
  rewrite (dset_new d n) by auto. rewrite (dset_new (d ++ [(n, "<=")]) (n + 1)).
  2:{ intros i t Hi. apply (G [(n, "<=")] (S n)) in Hi; [lia|]. intros i' t' [E|[]]. injection E as <- _. lia. }
  rewrite (dset_new _ (n + 2)). 2:{ intros i t Hi. rewrite <- app_assoc in Hi. apply (G _ (n + 2)) in Hi; [lia|]. intros i' t' [E|[E|[]]]; injection E as <- _; lia. }
  rewrite dset_new. 2:{ intros i t Hi. rewrite <- !app_assoc in Hi. apply (G _ (n + 3)) in Hi; [lia|]. intros i' t' [E|[E|[E|[]]]]; injection E as <- _; lia. }
  rewrite <- !app_assoc. reflexivity.
Qed.
Lemma without_bounds_eq d : (forall i t, In (i, t) d -> i < length d) -> without_bounds (length d) (with_bounds d) = d.
Proof.
  intros H. rewrite with_bounds_eq by auto. unfold without_bounds, four. set (n := length d) in *. clearbody n.
  assert (G : forall (e : list (nat * string)) m, (forall i t, In (i, t) e -> i < m) -> forall i t, In (i, t) (d ++ e) -> i < Nat.max n m).
  { intros e m He i t Hi. apply in_app_or in Hi as [Hi|Hi]; [apply H in Hi; lia|apply He in Hi; lia]. }
  change (d ++ [(n, "<="); (n + 1, ">="); (n + 2, "<="); (n + 3, ">=")]) with (d ++ [(n, "<="); (n + 1, ">="); (n + 2, "<=")] ++ [(n + 3, ">=")]).
  rewrite app_assoc, ddel_last. 2:{ intros i t Hi. apply (G _ (n + 3)) in Hi; [lia|]. intros i' t' [E|[E|[E|[]]]]; injection E as <- _; lia. }
  rewrite app_nil_r. change (d ++ [(n, "<="); (n + 1, ">="); (n + 2, "<=")]) with (d ++ [(n, "<="); (n + 1, ">=")] ++ [(n + 2, "<=")]).
  rewrite app_assoc, ddel_last. 2:{ intros i t Hi. apply (G _ (n + 2)) in Hi; [lia|]. intros i' t' [E|[E|[]]]; injection E as <- _; lia. }
  rewrite app_nil_r. change (d ++ [(n, "<="); (n + 1, ">=")]) with (d ++ [(n, "<=")] ++ [(n + 1, ">=")]).
  rewrite app_assoc, ddel_last. 2:{ intros i t Hi. apply (G _ (n + 1)) in Hi; [lia|]. intros i' t' [E|[]]; injection E as <- _; lia. }
  rewrite app_nil_r. rewrite ddel_last by auto. apply app_nil_r.
Qed.

(** ** cutting off fractions *)
Lemma trunc_int z : trunc (qz z) = qz z.
Proof.
  unfold trunc. assert (F : forall k, Qfloor (this (qz k)) = k) by (intros k; unfold qz; cbn [this Q2Qc]; rewrite (Qfloor_comp _ _ (Qred_correct _)); apply Qfloor_Z).
  destruct (qlt (qz z) 0); [|now rewrite F].
  replace (- qz z)%Qc with (qz (- z)) by apply qz_opp. rewrite F, qz_opp. ring.
Qed.

(** ** constraints as lines with a side *)
Definition side := (Qc * Qc * Qc * bool)%type.   (* a1 x + a2 y <= b (true) or >= b (false) *)
Definition on_side (s : side) (v : point) : Prop :=
  let '(a1, a2, b, le) := s in if le then (fst v * a1 + snd v * a2 <= b)%Qc else (b <= fst v * a1 + snd v * a2)%Qc.
Definition tight (s : side) (v : point) : Prop := let '(a1, a2, b, _) := s in (fst v * a1 + snd v * a2 = b)%Qc.
Definition dir (s : side) : Qc * Qc := let '(a1, a2, _, _) := s in (a1, a2).
Definition cross (u v : Qc * Qc) : Qc := (fst u * snd v - snd u * fst v)%Qc.
Definition inside (S : list side) (v : point) : Prop := forall s, In s S -> on_side s v.

(** the intersection of two independent tight lines is a vertex *)
Lemma tight_extreme S s t v : inside S v -> In s S -> In t S -> tight s v -> tight t v -> cross (dir s) (dir t) <> 0%Qc -> extreme (inside S) v.
Proof.
  intros I Hs Ht Ts Tt D. split; auto. intros u w Iu Iw E1 E2.
  assert (G : forall s, In s S -> tight s v -> tight s u /\ tight s w).
  { intros s0 H0 T0. pose proof (Iu _ H0) as A. pose proof (Iw _ H0) as B. destruct s0 as (((a1 & a2) & b) & le). cbn [tight on_side] in *.
    destruct u as (u1 & u2), w as (w1 & w2), v as (v1 & v2). cbn [fst snd] in *.
    assert (Sum : ((u1 * a1 + u2 * a2) + (w1 * a1 + w2 * a2) = b + b)%Qc).
    { transitivity ((u1 + w1) * a1 + (u2 + w2) * a2)%Qc; [ring|]. rewrite <- E1, <- E2, <- T0. ring. }
    set (x := (u1 * a1 + u2 * a2)%Qc) in *. set (y := (w1 * a1 + w2 * a2)%Qc) in *. clearbody x y. clear - A B Sum. destruct le; split; apply Qcle_antisym; qclra. }
  assert (U : forall z, tight s z -> tight t z -> z = v).
  { intros z Z1 Z2. destruct s as (((a1 & a2) & b) & l1), t as (((c1 & c2) & d) & l2). cbn [tight dir cross fst snd] in *. destruct z as (z1 & z2), v as (v1 & v2). cbn [fst snd] in *.
    assert (P1 : ((z1 - v1) * a1 + (z2 - v2) * a2 = 0)%Qc) by (transitivity ((z1 * a1 + z2 * a2) - (v1 * a1 + v2 * a2))%Qc; [ring|rewrite Z1, Ts; ring]).
    assert (P2 : ((z1 - v1) * c1 + (z2 - v2) * c2 = 0)%Qc) by (transitivity ((z1 * c1 + z2 * c2) - (v1 * c1 + v2 * c2))%Qc; [ring|rewrite Z2, Tt; ring]).
    assert (Q1 : ((z1 - v1) * (a1 * c2 - a2 * c1) = 0)%Qc).
    { transitivity (((z1 - v1) * a1 + (z2 - v2) * a2) * c2 - ((z1 - v1) * c1 + (z2 - v2) * c2) * a2)%Qc; [ring|rewrite P1, P2; ring]. }
    assert (Q2 : ((z2 - v2) * (a1 * c2 - a2 * c1) = 0)%Qc).
    { transitivity (((z1 - v1) * c1 + (z2 - v2) * c2) * a1 - ((z1 - v1) * a1 + (z2 - v2) * a2) * c1)%Qc; [ring|rewrite P1, P2; ring]. }
    unfold cross in D. cbn [fst snd] in D. apply Qcmult_integral in Q1 as [Q1|Q1]; [|contradiction]. apply Qcmult_integral in Q2 as [Q2|Q2]; [|contradiction].
    f_equal; [transitivity (z1 - v1 + v1)%Qc|transitivity (z2 - v2 + v2)%Qc]; try ring; [rewrite Q1|rewrite Q2]; ring. }
  destruct (G s Hs Ts) as (G1 & G2). destruct (G t Ht Tt) as (G3 & G4). split; apply U; auto.
Qed.

(** without two independent tight lines a point can move both ways *)
Lemma qdiv_pos a b : (0 < a)%Qc -> (0 < b)%Qc -> (0 < a / b)%Qc.
Proof.
  intros Ha Hb. assert (I : (b * / b = 1)%Qc) by (apply Qcmult_inv_r; intros E; rewrite E in Hb; discriminate Hb).
  assert (P : (0 < / b)%Qc) by (set (c := (/ b)%Qc) in *; clearbody c; clear - I Hb; qcnra). unfold Qcdiv. now apply qmul_pos.
Qed.
Lemma move S v e : inside S v -> (forall s, In s S -> tight s v -> (fst e * fst (dir s) + snd e * snd (dir s) = 0)%Qc) ->
  exists t, (0 < t)%Qc /\ forall k, (- t <= k <= t)%Qc -> inside S (fst v + k * fst e, snd v + k * snd e)%Qc.
Proof.
  intros I H. induction S as [|s S IH].
  - exists 1%Qc. split; [reflexivity|]. intros k _ s [].
  - destruct IH as (t & Ht & K); [intros s' Hs'; apply I; now right|intros s' Hs'; apply H; now right|].
    assert (G : exists t', (0 < t')%Qc /\ forall k, (- t' <= k <= t')%Qc -> on_side s (fst v + k * fst e, snd v + k * snd e)%Qc).
    { specialize (I s (or_introl eq_refl)). specialize (H s (or_introl eq_refl)). destruct s as (((a1 & a2) & b) & le), v as (v1 & v2), e as (e1 & e2). cbn [on_side tight dir fst snd] in *.
      set (x := (v1 * a1 + v2 * a2)%Qc) in *. set (g := (e1 * a1 + e2 * a2)%Qc) in *.
      assert (E : forall k, ((v1 + k * e1) * a1 + (v2 + k * e2) * a2 = x + k * g)%Qc) by (intros k; unfold x, g; ring). clearbody x g.
      destruct (qeq_spec x b) as [Eb|Nb].
      - exists 1%Qc. split; [reflexivity|]. intros k _. rewrite E, (H Eb). replace (x + k * 0)%Qc with x by ring. exact I.
      - set (ag := (if qlt g 0 then - g else g)%Qc). assert (Ag : (0 <= ag)%Qc /\ (g <= ag)%Qc /\ (- ag <= g)%Qc) by (unfold ag; destruct (qlt_spec g 0); repeat split; qclra). clearbody ag. destruct Ag as (Ag0 & Ag1 & Ag2).
        set (sl := (if le then b - x else x - b)%Qc). assert (Ps : (0 < sl)%Qc).
        { unfold sl. destruct le; (destruct (Qclt_le_dec x b) as [L|L]; [qclra|]); try (apply Qcle_antisym in L; [|qclra]; congruence); destruct (Qclt_le_dec b x); try qclra; exfalso; apply Nb; apply Qcle_antisym; qclra. }
        assert (P1 : (0 < 1 + ag)%Qc) by qclra. exists (sl / (1 + ag))%Qc. split; [now apply qdiv_pos|]. intros k (K1 & K2). rewrite E.
        assert (Q : (sl / (1 + ag) * (1 + ag) = sl)%Qc) by (unfold Qcdiv; rewrite <- Qcmult_assoc, (Qcmult_comm (/ (1 + ag))), Qcmult_inv_r; [ring|intros Z; rewrite Z in P1; discriminate P1]).
        assert (T0 : (0 < sl / (1 + ag))%Qc) by now apply qdiv_pos. set (q := (sl / (1 + ag))%Qc) in *. clearbody q.
        assert (B1 : (k * g <= q * ag)%Qc) by (clear - K1 K2 Ag0 Ag1 Ag2 T0; qcnra). assert (B2 : (- (q * ag) <= k * g)%Qc) by (clear - K1 K2 Ag0 Ag1 Ag2 T0; qcnra).
        assert (B3 : (q * ag <= sl)%Qc) by (rewrite <- Q; clear - T0 Ag0; qcnra). unfold sl in *. set (kg := (k * g)%Qc) in *. set (qa := (q * ag)%Qc) in *. clearbody kg qa. clear - B1 B2 B3. destruct le; qclra. }
    destruct G as (t' & Ht' & K'). exists (if qle t t' then t else t'). split; [destruct (qle t t'); auto|]. intros k Hk s' [<-|Hs'].
    + apply K'. destruct (qle_spec t t'); destruct Hk; split; qclra.
    + apply (K k); auto. destruct (qle_spec t t'); destruct Hk; split; qclra.
Qed.
(** a vertex lies on two independent lines *)
Lemma extreme_tight S v : extreme (inside S) v -> exists s t, In s S /\ In t S /\ tight s v /\ tight t v /\ cross (dir s) (dir t) <> 0%Qc.
Proof.
  intros (I & X).
  assert (Dt : forall s, {tight s v} + {~ tight s v}) by (intros (((a1 & a2) & b) & le); apply Qc_eq_dec).
  set (T := filter (fun s => if Dt s then true else false) S).
  assert (HT : forall s, In s T <-> In s S /\ tight s v) by (intros s; unfold T; rewrite filter_In; destruct (Dt s); intuition discriminate).
  destruct (existsb (fun s => existsb (fun t => negb (qeq (cross (dir s) (dir t)) 0)) T) T) eqn:E.
  - apply existsb_exists in E as (s & Hs & E). apply existsb_exists in E as (t & Ht & E). apply HT in Hs as (Hs & Ts). apply HT in Ht as (Ht & Tt).
    exists s, t. repeat split; auto. destruct (qeq_spec (cross (dir s) (dir t)) 0); [discriminate E|auto].
  - exfalso. assert (C : forall s t, In s T -> In t T -> cross (dir s) (dir t) = 0%Qc).
    { intros s t Hs Ht. destruct (qeq_spec (cross (dir s) (dir t)) 0) as [|N]; auto. exfalso.
      assert (existsb (fun s => existsb (fun t => negb (qeq (cross (dir s) (dir t)) 0)) T) T = true); [|congruence].
      apply existsb_exists. exists s. split; auto. apply existsb_exists. exists t. split; auto. destruct (qeq_spec (cross (dir s) (dir t)) 0); auto. }
    assert (G : exists e, (e <> (0, 0))%Qc /\ forall s, In s T -> (fst e * fst (dir s) + snd e * snd (dir s) = 0)%Qc).
    { destruct (existsb (fun s => negb (qeq (fst (dir s)) 0 && qeq (snd (dir s)) 0)) T) eqn:EZ.
      - apply existsb_exists in EZ as (s0 & H0 & N0). exists ((- snd (dir s0))%Qc, fst (dir s0)). split.
        + intros Z. assert (Z2 := f_equal snd Z). assert (Z1 := f_equal fst Z). cbn [fst snd] in Z1, Z2.
          assert (Z3 : snd (dir s0) = 0%Qc) by (transitivity (- - snd (dir s0))%Qc; [ring|rewrite Z1; ring]). rewrite Z2, Z3 in N0. discriminate N0.
        + intros s Hs. cbn [fst snd]. specialize (C s0 s H0 Hs). unfold cross in C. rewrite <- C. ring.
      - exists (1, 0)%Qc. split; [discriminate|]. intros s Hs. cbn [fst snd].
        assert (K : negb (qeq (fst (dir s)) 0 && qeq (snd (dir s)) 0) = false).
        { destruct (negb _) eqn:N; auto. assert (existsb (fun s => negb (qeq (fst (dir s)) 0 && qeq (snd (dir s)) 0)) T = true) by (apply existsb_exists; eauto). congruence. }
        apply negb_false_iff, andb_true_iff in K as (K & _). destruct (qeq_spec (fst (dir s)) 0) as [->|]; [ring|discriminate K]. }
    destruct G as (e & Ne & He). destruct (move S v e I) as (t & Ht & M); [intros s Hs Ts; apply He, HT; auto|].
    pose proof (M t ltac:(split; qclra)) as M1. pose proof (M (- t)%Qc ltac:(split; qclra)) as M2.
    destruct (X _ _ M1 M2) as (X1 & _); [cbn [fst]; ring|cbn [snd]; ring|]. apply Ne. destruct e as (e1 & e2), v as (v1 & v2). cbn [fst snd] in X1. injection X1 as X1 X2.
    assert (N0 : t <> 0%Qc) by (intros Z; rewrite Z in Ht; discriminate Ht).
    assert (Z : forall e v, (v + t * e = v)%Qc -> e = 0%Qc).
    { intros e v K. assert (K' : (t * e = 0)%Qc) by (transitivity (v + t * e - v)%Qc; [ring|rewrite K; ring]). apply Qcmult_integral in K' as [K'|K']; [contradiction|auto]. }
    f_equal; eapply Z; eassumption.
Qed.

(** a bounded nonempty region has a vertex *)
Definition row_of (s : side) : row :=
  let '(a1, a2, b, le) := s in
  if le then (fun j => match j with 0 => a1 | _ => a2 end, b, false) else (fun j => match j with 0 => - a1 | _ => - a2 end, - b, false)%Qc.
Definition vec2 (x : nat -> Qc) : point := (x 0, x 1).
Lemma row_of_sat s x : sat 2 x (row_of s) <-> on_side s (vec2 x).
Proof.
  destruct s as (((a1 & a2) & b) & le). unfold vec2. destruct le; cbn [row_of sat cmp on_side fst snd]; unfold lhs; rewrite !Sum_S, Sum_0; split; intros H.
  - replace (x 0%nat * a1 + x 1%nat * a2)%Qc with (0 + a1 * x 0%nat + a2 * x 1%nat)%Qc by ring. exact H.
  - replace (0 + a1 * x 0%nat + a2 * x 1%nat)%Qc with (x 0%nat * a1 + x 1%nat * a2)%Qc by ring. exact H.
  - assert (E : (0 + - a1 * x 0%nat + - a2 * x 1%nat = - (x 0%nat * a1 + x 1%nat * a2))%Qc) by ring. rewrite E in H. qclra.
  - assert (E : (0 + - a1 * x 0%nat + - a2 * x 1%nat = - (x 0%nat * a1 + x 1%nat * a2))%Qc) by ring. rewrite E. qclra.
Qed.
Lemma rows_of_sat S x : sats 2 (map row_of S) x <-> inside S (vec2 x).
Proof.
  split.
  - intros H s Hs. apply row_of_sat, H. now apply in_map.
  - intros H r Hr. apply in_map_iff in Hr as (s & <- & Hs). apply row_of_sat. auto.
Qed.
Lemma vertex_exists S L v : (forall u, inside S u -> (fst u <= L)%Qc /\ (snd u <= L)%Qc) -> inside S v -> exists u, extreme (inside S) u.
Proof.
  intros B I. assert (WK : forall S r, In r (map row_of S) -> snd r = false).
  { intros S' r Hr. apply in_map_iff in Hr as ((((a1 & a2) & b) & le) & <- & _). destruct le; reflexivity. }
  set (x0 := fun j : nat => match j with 0 => fst v | _ => snd v end).
  assert (I0 : sats 2 (map row_of S) x0) by (apply rows_of_sat; unfold vec2, x0; destruct v; exact I).
  assert (EX : forall x, lhs 2 (fun j => match j with 0 => 1%Qc | _ => 0%Qc end) x = x 0) by (intros x; unfold lhs; rewrite !Sum_S, Sum_0; ring).
  assert (EY : forall x, lhs 2 (fun j => match j with 0 => 0%Qc | _ => 1%Qc end) x = x 1) by (intros x; unfold lhs; rewrite !Sum_S, Sum_0; ring).
  destruct (attained 2 (map row_of S) (fun j => match j with 0 => 1%Qc | _ => 0%Qc end) (WK S) (ex_intro _ x0 I0)) as [U|(x1 & H1 & M1)].
  { destruct (U (L + 1)%Qc) as (x & Hx & K). apply rows_of_sat, B in Hx as (Hx & _). rewrite EX in K. unfold vec2 in Hx. cbn [fst] in Hx. exfalso. qclra. }
  set (S' := (1%Qc, 0%Qc, x1 0, false) :: S).
  assert (I1 : sats 2 (map row_of S') x1).
  { apply rows_of_sat. intros s [<-|Hs]; [|apply rows_of_sat in H1; auto]. unfold vec2. cbn [on_side fst snd]. replace (x1 0%nat * 1 + x1 1%nat * 0)%Qc with (x1 0%nat) by ring. apply Qcle_refl. }
  destruct (attained 2 (map row_of S') (fun j => match j with 0 => 0%Qc | _ => 1%Qc end) (WK S') (ex_intro _ x1 I1)) as [U|(x2 & H2 & M2)].
  { destruct (U (L + 1)%Qc) as (x & Hx & K). assert (Hx' : inside S (vec2 x)) by (apply rows_of_sat in Hx; intros s Hs; apply Hx; now right). apply B in Hx' as (_ & Hx'). rewrite EY in K. unfold vec2 in Hx'. cbn [snd] in Hx'. exfalso. qclra. }
  assert (In2 : inside S (vec2 x2)) by (apply rows_of_sat in H2; intros s Hs; apply H2; now right).
  assert (E0 : x2 0 = x1 0).
  { apply Qcle_antisym.
    - rewrite <- !EX. apply M1. now apply rows_of_sat.
    - apply rows_of_sat in H2. specialize (H2 _ (or_introl eq_refl)). unfold vec2 in H2. cbn [on_side fst snd] in H2. qclra. }
  assert (Mx : forall u, inside S u -> (fst u <= x2 0%nat)%Qc).
  { intros u Hu. rewrite E0. specialize (M1 (fun j => match j with 0 => fst u | _ => snd u end)). rewrite !EX in M1. apply M1. apply rows_of_sat. unfold vec2. destruct u; exact Hu. }
  assert (My : forall u, inside S u -> fst u = x2 0 -> (snd u <= x2 1%nat)%Qc).
  { intros u Hu Eu. specialize (M2 (fun j => match j with 0 => fst u | _ => snd u end)). rewrite !EY in M2. apply M2. apply rows_of_sat. unfold vec2. intros s [<-|Hs].
    - cbn [on_side fst snd]. rewrite Eu, E0. replace (x1 0%nat * 1 + snd u * 0)%Qc with (x1 0%nat) by ring. apply Qcle_refl.
    - destruct u; auto. }
  exists (vec2 x2). split; auto. unfold vec2. cbn [fst snd]. intros u w Iu Iw F1 F2.
  pose proof (Mx u Iu) as A1. pose proof (Mx w Iw) as A2.
  assert (Eu : fst u = x2 0) by (apply Qcle_antisym; qclra). assert (Ew : fst w = x2 0) by (apply Qcle_antisym; qclra).
  pose proof (My u Iu Eu) as B1. pose proof (My w Iw Ew) as B2.
  assert (Fu : snd u = x2 1) by (apply Qcle_antisym; qclra). assert (Fw : snd w = x2 1) by (apply Qcle_antisym; qclra).
  destruct u, w. cbn [fst snd] in *. subst. auto.
Qed.

(** ** lines with whole-number data *)
Definition nol : line := (0%Qc, 0%Qc, 0%Qc).
Definition whole (K R : Z) (l : line) : Prop :=
  exists a1 a2 b, l = (qz a1, qz a2, qz b) /\ (- K <= a1 <= K)%Z /\ (- K <= a2 <= K)%Z /\ (- R <= b <= R)%Z.
Definition ldir (l : line) : Qc * Qc := (fst (fst l), snd (fst l)).
Definition ltight (l : line) (v : point) : Prop := (fst v * fst (fst l) + snd v * snd (fst l) = snd l)%Qc.
Definition axis_parallel (l k : line) : Prop := (fst (fst l) = 0 /\ fst (fst k) = 0)%Qc \/ (snd (fst l) = 0 /\ snd (fst k) = 0)%Qc.

Lemma cramer a1 a2 b c1 c2 d x y : (a1 * c2 - a2 * c1 <> 0)%Qc ->
  ((x, y) = ((b * c2 - a2 * d) / (a1 * c2 - a2 * c1), (a1 * d - b * c1) / (a1 * c2 - a2 * c1))%Qc <->
   (x * a1 + y * a2 = b)%Qc /\ (x * c1 + y * c2 = d)%Qc).
Proof.
  intros D. set (q := (a1 * c2 - a2 * c1)%Qc) in *. assert (I : (q * / q = 1)%Qc) by now apply Qcmult_inv_r. unfold Qcdiv. split.
  - intros E. injection E as Ex Ey. rewrite Ex, Ey. split.
    + transitivity (b * (q * / q))%Qc; [unfold q; ring|rewrite I; ring].
    + transitivity (d * (q * / q))%Qc; [unfold q; ring|rewrite I; ring].
  - intros (<- & <-). f_equal.
    + transitivity (x * (q * / q))%Qc; [rewrite I; ring|unfold q; ring].
    + transitivity (y * (q * / q))%Qc; [rewrite I; ring|unfold q; ring].
Qed.
Lemma intersection_ok K R l k pt : whole K R l -> whole K R k ->
  (intersection l k = Some (Ok pt) <-> ltight l pt /\ ltight k pt /\ cross (ldir l) (ldir k) <> 0%Qc).
Proof.
  intros (a1 & a2 & b & -> & _) (c1 & c2 & d & -> & _). unfold intersection, ltight, ldir, cross. cbn [fst snd]. rewrite !trunc_int.
  destruct pt as (x & y). cbn [fst snd].
  destruct (qeq_spec (qz a1) 0) as [E1|E1], (qeq_spec (qz c1) 0) as [E2|E2], (qeq_spec (qz a2) 0) as [E3|E3], (qeq_spec (qz c2) 0) as [E4|E4]; cbn [andb orb];
    try (split; [discriminate|intros (_ & _ & N); exfalso; apply N; rewrite ?E1, ?E2, ?E3, ?E4; ring]);
    (destruct (qeq_spec (qz a1 * qz c2 - qz a2 * qz c1) 0) as [Z|N]; [split; [discriminate|intros (_ & _ & N); contradiction]|]);
    (split; [intros E; injection E as E; symmetry in E|intros (P1 & P2 & _); do 2 f_equal; symmetry; apply cramer; auto]);
    (assert (P : (x, y) = ((qz b * qz c2 - qz a2 * qz d) / (qz a1 * qz c2 - qz a2 * qz c1), (qz a1 * qz d - qz b * qz c1) / (qz a1 * qz c2 - qz a2 * qz c1))%Qc) by (f_equal; congruence);
     apply cramer in P as (P1 & P2); auto).
Qed.
Lemma intersection_raise K R l k e : whole K R l -> whole K R k ->
  (intersection l k = Some (Raise e) <-> e = LinAlgError /\ cross (ldir l) (ldir k) = 0%Qc /\ ~ axis_parallel l k).
Proof.
  intros (a1 & a2 & b & -> & _) (c1 & c2 & d & -> & _). unfold intersection, axis_parallel, ldir, cross. cbn [fst snd]. rewrite !trunc_int.
  destruct (qeq_spec (qz a1) 0) as [E1|E1], (qeq_spec (qz c1) 0) as [E2|E2], (qeq_spec (qz a2) 0) as [E3|E3], (qeq_spec (qz c2) 0) as [E4|E4]; cbn [andb orb];
    try (split; [discriminate|intros (_ & _ & N); exfalso; apply N; auto; fail]);
    (destruct (qeq_spec (qz a1 * qz c2 - qz a2 * qz c1) 0) as [Z|N]; [split; [intros H; injection H as <-; repeat split; auto; intros [(?&?)|(?&?)]; contradiction|intros (-> & _); reflexivity]|split; [discriminate|intros (_ & Z & _); contradiction]]).
Qed.
Lemma intersection_diverges l k : intersection l k <> Some Diverges.
Proof. unfold intersection. destruct ((_ || _)%bool); [discriminate|]. destruct (qeq _ _); discriminate. Qed.

Lemma In_pairs ls l k : In (l, k) (pairs ls) <-> exists i j, i < j < length ls /\ l = nth i ls nol /\ k = nth j ls nol.
Proof.
  unfold pairs. fold nol. split.
  - intros H. apply in_flat_map in H as (i & Hi & H). apply in_flat_map in H as (j & Hj & H). apply in_seq in Hi. apply in_seq in Hj.
    destruct (Nat.ltb_spec i j); [|destruct H]. destruct H as [E|[]]. injection E as <- <-. exists i, j. repeat split; auto; lia.
  - intros (i & j & H & -> & ->). apply in_flat_map. exists i. split; [apply in_seq; lia|]. apply in_flat_map. exists j. split; [apply in_seq; lia|].
    destruct (Nat.ltb_spec i j); [now left|lia].
Qed.
Lemma intersections_ok ps cs : intersections ps = Ok cs ->
  (forall pt, In pt cs <-> exists l k, In (l, k) ps /\ intersection l k = Some (Ok pt)) /\ (forall l k e, In (l, k) ps -> intersection l k <> Some (Raise e)).
Proof.
  revert cs. induction ps as [|(l & k) ps IH]; intros cs E.
  - injection E as <-. split; [intros pt; split; [intros []|intros (l & k & [] & _)]|intros l k e []].
  - cbn [intersections] in E. destruct (intersection l k) as [r|] eqn:I.
    + destruct r as [pt0| |]; cbn [bind] in E; try discriminate. destruct (intersections ps) as [pts| |] eqn:J; cbn [bind] in E; try discriminate. injection E as <-.
      destruct (IH _ eq_refl) as (A & B). split.
      * intros pt. split.
        -- intros [<-|H]; [exists l, k; split; [now left|auto]|]. apply A in H as (l' & k' & H1 & H2). exists l', k'. split; [now right|auto].
        -- intros (l' & k' & [E|H] & H2); [injection E as <- <-; rewrite I in H2; injection H2 as <-; now left|]. right. apply A. eauto.
      * intros l' k' e [E|H]; [injection E as <- <-; rewrite I; discriminate|eauto].
    + destruct (IH _ E) as (A & B). split.
      * intros pt. rewrite A. split.
        -- intros (l' & k' & H1 & H2). exists l', k'. split; [now right|auto].
        -- intros (l' & k' & [E'|H] & H2); [injection E' as <- <-; congruence|eauto].
      * intros l' k' e [E'|H]; [injection E' as <- <-; rewrite I; discriminate|eauto].
Qed.
Lemma intersections_raise ps e : intersections ps = Raise e -> exists l k, In (l, k) ps /\ intersection l k = Some (Raise e).
Proof.
  induction ps as [|(l & k) ps IH]; [discriminate|]. intros E. cbn [intersections] in E. destruct (intersection l k) as [r|] eqn:I.
  - destruct r as [pt0|e0|]; cbn [bind] in E; try discriminate.
    + destruct (intersections ps) as [pts| |] eqn:J; cbn [bind] in E; try discriminate. injection E as ->. destruct (IH eq_refl) as (l' & k' & H & H'). exists l', k'. split; [now right|auto].
    + injection E as ->. exists l, k. split; [now left|auto].
  - destruct (IH E) as (l' & k' & H & H'). exists l', k'. split; [now right|auto].
Qed.
Lemma intersections_diverges ps : intersections ps <> Diverges.
Proof.
  induction ps as [|(l & k) ps IH]; [discriminate|]. cbn [intersections]. destruct (intersection l k) as [r|] eqn:I; auto.
  destruct r as [pt0|e0|]; cbn [bind]; try discriminate; [|now apply intersection_diverges in I]. destruct (intersections ps); cbn [bind]; try discriminate; auto.
Qed.

(** rounding tolerance does not matter for whole numbers *)
Lemma qabs_mul x y : qabs (x * y) = (qabs x * qabs y)%Qc.
Proof.
  assert (N : forall a, (0 <= a)%Qc -> qabs a = a) by (intros a Ha; unfold qabs; destruct (qlt_spec a 0); auto; exfalso; qclra).
  assert (P : forall a, (a <= 0)%Qc -> qabs a = (- a)%Qc) by (intros a Ha; unfold qabs; destruct (qlt_spec a 0); auto; assert (a = 0%Qc) as -> by (apply Qcle_antisym; qclra); ring).
  destruct (Qclt_le_dec x 0) as [Hx|Hx], (Qclt_le_dec y 0) as [Hy|Hy].
  - apply Qclt_le_weak in Hx, Hy. rewrite (P x Hx), (P y Hy), N; [ring|clear - Hx Hy; qcnra].
  - apply Qclt_le_weak in Hx. rewrite (P x Hx), (N y Hy), P; [ring|clear - Hx Hy; qcnra].
  - apply Qclt_le_weak in Hy. rewrite (N x Hx), (P y Hy), P; [ring|clear - Hx Hy; qcnra].
  - rewrite !N; auto. apply qmul_nonneg; auto.
Qed.
Lemma qabs_qz a : qabs (qz a) = qz (Z.abs a).
Proof.
  unfold qabs. destruct (qlt_spec (qz a) 0) as [H|H].
  - rewrite <- qz_opp. apply (f_equal qz). rewrite <- qz_0 in H. apply (proj1 (qz_lt _ _)) in H. lia.
  - apply (f_equal qz). assert (~ (a < 0)%Z); [|lia]. intros N. apply (proj2 (qz_lt _ _)) in N. rewrite qz_0 in N. qclra.
Qed.
Lemma isclose_int D v b M : (0 < D)%Z -> isint (qz D * v)%Qc -> isint (qz D * b)%Qc -> (qabs (qz D * v) <= qz M)%Qc -> (qabs (qz D * b) <= qz M)%Qc -> (M < 1000000000)%Z ->
  math_isclose v b = true -> v = b.
Proof.
  intros HD (n & Hn) (m & Hm) B1 B2 HM C. rewrite Hn, Hm, !qabs_qz, !qz_le in *.
  unfold math_isclose in C. destruct (qle_spec (qabs (v - b)) (Q2Qc (1 # 1000000000) * qmax (qabs v) (qabs b))) as [L|]; [clear C|discriminate C].
  assert (PD : (0 < qz D)%Qc) by (rewrite <- qz_0; now apply (proj2 (qz_lt _ _))).
  assert (AD : qabs (qz D) = qz D) by (rewrite qabs_qz; f_equal; lia).
  assert (E1 : (qz D * qabs (v - b) = qz (Z.abs (n - m)))%Qc).
  { rewrite <- AD, <- qabs_mul. replace (qz D * (v - b))%Qc with (qz D * v - qz D * b)%Qc by ring. rewrite Hn, Hm. unfold Qcminus. rewrite <- qz_opp, <- qz_add, qabs_qz. reflexivity. }
  assert (E2 : (qz D * qmax (qabs v) (qabs b) <= qz M)%Qc).
  { assert (V : (qz D * qabs v = qz (Z.abs n))%Qc) by (rewrite <- AD, <- qabs_mul, Hn, qabs_qz; reflexivity).
    assert (B : (qz D * qabs b = qz (Z.abs m))%Qc) by (rewrite <- AD, <- qabs_mul, Hm, qabs_qz; reflexivity).
    unfold qmax. destruct (qle _ _); [rewrite B|rewrite V]; now apply qz_le. }
  set (t := Q2Qc (1 # 1000000000)) in *. assert (Pt : (0 < t)%Qc) by reflexivity. assert (Et : (t * qz 1000000000 = 1)%Qc) by (apply Qc_is_canon; reflexivity).
  apply (proj2 (qz_lt _ _)) in HM. set (x := qabs (v - b)) in *. set (y := qmax (qabs v) (qabs b)) in *. set (G := qz 1000000000) in *. clearbody t G.
  assert (F : (qz (Z.abs (n - m)) < 1)%Qc).
  { rewrite <- E1, <- Et. clearbody x y. set (q := qz D) in *. set (M' := qz M) in *. clearbody q M'. clear - L E2 HM PD Pt. 
    assert (A : (q * x <= q * (t * y))%Qc) by qcnra. assert (B : (q * (t * y) = t * (q * y))%Qc) by ring. assert (C : (t * (q * y) <= t * M')%Qc) by (set (z := (q * y)%Qc) in *; clearbody z; clear - Pt E2; qcnra). assert (E : (t * M' < t * G)%Qc) by (clear - Pt HM; qcnra). rewrite B in A. set (u := (q * x)%Qc) in *. set (w := (t * (q * y))%Qc) in *. clearbody u w. qclra. }
  rewrite <- qz_1 in F. apply (proj1 (qz_lt _ _)) in F. assert (n = m) by lia. subst m.
  assert (N0 : qz D <> 0%Qc) by (intros Z; rewrite Z in PD; discriminate PD).
  rewrite <- (Qcmult_1_l v), <- (Qcmult_1_l b), <- (Qcmult_inv_l (qz D) N0), <- !Qcmult_assoc, Hn, Hm. reflexivity.
Qed.

Lemma absmul x y X Y : (Z.abs x <= X)%Z -> (Z.abs y <= Y)%Z -> (Z.abs (x * y) <= X * Y)%Z.
Proof. intros H1 H2. rewrite Z.abs_mul. apply Z.mul_le_mono_nonneg; lia. Qed.
Lemma scaled K R l k v m : whole K R l -> whole K R k -> whole K R m -> ltight l v -> ltight k v -> cross (ldir l) (ldir k) <> 0%Qc ->
  exists D, (0 < D)%Z /\ isint (qz D * (fst v * fst (fst m) + snd v * snd (fst m)))%Qc /\ isint (qz D * snd m)%Qc /\
    (qabs (qz D * (fst v * fst (fst m) + snd v * snd (fst m))) <= qz (4 * K * K * R))%Qc /\ (qabs (qz D * snd m) <= qz (4 * K * K * R))%Qc.
Proof.
  intros (a1 & a2 & b & -> & A1 & A2 & B) (c1 & c2 & d & -> & C1 & C2 & D) (e1 & e2 & f & -> & E1 & E2 & F). unfold ltight, ldir, cross. cbn [fst snd]. destruct v as (x & y). cbn [fst snd]. intros T1 T2 N.
  set (q := (a1 * c2 - a2 * c1)%Z). assert (Q : (qz a1 * qz c2 - qz a2 * qz c1)%Qc = qz q) by (unfold q, Z.sub, Qcminus; rewrite qz_add, qz_opp, !qz_mul; reflexivity).
  assert (Nq : q <> 0%Z) by (intros Z; apply N; rewrite Q, Z; apply qz_0).
  assert (X : (qz q * x = qz (b * c2 - a2 * d))%Qc) by (rewrite <- Q; unfold Z.sub; rewrite qz_add, qz_opp, !qz_mul, <- T1, <- T2; ring).
  assert (Y : (qz q * y = qz (a1 * d - b * c1))%Qc) by (rewrite <- Q; unfold Z.sub; rewrite qz_add, qz_opp, !qz_mul, <- T1, <- T2; ring).
  assert (S : exists s, (s = 1 \/ s = -1)%Z /\ (0 < s * q)%Z) by (destruct (Z.lt_ge_cases q 0); [exists (-1)%Z|exists 1%Z]; lia). destruct S as (s & Hs & Ps).
  exists (s * q)%Z.
  assert (V : (qz (s * q) * (x * qz e1 + y * qz e2) = qz (s * ((b * c2 - a2 * d) * e1 + (a1 * d - b * c1) * e2)))%Qc).
  { rewrite !qz_mul, qz_add, (qz_mul _ e1), (qz_mul _ e2), <- X, <- Y. ring. }
  assert (W : (qz (s * q) * qz f = qz (s * (q * f)))%Qc) by (rewrite !qz_mul; ring).
  assert (As : forall z, Z.abs (s * z) = Z.abs z) by (intros z; destruct Hs as [->| ->]; lia).
  rewrite V, W, !qabs_qz, !As. split; [exact Ps|]. split; [eexists; reflexivity|]. split; [eexists; reflexivity|].
  assert (KR : (0 <= K * K * R)%Z) by (apply Z.mul_nonneg_nonneg; [apply Z.mul_nonneg_nonneg|]; lia).
  split; apply qz_le.
  - assert (U1 : (Z.abs (b * c2) <= R * K)%Z) by (apply absmul; lia). assert (U2 : (Z.abs (a2 * d) <= K * R)%Z) by (apply absmul; lia).
    assert (U3 : (Z.abs (a1 * d) <= K * R)%Z) by (apply absmul; lia). assert (U4 : (Z.abs (b * c1) <= R * K)%Z) by (apply absmul; lia).
    assert (U5 : (Z.abs ((b * c2 - a2 * d) * e1) <= (R * K + K * R) * K)%Z) by (apply absmul; lia).
    assert (U6 : (Z.abs ((a1 * d - b * c1) * e2) <= (R * K + K * R) * K)%Z) by (apply absmul; lia).
    replace ((R * K + K * R) * K)%Z with (2 * (K * K * R))%Z in U5, U6 by ring. replace (4 * K * K * R)%Z with (4 * (K * K * R))%Z by ring. lia.
  - assert (U1 : (Z.abs (a1 * c2) <= K * K)%Z) by (apply absmul; lia). assert (U2 : (Z.abs (a2 * c1) <= K * K)%Z) by (apply absmul; lia).
    assert (U5 : (Z.abs (q * f) <= (K * K + K * K) * R)%Z) by (apply absmul; unfold q; lia).
    replace ((K * K + K * K) * R)%Z with (2 * (K * K * R))%Z in U5 by ring. replace (4 * K * K * R)%Z with (4 * (K * K * R))%Z by ring. lia.
Qed.
Lemma close_whole K R l k v m : whole K R l -> whole K R k -> whole K R m -> ltight l v -> ltight k v -> cross (ldir l) (ldir k) <> 0%Qc -> (4 * K * K * R < 1000000000)%Z ->
  math_isclose (fst v * fst (fst m) + snd v * snd (fst m)) (snd m) = true -> (fst v * fst (fst m) + snd v * snd (fst m))%Qc = snd m.
Proof. intros Hl Hk Hm T1 T2 N B. destruct (scaled K R l k v m) as (D & PD & I1 & I2 & B1 & B2); auto. intros C. eapply isclose_int; eauto. Qed.

Definition sides (ls : list line) (le : nat -> bool) : list side := map (fun i => (nth i ls nol, le i)) (seq 0 (length ls)).
Lemma In_sides ls le s : In s (sides ls le) <-> exists i, i < length ls /\ s = (nth i ls nol, le i).
Proof. unfold sides. rewrite in_map_iff. split; intros (i & H); [destruct H as (<- & H); apply in_seq in H|destruct H as (H & ->)]; exists i; split; auto; try lia. apply in_seq. lia. Qed.
Lemma valid_iff K R ls d (le : nat -> bool) l k pt : (forall m, In m ls -> whole K R m) -> (4 * K * K * R < 1000000000)%Z ->
  (forall i, i < length ls -> dget Nat.eqb i d = Some (if le i then "<=" else ">=")) ->
  In l ls -> In k ls -> ltight l pt -> ltight k pt -> cross (ldir l) (ldir k) <> 0%Qc ->
  (valid_point d ls pt = true <-> inside (sides ls le) pt).
Proof.
  intros W B Hd Hl Hk Tl Tk N. unfold valid_point. rewrite forallb_forall. fold nol.
  assert (G : forall i, i < length ls ->
    ((let '(a1, a2, b) := nth i ls nol in let value := (fst pt * a1 + snd pt * a2)%Qc in
      match dget Nat.eqb i d with
      | Some s => if String.eqb s "<=" then negb (qlt b value && negb (math_isclose value b)) else if String.eqb s ">=" then negb (qlt value b && negb (math_isclose value b)) else true
      | None => true end) = true <-> on_side (nth i ls nol, le i) pt)).
  { intros i Hi. rewrite (Hd i Hi). assert (Hm : In (nth i ls nol) ls) by now apply nth_In.
    pose proof (close_whole K R l k pt (nth i ls nol) (W _ Hl) (W _ Hk) (W _ Hm) Tl Tk N B) as C.
    destruct (nth i ls nol) as ((a1 & a2) & b) eqn:E. cbn [fst snd] in C. destruct (le i); cbn [String.eqb Ascii.eqb Bool.eqb on_side];
      set (v := (fst pt * a1 + snd pt * a2)%Qc) in *; clearbody v; clear - C.
    - destruct (qlt_spec b v) as [L|L]; cbn [andb negb].
      + destruct (math_isclose v b); cbn [negb]; split; intros H; auto; try discriminate.
        * rewrite (C eq_refl). apply Qcle_refl.
        * exfalso; qclra.
      + split; intros; auto. qclra.
    - destruct (qlt_spec v b) as [L|L]; cbn [andb negb].
      + destruct (math_isclose v b); cbn [negb]; split; intros H; auto; try discriminate.
        * rewrite (C eq_refl). apply Qcle_refl.
        * exfalso; qclra.
      + split; intros; auto. qclra. }
  split.
  - intros H s Hs. apply In_sides in Hs as (i & Hi & ->). apply G; auto. apply H. apply in_seq. lia.
  - intros H i Hi. apply in_seq in Hi. apply G; [lia|]. apply H. apply In_sides. exists i. split; [lia|auto].
Qed.

(** the points that survive are the vertices *)
Lemma side_tight l b v : tight (l, b) v <-> ltight l v.
Proof. destruct l as ((a1 & a2) & c). reflexivity. Qed.
Lemma side_dir l b : dir (l, b) = ldir l.
Proof. destruct l as ((a1 & a2) & c). reflexivity. Qed.
Lemma cross_self u : cross u u = 0%Qc.
Proof. unfold cross. ring. Qed.
Lemma cross_swap u v : cross u v <> 0%Qc -> cross v u <> 0%Qc.
Proof. intros H E. apply H. transitivity (- cross v u)%Qc; [unfold cross; ring|rewrite E; ring]. Qed.
Lemma In_candidates K R ls cs : (forall m, In m ls -> whole K R m) -> intersections (pairs ls) = Ok cs -> forall pt,
  In pt cs <-> exists i j, i < length ls /\ j < length ls /\ ltight (nth i ls nol) pt /\ ltight (nth j ls nol) pt /\ cross (ldir (nth i ls nol)) (ldir (nth j ls nol)) <> 0%Qc.
Proof.
  intros W E pt. destruct (intersections_ok _ _ E) as (A & _). rewrite A. split.
  - intros (l & k & H & I). apply In_pairs in H as (i & j & H & -> & ->). apply (intersection_ok K R) in I; [|apply W, nth_In; lia ..]. exists i, j. repeat split; try lia; tauto.
  - intros (i & j & Hi & Hj & T1 & T2 & N). assert (Nij : i <> j) by (intros ->; apply N, cross_self).
    destruct (Nat.lt_ge_cases i j); [exists (nth i ls nol), (nth j ls nol)|exists (nth j ls nol), (nth i ls nol)].
    + split; [apply In_pairs; exists i, j; repeat split; auto|]. apply (intersection_ok K R); auto; apply W, nth_In; lia.
    + split; [apply In_pairs; exists j, i; repeat split; auto; lia|]. apply (intersection_ok K R); [apply W, nth_In; lia ..|]. repeat split; auto. now apply cross_swap.
Qed.
Lemma survivors K R ls d (le : nat -> bool) cs : (forall m, In m ls -> whole K R m) -> (4 * K * K * R < 1000000000)%Z ->
  (forall i, i < length ls -> dget Nat.eqb i d = Some (if le i then "<=" else ">=")) ->
  intersections (pairs ls) = Ok cs -> forall pt, In pt (filter (valid_point d ls) cs) <-> extreme (inside (sides ls le)) pt.
Proof.
  intros W B Hd E pt. rewrite filter_In, (In_candidates K R ls cs W E). split.
  - intros ((i & j & Hi & Hj & T1 & T2 & N) & V). apply (valid_iff K R ls d le (nth i ls nol) (nth j ls nol)) in V; auto; try (now apply nth_In).
    apply (tight_extreme _ (nth i ls nol, le i) (nth j ls nol, le j)); auto; try (apply In_sides; eauto); try (now apply side_tight). now rewrite !side_dir.
  - intros X. destruct (extreme_tight _ _ X) as (s & t & Hs & Ht & T1 & T2 & N). apply In_sides in Hs as (i & Hi & ->). apply In_sides in Ht as (j & Hj & ->).
    apply side_tight in T1. apply side_tight in T2. rewrite !side_dir in N. split; [exists i, j; repeat split; auto|].
    apply (valid_iff K R ls d le (nth i ls nol) (nth j ls nol)); auto; try (now apply nth_In). apply X.
Qed.

(** ** programs *)
Definition two_sided (p : lp) : Prop := cols p = 2 /\ ((forall i, i < rows p -> rel p i = AtMost) \/ (forall i, i < rows p -> rel p i = AtLeast)).
Lemma all_keys p : wf p -> length (lineq p) = rows p -> forall i, i < rows p -> exists s, dget Nat.eqb i (lineq p) = Some s /\ In (i, s) (lineq p).
Proof.
  intros W L i Hi.
  assert (I : incl (seq 0 (rows p)) (dkeys (lineq p))).
  { apply NoDup_length_incl; [apply (wf_keys _ W)|rewrite seq_length; unfold dkeys; rewrite map_length; lia|]. intros k Hk. unfold dkeys in Hk. apply in_map_iff in Hk as ((k' & s) & <- & Hk). apply (wf_ineq _ W) in Hk as (Hk & _). apply in_seq. cbn [fst]. lia. }
  specialize (I i (proj2 (in_seq _ _ _) (conj (Nat.le_0_l i) Hi))). unfold dkeys in I. apply in_map_iff in I as ((k & s) & E & H). cbn [fst] in E. subst k.
  exists s. split; auto. apply (In_dget _ eqb_reflect); auto. apply (wf_keys _ W).
Qed.
Lemma checks p : wf p ->
  (negb (Nat.eqb (cols p) 2) = false /\ negb (Nat.eqb (length (lineq p)) (length (lb p))) = false /\
   negb (forallb (fun e => String.eqb (snd e) "<=") (lineq p)) && negb (forallb (fun e => String.eqb (snd e) ">=") (lineq p)) = false) <-> two_sided p.
Proof.
  intros W. rewrite (wf_b _ W). split.
  - intros (H1 & H2 & H3). apply negb_false_iff, Nat.eqb_eq in H1. apply negb_false_iff, Nat.eqb_eq in H2. split; auto.
    assert (G : forall s, forallb (fun e => String.eqb (snd e) s) (lineq p) = true -> forall i, i < rows p -> rel p i = relation_of s).
    { intros s F i Hi. destruct (all_keys p W H2 i Hi) as (t & E & I). unfold rel. rewrite E. rewrite forallb_forall in F. specialize (F _ I). cbn [snd] in F. apply String.eqb_eq in F. now subst. }
    apply andb_false_iff in H3 as [H3|H3]; apply negb_false_iff in H3; [left|right]; exact (G _ H3).
  - intros (H1 & H2). rewrite H1. split; auto.
    assert (D : forall r i, i < rows p -> rel p i = r -> r <> Equal -> exists s, dget Nat.eqb i (lineq p) = Some s) by (intros r i Hi E N; unfold rel in E; destruct (dget Nat.eqb i (lineq p)); eauto; congruence).
    assert (L : length (lineq p) = rows p).
    { apply Nat.le_antisymm.
      - rewrite <- (map_length fst (lineq p)), <- (seq_length (rows p) 0). apply NoDup_incl_length; [apply (wf_keys _ W)|]. intros k Hk. apply in_map_iff in Hk as ((k' & s) & <- & Hk). apply (wf_ineq _ W) in Hk as (Hk & _). apply in_seq. cbn [fst]. lia.
      - rewrite <- (map_length fst (lineq p)). rewrite <- (seq_length (rows p) 0) at 1. apply NoDup_incl_length; [apply seq_NoDup|]. intros k Hk. apply in_seq in Hk.
        assert (E : exists s, dget Nat.eqb k (lineq p) = Some s) by (destruct H2 as [H2|H2]; eapply D; [|apply H2| |  |apply H2|]; try lia; discriminate). destruct E as (s & E). apply (dget_In _ eqb_reflect) in E. apply in_map_iff. exists (k, s). auto. }
    rewrite L, Nat.eqb_refl. split; auto.
    assert (G : forall s r, relation_of s = r -> (s = "<=" \/ s = ">=") -> (forall i, i < rows p -> rel p i = r) -> forallb (fun e => String.eqb (snd e) s) (lineq p) = true).
    { intros s r Er Hs F. apply forallb_forall. intros (i & t) I. cbn [snd]. destruct (wf_ineq _ W _ _ I) as (Hi & Ht). specialize (F i Hi). unfold rel in F. rewrite (In_dget _ eqb_reflect _ _ _ (wf_keys _ W) I) in F. rewrite <- Er in F.
      destruct Hs as [-> | ->], Ht as [-> | ->]; cbn in F; try discriminate; reflexivity. }
    destruct H2 as [H2|H2]; [rewrite (G "<=" AtMost) by auto|rewrite (G ">=" AtLeast) by auto]; [reflexivity|]. apply andb_false_r.
Qed.

Lemma boundary_length p L : wf p -> length (boundary_lines p L) = rows p + 4.
Proof. intros W. unfold boundary_lines. rewrite app_length, map_length, combine_length, (wf_b _ W). unfold rows. cbn [length]. lia. Qed.
Lemma boundary_nth p L i : wf p -> i < rows p -> nth i (boundary_lines p L) nol = (ent (lA p) i 0, ent (lA p) i 1, at_ (lb p) i).
Proof.
  intros W Hi. unfold boundary_lines. pose proof (wf_b _ W) as Wb. unfold rows in *.
  rewrite app_nth1 by (rewrite map_length, combine_length; lia).
  change nol with ((fun ab : list Qc * Qc => (at_ (fst ab) 0, at_ (fst ab) 1, snd ab)) ([], 0%Qc)). rewrite map_nth, combine_nth by lia. reflexivity.
Qed.
Lemma boundary_nth4 p L k : wf p -> nth (rows p + k) (boundary_lines p L) nol = nth k [(1%Qc, 0%Qc, L); (1%Qc, 0%Qc, (- L)%Qc); (0%Qc, 1%Qc, L); (0%Qc, 1%Qc, (- L)%Qc)] nol.
Proof.
  intros W. unfold boundary_lines. pose proof (wf_b _ W) as Wb. unfold rows in *. rewrite app_nth2 by (rewrite map_length, combine_length; lia). f_equal. rewrite map_length, combine_length. lia.
Qed.
Definition le_of (p : lp) (i : nat) : bool :=
  if Nat.ltb i (rows p) then match rel p i with AtMost => true | _ => false end else Nat.eqb i (rows p) || Nat.eqb i (rows p + 2).
Lemma keys_lt p : wf p -> length (lineq p) = rows p -> forall i t, In (i, t) (lineq p) -> i < length (lineq p).
Proof. intros W L i t H. apply (wf_ineq _ W) in H. lia. Qed.
Lemma two_sided_length p : wf p -> two_sided p -> length (lineq p) = rows p.
Proof. intros W T. apply (checks _ W) in T as (_ & T & _). apply negb_false_iff, Nat.eqb_eq in T. rewrite T. apply (wf_b _ W). Qed.
Lemma directions p : wf p -> two_sided p -> forall i, i < rows p + 4 -> dget Nat.eqb i (with_bounds (lineq p)) = Some (if le_of p i then "<=" else ">=").
Proof.
  intros W T i Hi. pose proof (two_sided_length p W T) as L. rewrite with_bounds_eq by now apply keys_lt. rewrite dget_app, L. unfold le_of.
  destruct (Nat.ltb_spec i (rows p)) as [H|H].
  - destruct (all_keys p W L i H) as (s & E & I). assert (R : rel p i = relation_of s) by (unfold rel; now rewrite E). rewrite E, R. apply (wf_ineq _ W) in I as (_ & [->| ->]); reflexivity.
  - assert (E : dget Nat.eqb i (lineq p) = None) by (destruct (dget Nat.eqb i (lineq p)) eqn:E; auto; apply (dget_In _ eqb_reflect), (wf_ineq _ W) in E; lia). rewrite E. unfold four.
    assert (C : i = rows p \/ i = rows p + 1 \/ i = rows p + 2 \/ i = rows p + 3) by lia. cbn [dget].
    destruct (Nat.eqb_spec i (rows p)), (Nat.eqb_spec i (rows p + 1)), (Nat.eqb_spec i (rows p + 2)), (Nat.eqb_spec i (rows p + 3)); try lia; reflexivity.
Qed.
Lemma region_inside p L v : wf p -> two_sided p -> (region p L v <-> inside (sides (boundary_lines p L) (le_of p)) v).
Proof.
  intros W T. assert (C2 : cols p = 2) by apply T.
  assert (IN : forall i, i < rows p -> inner (nth i (lA p) []) [fst v; snd v] = (fst v * ent (lA p) i 0 + snd v * ent (lA p) i 1)%Qc).
  { intros i Hi. rewrite (inner_row (cols p)); [|apply (wf_A _ W)|exact Hi]. rewrite C2, !Sum_S, Sum_0. cbn [at_ nth]. ring. }
  unfold region. change (rhs (meaning p)) with (lb p). change (coefficients (meaning p)) with (lA p). rewrite (wf_b _ W). split.
  - intros (H1 & H2 & H3) s Hs. apply In_sides in Hs as (i & Hi & ->). rewrite boundary_length in Hi by auto. unfold le_of. destruct (Nat.ltb_spec i (rows p)) as [H|H].
    + rewrite boundary_nth by auto. cbn [on_side]. specialize (H1 i H). rewrite IN, nth_relations in H1 by (rewrite ?(wf_b _ W); auto). change (nth i (lb p) 0%Qc) with (at_ (lb p) i) in H1.
      destruct T as (_ & [T|T]); rewrite (T i H) in *; exact H1.
    + assert (K : exists k, i = rows p + k /\ k < 4) by (exists (i - rows p); lia). destruct K as (k & -> & Hk). rewrite boundary_nth4 by auto.
      replace (Nat.eqb (rows p + k) (rows p)) with (Nat.eqb k 0) by (destruct (Nat.eqb_spec k 0), (Nat.eqb_spec (rows p + k) (rows p)); auto; lia).
      replace (Nat.eqb (rows p + k) (rows p + 2)) with (Nat.eqb k 2) by (destruct (Nat.eqb_spec k 2), (Nat.eqb_spec (rows p + k) (rows p + 2)); auto; lia).
      destruct H2 as (H2 & H2'), H3 as (H3 & H3'). destruct k as [|[|[|[|]]]]; [| | | |lia]; cbn [nth Nat.eqb orb on_side]; qclra.
  - intros H. assert (G : forall i, i < rows p + 4 -> on_side (nth i (boundary_lines p L) nol, le_of p i) v) by (intros i Hi; apply H, In_sides; exists i; rewrite boundary_length; auto).
    assert (G4 : forall k, k < 4 -> on_side (nth k [(1%Qc, 0%Qc, L); (1%Qc, 0%Qc, (- L)%Qc); (0%Qc, 1%Qc, L); (0%Qc, 1%Qc, (- L)%Qc)] nol, (Nat.eqb k 0 || Nat.eqb k 2)%bool) v).
    { intros k Hk. specialize (G (rows p + k) ltac:(lia)). rewrite boundary_nth4 in G by auto. unfold le_of in G. destruct (Nat.ltb_spec (rows p + k) (rows p)); [lia|].
      replace (Nat.eqb (rows p + k) (rows p)) with (Nat.eqb k 0) in G by (destruct (Nat.eqb_spec k 0), (Nat.eqb_spec (rows p + k) (rows p)); auto; lia).
      replace (Nat.eqb (rows p + k) (rows p + 2)) with (Nat.eqb k 2) in G by (destruct (Nat.eqb_spec k 2), (Nat.eqb_spec (rows p + k) (rows p + 2)); auto; lia). exact G. }
    split.
    + intros i Hi. rewrite IN, nth_relations by (rewrite ?(wf_b _ W); auto). change (nth i (lb p) 0%Qc) with (at_ (lb p) i). specialize (G i ltac:(lia)). rewrite boundary_nth in G by auto. unfold le_of in G.
      destruct (Nat.ltb_spec i (rows p)); [|lia]. destruct T as (_ & [T|T]); rewrite (T i Hi) in *; exact G.
    + pose proof (G4 0 ltac:(lia)) as A0. pose proof (G4 1 ltac:(lia)) as A1. pose proof (G4 2 ltac:(lia)) as A2. pose proof (G4 3 ltac:(lia)) as A3. cbn [nth Nat.eqb orb on_side] in *. repeat split; qclra.
Qed.
Lemma extreme_ext (P Q : point -> Prop) v : (forall v, P v <-> Q v) -> (extreme P v <-> extreme Q v).
Proof. intros H. unfold extreme. split; intros (A & B); (split; [now apply H|]); intros u w Hu Hw; apply B; now apply H. Qed.
Lemma whole_lines p K R z : wf p -> cols p = 2 -> (1 <= K)%Z -> (- R <= z <= R)%Z -> whole_numbers p K R -> forall m, In m (boundary_lines p (qz z)) -> whole K R m.
Proof.
  intros W C HK HR (HA & Hb) m Hm. apply (In_nth _ _ nol) in Hm as (i & Hi & <-). rewrite boundary_length in Hi by auto.
  destruct (Nat.lt_ge_cases i (rows p)) as [H|H].
  - rewrite boundary_nth by auto. destruct (HA i 0 H) as (a1 & E1 & B1); [unfold cols in C; lia|]. destruct (HA i 1 H) as (a2 & E2 & B2); [unfold cols in C; lia|]. destruct (Hb i) as (b & E3 & B3); [rewrite (wf_b _ W); auto|].
    exists a1, a2, b. unfold ent, at_. rewrite E1, E2, E3. repeat split; auto; lia.
  - assert (Kk : exists k, i = rows p + k /\ k < 4) by (exists (i - rows p); lia). destruct Kk as (k & -> & Hk). rewrite boundary_nth4 by auto. rewrite <- qz_opp, <- qz_0, <- qz_1.
    destruct k as [|[|[|[|]]]]; [| | | |lia]; cbn [nth]; [exists 1%Z, 0%Z, z|exists 1%Z, 0%Z, (- z)%Z|exists 0%Z, 1%Z, z|exists 0%Z, 1%Z, (- z)%Z]; repeat split; lia.
Qed.
