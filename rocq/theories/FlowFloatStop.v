(** ford_fulkerson with any doubles stops, as long as no path goes backwards: every augmentation takes its
    narrowest arc one step further in the order negative, below half, from half on, full; an augmentation by a
    negative amount fills its narrowest arc exactly, and full arcs leave the residual network for good. *)
From Coq Require Import String List Bool Arith QArith Qcanon Lia ZArith Permutation.
From Verif Require Import Py QcTac QSum QInt MatTheory UndirectedModel UndirectedProofs DirectedModel DirectedSpec DirectedProofs FlowModel FlowSpec FlowTheory ResidualProofs DirectedFinal FFProofs FFFinal FloatModel DoubleSpec DoubleProofs FloatProofs FlowFloatModel FlowFloatSpec FlowFloatProofs FlowFloatNear.
Import ListNotations.
Open Scope nat_scope.
Open Scope string_scope.
Open Scope list_scope.

Lemma qz_le_inv a b : (qz a <= qz b)%Qc -> (a <= b)%Z. Proof. apply qz_le. Qed.
Lemma double_scale x e0 : (exists a e, (Z.abs a < 2 ^ 53)%Z /\ (e0 <= e)%Z /\ x = (qz a * pow2 e)%Qc) -> exists z, x = (qz z * pow2 e0)%Qc.
Proof.
  intros (a & e & Ha & He & ->). exists (a * 2 ^ (e - e0))%Z. rewrite qz_mul, <- pow2_int by lia. replace e with (e - e0 + e0)%Z at 1 by lia. rewrite pow2_add. ring.
Qed.
Lemma scale_le a b e : (qz a * pow2 e <= qz b * pow2 e)%Qc -> (a <= b)%Z.
Proof.
  intros H. apply qz_le_inv. pose proof (pow2_pos e) as P. set (p := pow2 e) in *. set (x := qz a) in *. set (y := qz b) in *. clearbody p x y. clear - H P.
  apply Qcnot_lt_le. intros L. assert (0 < (x - y) * p)%Qc by (apply qmul_pos; [qclra|exact P]). qclra.
Qed.
(** the difference of two doubles within a factor of two of each other is a double *)
Lemma near_difference c x : is_double c -> is_double x -> (c <= x + x)%Qc -> (x <= c + c)%Qc -> is_double (c - x).
Proof.
  intros (b & e2 & Hb & He2 & ->) (a & e1 & Ha & He1 & ->) H1 H2.
  destruct (Z_le_gt_dec e1 e2) as [L|L].
  - destruct (double_scale (qz b * pow2 e2) e1) as (z & E); [exists b, e2; auto|]. rewrite E in *.
    replace (qz z * pow2 e1 - qz a * pow2 e1)%Qc with (qz (z - a) * pow2 e1)%Qc by (rewrite qz_sub; ring). apply dyadic; [|lia].
    replace (qz a * pow2 e1 + qz a * pow2 e1)%Qc with (qz (a + a) * pow2 e1)%Qc in H1 by (rewrite qz_add; ring). replace (qz z * pow2 e1 + qz z * pow2 e1)%Qc with (qz (z + z) * pow2 e1)%Qc in H2 by (rewrite qz_add; ring).
    apply scale_le in H1, H2. lia.
  - destruct (double_scale (qz a * pow2 e1) e2) as (z & E); [exists a, e1; split; [auto|split; [lia|auto]]|]. rewrite E in *.
    replace (qz b * pow2 e2 - qz z * pow2 e2)%Qc with (qz (b - z) * pow2 e2)%Qc by (rewrite qz_sub; ring). apply dyadic; [|lia].
    replace (qz z * pow2 e2 + qz z * pow2 e2)%Qc with (qz (z + z) * pow2 e2)%Qc in H1 by (rewrite qz_add; ring). replace (qz b * pow2 e2 + qz b * pow2 e2)%Qc with (qz (b + b) * pow2 e2)%Qc in H2 by (rewrite qz_add; ring).
    apply scale_le in H1, H2. lia.
Qed.
Lemma double_twice c : is_double c -> is_double (c + c).
Proof. intros (b & e & Hb & He & ->). exists b, (e + 1)%Z. split; [exact Hb|]. split; [lia|]. rewrite pow2_add. change (pow2 1) with (1 + 1)%Qc. ring. Qed.

(** what is sent through an arc never takes it above twice its capacity, and sending all that is left makes
    its flow nonnegative *)
Lemma rest_range c x : is_double c -> is_double x -> (0 <= c)%Qc -> (0 <= x + rnd (c - x) /\ x + rnd (c - x) <= c + c)%Qc.
Proof.
  intros Dc Dx Hc. destruct (rnd_rounds (c - x)%Qc) as [_ R]. specialize (R (- x)%Qc (double_opp x Dx)). replace (c - x - - x)%Qc with c in R by ring. rewrite (qabs_pos c Hc) in R.
  apply qabs_le in R. set (y := rnd (c - x)) in *. clearbody y. clear - R. destruct R. split; qclra.
Qed.
Lemma step_above c x d : is_double c -> is_double x -> (0 <= c)%Qc -> (d <= rnd (c - x))%Qc -> (rnd (x + d) <= c + c)%Qc.
Proof.
  intros Dc Dx Hc Hd. rewrite <- (rnd_double (c + c)%Qc (double_twice c Dc)). apply rnd_mono. destruct (rest_range c x Dc Dx Hc) as [_ H]. set (y := rnd (c - x)) in *. clearbody y. clear - Hd H. qclra.
Qed.
Lemma step_up x d : is_double x -> (0 < d)%Qc -> (x <= rnd (x + d))%Qc.
Proof. intros Dx Hd. rewrite <- (rnd_double x Dx) at 1. apply rnd_mono. clear - Hd. qclra. Qed.

(** how far an arc has come *)
Definition stage (m : nat) (c x : Qc) : nat :=
  if qeq x c then 2 * m + 3 else if qlt x 0 then 0 else if qlt (x + x)%Qc c then 1 else 2.
Lemma stage_max m c x : stage m c x <= 2 * m + 3.
Proof. unfold stage. destruct (qeq x c), (qlt x 0), (qlt (x + x)%Qc c); lia. Qed.
Lemma stage_low m c x : x <> c -> stage m c x <= 2.
Proof. unfold stage. intros H. destruct (qeq_spec x c); [contradiction|]. destruct (qlt x 0), (qlt (x + x)%Qc c); lia. Qed.
Lemma stage_mono m c x y : x <> c -> (x <= y)%Qc -> stage m c x <= stage m c y.
Proof.
  unfold stage. intros H L. destruct (qeq_spec x c); [contradiction|]. destruct (qeq_spec y c).
  - destruct (qlt x 0), (qlt (x + x)%Qc c); lia.
  - destruct (qlt_spec x 0); [lia|]. destruct (qlt_spec y 0); [exfalso; clear - L n1 q; qclra|]. destruct (qlt_spec (x + x) c) as [q|q]; destruct (qlt_spec (y + y) c) as [q'|q']; try lia. exfalso. clear - L q q'. qclra.
Qed.
(** the narrowest arc, when something positive is sent *)
Lemma stage_up m c x : is_double c -> is_double x -> (0 <= c)%Qc -> x <> c -> (x <= c + c)%Qc -> (0 < rnd (c - x))%Qc -> stage m c x + 1 <= stage m c (rnd (x + rnd (c - x))).
Proof.
  intros Dc Dx Hc Hne Hx Hp. destruct (rest_range c x Dc Dx Hc) as [R0 R1].
  assert (Lt : (x < c)%Qc).
  { apply Qcnot_le_lt. intros L. assert (Q : (rnd (c - x) <= 0)%Qc) by (rewrite <- (rnd_double 0 double_0); apply rnd_mono; clear - L; qclra). set (y := rnd (c - x)) in *. clearbody y. clear - Hp Q. qclra. }
  assert (N : (0 <= rnd (x + rnd (c - x)))%Qc) by (apply (rounds_nonneg _ _ (rnd_rounds _)); exact R0).
  destruct (qlt_spec x 0) as [Ng|Ng].
  - unfold stage. destruct (qeq_spec x c); [contradiction|]. destruct (qlt_spec x 0); [|contradiction].
    destruct (qeq (rnd (x + rnd (c - x))) c); [lia|]. destruct (qlt_spec (rnd (x + rnd (c - x))) 0) as [Q|Q]; [exfalso; set (y := rnd (x + rnd (c - x))) in *; clearbody y; clear - N Q; qclra|].
    destruct (qlt _ c); lia.
  - destruct (qlt_spec (x + x)%Qc c) as [Lo|Lo].
    + assert (Hi : (c <= rnd (x + rnd (c - x)) + rnd (x + rnd (c - x)))%Qc).
      { pose proof (diff_err c x Dc Dx) as E1. pose proof (sum_err x (rnd (c - x)) Dx (proj1 (rnd_rounds _))) as E2.
        rewrite (qabs_pos (c - x)%Qc) in E1 by (clear - Lt; qclra). rewrite (qabs_pos _ R0) in E2. apply qabs_le in E1. apply qabs_le in E2. destruct E1 as [E1 _], E2 as [E2 _].
        pose proof vv_eighth as V8. pose proof (Qclt_le_weak _ _ vv_pos) as V.
        assert (A1 : (vv * (c - x) <= Q2Qc (1 # 8) * c)%Qc).
        { apply Qcle_trans with (vv * c)%Qc; [apply scaled; [exact V|]; clear - Ng; qclra|]. pose proof (scaled c _ _ Hc V8) as X. rewrite (Qcmult_comm vv), (Qcmult_comm (Q2Qc (1 # 8))). exact X. }
        assert (A2 : (vv * (x + rnd (c - x)) <= Q2Qc (1 # 8) * (c + c))%Qc).
        { apply Qcle_trans with (vv * (c + c))%Qc; [apply scaled; [exact V|exact R1]|]. assert (C2 : (0 <= c + c)%Qc) by (clear - Hc; qclra). pose proof (scaled (c + c)%Qc _ _ C2 V8) as X. rewrite (Qcmult_comm vv), (Qcmult_comm (Q2Qc (1 # 8))). exact X. }
        assert (Q8 : (Q2Qc (1 # 8) * c * (1 + 1 + 1 + 1 + 1 + 1 + 1 + 1) = c)%Qc) by (replace (1 + 1 + 1 + 1 + 1 + 1 + 1 + 1)%Qc with (qz 8) by (apply Qc_is_canon; reflexivity); replace (Q2Qc (1 # 8) * c * qz 8)%Qc with (Q2Qc (1 # 8) * qz 8 * c)%Qc by ring; replace (Q2Qc (1 # 8) * qz 8)%Qc with 1%Qc by (apply Qc_is_canon; reflexivity); ring).
        replace (Q2Qc (1 # 8) * (c + c))%Qc with (Q2Qc (1 # 8) * c + Q2Qc (1 # 8) * c)%Qc in A2 by ring.
        set (y := rnd (c - x)) in *. set (z := rnd (x + y)) in *. set (w := (Q2Qc (1 # 8) * c)%Qc) in *. set (v1 := (vv * (c - x))%Qc) in *. set (v2 := (vv * (x + y))%Qc) in *. clearbody y z w v1 v2. clear - E1 E2 A1 A2 Q8 Hc. qclra. }
      unfold stage. destruct (qeq_spec x c); [contradiction|]. destruct (qlt_spec x 0); [contradiction|]. destruct (qlt_spec (x + x)%Qc c); [|contradiction].
      destruct (qeq (rnd (x + rnd (c - x))) c); [lia|]. destruct (qlt_spec (rnd (x + rnd (c - x))) 0) as [Q|Q]; [exfalso; set (y := rnd (x + rnd (c - x))) in *; clearbody y; clear - N Q; qclra|].
      destruct (qlt_spec (rnd (x + rnd (c - x)) + rnd (x + rnd (c - x))) c) as [Q'|Q']; [exfalso; set (y := rnd (x + rnd (c - x))) in *; clearbody y; clear - Hi Q'; qclra|]. lia.
    + assert (D : is_double (c - x)) by (apply near_difference; auto; clear - Lo; qclra). rewrite (rnd_double _ D). replace (x + (c - x))%Qc with c by ring. rewrite (rnd_double c Dc).
      pose proof (stage_low m c x Hne) as S2. unfold stage at 2. destruct (qeq_spec c c); [lia|congruence].
Qed.
(** and when something negative is sent *)
Lemma stage_down c x : is_double c -> is_double x -> (0 <= c)%Qc -> (x <= c + c)%Qc -> (rnd (c - x) < 0)%Qc -> rnd (x + rnd (c - x)) = c.
Proof.
  intros Dc Dx Hc Hx Hp. assert (L : (c < x)%Qc).
  { apply Qcnot_le_lt. intros L. assert (Q : (0 <= rnd (c - x))%Qc) by (apply (rounds_nonneg _ _ (rnd_rounds _)); clear - L; qclra). set (y := rnd (c - x)) in *. clearbody y. clear - Hp Q. qclra. }
  assert (D : is_double (c - x)) by (apply near_difference; auto; clear - L Hc; qclra). rewrite (rnd_double _ D). replace (x + (c - x))%Qc with c by ring. now apply rnd_double.
Qed.

Definition nsum {A} (f : A -> nat) (l : list A) : nat := fold_right (fun a s => f a + s) 0 l.
Lemma nsum_le {A} (f : A -> nat) l k : (forall a, In a l -> f a <= k) -> nsum f l <= length l * k.
Proof. induction l as [|a l IH]; intros H; cbn [nsum fold_right length]; [lia|]. specialize (IH (fun b Hb => H b (or_intror Hb))). specialize (H a (or_introl eq_refl)). unfold nsum in IH. lia. Qed.
Lemma nsum_drop {A} (f f' : A -> nat) l q : (forall a, In a l -> f a <= f' a + q) -> nsum f l <= nsum f' l + q * length l.
Proof. induction l as [|a l IH]; intros H; cbn [nsum fold_right length]; [lia|]. specialize (IH (fun b Hb => H b (or_intror Hb))). specialize (H a (or_introl eq_refl)). unfold nsum in IH. lia. Qed.
Lemma nsum_gain {A} (f f' : A -> nat) l b p q : In b l -> (forall a, In a l -> f a <= f' a + q) -> f b + p <= f' b -> nsum f l + p <= nsum f' l + q * (length l - 1).
Proof.
  induction l as [|a l IH]; intros Hb H Hp; [destruct Hb|]. cbn [nsum fold_right length]. destruct Hb as [->|Hb].
  - pose proof (nsum_drop f f' l q (fun x Hx => H x (or_intror Hx))) as D. unfold nsum in D. lia.
  - specialize (IH Hb (fun x Hx => H x (or_intror Hx)) Hp). specialize (H a (or_introl eq_refl)). unfold nsum in IH. assert (1 <= length l) by (destruct l; [destruct Hb|cbn; lia]). nia.
Qed.

Lemma outweighs x y k : 1 <= k -> x + (2 * k + 1) <= y + 2 * (k - 1) -> x + 1 <= y. Proof. lia. Qed.

Section Stop.
  Variable g : digraph.
  Notation arcs := (dg_arcs g).
  Variables s t : string.
  Hypothesis Hst : s <> t.
  Hypothesis Hnd : NoDup (dkeys arcs).
  Hypothesis Hloop : forall u v, In (u, v) (dkeys arcs) -> u <> v.
  Hypothesis Hw : one_way arcs.
  Hypothesis Hcap : forall a c, In (a, c) arcs -> (0 <= c)%Qc.
  Hypothesis Hdbl : forall a c, In (a, c) arcs -> is_double c.

  Notation m := (length arcs).
  Definition progress (flow : list (arc * Qc)) : nat := nsum (fun p => stage m (snd p) (fget flow (fst p))) arcs.
  Definition bounded (flow : list (arc * Qc)) : Prop := forall a c, In (a, c) arcs -> (fget flow a <= c + c)%Qc.
  Lemma progress_max flow : progress flow <= m * (2 * m + 3).
  Proof. apply nsum_le. intros [a c] _. apply stage_max. Qed.

  Lemma stop_augment flow r p l : tracked arcs flow r -> bounded flow -> path_arcs (2 + length p) p t = Ok l -> bpath r s t l -> forward arcs l ->
    exists flow' r', fl_ff_augment arcs t p flow r = Ok (l, (flow', r')) /\ tracked arcs flow' r' /\ bounded flow' /\ progress flow + 1 <= progress flow'.
  Proof.
    intros X Bd Ep Hb Fl. assert (Hl : l <> []) by (intros ->; inversion Hb; congruence).
    destruct (min_residual_spec r l None) as (d & Ed & M1 & _ & M2); [intros u v; apply (bpath_nodes s r t l Hb)|auto|].
    assert (Rv : forall u v, In (u, v) l -> exists c, In ((u, v), c) arcs /\ rval r u v = Some (rnd (c - fget flow (u, v))) /\ rnd (c - fget flow (u, v)) <> 0%Qc).
    { intros u v Ha. pose proof (Fl _ Ha) as K. apply (key_get _ eqe_spec) in K. destruct K as [c Ec]. apply (dget_In _ eqe_spec) in Ec. exists c. split; [exact Ec|].
      destruct (bpath_nodes s r t l Hb u v Ha) as [_ He]. unfold edge_in in He. destruct X as (_ & _ & V). destruct (V u v c Ec) as [V1 _]. rewrite V1 in *.
      unfold nz in *. destruct (qeq_spec (rnd (c - fget flow (u, v))) 0); [congruence|auto]. }
    destruct M2 as [(u & v & Hin & Huv)|]; [|discriminate]. destruct (Rv u v Hin) as (c & Hc & Er & Nz). rewrite Huv in Er. inversion Er; subst d. clear Er.
    assert (Db : doubles_in flow) by apply X.
    assert (Le : forall a ca, In a l -> In (a, ca) arcs -> (rnd (c - fget flow (u, v)) <= rnd (ca - fget flow a))%Qc /\ fget flow a <> ca).
    { intros [p' q'] ca Ha Hca. destruct (Rv p' q' Ha) as (c' & Hc' & Er' & Nz'). assert (c' = ca).
      { apply (In_dget _ eqe_spec) in Hca; [|exact Hnd]. apply (In_dget _ eqe_spec) in Hc'; [|exact Hnd]. congruence. }
      subst c'. split; [eapply M1; eauto|]. intros Q. apply Nz'. rewrite Q. replace (ca - ca)%Qc with 0%Qc by ring. apply rnd_double, double_0. }
    destruct X as (Bs & _ & V).
    assert (Eu : exists flow' r', fl_ff_update arcs l (rnd (c - fget flow (u, v))) flow r = Ok (flow', r')) by (eapply update_total; eauto).
    destruct Eu as (flow' & r' & Eu). exists flow', r'. split.
    { unfold fl_ff_augment. rewrite Ep. cbn [bind]. destruct l as [|a l']; [congruence|]. rewrite Ed. cbn [bind]. rewrite Eu. reflexivity. }
    destruct (some_bound (fun a => qabs (fget flow a + rnd (c - fget flow (u, v)))) l) as (B & HB).
    destruct (near_update arcs Hnd Hloop Hw (rnd (c - fget flow (u, v))) l B (proj1 (rnd_rounds _)) flow r flow' r') as (X' & F' & _); auto.
    { split; [exact Bs|]. split; [exact Db|exact V]. }
    { eapply bpath_NoDup; eauto. }
    set (d := rnd (c - fget flow (u, v))) in *.
    assert (On : forall a, existsb (eqe a) l = true <-> In a l).
    { intros a. split; intros H.
      - apply existsb_exists in H. destruct H as (b & Hb1 & Hb2). destruct (eqe_spec a b); [subst; auto|discriminate].
      - apply existsb_exists. exists a. split; [exact H|]. destruct (eqe_spec a a); congruence. }
    assert (Bo : bounded flow').
    { intros a ca Hca. rewrite F'. destruct (existsb (eqe a) l) eqn:Ex; [|apply Bd; exact Hca]. apply On in Ex. apply step_above; [eauto|apply Db|eauto|apply (Le a ca Ex Hca)]. }
    split; [exact X'|]. split; [exact Bo|].
    assert (Fb : fget flow' (u, v) = rnd (fget flow (u, v) + d)) by (rewrite F'; apply On in Hin; now rewrite Hin).
    unfold progress. set (f := fun p0 : arc * Qc => stage m (snd p0) (fget flow (fst p0))). set (f' := fun p0 : arc * Qc => stage m (snd p0) (fget flow' (fst p0))).
    destruct (qlt_spec 0 d) as [Pos|Npos].
    - pose proof (nsum_gain f f' arcs ((u, v), c) 1 0 Hc) as G. cbn [Nat.mul] in G. rewrite Nat.add_0_r in G. apply G.
      + intros [a ca] Ha. unfold f, f'. cbn [fst snd]. rewrite F'. destruct (existsb (eqe a) l) eqn:Ex; [|lia]. apply On in Ex. rewrite Nat.add_0_r. apply stage_mono; [apply (Le a ca Ex Ha)|]. apply step_up; [apply Db|exact Pos].
      + unfold f, f'. cbn [fst snd]. rewrite Fb. apply stage_up; [eauto|apply Db|eauto|apply (Le _ _ Hin Hc)|apply Bd; exact Hc|exact Pos].
    - assert (Neg : (d < 0)%Qc) by (destruct (Qclt_le_dec d 0) as [L|L]; [exact L|]; exfalso; apply Nz; fold d; clear - L Npos; qclra).
      pose proof (nsum_gain f f' arcs ((u, v), c) (2 * m + 1) 2 Hc) as G.
      assert (G1 : forall a : arc * Qc, In a arcs -> f a <= f' a + 2).
      { intros [a ca] Ha. unfold f, f'. cbn [fst snd]. rewrite F'. destruct (existsb (eqe a) l) eqn:Ex; [|lia]. apply On in Ex. pose proof (stage_low m ca (fget flow a) (proj2 (Le a ca Ex Ha))). lia. }
      assert (G2 : f (u, v, c) + (2 * m + 1) <= f' (u, v, c)).
      { unfold f, f'. cbn [fst snd]. rewrite Fb. unfold d. rewrite stage_down; [|eauto|apply Db|eauto|apply Bd; exact Hc|exact Neg]. pose proof (stage_low m c (fget flow (u, v)) (proj2 (Le _ _ Hin Hc))) as S2. unfold stage at 2. destruct (qeq_spec c c); [lia|congruence]. }
      specialize (G G1 G2). assert (1 <= m) by (clear - Hc; revert Hc; destruct (dg_arcs g); [intros []|intros _; cbn [length]; lia]).
      exact (outweighs _ _ _ H G).
  Qed.

  Lemma stop_loop fuel : forall flow r trace, tracked arcs flow r -> bounded flow -> m * (2 * m + 3) < progress flow + fuel ->
    (exists flow' more, fl_ff_loop fuel arcs s t flow r trace = (Ok flow', trace ++ more) /\ length more + progress flow <= m * (2 * m + 3)) \/
    (exists l a, In l (snd (fl_ff_loop fuel arcs s t flow r trace)) /\ In a l /\ ~ In a (dkeys arcs)).
  Proof.
    induction fuel as [|fuel IH]; intros flow r trace X Bd Hf.
    - pose proof (progress_max flow). lia.
    - cbn [fl_ff_loop]. destruct (bfs_path_spec r s t Hst) as [[Eb HS]|(p & l & Eb & Ep & Hb)]; rewrite Eb.
      + left. exists flow, []. rewrite app_nil_r. split; [reflexivity|]. pose proof (progress_max flow). cbn [length]. lia.
      + destruct (Forall_Exists_dec (fun a => In a (dkeys arcs)) (fun a => in_dec arc_dec a (dkeys arcs)) l) as [Fl|Fl].
        * rewrite Forall_forall in Fl. destruct (stop_augment flow r p l X Bd Ep Hb Fl) as (f1 & r1 & Ea & X1 & B1 & P1). rewrite Ea.
          destruct (IH f1 r1 (trace ++ [l]) X1 B1 ltac:(lia)) as [(f2 & more & E2 & L)|H]; [left|right; exact H].
          exists f2, (l :: more). rewrite <- app_assoc in E2. split; [exact E2|]. cbn [length]. lia.
        * apply Exists_exists in Fl. destruct Fl as (a & Ha & Hna). right. exists l, a. split; [|auto].
          assert (Ea : exists f0 r0, fl_ff_augment arcs t p flow r = Ok (l, (f0, r0))).
          { assert (Hl : l <> []) by (intros ->; inversion Hb; congruence).
            destruct (min_residual_spec r l None) as (d & Ed & _); [intros u v; apply (bpath_nodes s r t l Hb)|auto|]. destruct X as (Bs & Db & _).
            destruct (update_any g d l flow r Bs) as (f1 & r1 & Eu & _ & _).
            { intros b x Eb'. specialize (Db b). unfold fget in Db. now rewrite Eb' in Db. }
            { intros u v Hin. destruct (bpath_nodes s r t l Hb u v Hin). split; auto. apply Bs. auto. }
            exists f1, r1. unfold fl_ff_augment. rewrite Ep. cbn [bind]. destruct l as [|b l']; [congruence|]. rewrite Ed. cbn [bind]. rewrite Eu. reflexivity. }
          destruct Ea as (f0 & r0 & Ea). rewrite Ea.
          destruct (loop_prefix arcs s t Hst fuel f0 r0 (trace ++ [l])) as (more & Em). rewrite Em. apply in_or_app. left. apply in_or_app. right. now left.
  Qed.
End Stop.

Section WholeStop.
  Variable g : digraph.
  Notation arcs := (dg_arcs g).
  Variables s t : string.
  Hypothesis Hi : dinv g.
  Hypothesis Hs : In s (dkeys (dg_nodes g)).
  Hypothesis Ht : In t (dkeys (dg_nodes g)).
  Hypothesis Hst : s <> t.
  Hypothesis Hcap : forall a c, In (a, c) arcs -> (0 <= c)%Qc.
  Hypothesis Hdbl : forall a c, In (a, c) arcs -> is_double c.
  Hypothesis Hw : one_way arcs.

  Lemma fl_stops order fuel : length arcs * (2 * length arcs + 3) < fuel -> (forall l, In l (snd (fl_ford_fulkerson order fuel g s t)) -> forward arcs l) ->
    exists value flow paths, fl_ford_fulkerson order fuel g s t = (Ok (value, flow), paths) /\ length paths <= length arcs * (2 * length arcs + 3).
  Proof.
    intros Hf Fw. destruct (fl_unfold g s t Hi Hs Ht Hst Hcap Hdbl Hw order fuel) as (r & X & Eu). rewrite Eu in *. cbn [snd] in Fw.
    destruct (stop_loop g s t Hst (arcs_nd g Hi) (arcs_loop g Hi) Hw Hcap Hdbl fuel (zero_flow arcs) r [] X) as [(f' & more & E & L)|(l & a & Hl & Ha & Hna)].
    - intros a c Hc. rewrite zero_fget. pose proof (Hcap _ _ Hc) as P. clear - P. qclra.
    - eapply Nat.lt_le_trans; [exact Hf|]. apply Nat.le_add_l.
    - rewrite E. cbn [fst snd rmap app]. exists (fl_flow_value order g s f'), f', more. split; [reflexivity|]. eapply Nat.le_trans; [|exact L]. apply Nat.le_add_r.
    - exfalso. apply Hna. exact (Fw l Hl a Ha).
  Qed.
End WholeStop.
