(** ford_fulkerson with any doubles: how far rounding takes a run without backward steps from an exact one. *)
From Coq Require Import String List Bool Arith QArith Qcanon Lia ZArith Permutation.
From Verif Require Import Py QcTac QSum QInt MatTheory UndirectedModel UndirectedProofs DirectedModel DirectedSpec DirectedProofs FlowModel FlowSpec FlowTheory ResidualProofs DirectedFinal FFProofs FFFinal FloatModel DoubleSpec DoubleProofs FloatProofs FlowFloatModel FlowFloatSpec FlowFloatProofs.
Import ListNotations.
Open Scope nat_scope.
Open Scope string_scope.
Open Scope list_scope.

(** the relative error of a rounded sum or difference of doubles; no absolute term, sums do not underflow *)
Definition vv : Qc := pow2 (-52).
Lemma vv_pos : (0 < vv)%Qc. Proof. apply pow2_pos. Qed.
Lemma double_grid x : is_double x -> exists z, x = (qz z * pow2 (-1074))%Qc.
Proof.
  intros (m & e & Hm & He & ->). exists (m * 2 ^ (e + 1074))%Z. rewrite qz_mul, <- pow2_int by lia.
  replace e with (e + 1074 + -1074)%Z at 1 by lia. rewrite pow2_add. ring.
Qed.
Lemma sum_err x y : is_double x -> is_double y -> (qabs (rnd (x + y) - (x + y)) <= vv * qabs (x + y))%Qc.
Proof.
  intros Hx Hy. destruct (double_grid x Hx) as (a & Ea), (double_grid y Hy) as (b & Eb).
  assert (E : (x + y)%Qc = (qz (a + b) * pow2 (-1074))%Qc) by (rewrite Ea, Eb, qz_add; ring).
  generalize (rounds_error _ _ (rnd_rounds (x + y)%Qc)). intros R.
  destruct (Z_lt_le_dec (Z.abs (a + b)) (2 ^ 53)) as [L|L].
  - rewrite rnd_double by (rewrite E; apply dyadic; lia). replace (x + y - (x + y))%Qc with 0%Qc by ring. rewrite qabs_0.
    apply qmul_nonneg; [apply Qclt_le_weak, vv_pos|]. qab; qclra.
  - assert (K : (underflow <= unit_roundoff * qabs (x + y))%Qc).
    { rewrite E, qabs_mul, (qabs_pos (pow2 _)) by (apply Qclt_le_weak, pow2_pos).
      assert (A : (qz (2 ^ 53) <= qabs (qz (a + b)))%Qc).
      { destruct (Z_le_gt_dec 0 (a + b)) as [P|P].
        - assert ((0 <= qz (a + b))%Qc) by (rewrite <- qz_0; now apply qz_le). rewrite qabs_pos by auto. apply qz_le. lia.
        - replace (qz (a + b)) with (- qz (- (a + b)))%Qc by (rewrite qz_opp; ring). rewrite qabs_opp, qabs_pos; [apply qz_le; lia|]. rewrite <- qz_0. apply qz_le. lia. }
      replace underflow with (unit_roundoff * (pow2 52 * pow2 (-1074)))%Qc by (unfold underflow, unit_roundoff; rewrite <- !pow2_add; reflexivity).
      pose proof u_pos as U. pose proof (pow2_pos (-1074)) as P4. assert (B : (pow2 52 <= qz (2 ^ 53))%Qc) by (rewrite pow2_int by lia; apply qz_le; lia).
      set (w := qabs (qz (a + b))) in *. set (p := pow2 (-1074)) in *. set (q := pow2 52) in *. set (z := qz (2 ^ 53)) in *. set (u := unit_roundoff) in *.
      assert (C : (q * p <= w * p)%Qc). { assert (0 <= (w - q) * p)%Qc by (apply qmul_nonneg; [|apply Qclt_le_weak; auto]; clearbody w p q z u; clear - A B; qclra). clearbody w p q z u. clear - H. qclra. }
      assert (0 <= u * (w * p - q * p))%Qc by (apply qmul_nonneg; [apply Qclt_le_weak; auto|]; clearbody w p q z u; clear - C; qclra). clearbody w p q z u. clear - H. qclra. }
    assert (V : vv = (unit_roundoff + unit_roundoff)%Qc) by (apply Qc_is_canon; vm_compute; reflexivity). rewrite V.
    eapply Qcle_trans; [exact R|]. set (u := unit_roundoff) in *. set (h := underflow) in *. set (s := qabs (x + y)) in *. clearbody u h s. clear - K. qclra.
Qed.
Lemma diff_err x y : is_double x -> is_double y -> (qabs (rnd (x - y) - (x - y)) <= vv * qabs (x - y))%Qc.
Proof. intros Hx Hy. apply (sum_err x (- y)%Qc Hx). now apply double_opp. Qed.
Lemma rnd_diff_zero x y : is_double x -> is_double y -> rnd (x - y) = 0%Qc -> x = y.
Proof.
  intros Hx Hy E. pose proof (diff_err x y Hx Hy) as H. rewrite E in H.
  assert (V : (vv < 1)%Qc) by (apply Qclt_alt; vm_compute; reflexivity).
  replace (0 - (x - y))%Qc with (- (x - y))%Qc in H by ring. rewrite qabs_opp in H. assert (Z : (x - y)%Qc = 0%Qc).
  { apply qabs_zero. assert (N : (0 <= qabs (x - y))%Qc) by (qab; qclra). set (z := qabs (x - y)) in *. set (w := vv) in *. clearbody z w. clear - H V N. apply Qcnot_lt_le. intros P.
    assert (0 < (1 - w) * z)%Qc by (apply qmul_pos; qclra). qclra. }
  clear - Z. qclra.
Qed.

(** one rounded step of one arc; [del] is the error allowed above the capacity *)
Definition del (M : Qc) : Qc := (qz 4 * (vv * M))%Qc.
Lemma vv_eighth : (vv <= Q2Qc (1 # 8))%Qc. Proof. vm_compute. discriminate. Qed.
Lemma scaled w x y : (0 <= w)%Qc -> (x <= y)%Qc -> (w * x <= w * y)%Qc.
Proof. intros P H. assert (0 <= w * (y - x))%Qc by (apply qmul_nonneg; [exact P|qclra]). qclra. Qed.
Lemma scaled_m M : (0 <= M)%Qc -> (0 <= vv * M /\ vv * M <= Q2Qc (1 # 8) * M /\ vv * (vv * M) <= Q2Qc (1 # 8) * (vv * M))%Qc.
Proof.
  intros H. assert (P : (0 <= vv * M)%Qc) by (apply qmul_nonneg; [apply Qclt_le_weak, vv_pos|exact H]). split; [exact P|].
  pose proof vv_eighth as E. set (w := vv) in *. set (e := Q2Qc (1 # 8)) in *. clearbody w e. split.
  - pose proof (scaled M w e H E) as X. clear - X. qclra.
  - pose proof (scaled (w * M)%Qc w e P E) as X. clear - X. qclra.
Qed.
Lemma qz4 : qz 4 = (1 + 1 + 1 + 1)%Qc. Proof. apply Qc_is_canon. reflexivity. Qed.
Lemma core_low M c x : (0 <= M)%Qc -> is_double c -> is_double x -> (x <= c + del M)%Qc -> (- (del M + vv * del M) <= rnd (c - x))%Qc.
Proof.
  intros HM Hc Hx Hle. destruct (scaled_m M HM) as (P & _ & _). assert (D : (0 <= del M)%Qc) by (unfold del; rewrite qz4; set (m := (vv * M)%Qc) in *; clearbody m; clear - P; qclra).
  assert (DV : (0 <= vv * del M)%Qc) by (apply qmul_nonneg; [apply Qclt_le_weak, vv_pos|exact D]).
  pose proof (diff_err c x Hc Hx) as E. destruct (qabs_cases (c - x)%Qc) as [[A B]|[A B]].
  - pose proof (rounds_nonneg _ _ (rnd_rounds (c - x)%Qc) A) as N. set (y := rnd (c - x)) in *. set (dd := del M) in *. set (vd := (vv * dd)%Qc) in *. clearbody y dd vd. clear - N D DV. qclra.
  - rewrite B in E. apply qabs_le in E. destruct E as [E _]. assert (L : (vv * - (c - x) <= vv * del M)%Qc) by (apply scaled; [apply Qclt_le_weak, vv_pos|]; set (dd := del M) in *; clearbody dd; clear - Hle; qclra).
    set (y := rnd (c - x)) in *. set (dd := del M) in *. set (vd := (vv * dd)%Qc) in *. set (z := (vv * - (c - x))%Qc) in *. clearbody y z vd dd. clear - E L Hle. qclra.
Qed.
Lemma core_step M L c x d : (0 <= M)%Qc -> (0 <= c)%Qc -> (c <= M)%Qc -> is_double c -> is_double x -> is_double d -> (0 <= L)%Qc -> (L <= M)%Qc ->
  (- L <= x)%Qc -> (x <= c + del M)%Qc -> (d <= rnd (c - x))%Qc -> (- (del M + vv * del M) <= d)%Qc ->
  (qabs (x + d) <= M + M /\ - (L + (del M + del M)) <= rnd (x + d) /\ rnd (x + d) <= c + del M)%Qc.
Proof.
  intros HM Hc0 HcM Dc Dx Dd HL HLM Hx1 Hx2 Hd1 Hd2. destruct (scaled_m M HM) as (P1 & P2 & P3). unfold del in *. rewrite qz4 in *.
  pose proof (diff_err c x Dc Dx) as E1. pose proof (sum_err x d Dx Dd) as E2. pose proof (Qclt_le_weak _ _ vv_pos) as V.
  assert (A1 : (qabs (c - x) <= M + M)%Qc).
  { apply qabs_le. set (m := (vv * M)%Qc) in *. clearbody m. assert (Q : (Q2Qc (1 # 8) * M + Q2Qc (1 # 8) * M + Q2Qc (1 # 8) * M + Q2Qc (1 # 8) * M <= M)%Qc) by (replace (Q2Qc (1 # 8) * M + Q2Qc (1 # 8) * M + Q2Qc (1 # 8) * M + Q2Qc (1 # 8) * M)%Qc with ((Q2Qc (1 # 8) + Q2Qc (1 # 8) + Q2Qc (1 # 8) + Q2Qc (1 # 8)) * M)%Qc by ring; replace (Q2Qc (1 # 8) + Q2Qc (1 # 8) + Q2Qc (1 # 8) + Q2Qc (1 # 8))%Qc with (Q2Qc (1 # 2)) by (apply Qc_is_canon; reflexivity); clear - HM; qclra).
    set (e := (Q2Qc (1 # 8) * M)%Qc) in *. clearbody e. clear - HM Hc0 HcM HLM HL Hx1 Hx2 P1 P2 Q. split; qclra. }
  apply (scaled vv _ _ V) in A1. set (m := (vv * M)%Qc) in *. replace (vv * (M + M))%Qc with (m + m)%Qc in A1 by (unfold m; ring).
  assert (Q : (Q2Qc (1 # 8) * M * qz 8 = M)%Qc) by (replace (Q2Qc (1 # 8) * M * qz 8)%Qc with (Q2Qc (1 # 8) * qz 8 * M)%Qc by ring; replace (Q2Qc (1 # 8) * qz 8)%Qc with 1%Qc by (apply Qc_is_canon; reflexivity); ring).
  assert (Q' : (Q2Qc (1 # 8) * m * qz 8 = m)%Qc) by (replace (Q2Qc (1 # 8) * m * qz 8)%Qc with (Q2Qc (1 # 8) * qz 8 * m)%Qc by ring; replace (Q2Qc (1 # 8) * qz 8)%Qc with 1%Qc by (apply Qc_is_canon; reflexivity); ring).
  replace (qz 8) with (1 + 1 + 1 + 1 + 1 + 1 + 1 + 1)%Qc in * by (apply Qc_is_canon; reflexivity).
  replace (vv * ((1 + 1 + 1 + 1) * m))%Qc with ((1 + 1 + 1 + 1) * (vv * m))%Qc in * by ring.
  set (vm := (vv * m)%Qc) in *. set (eM := (Q2Qc (1 # 8) * M)%Qc) in *. set (em := (Q2Qc (1 # 8) * m)%Qc) in *. set (y := rnd (c - x)) in *.
  apply qabs_le in E1. destruct E1 as [_ E1]. set (q := (vv * qabs (c - x))%Qc) in *.
  assert (U : (x + d <= c + m + m)%Qc) by (clearbody q y m vm eM em; clear - E1 A1 Hd1; qclra).
  assert (W : (- L - (1 + 1 + 1 + 1) * m - (1 + 1 + 1 + 1) * vm <= x + d)%Qc) by (clearbody q y m vm eM em; clear - Hx1 Hd2; qclra).
  assert (A2 : (qabs (x + d) <= M + M)%Qc).
  { apply qabs_le. clearbody q y m vm eM em. clear - U W P1 P2 P3 Q Q' HcM HLM HM. split; qclra. }
  split; [exact A2|]. apply (scaled vv _ _ V) in A2. replace (vv * (M + M))%Qc with (m + m)%Qc in A2 by (unfold m; ring).
  apply qabs_le in E2. set (q2 := (vv * qabs (x + d))%Qc) in *. set (z := rnd (x + d)) in *. clearbody q q2 z y m vm eM em. clear - U W E2 A2 P1 P2 P3 Q Q'. destruct E2. split; qclra.
Qed.

(** how often a path goes through a node *)
Definition visits (l : list (string * string)) (w : string) : nat :=
  length (filter (fun a => String.eqb (fst a) w) l) + length (filter (fun a => String.eqb (snd a) w) l).
Lemma visits_cons u v l w : visits ((u, v) :: l) w = (if String.eqb u w then 1 else 0) + (if String.eqb v w then 1 else 0) + visits l w.
Proof. unfold visits. cbn [filter fst snd]. destruct (String.eqb u w), (String.eqb v w); cbn [length]; lia. Qed.
Lemma visits_fresh l w : (forall a, In a l -> fst a <> w /\ snd a <> w) -> visits l w = 0.
Proof.
  induction l as [|[u v] l IH]; intros H; [reflexivity|]. rewrite visits_cons, IH by (intros; apply H; now right). destruct (H (u, v) (or_introl eq_refl)). cbn [fst snd] in *.
  destruct (eqs u w), (eqs v w); congruence || reflexivity.
Qed.
Lemma bpath_visits r s v l w : bpath r s v l -> visits l w <= 2 /\ (w = v -> visits l w <= 1).
Proof.
  intros H. induction H as [|u v l Hb IH He Hne Hfr Hs]; [change (visits [] w) with 0; split; intros; lia|]. rewrite visits_cons. destruct (eqs v w) as [->|Nv].
  - rewrite (visits_fresh l w Hfr). destruct (eqs u w); [congruence|]. split; intros; lia.
  - destruct (eqs u w) as [->|Nu]; [|split; [lia|congruence]]. destruct IH as [_ IH]. specialize (IH eq_refl). split; [lia|]. intros ->. congruence.
Qed.

Lemma Sigma_bound {A} (V : list A) (h : A -> Qc) e : (forall v, In v V -> (qabs (h v) <= e)%Qc) -> (qabs (Sigma V h) <= qz (Z.of_nat (length V)) * e)%Qc.
Proof.
  induction V as [|v V IH]; intros H; [rewrite Sigma_nil, qabs_0; cbn [length Z.of_nat]; rewrite qz_0; clear; qclra|].
  rewrite Sigma_cons. cbn [length]. rewrite Nat2Z.inj_succ. unfold Z.succ. rewrite qz_add. change (qz 1) with 1%Qc.
  specialize (IH (fun x Hx => H x (or_intror Hx))). specialize (H v (or_introl eq_refl)). pose proof (qabs_add (h v) (Sigma V h)) as T.
  set (a := qabs (h v + Sigma V h)) in *. set (b := qabs (h v)) in *. set (c := qabs (Sigma V h)) in *. set (n := (qz (Z.of_nat (length V)) * e)%Qc) in *.
  replace ((qz (Z.of_nat (length V)) + 1) * e)%Qc with (n + e)%Qc by (unfold n; ring). clearbody a b c n. clear - IH H T. qclra.
Qed.

Section Near.
  Variable arcs : list (arc * Qc).
  Variables s t : string.
  Hypothesis Hst : s <> t.
  Hypothesis Hnd : NoDup (dkeys arcs).
  Hypothesis Hloop : forall u v, In (u, v) (dkeys arcs) -> u <> v.
  Hypothesis Hw : one_way arcs.
  Hypothesis Hcap : forall a c, In (a, c) arcs -> (0 <= c)%Qc.
  Hypothesis Hdbl : forall a c, In (a, c) arcs -> is_double c.

  Definition doubles_in (flow : list (arc * Qc)) : Prop := forall a, is_double (fget flow a).
  (** the residual network is the rounded one of the flow *)
  Definition tracked (flow : list (arc * Qc)) (r : rnet) : Prop :=
    base arcs flow r /\ doubles_in flow /\
    forall u v c, In ((u, v), c) arcs -> rval r u v = nz (rnd (c - fget flow (u, v))) /\ rval r v u = nz (fget flow (u, v)).

  Lemma near_update d l B : is_double d -> forall flow r flow' r', tracked flow r -> NoDup l -> forward arcs l ->
    (forall a, In a l -> (qabs (fget flow a + d) <= B)%Qc) -> fl_ff_update arcs l d flow r = Ok (flow', r') ->
    tracked flow' r' /\ (forall a, fget flow' a = if existsb (eqe a) l then rnd (fget flow a + d) else fget flow a) /\
    forall w, (qabs (net arcs (fget flow') w - (net arcs (fget flow) w + shift l d w)) <= qz (Z.of_nat (visits l w)) * (vv * B))%Qc.
  Proof.
    intros Hd. induction l as [|[u v] l IH]; intros flow r flow' r' X Nl Fl HB E; cbn [fl_ff_update] in E.
    - injection E as <- <-. split; [exact X|]. split; [reflexivity|]. intros w. unfold shift. rewrite Sigma_nil.
      replace (net arcs (fget flow) w - (net arcs (fget flow) w + 0))%Qc with 0%Qc by ring. rewrite qabs_0. cbn [visits filter length]. change (qz (Z.of_nat (visits [] w))) with 0%Qc. clear; qclra.
    - destruct X as ((K & R & Sp) & Db & V). inversion Nl as [|? ? Hni Nl']; subst.
      assert (Huv : In (u, v) (dkeys arcs)) by (apply Fl; now left).
      assert (KI : forall a, In a (dkeys flow) <-> In a (dkeys arcs)) by (intros a; rewrite K; tauto).
      destruct (key_get _ eqe_spec _ _ (proj2 (KI _) Huv)) as [f Ef]. destruct (key_get _ eqe_spec _ _ Huv) as [c Ec].
      assert (Fg : fget flow (u, v) = f) by (unfold fget; now rewrite Ef).
      assert (E1 : fl_fupdate flow u v d = Ok ((u, v), dset eqe (u, v) (rnd (f + d)) flow)) by (unfold fl_fupdate; now rewrite Ef).
      rewrite E1 in E. cbn [bind fst snd] in E. set (x := rnd (f + d)) in *. set (f1 := dset eqe (u, v) x flow) in *.
      assert (G1 : forall b, fget f1 b = if eqe b (u, v) then x else fget flow b) by (intros b; apply fget_dset).
      assert (Ex : dget eqe (u, v) f1 = Some x) by apply (dget_dset_eq _ eqe_spec).
      rewrite (fl_rupdate_any_arcs arcs f1 (u, v) u v r c x Ec Ex) in E.
      destruct (rupdate_spec (dset eqe (u, v) (x + rnd (c - x))%Qc arcs) f1 (u, v) u v _ x r R (Hloop u v Huv) (dget_dset_eq _ eqe_spec _ _ _) Ex) as (r1 & Er & R1 & V1 & V2 & V3).
      rewrite Er in E. cbn [bind] in E.
      assert (Dx : is_double x) by apply rnd_rounds.
      assert (X1 : tracked f1 r1).
      { split; [|split].
        - split; [unfold f1; rewrite (dset_same_keys eqe eqe_spec); [exact K|apply KI; exact Huv]|]. split; [exact R1|].
          intros p q Hpq. destruct (eqe_spec (p, q) (u, v)) as [Q|Q1]; [inversion Q; subst; now left|].
          destruct (eqe_spec (p, q) (v, u)) as [Q|Q2]; [inversion Q; subst; now right|]. apply Sp. now rewrite <- V3.
        - intros b. rewrite G1. destruct (eqe b (u, v)); auto.
        - intros p q cq Hq. rewrite G1. destruct (eqe_spec (p, q) (u, v)) as [Q|Q1].
          + inversion Q; subst p q. apply (In_dget _ eqe_spec) in Hq; [|exact Hnd]. rewrite Ec in Hq. inversion Hq; subst cq.
            rewrite V1, V2. replace (x + rnd (c - x) - x)%Qc with (rnd (c - x)) by ring. auto.
          + destruct (V p q cq Hq) as [W1 W2]. assert (Hk : In (p, q) (dkeys arcs)) by (apply key_In; eauto).
            assert (Q2 : (p, q) <> (v, u)) by (intros Q; inversion Q; subst p q; exact (Hw _ _ Huv Hk)).
            rewrite !V3; auto; intros Q; inversion Q; subst; [apply Q2|apply Q1]; reflexivity. }
      destruct (IH f1 r1 flow' r' X1 Nl') as (X' & F' & N'); auto.
      { intros b Hb. apply Fl. now right. }
      { intros b Hb. rewrite G1. destruct (eqe_spec b (u, v)) as [->|]; [contradiction|]. apply HB. now right. }
      split; [exact X'|]. split.
      + intros b. rewrite F', G1. cbn [existsb]. destruct (eqe_spec b (u, v)) as [->|Hbne]; cbn [orb]; [|reflexivity].
        assert (existsb (eqe (u, v)) l = false) as ->; [|now rewrite Fg].
        apply not_true_is_false. intros Y. apply existsb_exists in Y. destruct Y as (z & Hz & Ez). destruct (eqe_spec (u, v) z); [|discriminate]. subst. contradiction.
      + intros w. specialize (N' w). assert (N1 : net arcs (fget f1) w = (net arcs (fget flow) w + (ind (String.eqb u w) - ind (String.eqb v w)) * (x - f))%Qc).
        { apply (net_change arcs Hnd (fget flow) (fget f1) (u, v) (x - f)%Qc w Huv).
          - intros b Hb. rewrite G1. destruct (eqe_spec b (u, v)); congruence.
          - rewrite G1, Fg. destruct (eqe_spec (u, v) (u, v)); [|congruence]. ring. }
        assert (Sh : shift ((u, v) :: l) d w = ((ind (String.eqb u w) - ind (String.eqb v w)) * d + shift l d w)%Qc) by (unfold shift; now rewrite Sigma_cons).
        rewrite N1 in N'. rewrite Sh, visits_cons.
        assert (Er1 : (qabs (x - (f + d)) <= vv * B)%Qc).
        { assert (Df : is_double f) by (rewrite <- Fg; apply Db). pose proof (sum_err f d Df Hd) as S1. specialize (HB (u, v) (or_introl eq_refl)). rewrite Fg in HB.
          eapply Qcle_trans; [exact S1|]. set (y := qabs (f + d)) in *. pose proof vv_pos as P. set (w0 := vv) in *. clearbody y w0. clear - P HB.
          assert (0 <= w0 * (B - y))%Qc by (apply qmul_nonneg; [apply Qclt_le_weak; auto|qclra]). qclra. }
        assert (P0 : (0 <= vv * B)%Qc) by (eapply Qcle_trans; [|exact Er1]; qab; qclra).
        assert (Hne := Hloop u v Huv).
        rewrite !Nat2Z.inj_add, !qz_add. set (n := (qz (Z.of_nat (visits l w)))%Qc) in *. set (e := (vv * B)%Qc) in *.
        set (a := net arcs (fget flow') w) in *. set (b := net arcs (fget flow) w) in *. set (sh := shift l d w) in *.
        replace ((qz (Z.of_nat (if u =? w then 1 else 0)) + qz (Z.of_nat (if v =? w then 1 else 0)) + n) * e)%Qc with (n * e + (qz (Z.of_nat (if u =? w then 1 else 0)) + qz (Z.of_nat (if v =? w then 1 else 0))) * e)%Qc by ring.
        set (ne := (n * e)%Qc) in *. apply qabs_le in N'. apply qabs_le in Er1. apply qabs_le.
        clearbody x a b sh ne e. destruct (eqs u w), (eqs v w); [congruence| | |]; cbn [ind Z.of_nat Pos.of_succ_nat]; rewrite ?qz_0; change (qz 1) with 1%Qc; clear - N' Er1 P0; destruct N', Er1; unfold ind in *; split; qclra.
  Qed.
  Lemma update_total d l0 : forall fl0 r0, base arcs fl0 r0 -> forward arcs l0 -> exists flow' r', fl_ff_update arcs l0 d fl0 r0 = Ok (flow', r').
  Proof.
    induction l0 as [|[u v] l0 IH]; intros fl0 r0 B F; cbn [fl_ff_update]; [eauto|].
    assert (Huv : In (u, v) (dkeys arcs)) by (apply F; now left). destruct B as (K & R & Sp).
    assert (KI : forall a, In a (dkeys fl0) <-> In a (dkeys arcs)) by (intros a; rewrite K; tauto).
    destruct (key_get _ eqe_spec _ _ (proj2 (KI _) Huv)) as [f Ef]. destruct (key_get _ eqe_spec _ _ Huv) as [c Ec].
    unfold fl_fupdate. rewrite Ef. cbn [bind fst snd]. set (x := rnd (f + d)). set (f1 := dset eqe (u, v) x fl0).
    assert (Ex : dget eqe (u, v) f1 = Some x) by apply (dget_dset_eq _ eqe_spec).
    rewrite (fl_rupdate_any_arcs arcs f1 (u, v) u v r0 c x Ec Ex).
    destruct (rupdate_spec (dset eqe (u, v) (x + rnd (c - x))%Qc arcs) f1 (u, v) u v _ x r0 R (Hloop u v Huv) (dget_dset_eq _ eqe_spec _ _ _) Ex) as (r1 & Er & R1 & V1 & V2 & V3).
    rewrite Er. cbn [bind]. apply IH; [|intros a Ha; apply F; now right].
    split; [unfold f1; rewrite (dset_same_keys eqe eqe_spec); [exact K|apply KI; exact Huv]|]. split; [exact R1|].
    intros p q Hpq. destruct (eqe_spec (p, q) (u, v)) as [Q|Q1]; [inversion Q; subst; now left|].
    destruct (eqe_spec (p, q) (v, u)) as [Q|Q2]; [inversion Q; subst; now right|]. apply Sp. now rewrite <- V3.
  Qed.
  Variable M : Qc.
  Hypothesis HM : (0 <= M)%Qc.
  Hypothesis Hle : forall a c, In (a, c) arcs -> (c <= M)%Qc.
  Definition kk (k : nat) : Qc := qz (Z.of_nat k).
  Lemma kk_S k : kk (S k) = (kk k + 1)%Qc. Proof. unfold kk. rewrite Nat2Z.inj_succ. unfold Z.succ. now rewrite qz_add. Qed.
  Lemma kk_pos k : (0 <= kk k)%Qc. Proof. unfold kk. rewrite <- qz_0. apply qz_le. lia. Qed.
  Lemma kk_le a b : a <= b -> (kk a <= kk b)%Qc. Proof. intros. apply qz_le. lia. Qed.
  Lemma del_nonneg : (0 <= del M)%Qc.
  Proof. unfold del. rewrite qz4. destruct (scaled_m M HM) as (P & _). set (m := (vv * M)%Qc) in *. clearbody m. clear - P. qclra. Qed.

  Definition near (k : nat) (flow : list (arc * Qc)) (r : rnet) : Prop :=
    tracked flow r /\
    (forall a c, In (a, c) arcs -> (- (kk k * (del M + del M)) <= fget flow a /\ fget flow a <= c + del M)%Qc) /\
    (forall w, w <> s -> w <> t -> (qabs (net arcs (fget flow) w) <= kk k * del M)%Qc).

  Lemma near_augment k flow r p l : near k flow r -> (kk k * (del M + del M) <= M)%Qc -> path_arcs (2 + length p) p t = Ok l -> bpath r s t l -> forward arcs l ->
    exists flow' r', fl_ff_augment arcs t p flow r = Ok (l, (flow', r')) /\ near (S k) flow' r'.
  Proof.
    intros (X & Bd & Cn) HK Ep Hb Fl. assert (Hl : l <> []) by (intros ->; inversion Hb; congruence).
    destruct (min_residual_spec r l None) as (d & Ed & M1 & _ & M2); [intros u v; apply (bpath_nodes s r t l Hb)|auto|].
    assert (Rv : forall u v, In (u, v) l -> exists c, In ((u, v), c) arcs /\ rval r u v = Some (rnd (c - fget flow (u, v)))).
    { intros u v Ha. pose proof (Fl _ Ha) as K. apply (key_get _ eqe_spec) in K. destruct K as [c Ec]. apply (dget_In _ eqe_spec) in Ec. exists c. split; [exact Ec|].
      destruct (bpath_nodes s r t l Hb u v Ha) as [_ He]. unfold edge_in in He. destruct X as (_ & _ & V). destruct (V u v c Ec) as [V1 _]. rewrite V1 in *.
      unfold nz in *. destruct (qeq (rnd (c - fget flow (u, v))) 0); congruence. }
    destruct M2 as [(u & v & Hin & Huv)|]; [|discriminate]. destruct (Rv u v Hin) as (c & Hc & Er). rewrite Huv in Er. inversion Er; subst d.
    set (d := rnd (c - fget flow (u, v))) in *. assert (Dd : is_double d) by apply rnd_rounds. assert (Db : doubles_in flow) by apply X.
    assert (Ld : (- (del M + vv * del M) <= d)%Qc) by (apply core_low; auto; [eauto|apply Bd; auto]).
    assert (Cs : forall a ca, In a l -> In (a, ca) arcs -> (qabs (fget flow a + d) <= M + M /\ - (kk k * (del M + del M) + (del M + del M)) <= rnd (fget flow a + d) /\ rnd (fget flow a + d) <= ca + del M)%Qc).
    { intros [p' q'] ca Ha Hca. destruct (Rv p' q' Ha) as (c' & Hc' & Er'). assert (c' = ca).
      { apply (In_dget _ eqe_spec) in Hca; [|exact Hnd]. apply (In_dget _ eqe_spec) in Hc'; [|exact Hnd]. congruence. }
      subst c'. apply core_step; eauto; try apply (Bd _ _ Hca).
      apply qmul_nonneg; [apply kk_pos|]. pose proof del_nonneg as D. set (dd := del M) in *. clearbody dd. clear - D. qclra. }
    destruct X as (Bs & _ & V).
    assert (Eu : exists flow' r', fl_ff_update arcs l d flow r = Ok (flow', r')) by (apply update_total; auto).
    destruct Eu as (flow' & r' & Eu). exists flow', r'. split.
    { unfold fl_ff_augment. rewrite Ep. cbn [bind]. destruct l as [|a l']; [congruence|]. rewrite Ed. cbn [bind]. rewrite Eu. reflexivity. }
    destruct (near_update d l (M + M)%Qc Dd flow r flow' r') as (X' & F' & N'); auto.
    { split; [exact Bs|]. split; [exact Db|exact V]. }
    { eapply bpath_NoDup; eauto. }
    { intros a Ha. destruct (key_get _ eqe_spec _ _ (Fl _ Ha)) as [ca Ec]. apply (dget_In _ eqe_spec) in Ec. apply (Cs a ca Ha Ec). }
    pose proof del_nonneg as D. split; [exact X'|]. split.
    - intros a ca Hca. rewrite F', kk_S. destruct (existsb (eqe a) l) eqn:Ex.
      + assert (Ha : In a l) by (apply existsb_exists in Ex; destruct Ex as (b & Hb1 & Hb2); destruct (eqe_spec a b); [subst; auto|discriminate]).
        destruct (Cs a ca Ha Hca) as (_ & C1 & C2). split; [|exact C2]. set (y := rnd (fget flow a + d)) in *. replace ((kk k + 1) * (del M + del M))%Qc with (kk k * (del M + del M) + (del M + del M))%Qc by ring. exact C1.
      + destruct (Bd a ca Hca) as [B1 B2]. split; [|exact B2]. replace ((kk k + 1) * (del M + del M))%Qc with (kk k * (del M + del M) + (del M + del M))%Qc by ring.
        set (kd := (kk k * (del M + del M))%Qc) in *. set (dd := del M) in *. set (x := fget flow a) in *. clearbody kd dd x. clear - B1 D. qclra.
    - intros w Hs Ht. specialize (N' w). specialize (Cn w Hs Ht). rewrite (bpath_shift s r t l d w Hb) in N'.
      destruct (eqs s w); [congruence|]. destruct (eqs t w); [congruence|]. replace ((ind false - ind false) * d)%Qc with 0%Qc in N' by (unfold ind; ring).
      destruct (bpath_visits r s t l w Hb) as [Hv _]. assert (Hq : (qz (Z.of_nat (visits l w)) <= 1 + 1)%Qc) by (change (1 + 1)%Qc with (qz 2); apply qz_le; lia).
      rewrite kk_S. replace ((kk k + 1) * del M)%Qc with (kk k * del M + del M)%Qc by ring.
      destruct (scaled_m M HM) as (P & _). assert (T : (qz (Z.of_nat (visits l w)) * (vv * (M + M)) <= del M)%Qc).
      { replace (vv * (M + M))%Qc with (vv * M + vv * M)%Qc by ring. unfold del. rewrite qz4. set (m := (vv * M)%Qc) in *. set (nn := qz (Z.of_nat (visits l w))) in *. clearbody m nn. clear - P Hq.
        pose proof (scaled (m + m)%Qc nn (1 + 1)%Qc ltac:(qclra) Hq) as Z. qclra. }
      set (ne := net arcs (fget flow') w) in *. set (ns := net arcs (fget flow) w) in *. set (kd := (kk k * del M)%Qc) in *. set (dd := del M) in *. set (vs := (qz (Z.of_nat (visits l w)) * (vv * (M + M)))%Qc) in *.
      apply qabs_le in N'. apply qabs_le in Cn. apply qabs_le. clearbody ne ns kd dd vs. clear - N' Cn T. destruct N', Cn. split; qclra.
  Qed.

  Lemma loop_prefix fuel : forall flow r trace, exists more, snd (fl_ff_loop fuel arcs s t flow r trace) = trace ++ more.
  Proof.
    induction fuel as [|fuel IH]; intros flow r trace; cbn [fl_ff_loop]; [exists []; now rewrite app_nil_r|].
    destruct (bfs_path_spec r s t Hst) as [[E _]|(q & l & E & _)]; rewrite E; [exists []; now rewrite app_nil_r|].
    destruct (fl_ff_augment arcs t q flow r) as [[l' [f1 r1]]| |]; cbn [fst snd]; [|exists []; now rewrite app_nil_r|exists []; now rewrite app_nil_r].
    destruct (IH f1 r1 (trace ++ [l'])) as (more & Em). exists (l' :: more). rewrite Em, <- app_assoc. reflexivity.
  Qed.
  Lemma near_loop fuel : forall flow r trace flow' trace', near (length trace) flow r -> fl_ff_loop fuel arcs s t flow r trace = (Ok flow', trace') ->
    (forall l, In l trace' -> forward arcs l) -> (kk (length trace') * (del M + del M) <= M)%Qc ->
    exists r', near (length trace') flow' r' /\ exists S, In s S /\ ~ In t S /\ forall u v, In u S -> edge_in r' u v -> In v S.
  Proof.
    induction fuel as [|fuel IH]; intros flow r trace flow' trace' X E F HK; cbn [fl_ff_loop] in E; [discriminate|].
    destruct (bfs_path_spec r s t Hst) as [[Eb HS]|(p & l & Eb & Ep & Hb)]; rewrite Eb in E.
    - inversion E; subst. exists r. auto.
    - destruct (fl_ff_augment arcs t p flow r) as [[l0 [f0 r0]]| |] eqn:Ea; [|discriminate E|discriminate E].
      assert (El : l0 = l).
      { unfold fl_ff_augment in Ea. rewrite Ep in Ea. cbn [bind] in Ea. destruct l as [|a l']; [discriminate Ea|]. destruct (min_residual (a :: l') r None) as [[d|]| |]; try discriminate Ea. cbn [bind] in Ea.
        destruct (fl_ff_update arcs (a :: l') d flow r); try discriminate Ea. cbn [bind] in Ea. congruence. }
      subst l0. destruct (loop_prefix fuel f0 r0 (trace ++ [l])) as (more & Em). rewrite E in Em. cbn [snd] in Em.
      assert (Fl : forward arcs l) by (apply F; rewrite Em; apply in_or_app; left; apply in_or_app; simpl; auto).
      assert (HK' : (kk (length trace) * (del M + del M) <= M)%Qc).
      { eapply Qcle_trans; [|exact HK]. rewrite Em, !app_length. pose proof del_nonneg as D. assert (D2 : (0 <= del M + del M)%Qc) by (set (dd := del M) in *; clearbody dd; clear - D; qclra).
        rewrite !(Qcmult_comm (kk _)). apply scaled; [exact D2|]. apply kk_le. lia. }
      destruct (near_augment (length trace) flow r p l X HK' Ep Hb Fl) as (f1 & r1 & Ea' & X1). rewrite Ea in Ea'. inversion Ea'; subst f1 r1.
      apply (IH f0 r0 (trace ++ [l])); auto. rewrite app_length. cbn [length]. rewrite Nat.add_1_r. exact X1.
  Qed.

  (** when the search fails, the flow across the cut reached is exactly its capacity *)
  Lemma near_cut k flow r V : near k flow r -> NoDup V -> In s V -> (forall a, In a (dkeys arcs) -> In (fst a) V /\ In (snd a) V) ->
    (exists S, In s S /\ ~ In t S /\ forall u v, In u S -> edge_in r u v -> In v S) ->
    exists inside, inside s = true /\ inside t = false /\ (forall u v c, In ((u, v), c) arcs -> inside u = true -> inside v = false -> fget flow (u, v) = c) /\ (forall u v c, In ((u, v), c) arcs -> inside u = false -> inside v = true -> fget flow (u, v) = 0%Qc) /\ (qabs (net_value arcs s (fget flow) - cut_capacity arcs inside) <= kk (length V) * (kk k * del M))%Qc.
  Proof.
    intros ((B & Db & Vr) & Bd & Cn) HV Hs HA (S & H1 & H2 & H3). set (inside := fun v => mem v S). exists inside.
    assert (T1 : inside s = true) by (unfold inside; destruct (mem_spec s S); auto).
    assert (T2 : inside t = false) by (unfold inside; destruct (mem_spec t S); auto; contradiction).
    assert (IS : forall u, inside u = true <-> In u S) by (intros u; unfold inside; destruct (mem_spec u S); split; auto; discriminate).
    split; [exact T1|]. split; [exact T2|].
    assert (F1 : forall u v c, In ((u, v), c) arcs -> inside u = true -> inside v = false -> fget flow (u, v) = c).
    { intros u v c Hc Hu Hv. destruct (Vr u v c Hc) as [W _]. symmetry. apply rnd_diff_zero; [eauto|apply Db|].
      destruct (qeq_spec (rnd (c - fget flow (u, v))) 0) as [Z|Z]; [exact Z|exfalso].
      assert (In v S). { apply (H3 u); [now apply IS|]. unfold edge_in. rewrite W. unfold nz. destruct (qeq_spec (rnd (c - fget flow (u, v))) 0); [contradiction|discriminate]. }
      apply IS in H. congruence. }
    assert (F2 : forall u v c, In ((u, v), c) arcs -> inside u = false -> inside v = true -> fget flow (u, v) = 0%Qc).
    { intros u v c Hc Hu Hv. destruct (Vr u v c Hc) as [_ W]. destruct (qeq_spec (fget flow (u, v)) 0) as [Z|Z]; [exact Z|exfalso].
      assert (In u S). { apply (H3 v); [now apply IS|]. unfold edge_in. rewrite W. unfold nz. destruct (qeq_spec (fget flow (u, v)) 0); [contradiction|discriminate]. }
      apply IS in H. congruence. }
    split; [exact F1|]. split; [exact F2|].
    assert (E : Sigma V (fun v => ind (inside v) * net arcs (fget flow) v)%Qc = cut_capacity arcs inside).
    { rewrite (sum_net arcs V (fget flow) inside HV HA), cut_Sigma. change (map fst arcs) with (map (@fst arc Qc) arcs). rewrite Sigma_map. apply Sigma_ext. intros [[u v] c] Hin. cbn [fst snd].
      destruct (inside u) eqn:Eu, (inside v) eqn:Ev; unfold ind; cbn [andb negb]; try ring.
      - rewrite (F1 u v c Hin); auto; ring.
      - rewrite (F2 u v c Hin); auto; ring. }
    rewrite <- E. set (h := fun v => (ind (inside v) * net arcs (fget flow) v - ind (String.eqb v s) * net_value arcs s (fget flow))%Qc).
    assert (Eh : (net_value arcs s (fget flow) - Sigma V (fun v => ind (inside v) * net arcs (fget flow) v))%Qc = (- Sigma V h)%Qc).
    { unfold h. rewrite Sigma_sub. rewrite (Sigma_single V s (fun v => ind (String.eqb v s) * net_value arcs s (fget flow))%Qc); auto.
      - rewrite String.eqb_refl. unfold ind. ring.
      - intros y _ Hy. destruct (eqs y s); [congruence|]. unfold ind. ring. }
    rewrite Eh, qabs_opp. apply Sigma_bound. intros v Hv. unfold h.
    assert (P0 : (0 <= kk k * del M)%Qc) by (apply qmul_nonneg; [apply kk_pos|apply del_nonneg]).
    destruct (eqs v s) as [->|Ns].
    - rewrite T1. unfold ind, net_value, net. replace (1 * (outflow arcs (fget flow) s - inflow arcs (fget flow) s) - 1 * (outflow arcs (fget flow) s - inflow arcs (fget flow) s))%Qc with 0%Qc by ring. rewrite qabs_0. exact P0.
    - destruct (string_dec v t) as [->|Nt]; [rewrite T2; unfold ind; replace (0 * net arcs (fget flow) t - 0 * net_value arcs s (fget flow))%Qc with 0%Qc by ring; rewrite qabs_0; exact P0|].
      specialize (Cn v Ns Nt). destruct (inside v); unfold ind.
      + replace (1 * net arcs (fget flow) v - 0 * net_value arcs s (fget flow))%Qc with (net arcs (fget flow) v) by ring. exact Cn.
      + replace (0 * net arcs (fget flow) v - 0 * net_value arcs s (fget flow))%Qc with 0%Qc by ring. rewrite qabs_0. exact P0.
  Qed.
End Near.

(** ** in narrow networks no path goes backwards, whatever the rounding *)
Section NarrowRuns.
  Variable arcs : list (arc * Qc).
  Variables s t : string.
  Hypothesis Hst : s <> t.
  Hypothesis Hnd : NoDup (dkeys arcs).
  Hypothesis Hloop : forall u v, In (u, v) (dkeys arcs) -> u <> v.
  Hypothesis Hw : one_way arcs.

  Lemma tracked_reversed flow r u v : tracked arcs flow r -> edge_in r u v -> ~ In (u, v) (dkeys arcs) -> In (v, u) (dkeys arcs) /\ fget flow (v, u) <> 0%Qc.
  Proof.
    intros ((_ & _ & Sp) & _ & V) He Hn. unfold edge_in in He. destruct (Sp u v He) as [H|H]; [contradiction|]. split; [exact H|].
    destruct (key_get _ eqe_spec _ _ H) as [c Ec]. apply (dget_In _ eqe_spec) in Ec. destruct (V v u c Ec) as [_ W]. rewrite W in He. unfold nz in He.
    destruct (qeq_spec (fget flow (v, u)) 0); congruence.
  Qed.
  Lemma tracked_in flow r : narrow_in arcs s t -> tracked arcs flow r -> ends s t flow -> forall v l, bpath r s v l -> (forall a, In a l -> fst a <> t) -> forward arcs l.
  Proof.
    intros Hin X Z v l Hb. induction Hb as [|u v l Hb IH He Hne Hfr Hs]; intros Ht; [intros ? []|].
    assert (Fl : forward arcs l) by (apply IH; intros a Ha; apply Ht; now right).
    intros a [<-|Ha]; [|now apply Fl]. destruct (in_dec arc_dec (u, v) (dkeys arcs)) as [H|H]; [auto|exfalso].
    destruct (tracked_reversed flow r u v X He H) as [H1 H2].
    inversion Hb as [Eu El|p u' l' Hb' He' Hne' Hfr' Hs' Eu El]; subst.
    - destruct (Z v) as [Zv _]. now rewrite Zv in H2.
    - assert (p = v) by (apply (Hin u); auto; [apply (Ht (u, v)); now left|apply Fl; now left]).
      subst p. destruct (Hfr (v, u) (or_introl eq_refl)) as [Hf _]. simpl in Hf. congruence.
  Qed.
  Lemma tracked_out flow r : narrow_out arcs s t -> tracked arcs flow r -> ends s t flow -> forall v l, bpath r s v l -> (forall a, In a l -> fst a <> t) ->
    v = t \/ (exists q, In (v, q) (dkeys arcs) /\ q <> v /\ forall a, In a l -> fst a <> q /\ snd a <> q) -> forward arcs l.
  Proof.
    intros Hout X Z v l Hb. induction Hb as [|u v l Hb IH He Hne Hfr Hs]; intros Ht Hv; [intros ? []|].
    assert (Ha : In (u, v) (dkeys arcs)).
    { destruct (in_dec arc_dec (u, v) (dkeys arcs)) as [H|H]; [auto|exfalso]. destruct (tracked_reversed flow r u v X He H) as [H1 H2].
      destruct (string_dec v t) as [->|Nt].
      - destruct (Z u) as [_ Zu]. now rewrite Zu in H2.
      - destruct Hv as [Hv|(q & Hq & Hqv & Hql)]; [congruence|].
        assert (u = q) by (apply (Hout v); auto). subst q. destruct (Hql (u, v) (or_introl eq_refl)). simpl in *. congruence. }
    intros a [<-|Hl]; [auto|]. revert a Hl. apply IH.
    - intros a Hl. apply Ht. now right.
    - right. exists v. split; [auto|]. split; [auto|]. exact Hfr.
  Qed.
  Lemma some_bound (h : arc -> Qc) l : exists B, forall a, In a l -> (h a <= B)%Qc.
  Proof.
    induction l as [|a l (B & IH)]; [exists 0%Qc; intros ? []|]. destruct (qle_spec (h a) B) as [L|L].
    - exists B. intros b [<-|H]; auto.
    - exists (h a). intros b [<-|H]; [apply Qcle_refl|]. specialize (IH b H). set (x := h b) in *. set (y := h a) in *. clearbody x y. clear - IH L. qclra.
  Qed.
  Lemma narrow_loop : narrow_in arcs s t \/ narrow_out arcs s t -> forall fuel flow r trace, tracked arcs flow r -> ends s t flow ->
    forall l, In l (snd (fl_ff_loop fuel arcs s t flow r trace)) -> In l trace \/ forward arcs l.
  Proof.
    intros Hn. induction fuel as [|fuel IH]; intros flow r trace X Z l Hl; cbn [fl_ff_loop] in Hl; [auto|].
    destruct (bfs_path_spec r s t Hst) as [[Eb HS]|(p & l0 & Eb & Ep & Hb)]; rewrite Eb in Hl; [auto|].
    pose proof (bpath_top s t Hst r t l0 Hb eq_refl) as Ht.
    assert (Fl : forward arcs l0) by (destruct Hn as [Hn|Hn]; [eapply tracked_in; eauto|eapply tracked_out; eauto]).
    unfold fl_ff_augment in Hl. rewrite Ep in Hl. cbn [bind] in Hl. destruct l0 as [|a0 l1] eqn:E0; [cbn [snd] in Hl; auto|]. rewrite <- E0 in *. 
    assert (Hl0 : l0 <> []) by (rewrite E0; discriminate).
    destruct (min_residual_spec r l0 None) as (d & Ed & _ & _ & M2); [intros u v; apply (bpath_nodes s r t l0 Hb)|auto|].
    rewrite Ed in Hl. cbn [bind] in Hl. destruct (fl_ff_update arcs l0 d flow r) as [[f1 r1]| |] eqn:Eu; cbn [bind snd] in Hl; auto.
    assert (Dd : is_double d).
    { destruct M2 as [(u & v & Hin & Huv)|]; [|discriminate]. pose proof (Fl _ Hin) as K. apply (key_get _ eqe_spec) in K. destruct K as [c Ec]. apply (dget_In _ eqe_spec) in Ec.
      destruct X as (_ & _ & V). destruct (V u v c Ec) as [V1 _]. rewrite V1 in Huv. unfold nz in Huv. destruct (qeq (rnd (c - fget flow (u, v))) 0); [discriminate|]. injection Huv as <-. apply rnd_rounds. }
    destruct (some_bound (fun a => qabs (fget flow a + d)) l0) as (B & HB).
    destruct (near_update arcs Hnd Hloop Hw d l0 B Dd flow r f1 r1 X (bpath_NoDup s r t l0 Hb) Fl HB Eu) as (X1 & F1 & _).
    destruct (IH f1 r1 (trace ++ [l0]) X1) with (l := l) as [Hi|Hi]; auto.
    - intros x. assert (Q : forall a, ~ In a l0 -> fget flow a = 0%Qc -> fget f1 a = 0%Qc).
      { intros a Ha E1. rewrite F1. destruct (existsb (eqe a) l0) eqn:Ex; auto.
        apply existsb_exists in Ex. destruct Ex as (b & Hb1 & Hb2). destruct (eqe_spec a b); [subst; contradiction|discriminate]. }
      split; apply Q; try apply Z; intros Hi.
      + apply (bpath_source s r t l0 Hb) in Hi. now apply Hi.
      + apply Ht in Hi. now apply Hi.
    - apply in_app_or in Hi. destruct Hi as [Hi|[<-|[]]]; auto.
  Qed.
End NarrowRuns.

(** ** the whole call *)
Section WholeNear.
  Variable g : digraph.
  Notation arcs := (dg_arcs g).
  Variables s t : string.
  Hypothesis Hi : dinv g.
  Hypothesis Hs : In s (dkeys (dg_nodes g)).
  Hypothesis Ht : In t (dkeys (dg_nodes g)).
  Hypothesis Hst : s <> t.
  Hypothesis Hcap : forall a c, In (a, c) arcs -> (0 <= c)%Qc.
  Hypothesis Hdbl : forall a c, In (a, c) arcs -> is_double c.
  Hypothesis Hw : one_way arcs.

  Lemma init_tracked r : compute_residual g (zero_flow arcs) = Ok r -> tracked arcs (zero_flow arcs) r.
  Proof.
    intros E. destruct (init_exact g Hi Hcap r Hw E) as (B & V & _). split; [exact B|]. split; [intros a; rewrite zero_fget; apply double_0|].
    intros u v c Hc. rewrite !V, !zero_fget. unfold rexp. assert (Huv : In (u, v) (dkeys arcs)) by (apply key_In; eauto).
    rewrite (In_dget _ eqe_spec _ _ _ (arcs_nd g Hi) Hc). assert (dget eqe (v, u) arcs = None) as -> by (apply (dget_None _ eqe_spec), Hw, Huv).
    rewrite !zero_fget. replace (c - 0)%Qc with c by ring. rewrite rnd_double by eauto. split.
    - pose proof (Hcap _ _ Hc) as P. pose proof (nz_cap 0%Qc c P) as Q. replace (c - 0)%Qc with c in Q by ring. rewrite Q. reflexivity.
    - destruct (qlt_spec 0 0) as [L|L]; [exfalso; clear - L; qclra|]. reflexivity.
  Qed.
  Lemma fl_unfold order fuel : exists r, tracked arcs (zero_flow arcs) r /\
    fl_ford_fulkerson order fuel g s t = (rmap (fun f => (fl_flow_value order g s f, f)) (fst (fl_ff_loop fuel arcs s t (zero_flow arcs) r [])), snd (fl_ff_loop fuel arcs s t (zero_flow arcs) r [])).
  Proof.
    destruct (init_residual g Hcap) as (r & Er & Bs). exists r. split; [now apply init_tracked|].
    assert (E0 : fl_residual g (zero_flow arcs) = Ok r).
    { rewrite <- Er. apply residual_loop_eq. intros a c H. rewrite zero_fget. replace (c - 0)%Qc with c by ring. apply rnd_double. eauto. }
    unfold fl_ford_fulkerson.
    assert (has_node g s = true) as -> by (destruct (has_node_spec g s); [reflexivity|contradiction]).
    assert (has_node g t = true) as -> by (destruct (has_node_spec g t); [reflexivity|contradiction]).
    cbn [negb]. destruct (eqs s t); [congruence|]. cbv zeta. change (map (fun p0 : edge * Qc => (fst p0, 0%Qc)) arcs) with (zero_flow arcs). rewrite E0. reflexivity.
  Qed.
  Lemma fl_narrow order fuel : narrow_in arcs s t \/ narrow_out arcs s t -> forall l, In l (snd (fl_ford_fulkerson order fuel g s t)) -> forward arcs l.
  Proof.
    intros Hn l Hl. destruct (fl_unfold order fuel) as (r & X & Eu). rewrite Eu in Hl. cbn [snd] in Hl.
    destruct (narrow_loop arcs s t Hst (arcs_nd g Hi) (arcs_loop g Hi) Hw Hn fuel (zero_flow arcs) r [] X) with (l := l) as [[]|H]; auto.
    intros x. now rewrite !zero_fget.
  Qed.
  Lemma fl_near order fuel M value flow tr : (0 <= M)%Qc -> (forall a c, In (a, c) arcs -> (c <= M)%Qc) ->
    fl_ford_fulkerson order fuel g s t = (Ok (value, flow), tr) -> (forall l, In l tr -> forward arcs l) -> (kk (length tr) * (del M + del M) <= M)%Qc ->
    dkeys flow = dkeys arcs /\ doubles_in flow /\ value = fl_flow_value order g s flow /\
    (forall a c, In (a, c) arcs -> (- (kk (length tr) * (del M + del M)) <= fget flow a /\ fget flow a <= c + del M)%Qc) /\
    (forall w, w <> s -> w <> t -> (qabs (net arcs (fget flow) w) <= kk (length tr) * del M)%Qc) /\
    exists inside, inside s = true /\ inside t = false /\ (forall u v c, In ((u, v), c) arcs -> inside u = true -> inside v = false -> fget flow (u, v) = c) /\ (forall u v c, In ((u, v), c) arcs -> inside u = false -> inside v = true -> fget flow (u, v) = 0%Qc) /\ (qabs (net_value arcs s (fget flow) - cut_capacity arcs inside) <= kk (length (dg_nodes g)) * (kk (length tr) * del M))%Qc.
  Proof.
    intros HM Hle E F HK. destruct (fl_unfold order fuel) as (r & X & Eu). rewrite Eu in E.
    destruct (fl_ff_loop fuel arcs s t (zero_flow arcs) r []) as [[f'| |] tr'] eqn:EL; cbn [fst snd rmap] in E; inversion E; subst.
    assert (N0 : near arcs s t M 0 (zero_flow arcs) r).
    { pose proof (del_nonneg M HM) as D. split; [exact X|]. split.
      - intros a c Hc. rewrite zero_fget. pose proof (Hcap _ _ Hc) as P. change (kk 0) with 0%Qc. set (dd := del M) in *. clearbody dd. clear - D P. split; qclra.
      - intros w _ _. rewrite net_Sigma, (Sigma_ext _ _ (fun _ => 0%Qc)) by (intros a _; rewrite zero_fget; ring). rewrite Sigma_zero, qabs_0. change (kk 0) with 0%Qc. clear. qclra. }
    destruct (near_loop arcs s t Hst (arcs_nd g Hi) (arcs_loop g Hi) Hw Hcap Hdbl M HM Hle fuel (zero_flow arcs) r [] flow tr N0 EL F HK) as (r' & N & HS).
    split; [apply N|]. split; [apply N|]. split; [reflexivity|]. split; [apply N|]. split; [apply N|].
    destruct (near_cut arcs s t Hdbl M HM (length tr) flow r' (dkeys (dg_nodes g)) N) as (inside & I1 & I2 & F1 & F2 & I3); auto.
    - apply Hi.
    - intros [u v] Ha. apply (d_arc _ Hi) in Ha. cbn [fst snd]. tauto.
    - exists inside. split; [exact I1|]. split; [exact I2|]. split; [exact F1|]. split; [exact F2|]. unfold dkeys in I3. rewrite map_length in I3. exact I3.
  Qed.
End WholeNear.

(** ** the value reported: the sums are rounded too *)
Lemma vv_count i : (Z.of_nat i <= 2 ^ 49)%Z -> (vv * kk i <= 1)%Qc.
Proof.
  intros H. assert (K : (kk i <= qz (2 ^ 49))%Qc) by (unfold kk; apply qz_le; exact H). pose proof (scaled vv _ _ (Qclt_le_weak _ _ vv_pos) K) as X.
  eapply Qcle_trans; [exact X|]. vm_compute. discriminate.
Qed.
Lemma kk_mul a b : kk (a * b) = (kk a * kk b)%Qc. Proof. unfold kk. now rewrite Nat2Z.inj_mul, qz_mul. Qed.
Lemma fl_sum_near M : (0 <= M)%Qc -> forall l acc S i, is_double acc -> (forall x, In x l -> is_double x /\ (qabs x <= M + M)%Qc) ->
  (qabs (acc - S) <= kk (i * i) * del M)%Qc -> (qabs S <= kk i * (M + M))%Qc -> (Z.of_nat (i + length l) <= 2 ^ 49)%Z ->
  let j := i + length l in let r := fold_left (fun s x => rnd (s + x)%Qc) l acc in
  is_double r /\ (qabs (r - (S + qsum l)) <= kk (j * j) * del M)%Qc /\ (qabs (S + qsum l) <= kk j * (M + M))%Qc.
Proof.
  intros HM. induction l as [|x l IH]; intros acc S i Da Hl H1 H2 Hi j r.
  - subst j r. cbn [length fold_left]. rewrite Nat.add_0_r. change (qsum []) with 0%Qc. replace (S + 0)%Qc with S by ring. auto.
  - destruct (Hl x (or_introl eq_refl)) as [Dx Bx]. cbn [length] in Hi.
    assert (D' : is_double (rnd (acc + x))) by apply rnd_rounds.
    assert (A' : (qabs (S + x) <= kk (Datatypes.S i) * (M + M))%Qc).
    { rewrite kk_S. replace ((kk i + 1) * (M + M))%Qc with (kk i * (M + M) + (M + M))%Qc by ring. pose proof (qabs_add S x) as T. set (a := qabs (S + x)) in *. set (b := qabs S) in *. set (c := qabs x) in *. set (y := (kk i * (M + M))%Qc) in *. clearbody a b c y. clear - T H2 Bx. qclra. }
    assert (E' : (qabs (rnd (acc + x) - (S + x)) <= kk (Datatypes.S i * Datatypes.S i) * del M)%Qc).
    { pose proof (sum_err acc x Da Dx) as E. pose proof (vv_count i ltac:(lia)) as C. pose proof (kk_pos i) as K0. pose proof (del_nonneg M HM) as D0. pose proof (Qclt_le_weak _ _ vv_pos) as V.
      assert (U : (qabs (acc + x) <= kk i * kk i * del M + kk i * (M + M) + (M + M))%Qc).
      { pose proof (qabs_add (acc - S) (S + x)) as T. replace (acc - S + (S + x))%Qc with (acc + x)%Qc in T by ring. rewrite kk_mul in H1. rewrite kk_S in A'. replace ((kk i + 1) * (M + M))%Qc with (kk i * (M + M) + (M + M))%Qc in A' by ring.
        set (a := qabs (acc + x)) in *. set (b := qabs (acc - S)) in *. set (c := qabs (S + x)) in *. set (y := (kk i * (M + M))%Qc) in *. set (z := (kk i * kk i * del M)%Qc) in *. clearbody a b c y z. clear - T H1 A'. qclra. }
      apply (scaled vv _ _ V) in U.
      assert (W : (vv * (kk i * kk i * del M) <= kk i * del M)%Qc).
      { assert (P : (0 <= kk i * del M)%Qc) by (apply qmul_nonneg; auto). pose proof (scaled _ _ _ P C) as X. replace (kk i * del M * (vv * kk i))%Qc with (vv * (kk i * kk i * del M))%Qc in X by ring. replace (kk i * del M * 1)%Qc with (kk i * del M)%Qc in X by ring. exact X. }
      assert (Hdel : (vv * (M + M) + vv * (M + M) = del M)%Qc) by (unfold del; rewrite qz4; ring).
      replace (vv * (kk i * kk i * del M + kk i * (M + M) + (M + M)))%Qc with (vv * (kk i * kk i * del M) + kk i * (vv * (M + M)) + vv * (M + M))%Qc in U by ring.
      assert (Y : (kk i * (vv * (M + M)) + kk i * (vv * (M + M)) = kk i * del M)%Qc) by (rewrite <- Hdel; ring).
      assert (P : (0 <= kk i * del M)%Qc) by (apply qmul_nonneg; auto).
      rewrite kk_mul in *. rewrite !kk_S. replace ((kk i + 1) * (kk i + 1) * del M)%Qc with (kk i * kk i * del M + kk i * del M + kk i * del M + del M)%Qc by ring.
      pose proof (qabs_add (rnd (acc + x) - (acc + x)) (acc - S)) as T. replace (rnd (acc + x) - (acc + x) + (acc - S))%Qc with (rnd (acc + x) - (S + x))%Qc in T by ring.
      set (t1 := qabs (rnd (acc + x) - (S + x))) in *. set (t2 := qabs (rnd (acc + x) - (acc + x))) in *. set (t3 := qabs (acc - S)) in *. set (t4 := (vv * qabs (acc + x))%Qc) in *.
      set (t5 := (vv * (kk i * kk i * del M))%Qc) in *. set (t6 := (kk i * (vv * (M + M)))%Qc) in *. set (t7 := (vv * (M + M))%Qc) in *. set (t8 := (kk i * del M)%Qc) in *. set (t9 := (kk i * kk i * del M)%Qc) in *. set (dd := del M) in *.
      clearbody t1 t2 t3 t4 t5 t6 t7 t8 t9 dd. clear - E H1 U W Hdel Y P D0 T. qclra. }
    destruct (IH (rnd (acc + x)) (S + x)%Qc (Datatypes.S i) D' (fun y Hy => Hl y (or_intror Hy)) E' A' ltac:(lia)) as (R1 & R2 & R3).
    subst j r. cbn [length fold_left]. rewrite <- plus_n_Sm. change (qsum (x :: l)) with (x + qsum l)%Qc. replace (S + (x + qsum l))%Qc with (S + x + qsum l)%Qc by ring. auto.
Qed.

Lemma filter_length_le_nat {A} (P : A -> bool) l : length (filter P l) <= length l.
Proof. induction l as [|a l IH]; cbn [filter]; [auto|]. destruct (P a); cbn [length]; lia. Qed.
Section ValueNear.
  Variable g : digraph.
  Notation arcs := (dg_arcs g).
  Variable s : string.
  Hypothesis Hi : dinv g.
  Hypothesis Hsh : short s.
  Variable order : list arc -> list arc.
  Hypothesis Hord : some_order order.
  Variable M : Qc.
  Hypothesis HM : (0 <= M)%Qc.
  Hypothesis Hfew : (Z.of_nat (length arcs) <= 2 ^ 49)%Z.

  Lemma half_near flow (P : arc -> bool) : (forall a, In a (dkeys arcs) -> is_double (fget flow a) /\ (qabs (fget flow a) <= M + M)%Qc) ->
    let l := filter P (dkeys arcs) in let j := length l in
    is_double (fl_sum (map (fget flow) (order l))) /\ (qabs (fl_sum (map (fget flow) (order l)) - Sigma l (fget flow)) <= kk (j * j) * del M)%Qc /\
    (qabs (Sigma l (fget flow)) <= kk j * (M + M))%Qc.
  Proof.
    intros Hf l j. assert (Lo : length (map (fget flow) (order l)) = j) by (rewrite map_length; apply Permutation_length, Hord).
    assert (Lj : j <= length arcs) by (unfold j, l; rewrite <- (map_length fst arcs); apply filter_length_le_nat).
    destruct (fl_sum_near M HM (map (fget flow) (order l)) 0%Qc 0%Qc 0) as (R1 & R2 & R3).
    - apply double_0.
    - intros x Hx. apply in_map_iff in Hx. destruct Hx as (a & <- & Ha). apply (Permutation_in _ (Hord l)) in Ha. unfold l in Ha. apply filter_In in Ha. apply Hf, Ha.
    - replace (0 - 0)%Qc with 0%Qc by ring. rewrite qabs_0. cbn [Nat.mul]. change (kk 0) with 0%Qc. clear. qclra.
    - rewrite qabs_0. change (kk 0) with 0%Qc. clear. qclra.
    - rewrite Lo. cbn [Nat.add]. lia.
    - cbn [Nat.add] in R2, R3. rewrite Lo in R2, R3. change (qsum (map (fget flow) (order l))) with (Sigma (order l) (fget flow)) in *. rewrite (Sigma_perm _ _ _ (Hord l)) in R2, R3.
      replace (0 + Sigma l (fget flow))%Qc with (Sigma l (fget flow)) in * by ring. split; [exact R1|]. split; [exact R2|exact R3].
  Qed.
  Lemma value_near flow : (forall a, In a (dkeys arcs) -> is_double (fget flow a) /\ (qabs (fget flow a) <= M + M)%Qc) ->
    (qabs (fl_flow_value order g s flow - net_value arcs s (fget flow)) <= kk (5 * (length arcs * length arcs)) * del M)%Qc.
  Proof.
    intros Hf. unfold fl_flow_value. rewrite (cut_short g s Hi Hsh), (ncut_short g s Hi Hsh).
    destruct (half_near flow (fun a => String.eqb (fst a) s) Hf) as (D1 & E1 & B1). destruct (half_near flow (fun a => String.eqb (snd a) s) Hf) as (D2 & E2 & B2).
    assert (Nv : net_value arcs s (fget flow) = (Sigma (filter (fun a => String.eqb (fst a) s) (dkeys arcs)) (fget flow) - Sigma (filter (fun a => String.eqb (snd a) s) (dkeys arcs)) (fget flow))%Qc) by reflexivity.
    rewrite Nv. pose proof (diff_err _ _ D1 D2) as E3.
    assert (J : forall P : arc -> bool, length (filter P (dkeys arcs)) <= length arcs) by (intros P; rewrite <- (map_length fst arcs); apply filter_length_le_nat).
    pose proof (J (fun a => String.eqb (fst a) s)) as J1. pose proof (J (fun a => String.eqb (snd a) s)) as J2.
    set (a := fl_sum (map (fget flow) (order (filter (fun a => String.eqb (fst a) s) (dkeys arcs))))) in *.
    set (b := fl_sum (map (fget flow) (order (filter (fun a => String.eqb (snd a) s) (dkeys arcs))))) in *.
    set (x := Sigma (filter (fun a => String.eqb (fst a) s) (dkeys arcs)) (fget flow)) in *. set (y := Sigma (filter (fun a => String.eqb (snd a) s) (dkeys arcs)) (fget flow)) in *.
    cbv zeta in *. set (j1 := length (filter (fun a => String.eqb (fst a) s) (dkeys arcs))) in *. set (j2 := length (filter (fun a => String.eqb (snd a) s) (dkeys arcs))) in *.
    set (n := length arcs) in *. pose proof (del_nonneg M HM) as D0. pose proof (Qclt_le_weak _ _ vv_pos) as V.
    assert (Up : forall j, j <= n -> (kk (j * j) * del M <= kk n * kk n * del M)%Qc).
    { intros j Hj. rewrite <- kk_mul. rewrite !(Qcmult_comm _ (del M)). apply scaled; [exact D0|]. apply kk_le. nia. }
    assert (Up2 : forall j, j <= n -> (kk j * (M + M) <= kk n * (M + M))%Qc).
    { intros j Hj. rewrite !(Qcmult_comm _ (M + M)%Qc). apply scaled; [clear - HM; qclra|]. now apply kk_le. }
    pose proof (Qcle_trans _ _ _ E1 (Up j1 J1)) as F1. pose proof (Qcle_trans _ _ _ E2 (Up j2 J2)) as F2.
    pose proof (Qcle_trans _ _ _ B1 (Up2 j1 J1)) as G1. pose proof (Qcle_trans _ _ _ B2 (Up2 j2 J2)) as G2.
    assert (U : (qabs (a - b) <= (kk n * kk n * del M + kk n * (M + M)) + (kk n * kk n * del M + kk n * (M + M)))%Qc).
    { clear - F1 F2 G1 G2. set (q := (kk n * kk n * del M)%Qc) in *. set (w := (kk n * (M + M))%Qc) in *. apply qabs_le in F1. apply qabs_le in F2. apply qabs_le in G1. apply qabs_le in G2. apply qabs_le. clearbody q w a b x y. destruct F1, F2, G1, G2. split; qclra. }
    apply (scaled vv _ _ V) in U. pose proof (vv_count n Hfew) as C. pose proof (kk_pos n) as K0.
    assert (W : (vv * (kk n * kk n * del M) <= kk n * del M)%Qc).
    { assert (P : (0 <= kk n * del M)%Qc) by (apply qmul_nonneg; auto). pose proof (scaled _ _ _ P C) as X. replace (kk n * del M * (vv * kk n))%Qc with (vv * (kk n * kk n * del M))%Qc in X by ring. replace (kk n * del M * 1)%Qc with (kk n * del M)%Qc in X by ring. exact X. }
    assert (Y : (kk n * (vv * (M + M)) + kk n * (vv * (M + M)) = kk n * del M)%Qc) by (unfold del; rewrite qz4; ring).
    replace (vv * (kk n * kk n * del M + kk n * (M + M) + (kk n * kk n * del M + kk n * (M + M))))%Qc with (vv * (kk n * kk n * del M) + vv * (kk n * kk n * del M) + (kk n * (vv * (M + M)) + kk n * (vv * (M + M))))%Qc in U by ring.
    rewrite Y in U.
    (** one unit is at most the square of the number of arcs *)
    assert (Sq : (kk n * del M <= kk n * kk n * del M)%Qc) by (rewrite <- kk_mul; rewrite !(Qcmult_comm _ (del M)); apply scaled; [exact D0|]; apply kk_le; nia).
    fold n. rewrite !kk_mul. change (kk 5) with (1 + 1 + 1 + 1 + 1)%Qc. replace ((1 + 1 + 1 + 1 + 1) * (kk n * kk n) * del M)%Qc with ((1 + 1 + 1 + 1 + 1) * (kk n * kk n * del M))%Qc by ring.
    set (t1 := (vv * (kk n * kk n * del M))%Qc) in *. set (t2 := (kk n * del M)%Qc) in *. set (t3 := (kk n * kk n * del M)%Qc) in *. set (t4 := (vv * qabs (a - b))%Qc) in *. set (z := rnd (a - b)) in *.
    apply qabs_le in E3. apply qabs_le in F1. apply qabs_le in F2. apply qabs_le. clearbody t1 t2 t3 t4 z a b x y. clear - E3 F1 F2 U W Sq. destruct E3, F1, F2. split; qclra.
  Qed.
End ValueNear.
