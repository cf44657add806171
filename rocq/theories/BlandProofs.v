(** Bland's rule: the simplex steps cannot go on for ever. *)
From Coq Require Import String List Bool Arith ZArith QArith Qcanon Lia Sorted.
From Verif Require Import Py QcTac QSum QInt ComparatorModel MatModel DetTheory MatTheory LinearModel LinearSpec LinearProofs SefProofs LinearInv BasisProofs.
Import ListNotations.
Open Scope nat_scope.
Open Scope string_scope.
Open Scope list_scope.

(** one exact step from basis [B]: [k] enters, the [l]-th basic variable leaves *)
Record step (p : lp) (B B' : list nat) (q : lp) (k l : nat) : Prop := mkstep {
  st_basis : basis p B;
  st_canon : canon p B q;
  st_k : k < cols p;
  st_kB : ~ In k B;
  st_ck : (0 < at_ (lc q) k)%Qc;
  st_first : forall j, j < k -> (at_ (lc q) j <= 0)%Qc;
  st_l : l < rows p;
  st_piv : (0 < ent (lA q) l k)%Qc;
  st_min : forall i, i < rows p -> (0 < ent (lA q) i k)%Qc -> (at_ (lb q) l * ent (lA q) i k <= at_ (lb q) i * ent (lA q) l k)%Qc;
  st_least : forall i, i < l -> (0 < ent (lA q) i k)%Qc -> (at_ (lb q) l * ent (lA q) i k < at_ (lb q) i * ent (lA q) l k)%Qc;
  st_sorted : StronglySorted lt B';
  st_len : length B' = rows p;
  st_In : forall j, In j B' <-> (In j B /\ j <> bk B l) \/ j = k }.

Lemma obj_linear p (f g : nat -> Qc) t : obj p (fun j => f j + t * g j)%Qc = (obj p f + t * obj p g)%Qc.
Proof.
  unfold obj. rewrite <- Sum_scal, <- Sum_add. apply Sum_ext. intros; ring.
Qed.
Lemma solves_linear p (f g : nat -> Qc) t : solves 1 p f -> solves 0 p g -> solves 1 p (fun j => f j + t * g j)%Qc.
Proof.
  intros H1 H2 i Hi. specialize (H1 i Hi). specialize (H2 i Hi). unfold lhs in *.
  rewrite (Sum_ext _ _ (fun j => ent (lA p) i j * f j + t * (ent (lA p) i j * g j))%Qc) by (intros; ring).
  rewrite Sum_add, Sum_scal, H1, H2. ring.
Qed.

Lemma step_sol p B B' q k l f : wf p -> step p B B' q k l -> bsol p B f -> (forall j, j < cols p -> (0 <= f j)%Qc) ->
  basis p B' /\ exists g, bsol p B' g /\ (forall j, j < cols p -> (0 <= g j)%Qc) /\ (obj p f <= obj p g)%Qc /\
    (obj p f = obj p g -> forall j, j < cols p -> f j = g j).
Proof.
  intros H S Hf Hpos. destruct S as [HB HC Hk HkB Hck _ Hl Hpiv Hmin _ Hs Hlen HIn].
  assert (HB' : basis p B').
  { apply (pivot_basis p B q k l); auto. intros E. rewrite E in Hpiv. discriminate Hpiv. }
  split; auto. set (d := dir p q B k). set (t := (at_ (lb q) l / ent (lA q) l k)%Qc).
  pose proof (bsol_at p B q HB HC f Hf) as Hat.
  assert (Hb : forall i, i < rows p -> (0 <= at_ (lb q) i)%Qc) by (intros i Hi; rewrite <- Hat by auto; apply Hpos; now apply bk_lt).
  assert (tm : (t * ent (lA q) l k)%Qc = at_ (lb q) l).
  { unfold t. field. intros E. rewrite E in Hpiv. discriminate Hpiv. }
  assert (Ht : (0 <= t)%Qc). { specialize (Hb l Hl). qcnra. }
  exists (fun j => f j + t * d j)%Qc. split; [|split; [|split]].
  - split.
    + apply solves_linear; [apply Hf|]. apply dir_solves; auto.
    + intros j Hj Hn. destruct (Nat.eq_dec j (bk B l)) as [->|Hne].
      * rewrite Hat by auto. unfold d. rewrite dir_B by auto. rewrite <- tm. ring.
      * assert (HjB : ~ In j B) by (intros K; apply Hn, HIn; auto). assert (j <> k) by (intros ->; apply Hn, HIn; auto).
        rewrite (proj2 Hf) by auto. unfold d. rewrite dir_off by auto. ring.
  - intros j Hj. destruct (in_dec Nat.eq_dec j B) as [Hi|Hi].
    + apply (In_bk p) in Hi; auto. destruct Hi as (i & Hi & <-). rewrite Hat by auto. unfold d. rewrite dir_B by auto.
      specialize (Hb i Hi). destruct (Qclt_le_dec 0 (ent (lA q) i k)) as [K|K].
      * specialize (Hmin i Hi K). assert (t * ent (lA q) i k * ent (lA q) l k <= at_ (lb q) i * ent (lA q) l k)%Qc.
        { replace (t * ent (lA q) i k * ent (lA q) l k)%Qc with (t * ent (lA q) l k * ent (lA q) i k)%Qc by ring. now rewrite tm. }
        assert (t * ent (lA q) i k <= at_ (lb q) i)%Qc. { apply Qcnot_lt_le. intros L. clear - H0 L Hpiv. qcnra. } qclra.
      * qcnra.
    + rewrite (proj2 Hf) by auto. destruct (Nat.eq_dec j k) as [->|Hne].
      * unfold d. rewrite dir_k. qclra.
      * unfold d. rewrite dir_off by auto. qclra.
  - rewrite obj_linear. unfold d. rewrite dir_obj by auto. qcnra.
  - rewrite obj_linear. unfold d. rewrite dir_obj by auto. intros E j Hj.
    assert (t * at_ (lc q) k = 0)%Qc by qclra. apply Qcmult_integral in H0. destruct H0 as [H0|H0].
    + rewrite H0. ring.
    + rewrite H0 in Hck. discriminate Hck.
Qed.

(** ** a chain of steps *)
Section Chain.
  Context (p : lp) (Hp : wf p) (bas : nat -> list nat) (N : nat).
  Context (Hstep : forall i, i < N -> exists q k l, step p (bas i) (bas (S i)) q k l).
  Context (f0 : nat -> Qc) (Hf0 : bsol p (bas 0) f0) (Hpos0 : forall j, j < cols p -> (0 <= f0 j)%Qc) (HB0 : basis p (bas 0)).

  Lemma chain_sol i : i <= N -> basis p (bas i) /\ exists f, bsol p (bas i) f /\ forall j, j < cols p -> (0 <= f j)%Qc.
  Proof.
    induction i as [|i IH]; intros Hi; [eauto|]. destruct (IH ltac:(lia)) as (HB & f & Hf & Hpos).
    destruct (Hstep i ltac:(lia)) as (q & k & l & S). destruct (step_sol p _ _ q k l f Hp S Hf Hpos) as (HB' & g & Hg & Hgp & _). eauto.
  Qed.
  Lemma obj_ext f g : (forall j, j < cols p -> f j = g j) -> obj p f = obj p g.
  Proof. intros E. apply Sum_ext. intros j Hj. now rewrite E. Qed.
  Lemma sol_unique i f g : i <= N -> bsol p (bas i) f -> bsol p (bas i) g -> forall j, j < cols p -> f j = g j.
  Proof.
    intros Hi Hf Hg. destruct (chain_sol i Hi) as (HB & _). destruct (basis_canon p _ Hp HB) as (q & _ & HC).
    now apply (bsol_unique p (bas i) q).
  Qed.
  (** the objective never decreases; when it stays the same, so does the point *)
  Lemma chain_mono i d f g : i + d <= N -> bsol p (bas i) f -> bsol p (bas (i + d)) g ->
    (obj p f <= obj p g)%Qc /\ (obj p f = obj p g -> forall j, j < cols p -> f j = g j).
  Proof.
    revert g. induction d as [|d IH]; intros g Hi Hf Hg.
    - rewrite Nat.add_0_r in Hg, Hi. pose proof (sol_unique i f g Hi Hf Hg) as E. split; [|auto]. rewrite (obj_ext f g E). apply Qcle_refl.
    - destruct (chain_sol (i + d) ltac:(lia)) as (_ & h & Hh & Hhp). destruct (IH h ltac:(lia) Hf Hh) as (I1 & I2).
      destruct (Hstep (i + d) ltac:(lia)) as (q & k & l & S). destruct (step_sol p _ _ q k l h Hp S Hh Hhp) as (_ & g' & Hg' & _ & G1 & G2).
      rewrite Nat.add_succ_r in Hg. pose proof (sol_unique (Datatypes.S (i + d)) g g' ltac:(lia) Hg Hg') as E. rewrite (obj_ext g g' E). split; [qclra|].
      intros K j Hj. rewrite E by auto. assert (obj p f = obj p h) by qclra. assert (obj p h = obj p g') by qclra.
      rewrite I2 by auto. now apply G2.
  Qed.

  Context (a b : nat) (Hab : a < b) (HbN : b <= N) (Hcyc : bas a = bas b).

  Lemma cycle_same i i' f g : a <= i <= b -> a <= i' <= b -> bsol p (bas i) f -> bsol p (bas i') g -> forall j, j < cols p -> f j = g j.
  Proof.
    assert (K : forall i f, a <= i <= b -> bsol p (bas i) f -> forall fa, bsol p (bas a) fa -> forall j, j < cols p -> fa j = f j).
    { intros i0 f1 Hi Hf1 fa Hfa. assert (Hfb : bsol p (bas (a + (b - a))) fa) by (replace (a + (b - a)) with b by lia; now rewrite <- Hcyc).
      assert (Hf1' : bsol p (bas (a + (i0 - a))) f1) by (replace (a + (i0 - a)) with i0 by lia; auto).
      destruct (chain_mono a (i0 - a) fa f1 ltac:(lia) Hfa Hf1') as (M1 & M2).
      assert (Hfb' : bsol p (bas (i0 + (b - i0))) fa) by (replace (i0 + (b - i0)) with b by lia; now rewrite <- Hcyc).
      destruct (chain_mono i0 (b - i0) f1 fa ltac:(lia) Hf1 Hfb') as (M3 & _). apply M2. qclra. }
    intros Hi Hi' Hf Hg j Hj. destruct (chain_sol a ltac:(lia)) as (_ & fa & Hfa & _).
    rewrite <- (K i f Hi Hf fa Hfa j Hj). now apply (K i' g).
  Qed.

  Definition leaves (t i : nat) : bool := inb t (bas i) && negb (inb t (bas (S i))).
  Lemma switch (P : nat -> bool) i d : P i = true -> P (i + d) = false -> exists c, i <= c < i + d /\ P c = true /\ P (S c) = false.
  Proof.
    induction d as [|d IH]; intros H1 H2; [rewrite Nat.add_0_r in H2; congruence|].
    destruct (P (i + d)) eqn:E.
    - exists (i + d). rewrite Nat.add_succ_r in H2. repeat split; auto; lia.
    - destruct (IH H1 eq_refl) as (c & Hc & Hc2). exists c. split; [lia|auto].
  Qed.
  Lemma leaves_in_cycle t i i' : a <= i <= b -> a <= i' <= b -> In t (bas i) -> ~ In t (bas i') -> exists c, a <= c < b /\ leaves t c = true.
  Proof.
    intros Hi Hi' H1 H2. apply inb_In in H1. apply inb_false in H2. set (P := fun c => inb t (bas c)).
    assert (G : forall u v, a <= u <= v -> v <= b -> P u = true -> P v = false -> exists c, a <= c < b /\ leaves t c = true).
    { intros u v Huv Hv Hu Hv2. replace v with (u + (v - u)) in Hv2 by lia. destruct (switch P u (v - u) Hu Hv2) as (c & Hc & C1 & C2).
      exists c. split; [lia|]. unfold leaves. unfold P in C1, C2. now rewrite C1, C2. }
    destruct (Nat.le_gt_cases i i') as [Hle|Hgt].
    - apply (G i i'); auto; lia.
    - destruct (P b) eqn:Eb.
      + apply (G a i'); auto; [lia|lia|]. unfold P in *. now rewrite Hcyc.
      + apply (G i b); auto; lia.
  Qed.
  Lemma enters_in_cycle t i : a <= i < b -> leaves t i = true -> exists c, a <= c < b /\ ~ In t (bas c) /\ In t (bas (S c)).
  Proof.
    intros Hi Hl. unfold leaves in Hl. apply andb_true_iff in Hl. destruct Hl as (H1 & H2). apply negb_true_iff in H2.
    set (P := fun c => negb (inb t (bas c))).
    assert (G : forall u v, a <= u <= v -> v <= b -> P u = true -> P v = false -> exists c, a <= c < b /\ ~ In t (bas c) /\ In t (bas (S c))).
    { intros u v Huv Hv Hu Hv2. replace v with (u + (v - u)) in Hv2 by lia. destruct (switch P u (v - u) Hu Hv2) as (c & Hc & C1 & C2).
      exists c. split; [lia|]. unfold P in C1, C2. apply negb_true_iff in C1. apply negb_false_iff in C2. split; [now apply inb_false|now apply inb_In]. }
    destruct (P b) eqn:Eb.
    - apply (G a i); auto; [lia|lia| |]; unfold P in *; [now rewrite Hcyc|]. now rewrite H1.
    - apply (G (S i) b); auto; [lia|]. unfold P. now rewrite H2.
  Qed.
  Definition fickle (t : nat) : bool := existsb (leaves t) (seq a (b - a)).
  Lemma fickle_iff t : fickle t = true <-> exists c, a <= c < b /\ leaves t c = true.
  Proof.
    unfold fickle. rewrite existsb_exists. split; intros (c & Hc & Hl); exists c; [apply in_seq in Hc|rewrite in_seq]; (split; [lia|auto]).
  Qed.
  Lemma greatest (P : nat -> bool) n : (exists t, t < n /\ P t = true) -> exists t, t < n /\ P t = true /\ forall u, u < n -> P u = true -> u <= t.
  Proof.
    induction n as [|n IH]; intros (t & Ht & Pt); [lia|]. destruct (P n) eqn:E.
    - exists n. split; [lia|]. split; auto. intros; lia.
    - destruct IH as (u & Hu & Pu & Hm). { exists t. split; auto. destruct (Nat.eq_dec t n) as [->|]; [congruence|lia]. }
      exists u. split; [lia|]. split; auto. intros w Hw Pw. destruct (Nat.eq_dec w n) as [->|]; [congruence|]. apply Hm; auto; lia.
  Qed.

  Theorem no_cycle : False.
  Proof.
    assert (Fk : exists t, t < cols p /\ fickle t = true).
    { destruct (Hstep a ltac:(lia)) as (q & k & l & S). destruct S as [HB HC Hk HkB Hck Hf Hl Hpiv Hmin Hle Hs Hlen HIn].
      exists (bk (bas a) l). split; [now apply bk_lt|]. apply fickle_iff. exists a. split; [lia|]. unfold leaves. apply andb_true_iff. split.
      - apply inb_In. now apply (bk_In p).
      - apply negb_true_iff, inb_false. rewrite HIn. intros [(_ & K)|K]; auto. apply HkB. rewrite <- K. now apply (bk_In p). }
    destruct (greatest fickle (cols p) Fk) as (t & Ht & Ft & Hmax). apply fickle_iff in Ft. destruct Ft as (u & Hu & Lu).
    destruct (enters_in_cycle t u Hu Lu) as (v & Hv & V1 & V2).
    assert (Fle : forall w i i', w < cols p -> a <= i <= b -> a <= i' <= b -> In w (bas i) -> ~ In w (bas i') -> w <= t).
    { intros w i i' Hw Hi Hi' H1 H2. apply Hmax; auto. apply fickle_iff. now apply (leaves_in_cycle w i i'). }
    (* step u: t leaves, s enters *)
    destruct (Hstep u ltac:(lia)) as (q & s & l & S). destruct S as [HB HC Hs HsB Hcs Hfirst Hl Hpiv Hmin Hleast Hsort Hlen HIn].
    (* step v: t enters *)
    destruct (Hstep v ltac:(lia)) as (q' & k' & l' & S'). destruct S' as [HB' HC' Hk' HkB' Hck' Hfirst' Hl' Hpiv' Hmin' Hleast' Hsort' Hlen' HIn'].
    assert (k' = t). { apply HIn' in V2. destruct V2 as [(V2 & _)|V2]; auto. contradiction. } subst k'.
    unfold leaves in Lu. apply andb_true_iff in Lu. destruct Lu as (U1 & U2). apply inb_In in U1. apply negb_true_iff, inb_false in U2.
    assert (Etl : bk (bas u) l = t). { destruct (Nat.eq_dec t (bk (bas u) l)); auto. exfalso. apply U2, HIn. auto. }
    assert (s_le : s <= t).
    { apply (Fle s (Datatypes.S u) u); auto; try lia. apply HIn. auto. }
    assert (s_ne : s <> t) by (intros ->; contradiction).
    set (d := dir p q (bas u) s). pose proof (dir_solves p _ q s HB HC Hs HsB) as Hd. fold d in Hd.
    assert (E : obj p d = at_ (lc q) s) by (apply dir_obj; auto).
    pose proof (cn_obj _ _ _ HC' _ _ Hd) as E'. assert (E2 : obj q' d = at_ (lc q) s) by qclra.
    assert (Ex : exists r, r < cols p /\ (0 < at_ (lc q') r * d r)%Qc).
    { assert (HH : ~ (forall r, r < cols p -> (at_ (lc q') r * d r <= 0)%Qc)).
      { intros HH. assert (obj q' d <= 0)%Qc. { unfold obj. rewrite (cn_cols _ _ _ HC'). rewrite <- (Sum_zero (cols p)). now apply Sum_le. } qclra. }
      clear - HH. induction (cols p) as [|n IH]; [exfalso; apply HH; intros; lia|].
      destruct (Qclt_le_dec 0 (at_ (lc q') n * d n)) as [K|K]; [exists n; auto|].
      destruct IH as (r & Hr & Hr2); [|exists r; auto]. intros HH2. apply HH. intros r Hr. destruct (Nat.eq_dec r n) as [->|]; auto. apply HH2. lia. }
    destruct Ex as (r & Hr & Hprod).
    assert (rB' : ~ In r (bas v)).
    { intros K. apply (In_bk p) in K; auto. destruct K as (i & Hi & <-). rewrite (cn_cost _ _ _ HC') in Hprod by auto.
      rewrite Qcmult_0_l in Hprod. discriminate Hprod. }
    assert (dr0 : d r <> 0%Qc). { intros K. rewrite K, Qcmult_0_r in Hprod. discriminate Hprod. }
    assert (r_cases : r = s \/ In r (bas u)).
    { destruct (Nat.eq_dec r s); auto. destruct (in_dec Nat.eq_dec r (bas u)); auto. exfalso. apply dr0. unfold d. now apply (dir_off p). }
    assert (r_le : r <= t).
    { destruct r_cases as [->|K]; auto. apply (Fle r u v); auto; lia. }
    assert (dt : (d t < 0)%Qc).
    { rewrite <- Etl. unfold d. rewrite dir_B by auto. qclra. }
    assert (r_ne : r <> t). { intros ->. clear - Hprod dt Hck'. qcnra. }
    assert (c_r : (at_ (lc q') r <= 0)%Qc) by (apply Hfirst'; lia).
    assert (d_r : (d r < 0)%Qc) by (clear - Hprod c_r; qcnra).
    assert (K : In r (bas u)). { destruct r_cases as [->|]; auto. exfalso. unfold d in d_r. rewrite dir_k in d_r. discriminate d_r. }
    apply (In_bk p) in K; auto. destruct K as (i & Hi & Ei).
    assert (a_i : (0 < ent (lA q) i s)%Qc). { rewrite <- Ei in d_r. unfold d in d_r. rewrite dir_B in d_r by auto. qclra. }
    (* the value of r is zero throughout *)
    destruct (chain_sol u ltac:(lia)) as (_ & fu & Hfu & Hfup). destruct (chain_sol v ltac:(lia)) as (_ & fv & Hfv & _).
    assert (fr : fu r = 0%Qc). { rewrite (cycle_same u v fu fv) by (auto; lia). apply (proj2 Hfv); auto. }
    assert (bi : at_ (lb q) i = 0%Qc). { rewrite <- (bsol_at p (bas u) q HB HC fu Hfu) by auto. now rewrite Ei. }
    assert (i_lt : i < l).
    { destruct (Nat.lt_trichotomy i l) as [|[->|L]]; auto; exfalso; [lia|].
      pose proof (strict_nth (bas u) l i (bs_sorted _ _ HB) L ltac:(rewrite (bs_len _ _ HB); auto)) as Q. fold (bk (bas u) l) in Q. fold (bk (bas u) i) in Q. lia. }
    specialize (Hleast i i_lt a_i). rewrite bi in Hleast.
    assert (0 <= at_ (lb q) l)%Qc. { rewrite <- (bsol_at p (bas u) q HB HC fu Hfu) by auto. apply Hfup. now apply bk_lt. }
    clear - Hleast H a_i. qcnra.
  Qed.
End Chain.

(** ** counting bases *)
Fixpoint sublists (l : list nat) : list (list nat) :=
  match l with [] => [[]] | x :: l' => sublists l' ++ map (cons x) (sublists l') end.
Lemma length_sublists l : length (sublists l) = 2 ^ length l.
Proof. induction l as [|x l IH]; [reflexivity|]. cbn [sublists length Nat.pow]. rewrite app_length, map_length, IH. lia. Qed.
Lemma In_sublists n : forall a B, StronglySorted lt B -> (forall x, In x B -> a <= x < a + n) -> In B (sublists (seq a n)).
Proof.
  induction n as [|n IH]; intros a B Hs HB.
  - destruct B as [|x B]; [simpl; auto|]. specialize (HB x (or_introl eq_refl)). lia.
  - cbn [seq sublists]. apply in_or_app. destruct B as [|x B].
    + left. apply IH; [constructor|]. intros ? [].
    + inversion Hs as [|? ? Hs' Hx]; subst. pose proof (proj1 (Forall_forall _ _) Hx) as Hx'.
      destruct (Nat.eq_dec x a) as [->|Hne].
      * right. apply in_map. apply IH; auto. intros y Hy. specialize (Hx' y Hy). specialize (HB y (or_intror Hy)). lia.
      * left. apply IH; auto. intros y Hy. specialize (HB x (or_introl eq_refl)) as Hb. specialize (HB y Hy) as Hb2.
        destruct Hy as [<-|Hy]; [lia|]. specialize (Hx' y Hy). lia.
Qed.
Lemma NoDup_rev' {A} (l : list A) x : NoDup l -> ~ In x l -> NoDup (l ++ [x]).
Proof.
  intros H Hx. apply NoDup_rev in H. rewrite <- (rev_involutive (l ++ [x])). apply NoDup_rev. rewrite rev_unit. constructor; auto. now rewrite <- in_rev.
Qed.
Lemma repetition {A} (dec : forall x y : A, {x = y} + {x <> y}) (f : nat -> A) N (l : list A) : (forall i, i < N -> In (f i) l) -> length l < N ->
  exists i j, i < j /\ j < N /\ f i = f j.
Proof.
  intros H L. destruct (ListDec.NoDup_dec dec (map f (seq 0 N))) as [Hnd|Hnd].
  - exfalso. assert (incl (map f (seq 0 N)) l). { intros x Hx. apply in_map_iff in Hx. destruct Hx as (i & <- & Hi). apply in_seq in Hi. apply H. lia. }
    pose proof (NoDup_incl_length Hnd H0) as K. rewrite map_length, seq_length in K. lia.
  - clear H L. induction N as [|N IH]; [exfalso; apply Hnd; constructor|].
    destruct (ListDec.NoDup_dec dec (map f (seq 0 N))) as [Hnd'|Hnd'].
    + rewrite seq_S, map_app in Hnd. cbn [map Nat.add] in Hnd. destruct (in_dec dec (f N) (map f (seq 0 N))) as [Hi|Hi].
      * apply in_map_iff in Hi. destruct Hi as (i & E & Hi). apply in_seq in Hi. exists i, N. repeat split; auto; lia.
      * exfalso. apply Hnd. apply NoDup_rev' with (x := f N); auto.
    + destruct (IH Hnd') as (i & j & H1 & H2 & H3). exists i, j. repeat split; auto; lia.
Qed.
