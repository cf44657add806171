(** Proofs about graph_polyhedron: the order in which the vertices are joined. *)
From Coq Require Import String List Bool Arith ZArith QArith Qcanon Lia Permutation Sorted.
From Verif Require Import Py QcTac QSum QInt MatTheory Farkas PolyModel PolySpec PolyProofs.
Import ListNotations.
Open Scope nat_scope.
Open Scope list_scope.

Definition sublevel (u v : point) : Prop := angle_le u v = true.

(** what the comparison of angles says *)
Inductive quarter (v : point) : nat -> Prop :=
| q0 : (snd v < 0)%Qc -> quarter v 0
| q1 : snd v = 0%Qc -> (0 <= fst v)%Qc -> quarter v 1
| q2 : (0 < snd v)%Qc -> quarter v 2
| q3 : snd v = 0%Qc -> (fst v < 0)%Qc -> quarter v 3.
Lemma half_quarter v : quarter v (half v).
Proof.
  destruct v as (x & y). unfold half. destruct (qlt_spec y 0); [now apply q0|]. destruct (qlt_spec 0 y); [now apply q2|].
  assert (y = 0%Qc) by (apply Qcle_antisym; qclra). destruct (qlt_spec x 0); [now apply q3|]. apply q1; auto. cbn [fst]. qclra.
Qed.
Lemma angle_le_iff u v : sublevel u v <-> half u < half v \/ half u = half v /\ ((half u = 0 \/ half u = 2) -> (0 <= (cross u v))%Qc).
Proof.
  unfold sublevel, angle_le. destruct (Nat.ltb_spec (half u) (half v)); [split; auto|]. destruct (Nat.ltb_spec (half v) (half u)); [split; [discriminate|lia]|].
  assert (E : half u = half v) by lia. unfold cross. destruct (Nat.eqb_spec (half u) 0) as [Z|Z]; cbn [orb].
  - destruct (qle_spec 0 (fst u * snd v - snd u * fst v)) as [L|L]; split; auto; intros K; [discriminate|]. exfalso. destruct K as [K|(_ & K)]; [lia|]. apply L. apply K. auto.
  - destruct (Nat.eqb_spec (half u) 2) as [Z'|Z'].
    + destruct (qle_spec 0 (fst u * snd v - snd u * fst v)) as [L|L]; split; auto; intros K; [discriminate|]. exfalso. destruct K as [K|(_ & K)]; [lia|]. apply L. apply K. auto.
    + split; auto. intros _. right. split; auto. intros [K|K]; contradiction.
Qed.
Lemma cross_anti u v : (cross v u) = (- (cross u v))%Qc.
Proof. unfold cross. ring. Qed.
Lemma cross_id u v w : (snd u * (cross v w) + snd v * (cross w u) + snd w * (cross u v) = 0)%Qc.
Proof. unfold cross. ring. Qed.
Lemma sublevel_refl u : sublevel u u.
Proof. apply angle_le_iff. right. split; auto. intros _. rewrite cross_self. apply Qcle_refl. Qed.
Lemma sublevel_total u v : sublevel u v \/ sublevel v u.
Proof.
  rewrite !angle_le_iff. destruct (Nat.lt_trichotomy (half u) (half v)) as [H|[H|H]]; auto.
  destruct (Qclt_le_dec (cross u v) 0) as [L|L]; [right|left]; right; split; auto. intros _. rewrite cross_anti. qclra.
Qed.
Lemma sublevel_trans u v w : sublevel u v -> sublevel v w -> sublevel u w.
Proof.
  rewrite !angle_le_iff. intros [H1|(E1 & H1)] [H2|(E2 & H2)]; try (left; lia). right. split; [lia|]. intros Hu.
  specialize (H1 Hu). specialize (H2 ltac:(lia)). pose proof (half_quarter u) as Qu. pose proof (half_quarter v) as Qv. pose proof (half_quarter w) as Qw.
  pose proof (cross_id u v w) as I. rewrite (cross_anti u w) in I. set (uv := (cross u v)) in *. set (vw := (cross v w)) in *. set (uw := (cross u w)) in *. clearbody uv vw uw.
  rewrite <- E2, <- E1 in Qw. rewrite <- E1 in Qv. destruct Hu as [Hu|Hu]; rewrite Hu in *; inversion Qu as [Y|? ?|Y|? ?]; inversion Qv as [Y'|? ?|Y'|? ?]; inversion Qw as [Y2|? ?|Y2|? ?]; clear - Y Y' Y2 I H1 H2;
  destruct (Qclt_le_dec uw 0) as [N|N]; auto; exfalso; set (a := snd u) in *; set (b := snd v) in *; set (c := snd w) in *; clearbody a b c; qcnra.
Qed.

(** [u] is followed by [v], and [w] is another point of the list *)
Definition follows (u v w : point) : Prop := (sublevel u v /\ (sublevel w u \/ sublevel v w)) \/ (sublevel v w /\ sublevel w u /\ sublevel v u).

Lemma narrow u v w : follows u v w -> (0 < (cross u v))%Qc -> (0 < (cross u w))%Qc -> (0 < (cross w v))%Qc -> False.
Proof.
  intros F P1 P2 P3. unfold follows in F. rewrite !angle_le_iff in F. pose proof (cross_anti w v) as A1. pose proof (cross_anti u w) as A2. pose proof (cross_anti u v) as A3.
  pose proof (half_quarter u) as Qu; pose proof (half_quarter v) as Qv; pose proof (half_quarter w) as Qw.
  set (hu := half u) in *; set (hv := half v) in *; set (hw := half w) in *; clearbody hu hv hw.
  destruct u as (x & y), v as (x' & y'), w as (x2 & y2). unfold cross in *. cbn [fst snd] in *.
  destruct Qu, Qv, Qw; cbn [fst snd] in *; subst;
  repeat match goal with
  | H : _ \/ _ |- _ => destruct H
  | H : _ /\ _ |- _ => destruct H
  | H : (?a < ?b)%nat |- _ => (exfalso; lia) || clear H
  | H : ?a = ?b :> nat |- _ => (discriminate H) || clear H
  | H : ?a = ?a \/ _ -> _ |- _ => specialize (H (or_introl eq_refl))
  | H : _ \/ ?a = ?a -> _ |- _ => specialize (H (or_intror eq_refl))
  | H : _ = _ \/ _ = _ -> _ |- _ => clear H
  end; try qclra; clear A1 A2 A3; try qcnra.
Qed.
Definition dotp (u v : point) : Qc := (fst u * fst v + snd u * snd v)%Qc.
Lemma opposite u v : cross u v = 0%Qc -> (dotp u v < 0)%Qc -> (fst u * fst v <= 0)%Qc /\ (snd u * snd v <= 0)%Qc.
Proof.
  destruct u as (x & y), v as (x' & y'). unfold cross, dotp. cbn [fst snd]. intros Z D. assert (E : (x * y' = y * x')%Qc) by (transitivity (x * y' - y * x' + y * x')%Qc; [ring|rewrite Z; ring]). clear Z.
  assert (S1 : ((y * y') * (x * x' + y * y') = (x * y') * (x * y') + (y * y') * (y * y'))%Qc) by (transitivity ((x * y') * (y * x') + (y * y') * (y * y'))%Qc; [ring|rewrite <- E; ring]).
  assert (S2 : ((x * x') * (x * x' + y * y') = (x * x') * (x * x') + (x * y') * (x * y'))%Qc) by (transitivity ((x * x') * (x * x') + (x * y') * (y * x'))%Qc; [ring|rewrite <- E; ring]).
  set (a := (x * x')%Qc) in *. set (b := (y * y')%Qc) in *. set (c := (x * y')%Qc) in *. clearbody a b c. clear E.
  split; [destruct (Qclt_le_dec 0 a)|destruct (Qclt_le_dec 0 b)]; auto; exfalso; [clear S1|clear S2]; qcnra.
Qed.
Lemma wide u v w : follows u v w -> (cross u v < 0)%Qc \/ (cross u v = 0 /\ dotp u v < 0)%Qc -> (0 <= cross v w)%Qc.
Proof.
  intros F P. destruct (Qclt_le_dec (cross v w) 0) as [N|N]; auto. exfalso. unfold follows in F. rewrite !angle_le_iff in F. pose proof (cross_id u v w) as I. pose proof (opposite u v) as O.
  pose proof (half_quarter u) as Qu; pose proof (half_quarter v) as Qv; pose proof (half_quarter w) as Qw.
  set (hu := half u) in *; set (hv := half v) in *; set (hw := half w) in *; clearbody hu hv hw.
  destruct u as (x & y), v as (x' & y'), w as (x2 & y2). unfold cross, dotp in *. cbn [fst snd] in *.
  destruct Qu, Qv, Qw; cbn [fst snd] in *; subst;
  repeat match goal with
  | H : _ \/ _ |- _ => destruct H
  | H : _ /\ _ |- _ => destruct H
  | H : (?a < ?b)%nat |- _ => (exfalso; lia) || clear H
  | H : ?a = ?b :> nat |- _ => (discriminate H) || clear H
  | H : ?a = ?a \/ _ -> _ |- _ => specialize (H (or_introl eq_refl))
  | H : _ \/ ?a = ?a -> _ |- _ => specialize (H (or_intror eq_refl))
  | H : _ = _ \/ _ = _ -> _ |- _ => clear H
  | H : ?a -> ?b -> _ /\ _, H1 : ?a, H2 : ?b |- _ => specialize (H H1 H2); rewrite H1 in *
  end; try clear O; try qclra; try (clear I; qcnra); try qcnra.
  all: match goal with
       | H : (?a * ?b - 0 * ?c)%Qc = 0%Qc |- _ => let E := fresh in assert (E : (a * b = 0)%Qc) by (rewrite <- H; ring); apply Qcmult_integral in E as [E|E]; rewrite E in *; qclra
       | H : (?a * 0 - ?b * ?c)%Qc = 0%Qc |- _ => let E := fresh in assert (E : (b * c = 0)%Qc) by (transitivity (- (a * 0 - b * c))%Qc; [ring|rewrite H; ring]); apply Qcmult_integral in E as [E|E]; rewrite E in *; qclra
       end.
Qed.

(** ** convex sets *)
Definition along (a b : point) (t : Qc) : point := (fst a + t * (fst b - fst a), snd a + t * (snd b - snd a))%Qc.
Definition convex (R : point -> Prop) : Prop := forall a b t, R a -> R b -> (0 <= t <= 1)%Qc -> R (along a b t).
Definition times (k : Qc) (u : point) : point := (k * fst u, k * snd u)%Qc.
Definition origin : point := (0, 0)%Qc.
Lemma scale_in R u t : convex R -> R origin -> R u -> (0 <= t <= 1)%Qc -> R (times t u).
Proof. intros C O U T. replace (times t u) with (along origin u t); [now apply C|]. unfold along, times, origin. cbn [fst snd]. f_equal; ring. Qed.
Lemma ext_scale R u m : convex R -> R origin -> extreme R u -> R (times m u) -> (1 < m)%Qc -> u = origin.
Proof.
  intros C O (U & X) M Hm. assert (N0 : m <> 0%Qc) by (intros ->; discriminate Hm). assert (I : (m * / m = 1)%Qc) by now apply Qcmult_inv_r.
  set (r := (/ m)%Qc) in *. clearbody r. assert (Pr : (0 < r)%Qc) by (clear - I Hm; qcnra). assert (Lr : (r < 1)%Qc) by (clear - I Hm Pr; qcnra).
  assert (A : R (times (1 + 1 - r) u)).
  { replace (times (1 + 1 - r) u) with (times ((1 + 1 - r) * r) (times m u)).
    - apply scale_in; auto. clear - Pr Lr. split; qcnra.
    - unfold times. cbn [fst snd]. f_equal; [transitivity ((1 + 1 - r) * (m * r) * fst u)%Qc|transitivity ((1 + 1 - r) * (m * r) * snd u)%Qc]; try ring; rewrite I; ring. }
  assert (B : R (times r u)) by (apply scale_in; auto; split; apply Qclt_le_weak; auto).
  destruct (X _ _ A B) as (_ & E); [unfold times; cbn [fst snd]; ring ..|]. unfold times in E. destruct u as (x & y). cbn [fst snd] in E. injection E as E1 E2.
  assert (Z : forall z, (r * z = z)%Qc -> z = 0%Qc).
  { intros z Hz. assert (K : ((1 - r) * z = 0)%Qc) by (transitivity (z - r * z)%Qc; [ring|rewrite Hz; ring]). apply Qcmult_integral in K as [K|K]; auto. exfalso. clear - K Lr. qclra. }
  unfold origin. f_equal; apply Z; auto.
Qed.
Lemma combination R v w a b : convex R -> R v -> R w -> (0 <= a)%Qc -> (0 <= b)%Qc -> (0 < a + b)%Qc -> R ((a * fst v + b * fst w) / (a + b), (a * snd v + b * snd w) / (a + b))%Qc.
Proof.
  intros C V W A B P. assert (N0 : (a + b)%Qc <> 0%Qc) by (intros E; rewrite E in P; discriminate P). assert (I : ((a + b) * / (a + b) = 1)%Qc) by now apply Qcmult_inv_r.
  replace ((a * fst v + b * fst w) / (a + b), (a * snd v + b * snd w) / (a + b))%Qc with (along v w (b / (a + b))%Qc).
  - apply C; auto. unfold Qcdiv. assert (Pi : (0 < / (a + b))%Qc) by (set (r := (/ (a + b))%Qc) in *; clearbody r; clear - I P; qcnra). set (r := (/ (a + b))%Qc) in *. clearbody r. clear - Pi A B I. split; qcnra.
  - unfold along, Qcdiv. set (r := (/ (a + b))%Qc) in *. clearbody r. assert (E : forall x y, (x + b * r * (y - x) = (a * x + b * y) * r)%Qc); [|f_equal; apply E].
    intros x y. transitivity (x * (1 - (a + b) * r) + (a * x + b * y) * r)%Qc; [ring|rewrite I; ring].
Qed.
Lemma cross_times_l k u v : cross (times k u) v = (k * cross u v)%Qc.
Proof. unfold cross, times. cbn [fst snd]. ring. Qed.
(** [w] beyond the line from [u] to [v], but not between them as seen from the origin *)
Lemma beyond_u R u v w : convex R -> R origin -> extreme R u -> R v -> R w -> (0 < cross u v)%Qc -> (cross u w <= 0)%Qc -> (cross u v + cross v w + cross w u < 0)%Qc -> False.
Proof.
  intros C O U V W P1 P2 P3. rewrite (cross_anti u w) in P3. rewrite (cross_anti w v) in P3.
  set (a := (- cross u w)%Qc). set (b := cross u v). assert (Pab : (0 < a + b)%Qc) by (unfold a, b; qclra).
  pose proof (combination R v w a b C V W ltac:(unfold a; qclra) ltac:(unfold b; qclra) Pab) as Q.
  assert (N0 : (a + b)%Qc <> 0%Qc) by (intros E; rewrite E in Pab; discriminate Pab). assert (I : ((a + b) * / (a + b) = 1)%Qc) by now apply Qcmult_inv_r.
  set (m := (cross w v / (a + b))%Qc).
  assert (E : ((a * fst v + b * fst w) / (a + b), (a * snd v + b * snd w) / (a + b))%Qc = times m u).
  { unfold m, times, Qcdiv. f_equal; unfold a, b, cross; ring. }
  rewrite E in Q. assert (u = origin) as ->; [|unfold cross, origin in P1; cbn [fst snd] in P1; clear - P1; qclra].
  apply (ext_scale R u m); auto. unfold m, Qcdiv. assert (L : (a + b < cross w v)%Qc) by (unfold a, b; clear - P3; qclra). clear - L Pab I. set (r := (/ (a + b))%Qc) in *. set (s := (a + b)%Qc) in *. set (k := cross w v) in *. clearbody r s k. qcnra.
Qed.
Lemma beyond_v R u v w : convex R -> R origin -> extreme R v -> R u -> R w -> (0 < cross u v)%Qc -> (cross w v <= 0)%Qc -> (cross u v + cross v w + cross w u < 0)%Qc -> False.
Proof.
  intros C O U V W P1 P2 P3. rewrite (cross_anti u w) in P3. rewrite (cross_anti w v) in P3.
  set (a := (- cross w v)%Qc). set (b := cross u v). assert (Pab : (0 < a + b)%Qc) by (unfold a, b; qclra).
  pose proof (combination R u w a b C V W ltac:(unfold a; qclra) ltac:(unfold b; qclra) Pab) as Q.
  assert (N0 : (a + b)%Qc <> 0%Qc) by (intros E; rewrite E in Pab; discriminate Pab). assert (I : ((a + b) * / (a + b) = 1)%Qc) by now apply Qcmult_inv_r.
  set (m := (cross u w / (a + b))%Qc).
  assert (E : ((a * fst u + b * fst w) / (a + b), (a * snd u + b * snd w) / (a + b))%Qc = times m v).
  { unfold m, times, Qcdiv. f_equal; unfold a, b, cross; ring. }
  rewrite E in Q. assert (v = origin) as ->; [|unfold cross, origin in P1; cbn [fst snd] in P1; clear - P1; qclra].
  apply (ext_scale R v m); auto. unfold m, Qcdiv. assert (L : (a + b < cross u w)%Qc) by (unfold a, b; clear - P3; qclra). clear - L Pab I. set (r := (/ (a + b))%Qc) in *. set (s := (a + b)%Qc) in *. set (k := cross u w) in *. clearbody r s k. qcnra.
Qed.
Lemma same_direction R u v : convex R -> R origin -> extreme R u -> extreme R v -> cross u v = 0%Qc -> (0 <= dotp u v)%Qc -> u = v \/ u = origin \/ v = origin.
Proof.
  intros C O U V Z D.
  assert (Q : forall u v, u <> origin -> cross u v = 0%Qc -> v = times (dotp u v / dotp u u) u /\ (0 < dotp u u)%Qc).
  { clear. intros (x & y) (x' & y') N Z. unfold cross, dotp, times, origin in *. cbn [fst snd] in *.
    assert (P : (0 < x * x + y * y)%Qc).
    { destruct (Qclt_le_dec 0 (x * x + y * y)) as [|L]; auto. exfalso. apply N.
      assert (X : (x * x <= 0)%Qc) by (clear - L; qcnra). assert (Y : (y * y <= 0)%Qc) by (clear - L; qcnra).
      assert (F : forall z, (z * z <= 0)%Qc -> z = 0%Qc) by (intros z Hz; assert (K : (z * z = 0)%Qc) by (apply Qcle_antisym; auto; clear; qcnra); apply Qcmult_integral in K as [K|K]; auto). f_equal; auto. }
    split; auto. assert (N0 : (x * x + y * y)%Qc <> 0%Qc) by (intros E; rewrite E in P; discriminate P). assert (I := Qcmult_inv_r _ N0). unfold Qcdiv. set (r := (/ (x * x + y * y))%Qc) in *. clearbody r.
    assert (E : (x * y' = y * x')%Qc) by (transitivity (x * y' - y * x' + y * x')%Qc; [ring|rewrite Z; ring]).
    f_equal.
    - transitivity (x' * ((x * x + y * y) * r))%Qc; [rewrite I; ring|]. transitivity ((x * x * x' + y * (y * x')) * r)%Qc; [ring|rewrite <- E; ring].
    - transitivity (y' * ((x * x + y * y) * r))%Qc; [rewrite I; ring|]. transitivity ((x * (x * y') + y * y * y') * r)%Qc; [ring|rewrite E; ring]. }
  assert (Do : {u = origin} + {u <> origin}) by (destruct u as (x & y); destruct (Qc_eq_dec x 0) as [->|Nx]; [destruct (Qc_eq_dec y 0) as [->|Ny]; [left; reflexivity|right; intros E; injection E; auto]|right; intros E; injection E; auto]).
  destruct Do as [|Nu]; auto. destruct (Q u v Nu Z) as (Ev & Pu). set (k := (dotp u v / dotp u u)%Qc) in *.
  assert (Hk : (0 <= k)%Qc). { unfold k, Qcdiv. assert (Nz : dotp u u <> 0%Qc) by (intros E; rewrite E in Pu; discriminate Pu). assert (I := Qcmult_inv_r _ Nz). set (r := (/ dotp u u)%Qc) in *. set (d := dotp u u) in *. clearbody r d. assert (0 < r)%Qc by (clear - Pu I; qcnra). apply qmul_nonneg; auto. now apply Qclt_le_weak. }
  clearbody k. destruct (Qclt_le_dec 1 k) as [L|L].
  { left. exfalso. apply Nu. apply (ext_scale R u k); auto. rewrite <- Ev. apply V. }
  destruct (Qc_eq_dec k 1) as [->|N1]; [left; rewrite Ev; unfold times; destruct u; cbn [fst snd]; f_equal; ring|].
  destruct (Qc_eq_dec k 0) as [->|N2]; [right; right; rewrite Ev; unfold times, origin; f_equal; ring|].
  right. right. assert (I := Qcmult_inv_r _ N2). apply (ext_scale R v (/ k)%Qc); auto.
  - replace (times (/ k) v) with u; [apply U|]. rewrite Ev. unfold times. destruct u as (x & y). cbn [fst snd]. f_equal; [transitivity (k * / k * x)%Qc|transitivity (k * / k * y)%Qc]; try ring; rewrite I; ring.
  - assert (k < 1)%Qc by (destruct (Qclt_le_dec k 1) as [|G]; auto; exfalso; apply N1; apply Qcle_antisym; auto). set (r := (/ k)%Qc) in *. clearbody r. clear - H Hk I. qcnra.
Qed.

(** ** averages *)
Lemma total_nonneg {A} (f : A -> Qc) l : (forall x, In x l -> (0 <= f x)%Qc) -> (0 <= total_of (map f l))%Qc /\ (total_of (map f l) = 0%Qc -> forall x, In x l -> f x = 0%Qc).
Proof.
  induction l as [|a l IH]; intros H; cbn [map total_of fold_right]; [split; [apply Qcle_refl|intros _ x []]|].
  destruct IH as (P & Z); [intros; apply H; now right|]. pose proof (H a (or_introl eq_refl)) as Pa. unfold total_of in *. set (t := fold_right Qcplus 0%Qc (map f l)) in *. clearbody t. split; [clear - P Pa; qclra|].
  intros E. assert (E1 : f a = 0%Qc) by (apply Qcle_antisym; auto; clear - E P; qclra). assert (E2 : t = 0%Qc) by (rewrite E1 in E; rewrite <- E; ring). intros x [<-|Hx]; auto.
Qed.
Lemma total_linear (V : list point) a1 a2 b :
  total_of (map (fun v => fst v * a1 + snd v * a2 + b)%Qc V) = (total_of (map fst V) * a1 + total_of (map snd V) * a2 + qz (Z.of_nat (length V)) * b)%Qc.
Proof.
  induction V as [|v V IH]; cbn [map total_of fold_right length]; [cbn [Z.of_nat]; rewrite qz_0; ring|]. unfold total_of in *. rewrite IH, Nat2Z.inj_succ. unfold Z.succ. rewrite qz_add, qz_1. ring.
Qed.
Lemma total_centroid (V : list point) a1 a2 b : V <> [] ->
  total_of (map (fun v => fst v * a1 + snd v * a2 + b)%Qc V) = (qz (Z.of_nat (length V)) * (fst (centroid V) * a1 + snd (centroid V) * a2 + b))%Qc.
Proof.
  intros N. rewrite total_linear. unfold centroid. cbn [fst snd]. set (n := qz (Z.of_nat (length V))).
  assert (N0 : n <> 0%Qc) by (unfold n; rewrite <- qz_0; intros E; apply qz_inj in E; destruct V; [contradiction|discriminate]). assert (I := Qcmult_inv_r _ N0). unfold Qcdiv. set (r := (/ n)%Qc) in *. clearbody r n.
  set (X := total_of (map fst V)). set (Y := total_of (map snd V)). transitivity ((X * a1 + Y * a2) * (n * r) + n * b)%Qc; [rewrite I; ring|ring].
Qed.
Lemma length_pos {A} (V : list A) : V <> [] -> (0 < qz (Z.of_nat (length V)))%Qc.
Proof. intros N. rewrite <- qz_0. apply (proj2 (qz_lt _ _)). destruct V; [contradiction|]. cbn [length]. lia. Qed.
Lemma centroid_inside S V : V <> [] -> (forall v, In v V -> inside S v) -> inside S (centroid V).
Proof.
  intros N H (((a1 & a2) & b) & le) Hs. cbn [on_side]. pose proof (length_pos V N) as P. set (n := qz (Z.of_nat (length V))) in *.
  destruct le.
  - destruct (total_nonneg (fun v : point => fst v * (- a1) + snd v * (- a2) + b)%Qc V) as (T & _).
    + intros v Hv. specialize (H v Hv _ Hs). cbn [on_side] in H. set (p := (fst v * a1)%Qc) in *. set (q := (snd v * a2)%Qc) in *. replace (fst v * - a1 + snd v * - a2 + b)%Qc with (b - (p + q))%Qc by (unfold p, q; ring). clearbody p q. qclra.
    + rewrite total_centroid in T by auto. fold n in T. replace (fst (centroid V) * - a1 + snd (centroid V) * - a2 + b)%Qc with (b - (fst (centroid V) * a1 + snd (centroid V) * a2))%Qc in T by ring.
      set (x := (fst (centroid V) * a1 + snd (centroid V) * a2)%Qc) in *. clearbody x n. clear - T P. destruct (Qclt_le_dec b x) as [L|L]; auto. exfalso. qcnra.
  - destruct (total_nonneg (fun v : point => fst v * a1 + snd v * a2 + (- b))%Qc V) as (T & _).
    + intros v Hv. specialize (H v Hv _ Hs). cbn [on_side] in H. qclra.
    + rewrite total_centroid in T by auto. fold n in T. set (x := (fst (centroid V) * a1 + snd (centroid V) * a2)%Qc) in *. clearbody x n. clear - T P. destruct (Qclt_le_dec x b) as [L|L]; auto. exfalso. qcnra.
Qed.
Lemma centroid_extreme S V : V <> [] -> (forall v, In v V -> inside S v) -> extreme (inside S) (centroid V) -> forall v, In v V -> v = centroid V.
Proof.
  intros N H X v Hv. destruct (extreme_tight _ _ X) as (s & t & Hs & Ht & T1 & T2 & D).
  assert (G : forall s, In s S -> tight s (centroid V) -> tight s v).
  { clear s t Hs Ht T1 T2 D. intros (((a1 & a2) & b) & le) Hs T. cbn [tight] in *. destruct le.
    - destruct (total_nonneg (fun v : point => fst v * (- a1) + snd v * (- a2) + b)%Qc V) as (_ & Z).
      + intros w Hw. specialize (H w Hw _ Hs). cbn [on_side] in H. set (p := (fst w * a1)%Qc) in *. set (q := (snd w * a2)%Qc) in *. replace (fst w * - a1 + snd w * - a2 + b)%Qc with (b - (p + q))%Qc by (unfold p, q; ring). clearbody p q. qclra.
      + rewrite total_centroid in Z by auto. specialize (Z ltac:(rewrite <- T; ring) v Hv). cbv beta in Z. rewrite <- (Qcplus_0_r (fst v * a1 + snd v * a2)), <- Z. ring.
    - destruct (total_nonneg (fun v : point => fst v * a1 + snd v * a2 + (- b))%Qc V) as (_ & Z).
      + intros w Hw. specialize (H w Hw _ Hs). cbn [on_side] in H. qclra.
      + rewrite total_centroid in Z by auto. specialize (Z ltac:(rewrite <- T; ring) v Hv). cbv beta in Z. transitivity (fst v * a1 + snd v * a2 + - b + b)%Qc; [ring|rewrite Z; ring]. }
  pose proof (G s Hs T1) as G1. pose proof (G t Ht T2) as G2.
  destruct s as (((a1 & a2) & b) & l1), t as (((c1 & c2) & d) & l2). cbn [tight dir] in *. unfold cross in D. cbn [fst snd] in D.
  destruct v as (x & y), (centroid V) as (x' & y'). cbn [fst snd] in *. transitivity ((b * c2 - a2 * d) / (a1 * c2 - a2 * c1), (a1 * d - b * c1) / (a1 * c2 - a2 * c1))%Qc; [|symmetry]; apply cramer; auto.
Qed.

(** ** an edge has all vertices on its left *)
Definition plus (c z : point) : point := (fst c + fst z, snd c + snd z)%Qc.
Lemma plus_from c v : plus c (from c v) = v.
Proof. destruct v. unfold plus, from. cbn [fst snd]. f_equal; ring. Qed.
Lemma from_plus c v : from c (plus c v) = v.
Proof. destruct v. unfold plus, from. cbn [fst snd]. f_equal; ring. Qed.
Definition around (S : list side) (c z : point) : Prop := inside S (plus c z).
Lemma inside_convex S : convex (inside S).
Proof.
  intros a b t A B (T1 & T2) s Hs. specialize (A s Hs). specialize (B s Hs). destruct s as (((a1 & a2) & d) & le). cbn [on_side along fst snd] in *. unfold along. cbn [fst snd].
  replace ((fst a + t * (fst b - fst a)) * a1 + (snd a + t * (snd b - snd a)) * a2)%Qc with ((fst a * a1 + snd a * a2) + t * ((fst b * a1 + snd b * a2) - (fst a * a1 + snd a * a2)))%Qc by ring.
  set (x := (fst a * a1 + snd a * a2)%Qc) in *. set (y := (fst b * a1 + snd b * a2)%Qc) in *. clearbody x y. clear - A B T1 T2. destruct le; qcnra.
Qed.
Lemma around_convex S c : convex (around S c).
Proof.
  intros a b t A B T. unfold around in *. replace (plus c (along a b t)) with (along (plus c a) (plus c b) t) by (unfold along, plus; cbn [fst snd]; f_equal; ring). now apply inside_convex.
Qed.
Lemma around_extreme S c v : extreme (inside S) v -> extreme (around S c) (from c v).
Proof.
  intros (I & X). split; [unfold around; now rewrite plus_from|]. intros u w U W E1 E2. unfold around in *.
  destruct (X _ _ U W) as (A & B).
  - unfold plus, from in *. cbn [fst snd] in *. transitivity (fst c + fst c + (fst v - fst c + (fst v - fst c)))%Qc; [ring|rewrite E1; ring].
  - unfold plus, from in *. cbn [fst snd] in *. transitivity (snd c + snd c + (snd v - snd c + (snd v - snd c)))%Qc; [ring|rewrite E2; ring].
  - split; [rewrite <- A|rewrite <- B]; now rewrite from_plus.
Qed.
Lemma left_of_cross c u v w : left_of u v w <-> (0 <= cross (from c u) (from c v) + cross (from c v) (from c w) + cross (from c w) (from c u))%Qc.
Proof.
  unfold left_of, cross, from. cbn [fst snd].
  replace ((fst u - fst c) * (snd v - snd c) - (snd u - snd c) * (fst v - fst c) + ((fst v - fst c) * (snd w - snd c) - (snd v - snd c) * (fst w - fst c)) + ((fst w - fst c) * (snd u - snd c) - (snd w - snd c) * (fst u - fst c)))%Qc
    with ((fst v - fst u) * (snd w - snd u) - (snd v - snd u) * (fst w - fst u))%Qc by ring. reflexivity.
Qed.
Lemma cross_sum V z : V <> [] -> total_of (map (fun v => cross z (from (centroid V) v)) V) = 0%Qc.
Proof.
  intros N. set (c := centroid V). rewrite (map_ext _ (fun v : point => fst v * (- snd z) + snd v * fst z + (snd z * fst c - fst z * snd c))%Qc).
  - rewrite total_centroid by auto. fold c. ring.
  - intros v. unfold cross, from. cbn [fst snd]. ring.
Qed.
Lemma gap V u v : V <> [] -> In u V -> In v V -> let c := centroid V in
  (forall w, In w V -> follows (from c u) (from c v) (from c w)) ->
  (0 < cross (from c u) (from c v))%Qc \/ (forall w, In w V -> cross (from c v) (from c w) = 0%Qc) \/ (cross (from c u) (from c v) = 0 /\ 0 <= dotp (from c u) (from c v))%Qc.
Proof.
  intros N Hu Hv c F.
  destruct (Qclt_le_dec 0 (cross (from c u) (from c v))) as [|L]; auto. right.
  destruct (Qc_eq_dec (cross (from c u) (from c v)) 0) as [E|NE].
  - destruct (Qclt_le_dec (dotp (from c u) (from c v)) 0) as [D|D]; auto. left. apply total_nonneg; [|now apply cross_sum].
    intros w Hw. apply (wide (from c u)); auto.
  - left. apply total_nonneg; [|now apply cross_sum]. intros w Hw. apply (wide (from c u)); auto. left. destruct (Qclt_le_dec (cross (from c u) (from c v)) 0); auto. exfalso. apply NE. now apply Qcle_antisym.
Qed.
Lemma parallel_zero z u v : z <> origin -> cross z u = 0%Qc -> cross z v = 0%Qc -> cross u v = 0%Qc.
Proof.
  intros N A B. destruct z as (x & y), u as (p & q), v as (r & s). unfold cross, origin in *. cbn [fst snd] in *.
  assert (E1 : (x * (p * s - q * r) = 0)%Qc) by (transitivity (p * (x * s - y * r) - r * (x * q - y * p))%Qc; [ring|rewrite A, B; ring]).
  assert (E2 : (y * (p * s - q * r) = 0)%Qc) by (transitivity (q * (x * s - y * r) - s * (x * q - y * p))%Qc; [ring|rewrite A, B; ring]).
  apply Qcmult_integral in E1 as [->|E1]; auto. apply Qcmult_integral in E2 as [->|E2]; auto. contradiction.
Qed.
Lemma origin_dec (z : point) : {z = origin} + {z <> origin}.
Proof. destruct z as (x & y). destruct (Qc_eq_dec x 0) as [->|N]; [destruct (Qc_eq_dec y 0) as [->|N]; [now left|]|]; right; intros E; injection E; auto. Qed.
Lemma from_origin c v : from c v = origin -> v = c.
Proof. intros E. rewrite <- (plus_from c v), E. unfold plus, origin. destruct c. cbn [fst snd]. f_equal; ring. Qed.
Lemma origin_from c : from c c = origin.
Proof. unfold from, origin. f_equal; ring. Qed.
Section Edge.
  Variables (S : list side) (V : list point).
  Hypothesis (N : V <> []) (X : forall v, In v V -> extreme (inside S) v).
  Let c := centroid V.
  Lemma c_inside : around S c origin.
  Proof. unfold around. replace (plus c origin) with c by (rewrite <- (origin_from c), plus_from; reflexivity). apply centroid_inside; auto. intros v Hv. apply X; auto. Qed.
  Lemma zero_all v : In v V -> from c v = origin -> forall w, In w V -> w = c.
  Proof. intros Hv E. pose proof (from_origin _ _ E) as E'. clear E; rename E' into E. assert (Xc : extreme (inside S) c) by (rewrite <- E; now apply X). apply (centroid_extreme S); auto. intros w Hw. apply X; auto. Qed.
  Lemma edge_left u v w : In u V -> In v V -> In w V -> (forall w, In w V -> follows (from c u) (from c v) (from c w)) -> left_of u v w.
  Proof.
    intros Hu Hv Hw F. apply (left_of_cross c). pose proof c_inside as O. pose proof (around_convex S c) as C.
    assert (U := around_extreme S c u (X u Hu)). assert (V' := around_extreme S c v (X v Hv)). assert (W := around_extreme S c w (X w Hw)).
    pose proof (gap V u v N Hu Hv F) as G. cbv zeta in G. change (centroid V) with c in G. destruct G as [P|[Z|(Z & D)]].
    - match goal with |- (0 <= ?e)%Qc => destruct (Qclt_le_dec e 0) as [L|]; auto end. exfalso.
      destruct (Qclt_le_dec 0 (cross (from c u) (from c w))) as [P2|P2]; [|exact (beyond_u (around S c) _ _ _ C O U (proj1 V') (proj1 W) P P2 L)].
      destruct (Qclt_le_dec 0 (cross (from c w) (from c v))) as [P3|P3]; [|exact (beyond_v (around S c) _ _ _ C O V' (proj1 U) (proj1 W) P P3 L)].
      exact (narrow _ _ _ (F w Hw) P P2 P3).
    - destruct (origin_dec (from c v)) as [E|E].
      + rewrite !(zero_all v Hv E _ Hu), !(zero_all v Hv E _ Hv), !(zero_all v Hv E _ Hw), origin_from. apply Qcle_refl.
      + rewrite (cross_anti (from c v) (from c u)), (Z u Hu), (Z w Hw), (parallel_zero (from c v) (from c w) (from c u)); auto. apply Qcle_refl.
    - destruct (same_direction (around S c) (from c u) (from c v)) as [E|[E|E]]; auto.
      + rewrite E, cross_self, (cross_anti (from c v) (from c w)). replace (0 + cross (from c v) (from c w) + - cross (from c v) (from c w))%Qc with 0%Qc by ring. apply Qcle_refl.
      + rewrite !(zero_all u Hu E _ Hu), !(zero_all u Hu E _ Hv), !(zero_all u Hu E _ Hw), origin_from. apply Qcle_refl.
      + rewrite !(zero_all v Hv E _ Hu), !(zero_all v Hv E _ Hv), !(zero_all v Hv E _ Hw), origin_from. apply Qcle_refl.
  Qed.
End Edge.

(** ** linear functions are least at a vertex *)
Lemma vertex_min S L g1 g2 v : (forall u, inside S u -> (fst u <= L)%Qc /\ (snd u <= L)%Qc) ->
  (forall B, ~ (forall M, exists u, inside S u /\ (fst u * g1 + snd u * g2 <= M)%Qc /\ B u)) -> inside S v ->
  exists u, extreme (inside S) u /\ (fst u * g1 + snd u * g2 <= fst v * g1 + snd v * g2)%Qc.
Proof.
  intros B Bd I. assert (WK : forall S r, In r (map row_of S) -> snd r = false).
  { intros S' r Hr. apply in_map_iff in Hr as ((((a1 & a2) & b) & le) & <- & _). destruct le; reflexivity. }
  set (f := fun j : nat => match j with 0 => (- g1)%Qc | _ => (- g2)%Qc end).
  assert (EF : forall x, lhs 2 f x = (- (x 0%nat * g1 + x 1%nat * g2))%Qc) by (intros x; unfold lhs; rewrite !Sum_S, Sum_0; unfold f; ring).
  set (x0 := fun j : nat => match j with 0 => fst v | _ => snd v end).
  assert (I0 : sats 2 (map row_of S) x0) by (apply rows_of_sat; unfold vec2, x0; destruct v; exact I).
  destruct (attained 2 (map row_of S) f (WK S) (ex_intro _ x0 I0)) as [U|(x1 & H1 & M1)].
  { exfalso. apply (Bd (fun _ => True)). intros M. destruct (U (- M)%Qc) as (x & Hx & K). exists (vec2 x). split; [now apply rows_of_sat|]. rewrite EF in K. split; auto. unfold vec2. cbn [fst snd]. clear - K. qclra. }
  set (m := (x1 0%nat * g1 + x1 1%nat * g2)%Qc).
  assert (Min : forall u, inside S u -> (m <= fst u * g1 + snd u * g2)%Qc).
  { intros u Hu. specialize (M1 (fun j => match j with 0 => fst u | _ => snd u end)). rewrite !EF in M1. fold m in M1. assert (K : sats 2 (map row_of S) (fun j => match j with 0 => fst u | _ => snd u end)) by (apply rows_of_sat; unfold vec2; destruct u; exact Hu). specialize (M1 K). cbv beta iota in M1. clear - M1. set (z := (fst u * g1 + snd u * g2)%Qc) in *. clearbody z. qclra. }
  set (S' := (g1, g2, m, true) :: S).
  assert (I1 : inside S' (vec2 x1)).
  { intros s [<-|Hs]; [|apply rows_of_sat in H1; auto]. unfold vec2. cbn [on_side fst snd]. apply Qcle_refl. }
  destruct (vertex_exists S' L (vec2 x1)) as (u & U & X); auto.
  { intros u Hu. apply B. intros s Hs. apply Hu. now right. }
  assert (IS : inside S u) by (intros s Hs; apply U; now right). pose proof (U _ (or_introl eq_refl)) as Um. cbn [on_side] in Um.
  exists u. split.
  - split; auto. intros a b Ha Hb E1 E2. apply X; auto; (intros s [<-|Hs]; [|auto]); cbn [on_side]; pose proof (Min a Ha) as A1; pose proof (Min b Hb) as A2;
      assert (E : ((fst a * g1 + snd a * g2) + (fst b * g1 + snd b * g2) = (fst u * g1 + snd u * g2) + (fst u * g1 + snd u * g2))%Qc) by (transitivity ((fst a + fst b) * g1 + (snd a + snd b) * g2)%Qc; [ring|rewrite <- E1, <- E2; ring]); clear - A1 A2 E Um; qclra.
  - pose proof (Min v I). clear - H Um. qclra.
Qed.
Lemma lin_bound L g u : (- L <= u)%Qc -> (u <= L)%Qc -> (- (L * qabs g) <= u * g)%Qc.
Proof. intros A B. unfold qabs. destruct (qlt_spec g 0) as [H|H]; [|assert (0 <= g)%Qc by qclra]; qcnra. Qed.
Lemma vertex_least S L g1 g2 v : (forall u, inside S u -> (- L <= fst u <= L)%Qc /\ (- L <= snd u <= L)%Qc) -> inside S v ->
  exists u, extreme (inside S) u /\ (fst u * g1 + snd u * g2 <= fst v * g1 + snd v * g2)%Qc.
Proof.
  intros B. apply (vertex_min S L); [intros u Hu; destruct (B u Hu) as ((_ & ?) & (_ & ?)); auto|].
  intros P U. destruct (U (- (L * qabs g1) - (L * qabs g2) - 1)%Qc) as (u & Hu & K & _). destruct (B u Hu) as ((B1 & B2) & (B3 & B4)).
  pose proof (lin_bound L g1 (fst u) B1 B2) as A1. pose proof (lin_bound L g2 (snd u) B3 B4) as A2. clear - K A1 A2. set (p := (fst u * g1)%Qc) in *. set (q := (snd u * g2)%Qc) in *. set (a := (L * qabs g1)%Qc) in *. set (b := (L * qabs g2)%Qc) in *. clearbody p q a b. qclra.
Qed.
Lemma left_all S L V u v x : (forall u, inside S u -> (- L <= fst u <= L)%Qc /\ (- L <= snd u <= L)%Qc) -> (forall v, In v V <-> extreme (inside S) v) ->
  (forall w, In w V -> left_of u v w) -> inside S x -> left_of u v x.
Proof.
  intros B X H I. destruct (vertex_least S L (- (snd v - snd u))%Qc (fst v - fst u)%Qc x B I) as (w & W & K). apply X, H in W. unfold left_of in *.
  set (d1 := (snd v - snd u)%Qc) in *. set (d2 := (fst v - fst u)%Qc) in *.
  replace (d2 * (snd x - snd u) - d1 * (fst x - fst u))%Qc with (fst x * - d1 + snd x * d2 + (d1 * fst u - d2 * snd u))%Qc by ring.
  replace (d2 * (snd w - snd u) - d1 * (fst w - fst u))%Qc with (fst w * - d1 + snd w * d2 + (d1 * fst u - d2 * snd u))%Qc in W by ring. clear - W K.
  set (k := (d1 * fst u - d2 * snd u)%Qc) in *. set (p := (fst w * - d1 + snd w * d2)%Qc) in *. set (q := (fst x * - d1 + snd x * d2)%Qc) in *. clearbody k p q. qclra.
Qed.

(** ** sorting *)
Section Sort.
  Variable c : point.
  Let le (u v : point) : Prop := sublevel (from c u) (from c v).
  Lemma insert_perm v l : Permutation (insert_angle c v l) (v :: l).
  Proof. induction l as [|w l IH]; cbn [insert_angle]; [reflexivity|]. destruct (angle_le _ _); [reflexivity|]. rewrite IH. constructor. Qed.
  Lemma sort_perm l : Permutation (sort_angle c l) l.
  Proof. induction l as [|v l IH]; cbn [sort_angle fold_right]; [reflexivity|]. change (fold_right (insert_angle c) [] l) with (sort_angle c l). rewrite insert_perm. now constructor. Qed.
  Lemma insert_sorted v l : StronglySorted le l -> StronglySorted le (insert_angle c v l).
  Proof.
    induction 1 as [|w l S IH F]; cbn [insert_angle]; [repeat constructor|]. destruct (angle_le (from c v) (from c w)) eqn:E.
    - constructor; [constructor; auto|]. constructor; [exact E|]. rewrite Forall_forall in *. intros z Hz. eapply sublevel_trans; [exact E|]. now apply F.
    - constructor; auto. rewrite Forall_forall in *. intros z Hz. apply (Permutation_in _ (insert_perm v l)) in Hz as [<-|Hz]; auto.
      destruct (sublevel_total (from c v) (from c w)) as [T|T]; [unfold sublevel in T; congruence|exact T].
  Qed.
  Lemma sort_sorted l : StronglySorted le (sort_angle c l).
  Proof. induction l as [|v l IH]; cbn [sort_angle fold_right]; [constructor|]. now apply insert_sorted. Qed.
  Lemma sorted_split l1 u v l2 : StronglySorted le (l1 ++ u :: v :: l2) -> le u v /\ forall w, In w (l1 ++ u :: v :: l2) -> le w u \/ le v w.
  Proof.
    induction l1 as [|a l1 IH]; intros S; cbn [app] in *.
    - inversion S as [|? ? S1 F1]; subst. inversion S1 as [|? ? S2 F2]; subst. rewrite Forall_forall in *. split; [apply F1; now left|].
      intros w [<-|[<-|H]]; [left; apply sublevel_refl|right; apply sublevel_refl|right; auto].
    - inversion S as [|? ? S1 F1]; subst. destruct (IH S1) as (A & B). split; auto. intros w [<-|H]; auto. left. rewrite Forall_forall in F1. apply F1. apply in_or_app. right. now left.
  Qed.
  Lemma sorted_first u l : StronglySorted le (u :: l) -> forall w, In w (u :: l) -> le u w.
  Proof. intros S w [<-|H]; [apply sublevel_refl|]. inversion S as [|? ? S1 F1]; subst. rewrite Forall_forall in F1. auto. Qed.
  Lemma sorted_last l v : StronglySorted le (l ++ [v]) -> forall w, In w (l ++ [v]) -> le w v.
  Proof.
    induction l as [|a l IH]; intros S w H; cbn [app] in *; [destruct H as [<-|[]]; apply sublevel_refl|]. inversion S as [|? ? S1 F1]; subst. destruct H as [<-|H]; auto.
    rewrite Forall_forall in F1. apply F1. apply in_or_app. right. now left.
  Qed.
End Sort.
Definition closed (l : list point) : list point := l ++ firstn 1 l.
Lemma consecutive_closed l u v : consecutive (closed l) u v -> consecutive l u v \/ exists l1 l2, l = l1 ++ [u] /\ l = v :: l2.
Proof.
  intros (l1 & l2 & E). unfold closed in E. destruct l as [|a l]; [destruct l1; discriminate|]. cbn [firstn] in E.
  destruct l2 as [|b l2 _] using rev_ind.
  - right. assert (E' : (a :: l) ++ [a] = (l1 ++ [u]) ++ [v]) by (rewrite <- app_assoc; exact E). apply app_inj_tail in E' as (E1 & <-). exists l1, l. auto.
  - left. assert (E' : (a :: l) ++ [a] = (l1 ++ u :: v :: l2) ++ [b]) by (rewrite <- app_assoc; exact E). apply app_inj_tail in E' as (E1 & _). exists l1, l2. auto.
Qed.
Lemma consecutive_follows c l u v : StronglySorted (fun u v => sublevel (from c u) (from c v)) l -> consecutive (closed l) u v ->
  In u l /\ In v l /\ forall w, In w l -> follows (from c u) (from c v) (from c w).
Proof.
  intros S H. apply consecutive_closed in H as [(l1 & l2 & ->)|(l1 & l2 & E1 & E2)].
  - destruct (sorted_split c l1 u v l2 S) as (A & B). split; [apply in_or_app; right; now left|]. split; [apply in_or_app; right; right; now left|]. intros w Hw. left. split; auto.
  - assert (Hv : In v l) by (rewrite E2; now left). assert (Hu : In u l) by (rewrite E1; apply in_or_app; right; now left). split; auto. split; auto. intros w Hw.
    assert (F : forall w, In w l -> sublevel (from c v) (from c w)) by (intros z Hz; rewrite E2 in S, Hz; now apply (sorted_first c v l2)).
    assert (G : forall w, In w l -> sublevel (from c w) (from c u)) by (intros z Hz; rewrite E1 in S, Hz; now apply (sorted_last c l1 u)). right. auto.
Qed.

(** ** the converse: what lies left of all edges belongs to the region *)
Lemma split_at c x l : StronglySorted (fun u v => sublevel (from c u) (from c v)) l ->
  exists l1 l2, l = l1 ++ l2 /\ (forall w, In w l1 -> sublevel (from c w) (from c x)) /\ (forall w, In w l2 -> ~ sublevel (from c w) (from c x)).
Proof.
  induction 1 as [|w l S IH F]; [exists [], []; repeat split; intros w []|]. destruct (angle_le (from c w) (from c x)) eqn:E.
  - destruct IH as (l1 & l2 & -> & A & B). exists (w :: l1), l2. repeat split; auto. intros z [<-|Hz]; auto.
  - exists [], (w :: l). split; [reflexivity|]. split; [intros z []|]. rewrite Forall_forall in F. intros z [<-|Hz]; [unfold sublevel; congruence|]. intros K.
    assert (sublevel (from c w) (from c x)) by (eapply sublevel_trans; [apply F|]; eauto). unfold sublevel in *. congruence.
Qed.
Lemma not_sublevel u v : ~ sublevel u v -> sublevel v u.
Proof. intros N. destruct (sublevel_total u v); auto. contradiction. Qed.
Lemma cone c x l : l <> [] -> StronglySorted (fun u v => sublevel (from c u) (from c v)) l ->
  exists u v, consecutive (closed l) u v /\
    ((sublevel (from c u) (from c x) /\ ~ sublevel (from c v) (from c x)) \/
     ((forall w, In w l -> sublevel (from c v) (from c w) /\ sublevel (from c w) (from c u)) /\ (sublevel (from c u) (from c x) \/ sublevel (from c x) (from c v)))).
Proof.
  intros N S. destruct (split_at c x l S) as (l1 & l2 & E & A & B).
  assert (Wrap : forall v l' u l0, l = v :: l' -> l = l0 ++ [u] -> consecutive (closed l) u v /\ (forall w, In w l -> sublevel (from c v) (from c w) /\ sublevel (from c w) (from c u))).
  { intros v l' u l0 E1 E2. split.
    - exists l0, []. unfold closed. rewrite E1 at 2. cbn [firstn]. rewrite E2, <- app_assoc. reflexivity.
    - intros w Hw. split; [rewrite E1 in S, Hw; now apply (sorted_first c v l')|rewrite E2 in S, Hw; now apply (sorted_last c l0 u)]. }
  destruct l as [|v l'] eqn:El; [contradiction|]. destruct (@exists_last _ (v :: l') ltac:(discriminate)) as (l0 & u & E2).
  destruct (Wrap v l' u l0 eq_refl E2) as (C & W).
  destruct l1 as [|a1 l1]; [|destruct l2 as [|b l2]].
  - exists u, v. split; auto. right. split; auto. right. apply not_sublevel. apply B. cbn [app] in E. rewrite <- E. now left.
  - exists u, v. split; auto. right. split; auto. left. apply A. rewrite app_nil_r in E. rewrite <- E, E2. apply in_or_app. right. now left.
  - destruct (@exists_last _ (a1 :: l1) ltac:(discriminate)) as (l3 & a & E3). exists a, b. split.
    + exists l3, (l2 ++ [v]). unfold closed. cbn [firstn]. rewrite E, E3, <- !app_assoc. reflexivity.
    + left. split; [apply A; rewrite E3; apply in_or_app; right; now left|apply B; now left].
Qed.
Lemma cone_cross u v x : (0 < cross u v)%Qc -> (sublevel u x /\ sublevel x v) \/ (sublevel v u /\ (sublevel u x \/ sublevel x v)) -> (0 <= cross u x)%Qc /\ (0 <= cross x v)%Qc.
Proof.
  intros P F. rewrite !angle_le_iff in F. pose proof (cross_id u v x) as I. pose proof (cross_anti u v) as A3. rewrite (cross_anti x v), (cross_anti u x) in I. 
  pose proof (half_quarter u) as Qu; pose proof (half_quarter v) as Qv; pose proof (half_quarter x) as Qw.
  set (hu := half u) in *; set (hv := half v) in *; set (hw := half x) in *; clearbody hu hv hw.
  destruct (Qclt_le_dec (cross u x) 0) as [N1|N1]; [exfalso|destruct (Qclt_le_dec (cross x v) 0) as [N2|N2]; [exfalso|auto]];
  destruct u as (a & b), v as (a' & b'), x as (a2 & b2); unfold cross in *; cbn [fst snd] in *;
  destruct Qu, Qv, Qw; cbn [fst snd] in *; subst;
  repeat match goal with
  | H : _ \/ _ |- _ => destruct H
  | H : _ /\ _ |- _ => destruct H
  | H : (?a < ?b)%nat |- _ => (exfalso; lia) || clear H
  | H : ?a = ?b :> nat |- _ => (discriminate H) || clear H
  | H : ?a = ?a \/ _ -> _ |- _ => specialize (H (or_introl eq_refl))
  | H : _ \/ ?a = ?a -> _ |- _ => specialize (H (or_intror eq_refl))
  | H : _ = _ \/ _ = _ -> _ |- _ => clear H
  end; try qclra; clear A3; try (clear I; qcnra); try qcnra.
Qed.
Lemma both_zero u v : sublevel u v -> sublevel v u -> cross u v = 0%Qc.
Proof.
  rewrite !angle_le_iff. intros [A|(E & A)] [B|(E' & B)]; try lia. pose proof (half_quarter u) as Qu; pose proof (half_quarter v) as Qv. rewrite (cross_anti u v) in B.
  destruct (Nat.eq_dec (half u) 0) as [Z|Z]; [|destruct (Nat.eq_dec (half u) 2) as [Z'|Z']].
  - specialize (A ltac:(auto)). specialize (B ltac:(lia)). apply Qcle_antisym; qclra.
  - specialize (A ltac:(auto)). specialize (B ltac:(lia)). apply Qcle_antisym; qclra.
  - rewrite <- E in Qv. assert (snd u = 0%Qc) by (destruct Qu; auto; contradiction). assert (snd v = 0%Qc) by (destruct Qv; auto; contradiction). unfold cross. rewrite H, H0. ring.
Qed.
Section Converse.
  Variables (S : list side) (V : list point) (L : Qc).
  Hypothesis (N : V <> []) (X : forall v, In v V <-> extreme (inside S) v).
  Hypothesis B : forall u, inside S u -> (- L <= fst u <= L)%Qc /\ (- L <= snd u <= L)%Qc.
  Hypothesis (a b d : point).
  Hypothesis (Ia : inside S a) (Ib : inside S b) (Id : inside S d) (NC : ~ collinear a b d).
  Let c := centroid V.
  Lemma not_flat z : z <> origin -> ~ (forall w, In w V -> cross z (from c w) = 0%Qc).
  Proof.
    intros Nz H. assert (G : forall x, inside S x -> cross z (from c x) = 0%Qc).
    { intros x Ix. assert (E : forall x, cross z (from c x) = (fst x * (- snd z) + snd x * fst z + cross z (from c origin))%Qc) by (intros y; unfold cross, from, origin; cbn [fst snd]; ring).
      destruct (vertex_least S L (- snd z)%Qc (fst z) x B Ix) as (w1 & W1 & K1). destruct (vertex_least S L (snd z) (- fst z)%Qc x B Ix) as (w2 & W2 & K2).
      apply X, H in W1. apply X, H in W2. rewrite E in *. set (k := cross z (from c origin)) in *. clearbody k.
      replace (fst w2 * snd z + snd w2 * - fst z)%Qc with (- (fst w2 * - snd z + snd w2 * fst z))%Qc in K2 by ring. replace (fst x * snd z + snd x * - fst z)%Qc with (- (fst x * - snd z + snd x * fst z))%Qc in K2 by ring.
      set (p := (fst w1 * - snd z + snd w1 * fst z)%Qc) in *. set (q := (fst w2 * - snd z + snd w2 * fst z)%Qc) in *. set (r := (fst x * - snd z + snd x * fst z)%Qc) in *. clearbody p q r. clear - K1 K2 W1 W2. apply Qcle_antisym; qclra. }
    apply NC. unfold collinear. transitivity (cross (from c a) (from c b) + cross (from c b) (from c d) + cross (from c d) (from c a))%Qc; [unfold cross, from; cbn [fst snd]; ring|].
    rewrite !(parallel_zero z) by auto. ring.
  Qed.
  Lemma not_flat_V v : ~ (forall w, In w V -> cross (from c v) (from c w) = 0%Qc) \/ from c v = origin.
  Proof. destruct (origin_dec (from c v)) as [|E]; [now right|left]. now apply not_flat. Qed.
  Lemma not_point v : In v V -> from c v <> origin.
  Proof.
    intros Hv E. apply (not_flat (1, 0)%Qc); [discriminate|]. intros w Hw. assert (EX : forall v, In v V -> extreme (inside S) v) by (intros; now apply X).
    rewrite (zero_all S V N EX v Hv E w Hw). fold c. rewrite origin_from. reflexivity.
  Qed.
  Lemma inside_cone x l : l <> [] -> Permutation l V -> StronglySorted (fun u v => sublevel (from c u) (from c v)) l ->
    (forall u v, consecutive (closed l) u v -> left_of u v x) -> inside S x.
  Proof.
    intros Nl Pl Sl H. destruct (cone c x l Nl Sl) as (u & v & Ce & Cases).
    destruct (consecutive_follows c l u v Sl Ce) as (Hu & Hv & F). specialize (H u v Ce).
    assert (Hu' := Permutation_in _ Pl Hu). assert (Hv' := Permutation_in _ Pl Hv).
    assert (F' : forall w, In w V -> follows (from c u) (from c v) (from c w)) by (intros w Hw; apply F; now apply (Permutation_in _ (Permutation_sym Pl))).
    assert (EX : forall v, In v V -> extreme (inside S) v) by (intros; now apply X).
    pose proof (c_inside S V N EX) as O. change (around S c origin) in O. pose proof (around_convex S c) as C.
    pose proof (gap V u v N Hu' Hv' F') as G. cbv zeta in G. change (centroid V) with c in G.
    assert (P : (0 < cross (from c u) (from c v))%Qc).
    { destruct G as [P|[Z|(Z & D)]]; auto; exfalso.
      - destruct (not_flat_V v) as [K|K]; [now apply K|]. now apply (not_point v Hv').
      - destruct (same_direction (around S c) (from c u) (from c v) C O (around_extreme S c u (EX u Hu')) (around_extreme S c v (EX v Hv')) Z D) as [E|[E|E]]; [|exact (not_point u Hu' E)|exact (not_point v Hv' E)].
        destruct Cases as [(A1 & A2)|(A1 & _)]; [rewrite E in A1; contradiction|].
        destruct (not_flat_V v) as [K|K]; [|now apply (not_point v Hv')]. apply K. intros w Hw. apply both_zero; [apply A1|rewrite <- E; apply A1]; now apply (Permutation_in _ (Permutation_sym Pl)). }
    destruct (cone_cross (from c u) (from c v) (from c x) P) as (P1 & P2).
    { destruct Cases as [(A1 & A2)|(A1 & A2)]; [left; split; auto; now apply not_sublevel|]. right. split; auto. now apply A1. }
    apply (proj1 (left_of_cross c u v x)) in H. rewrite <- (plus_from c x). change (around S c (from c x)).
    assert (U : around S c (from c u)) by (apply around_extreme, EX; auto). assert (V' : around S c (from c v)) by (apply around_extreme, EX; auto).
    rewrite (cross_anti (from c x) (from c v)), (cross_anti (from c u) (from c x)) in H.
    set (u' := from c u) in *. set (v' := from c v) in *. set (x' := from c x) in *. clearbody u' v' x'.
    set (al := cross x' v') in *. set (be := cross u' x') in *. set (k := cross u' v') in *.
    assert (Nk : k <> 0%Qc) by (intros E; rewrite E in P; discriminate P). assert (Ik := Qcmult_inv_r _ Nk).
    assert (Ex : x' = (((al * fst u' + be * fst v') * / k), ((al * snd u' + be * snd v') * / k))%Qc).
    { destruct x' as (x1 & x2). f_equal.
      - transitivity (x1 * (k * / k))%Qc; [rewrite Ik; ring|]. unfold al, be, k, cross. cbn [fst snd]. ring.
      - transitivity (x2 * (k * / k))%Qc; [rewrite Ik; ring|]. unfold al, be, k, cross. cbn [fst snd]. ring. }
    destruct (Qc_eq_dec (al + be) 0) as [Z|Z].
    - assert (al = 0%Qc) as E1 by (apply Qcle_antisym; auto; clear - Z P1; qclra). assert (be = 0%Qc) as E2 by (apply Qcle_antisym; auto; clear - Z P2; qclra).
      replace x' with origin; auto. rewrite Ex, E1, E2. unfold origin. f_equal; ring.
    - assert (Pab : (0 < al + be)%Qc) by (destruct (Qclt_le_dec 0 (al + be)); auto; exfalso; apply Z; apply Qcle_antisym; auto; clear - P1 P2; qclra). assert (I2 := Qcmult_inv_r _ Z).
      pose proof (combination (around S c) u' v' al be C U V' P2 P1 Pab) as Q.
      replace x' with (times ((al + be) * / k) ((al * fst u' + be * fst v') / (al + be), (al * snd u' + be * snd v') / (al + be))%Qc).
      + apply scale_in; auto. assert (Pk : (0 < / k)%Qc) by (set (r := (/ k)%Qc) in *; clearbody r; clear - Ik P; qcnra). set (r := (/ k)%Qc) in *. set (s := (al + be)%Qc) in *.
        assert (Ls : (s <= k)%Qc) by (unfold s; clear - H; qclra). clearbody r s k. clear - Pk Pab Ls Ik. split; qcnra.
      + rewrite Ex. unfold times, Qcdiv. cbn [fst snd]. set (r := (/ k)%Qc) in *. set (q := (/ (al + be))%Qc) in *. clearbody r q.
        f_equal; [transitivity ((al * fst u' + be * fst v') * r * ((al + be) * q))%Qc|transitivity ((al * snd u' + be * snd v') * r * ((al + be) * q))%Qc]; try ring; rewrite I2; ring.
  Qed.
End Converse.
