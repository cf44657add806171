(** The printed form of a graph (C65) and spanning trees (C66). *)
From Coq Require Import String Ascii List Bool Arith QArith Qcanon Lia Permutation Sorted.
From Verif Require Import Py QcTac UndirectedModel GraphSpec UndirectedSpec UndirectedProofs GraphTheory TraverseProofs TreeProofs UndirectedFinal
  EqualModel EqualSpec EqualProofs.
Import ListNotations.
Open Scope nat_scope.
Open Scope string_scope.
Open Scope list_scope.

(** * Characters of a text *)
Lemma occurs_app c a b : occurs c (a ++ b)%string <-> occurs c a \/ occurs c b.
Proof. induction a as [|d a IH]; cbn; [tauto|]. rewrite IH. tauto. Qed.
Lemma first_split c a : forall b x y, ~ occurs c a -> ~ occurs c b -> (a ++ String c x = b ++ String c y)%string -> a = b /\ x = y.
Proof.
  induction a as [|d a IH]; intros [|e b] x y Ha Hb E; cbn in *.
  - now injection E as ->.
  - injection E as -> _. tauto.
  - injection E as <- _. tauto.
  - injection E as -> E. destruct (IH b x y) as [-> ->]; auto.
Qed.
Lemma join_cons c x y l : join (String c "") (x :: y :: l) = (x ++ String c (join (String c "") (y :: l)))%string.
Proof. reflexivity. Qed.
Lemma join_inj c l : forall m, (forall x, In x l -> ~ occurs c x) -> (forall x, In x m -> ~ occurs c x) -> l <> [] -> m <> [] ->
  join (String c "") l = join (String c "") m -> l = m.
Proof.
  assert (O : forall a b, occurs c (a ++ String c b)%string) by (intros a b; apply occurs_app; right; cbn; now left).
  induction l as [|x l IH]; intros [|y m] Hl Hm Nl Nm E; try congruence. destruct l as [|x' l], m as [|y' m].
  - cbn in E. now subst.
  - rewrite join_cons in E. cbn [join] in E. exfalso. apply (Hl x); [now left|]. rewrite E. apply O.
  - rewrite join_cons in E. cbn [join] in E. exfalso. apply (Hm y); [now left|]. rewrite <- E. apply O.
  - rewrite !join_cons in E. apply first_split in E; [|apply Hl; now left|apply Hm; now left]. destruct E as [-> E]. f_equal. apply IH; auto; try discriminate.
    + intros z Hz. apply Hl. now right. + intros z Hz. apply Hm. now right.
Qed.
Lemma occurs_join c sep l : occurs c (join sep l) -> occurs c sep \/ exists x, In x l /\ occurs c x.
Proof.
  induction l as [|x l IH]; cbn [join]; [intros []|]. destruct l as [|y l]; [intros H; right; exists x; split; [now left|auto]|].
  intros H. apply occurs_app in H. destruct H as [H|H]; [right; exists x; split; [now left|auto]|]. apply occurs_app in H. destruct H as [H|H]; [auto|].
  destruct (IH H) as [K|(z & Hz & K)]; [auto|]. right. exists z. split; [now right|auto].
Qed.
Lemma join_occurs c sep x l : In x l -> occurs c x -> occurs c (join sep l).
Proof.
  induction l as [|y l IH]; [intros []|]. intros [->|H] K; cbn [join]; destruct l as [|z l]; auto; try (now destruct H); rewrite !occurs_app; auto.
Qed.

(** * Graphs that compare equal print alike *)
Lemma lines_alike g1 g2 : inv g1 -> inv g2 -> alike g1 g2 -> forall x, In x (map line (ug_graph g1)) -> In x (map line (ug_graph g2)).
Proof.
  intros I1 I2 A x Hx. apply in_map_iff in Hx. destruct Hx as ([u s] & <- & Hi). apply (In_dget _ eqs) in Hi; [|apply I1]. pose proof (al_g _ _ A u) as G. rewrite Hi in G.
  destruct (sget u (ug_graph g2)) as [t|] eqn:E; [|contradiction]. apply in_map_iff. exists (u, t). split; [|now apply (dget_In _ eqs)]. unfold line. cbn [fst snd].
  rewrite (sorted_same s t); auto; [now apply (i_sets _ I1 u)|now apply (i_sets _ I2 u)].
Qed.
Lemma repr_alike g1 g2 : inv g1 -> inv g2 -> alike g1 g2 -> repr g1 = repr g2.
Proof.
  intros I1 I2 A. unfold repr. f_equal. apply sorted_same; try apply NoDup_nodup. intros x. rewrite !nodup_In. split; apply lines_alike; auto. now apply alike_sym.
Qed.

(** * Names without separators can be read back *)
Definition plain_graph (g : ugraph) : Prop := forall v, In v (dkeys (ug_vertices g)) -> plain v.
Lemma member_vertex g u s v : inv g -> sget u (ug_graph g) = Some s -> In v s -> In v (dkeys (ug_vertices g)) /\ v <> "".
Proof.
  intros I E H. assert (K : adjg (ug_graph g) u v) by (exists s; auto). apply (i_rec _ I) in K. destruct (sorted2_cases (u, v)) as [X|X]; rewrite X in K; cbn [fst snd] in K; apply (i_edge _ I) in K; tauto.
Qed.
Lemma line_plain g u s : inv g -> plain_graph g -> sget u (ug_graph g) = Some s -> ~ occurs (ascii_of_nat 10) (line (u, s)).
Proof.
  intros I P E H. unfold line in H. cbn [fst snd] in H. apply occurs_app in H. destruct H as [H|H].
  - destruct (P u) as (_ & _ & N); [|contradiction]. apply (i_dom _ I). now apply (get_key String.eqb eqs) in E.
  - apply occurs_app in H. destruct H as [H|H]; [cbn in H; destruct H as [H|[H|[]]]; discriminate H|]. apply occurs_join in H. destruct H as [H|(x & Hx & H)]; [destruct H as [H|[]]; discriminate H|].
    apply (proj1 (In_sorted _ _)) in Hx. destruct (member_vertex g u s x I E Hx) as [V _]. destruct (P x V) as (_ & _ & N). contradiction.
Qed.
Lemma line_inj g1 g2 u s v t : inv g1 -> inv g2 -> plain_graph g1 -> plain_graph g2 -> sget u (ug_graph g1) = Some s -> sget v (ug_graph g2) = Some t ->
  line (u, s) = line (v, t) -> u = v /\ forall x, In x s <-> In x t.
Proof.
  intros I1 I2 P1 P2 E1 E2 E. unfold line in E. cbn [fst snd] in E.
  change (u ++ ": " ++ join "-" (sorted s))%string with (u ++ String ":" (" " ++ join "-" (sorted s)))%string in E.
  change (v ++ ": " ++ join "-" (sorted t))%string with (v ++ String ":" (" " ++ join "-" (sorted t)))%string in E.
  apply first_split in E.
  - destruct E as [-> E]. split; [reflexivity|]. cbn in E. injection E as E.
    assert (M1 : forall x, In x (sorted s) -> ~ occurs "-" x /\ x <> "").
    { intros x Hx. apply (proj1 (In_sorted _ _)) in Hx. destruct (member_vertex g1 v s x I1 E1 Hx) as [V N]. split; [apply (P1 x V)|exact N]. }
    assert (M2 : forall x, In x (sorted t) -> ~ occurs "-" x /\ x <> "").
    { intros x Hx. apply (proj1 (In_sorted _ _)) in Hx. destruct (member_vertex g2 v t x I2 E2 Hx) as [V N]. split; [apply (P2 x V)|exact N]. }
    assert (S : sorted s = sorted t).
    { assert (Z : forall l, (forall x, In x l -> x <> "") -> join "-" l = "" -> l = []).
      { intros [|x [|y l]] H K; auto; cbn in K; [exfalso; apply (H x); [now left|auto]|]. destruct x; [|discriminate K]. cbn in K. discriminate K. }
      destruct (sorted s) as [|a l] eqn:Es; [symmetry; apply Z; [apply M2|now rewrite <- E]|]. destruct (sorted t) as [|b m] eqn:Et; [apply Z; [apply M1|now rewrite E]|].
      apply (join_inj "-"); try discriminate; auto; intros x Hx; [apply (M1 x Hx)|apply (M2 x Hx)]. }
    intros x. rewrite <- (In_sorted x s), <- (In_sorted x t), S. reflexivity.
  - destruct (P1 u) as (N & _); auto. apply (i_dom _ I1). now apply (get_key String.eqb eqs) in E1.
  - destruct (P2 v) as (N & _); auto. apply (i_dom _ I2). now apply (get_key String.eqb eqs) in E2.
Qed.
Lemma repr_lines g1 g2 : inv g1 -> inv g2 -> plain_graph g1 -> plain_graph g2 -> repr g1 = repr g2 ->
  forall x, In x (map line (ug_graph g1)) <-> In x (map line (ug_graph g2)).
Proof.
  intros I1 I2 P1 P2 E. unfold repr in E.
  assert (M : forall g x, inv g -> plain_graph g -> In x (sorted (nodup string_dec (map line (ug_graph g)))) -> ~ occurs (ascii_of_nat 10) x /\ occurs ":" x).
  { intros g x I P Hx. apply (proj1 (In_sorted _ _)) in Hx. apply nodup_In, in_map_iff in Hx. destruct Hx as ([u s] & <- & Hi). apply (In_dget _ eqs) in Hi; [|apply I]. split; [now apply (line_plain g)|].
    unfold line. rewrite !occurs_app. right. left. cbn. now left. }
  assert (S : sorted (nodup string_dec (map line (ug_graph g1))) = sorted (nodup string_dec (map line (ug_graph g2)))).
  { pose proof (fun x => M g1 x I1 P1) as M1. pose proof (fun x => M g2 x I2 P2) as M2. clear M. destruct (sorted (nodup string_dec (map line (ug_graph g1)))) as [|a l] eqn:E1, (sorted (nodup string_dec (map line (ug_graph g2)))) as [|b m] eqn:E2; auto.
    - exfalso. assert (K : occurs ":" (join newline (b :: m))) by (apply (join_occurs _ _ b); [now left|apply (M2 b); now left]). rewrite <- E in K. exact K.
    - exfalso. assert (K : occurs ":" (join newline (a :: l))) by (apply (join_occurs _ _ a); [now left|apply (M1 a); now left]). rewrite E in K. exact K.
    - apply (join_inj (ascii_of_nat 10)); try discriminate; auto.
      + intros x Hx. now apply (M1 x). + intros x Hx. now apply (M2 x). }
  intros x. rewrite <- (nodup_In string_dec (map line (ug_graph g1))), <- (nodup_In string_dec (map line (ug_graph g2))), <- (In_sorted x), S, In_sorted. reflexivity.
Qed.
Lemma repr_sub g1 g2 : inv g1 -> inv g2 -> plain_graph g1 -> plain_graph g2 -> repr g1 = repr g2 ->
  forall u s, sget u (ug_graph g1) = Some s -> exists t, sget u (ug_graph g2) = Some t /\ forall x, In x s <-> In x t.
Proof.
  intros I1 I2 P1 P2 E u s Hs. assert (K : In (line (u, s)) (map line (ug_graph g2))).
  { apply (repr_lines g1 g2); auto. apply in_map. now apply (dget_In _ eqs). }
  apply in_map_iff in K. destruct K as ([v t] & K & Hi). apply (In_dget _ eqs) in Hi; [|apply I2]. symmetry in K.
  destruct (line_inj g1 g2 u s v t I1 I2 P1 P2 Hs Hi K) as [<- Q]. exists t. split; auto.
Qed.

(** * Spanning trees *)
Lemma parents (adj : string -> string -> Prop) (out : list string) :
  (forall l1 v l2, out = l1 ++ v :: l2 -> l1 <> [] -> exists p, In p l1 /\ adj p v) ->
  forall l2 l1, out = l1 ++ l2 -> l1 <> [] ->
  exists T, map snd T = l2 /\ forall p v, In (p, v) T -> adj p v /\ exists a b, out = a ++ v :: b /\ In p a.
Proof.
  intros H l2. induction l2 as [|v l2 IH]; intros l1 E N; [exists []; split; [reflexivity|intros p v []]|].
  destruct (H l1 v l2 E N) as (p & Hp & Ha). destruct (IH (l1 ++ [v])) as (T & HT & K); [now rewrite <- app_assoc|destruct l1; discriminate|].
  exists ((p, v) :: T). split; [cbn; now f_equal|]. intros q w [X|X]; [|now apply K]. injection X as <- <-. split; [exact Ha|]. eauto.
Qed.
Lemma walk_chain adj r n v : walk adj n r v -> reachable adj r v.
Proof. intros H. now exists n. Qed.
Lemma spanning g : inv g -> dkeys (ug_vertices g) <> [] -> connected (adjg (ug_graph g)) (dkeys (ug_vertices g)) ->
  exists T, (forall u v, In (u, v) T -> adjg (ug_graph g) u v) /\ spanning_tree T (dkeys (ug_vertices g)).
Proof.
  intros I N C. set (adj := adjg (ug_graph g)) in *. destruct (dkeys (ug_vertices g)) as [|r vs] eqn:Ev; [congruence|]. rewrite <- Ev in *.
  assert (Hr : In r (dkeys (ug_vertices g))) by (rewrite Ev; now left).
  destruct (bfs_spec g r I Hr) as (out & lv & _ & Hnd & Hh & Hin & Hlen & Hd & Hsrt). fold adj in Hin, Hd. destruct out as [|r' out]; [discriminate Hh|]. injection Hh as ->.
  assert (Par : forall l1 v l2, r :: out = l1 ++ v :: l2 -> l1 <> [] -> exists p, In p l1 /\ adj p v).
  { intros l1 v l2 E Nl. assert (Ei : nth_error (r :: out) (length l1) = Some v) by (rewrite E, nth_error_app2, Nat.sub_diag by lia; reflexivity).
    assert (Li : length l1 < length (r :: out)) by (rewrite E, app_length; cbn; lia). destruct (nth_error lv (length l1)) as [n|] eqn:En; [|apply nth_error_None in En; lia].
    pose proof (Hd _ _ _ Ei En) as D. destruct D as [W Min]. destruct n as [|n].
    - exfalso. inversion W; subst. destruct l1 as [|x l1]; [congruence|]. cbn in E. injection E as <- E. rewrite E in Hnd. inversion Hnd as [|? ? K _]; subst. apply K. apply in_app_iff. right. now left.
    - inversion W as [|? ? p ? W' Ha]; subst. assert (Hp : In p (r :: out)) by (apply Hin; now exists n). exists p. split; [|exact Ha]. rewrite E in Hp. apply in_app_iff in Hp. destruct Hp as [Hp|Hp]; [exact Hp|exfalso].
      apply In_nth_error in Hp. destruct Hp as (j & Ej). assert (Ep : nth_error (r :: out) (length l1 + j) = Some p) by (rewrite E, nth_error_app2 by lia; now replace (length l1 + j - length l1) with j by lia).
      assert (Lj : length l1 + j < length (r :: out)) by (apply nth_error_Some; congruence). destruct (nth_error lv (length l1 + j)) as [m|] eqn:Em; [|apply nth_error_None in Em; lia].
      destruct (Hd _ _ _ Ep Em) as [_ Minp]. specialize (Minp n W'). pose proof (sorted_nth lv Hsrt (length l1) (length l1 + j) (S n) m ltac:(lia) En Em). lia. }
  destruct (parents adj (r :: out) Par out [r] eq_refl ltac:(discriminate)) as (T & HT & K). exists T. split; [intros u v H; apply (K u v H)|]. split.
  - assert (Root : forall k v, nth_error (r :: out) k = Some v -> reachable (joined T) r v).
    { intros k. induction k as [k IH] using lt_wf_ind. intros v Hk. destruct k as [|k]; [injection Hk as <-; apply reach_refl|]. cbn in Hk.
      assert (Hv : In v (map snd T)) by (rewrite HT; now apply nth_error_In in Hk). apply in_map_iff in Hv. destruct Hv as ([p w] & Ew & Hi). cbn in Ew. subst w.
      destruct (K p v Hi) as (_ & a & b & Eab & Hp). apply In_nth_error in Hp. destruct Hp as (j & Ej).
      assert (Lj : j < length a) by (apply nth_error_Some; congruence).
      assert (Ea : length a = S k).
      { assert (X : nth_error (r :: out) (length a) = Some v) by (rewrite Eab, nth_error_app2, Nat.sub_diag by lia; reflexivity). change (nth_error out k) with (nth_error (r :: out) (S k)) in Hk. pose proof (proj1 (NoDup_nth_error (r :: out)) Hnd) as U. apply U; [apply nth_error_Some; congruence|congruence]. }
      apply (reach_step _ r p v); [|left; exact Hi]. apply (IH j); [lia|]. rewrite Eab. now rewrite nth_error_app1. }
    assert (Sy : forall a b, joined T a b -> joined T b a) by (intros a b [X|X]; [right|left]; exact X).
    assert (All : forall v, In v (dkeys (ug_vertices g)) -> reachable (joined T) r v).
    { intros v Hv. assert (X : In v (r :: out)) by (apply Hin; apply C; auto). apply In_nth_error in X. destruct X as (k & X). now apply (Root k). }
    intros u v Hu Hv. apply (reach_trans _ u r v); [apply reach_sym; auto|auto].
  - intros a l Cy. assert (Sy : forall a b, joined T a b -> joined T b a) by (intros x y [X|X]; [right|left]; exact X).
    assert (Inc : incl (a :: l) (r :: out)).
    { intros x Hx. destruct (cycle_two _ Sy a l x Cy Hx) as (u1 & _ & _ & _ & _ & _ & _ & [H|H] & _).
      - right. rewrite <- HT. now apply (in_map snd) in H.
      - destruct (K _ _ H) as (_ & p & q & -> & X). apply in_app_iff. now left. }
    destruct (latest (a :: l) (r :: out)) as (l1 & c & l2 & El & Hc & Hlast); auto; [discriminate|].
    destruct (cycle_two _ Sy a l c Cy Hc) as (u1 & u2 & Huu & N1 & N2 & H1 & H2 & J1 & J2).
    assert (Only : forall u, In u (a :: l) -> joined T u c -> In (u, c) T).
    { intros u Hu [X|X]; [exact X|exfalso]. destruct (K _ _ X) as (_ & p & q & Epq & Hcp). apply in_split in Hcp. destruct Hcp as (p1 & p2 & ->). apply (Hlast u Hu).
      rewrite <- app_assoc in Epq. cbn in Epq. rewrite El in Epq. assert (Dn : NoDup (l1 ++ c :: l2)) by now rewrite <- El.
      assert (U : l1 = p1 /\ l2 = p2 ++ u :: q). { clear - Epq Dn. revert p1 Epq. induction l1 as [|x l1 IH]; intros [|y p1] E; cbn in *.
        - now injection E as ->. - injection E as -> E. exfalso. inversion Dn as [|? ? Z _]; subst. apply Z. apply in_app_iff. right. now left.
        - injection E as -> E. exfalso. inversion Dn as [|? ? Z _]; subst. apply Z. apply in_app_iff. right. now left.
        - injection E as -> E. inversion Dn; subst. destruct (IH ltac:(assumption) p1 E) as [-> ->]. auto. }
      destruct U as [_ ->]. apply in_app_iff. right. now left. }
    apply Huu. apply (NoDup_snd_inj T u1 u2 c); auto. rewrite HT. now inversion Hnd.
Qed.
