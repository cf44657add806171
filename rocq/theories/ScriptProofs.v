(** Proofs about scripts. *)
From Coq Require Import String List Bool Arith ZArith QArith Qcanon Lia.
From Verif Require Import Py QcTac QSum QInt MatModel MatTheory LinearModel LinearSpec LinearInv LinearProofs LinearProps FormulationModel FormulationSpec FormulationProofs FormulationProps ScriptModel ScriptSpec.
Import ListNotations.
Open Scope nat_scope.
Open Scope string_scope.
Open Scope list_scope.

(** ** the number of variables of a value *)
Definition ttop (d : list (nat * Qc)) : nat := list_max (map (fun kc => S (fst kc)) d).
Definition vtop (h : heap) (v : val) : nat := match v with VVar k => S k | VEq l => ttop (eterms (get h l)) | _ => 0 end.
Lemma ttop_dset d k w : ttop (dset Nat.eqb k w d) = Nat.max (ttop d) (S k).
Proof.
  unfold ttop. induction d as [|(i & u) d IH]; [cbn; lia|]. cbn [dset]. destruct (Nat.eqb_spec k i) as [->|N]; cbn [map fst list_max fold_right]; [lia|]. change (fold_right Nat.max 0 ?l) with (list_max l). rewrite IH. lia.
Qed.
Lemma ttop_app d d' : ttop (d ++ d') = Nat.max (ttop d) (ttop d').
Proof. unfold ttop. now rewrite map_app, list_max_app. Qed.
Lemma ttop_default d k : ttop (dsetdefault Nat.eqb k 0%Qc d) <= Nat.max (ttop d) (S k) /\ ttop d <= ttop (dsetdefault Nat.eqb k 0%Qc d).
Proof. unfold dsetdefault. destruct (dmem Nat.eqb k d); [lia|]. rewrite !ttop_app. change (ttop [(k, 0%Qc)]) with (S k). lia. Qed.
Lemma ttop_bump d k q : ttop (bump d k q) = Nat.max (ttop d) (S k).
Proof. unfold bump. rewrite ttop_dset. pose proof (ttop_default d k). lia. Qed.
Lemma ttop_fold ts d : ttop (fold_left (fun d kq => bump d (fst kq) (snd kq)) ts d) = Nat.max (ttop d) (ttop ts).
Proof.
  revert d. induction ts as [|(k & q) ts IH]; intros d; cbn [fold_left fst snd]; [unfold ttop at 3; cbn; lia|]. rewrite IH, ttop_bump. unfold ttop at 3 4. cbn [map fst list_max fold_right]. change (fold_right Nat.max 0 ?l) with (list_max l). unfold ttop. lia.
Qed.
Lemma ttop_map (g : nat * Qc -> nat * Qc) d : (forall x, fst (g x) = fst x) -> ttop (map g d) = ttop d.
Proof. intros H. unfold ttop. rewrite map_map. f_equal. apply map_ext. intros x. now rewrite H. Qed.
Lemma vtop_add h l w : l < length h -> w <> VNone -> (forall m, w = VEq m -> m <> l) -> vtop (add_to h l w) (VEq l) = Nat.max (vtop h (VEq l)) (vtop h w).
Proof.
  intros Hl Hn Hw. destruct w as [q|k|m|]; cbn [add_to vtop]; [| | |congruence]; rewrite get_upd_same by auto; cbn [eterms].
  - lia.
  - apply ttop_bump.
  - apply ttop_fold.
Qed.
Lemma vtop_frame h h' v : (forall m, v = VEq m -> get h' m = get h m) -> vtop h' v = vtop h v.
Proof. intros H. destruct v; auto. cbn. now rewrite (H l eq_refl). Qed.

(** ** evaluation of expressions without stored ones *)
Record evaluated (e : expr) (h h' : heap) (v : val) : Prop := mkev {
  ev_len : length h <= length h';
  ev_frame : forall m, m < length h -> get h' m = get h m;
  ev_fresh : match v with VEq l => length h <= l < length h' | VNone => False | _ => True end;
  ev_num : numeric e = true <-> exists q, v = VNum q;
  ev_var : forall k, v = VVar k -> e = Var k;
  ev_top : vtop h' v = top e;
  ev_reach : reachable_heap h -> reachable_heap h' }.
Lemma reach h o h' r : apply o h = (h', r) -> (forall v, In v (operands o) -> valid h v) -> reachable_heap h -> reachable_heap h'.
Proof. intros E V R. pose proof (rh_op h o R V) as K. rewrite E in K. exact K. Qed.
Lemma pure_two e f : uses e ++ uses f = [] -> pure e /\ pure f.
Proof. apply app_eq_nil. Qed.
Lemma top_numeric e : numeric e = true -> top e = 0.
Proof.
  induction e as [q|k|i|l|e IHe|e IHe|e IHe f IHf|e IHe f IHf|e IHe f IHf]; cbn; intros H; try discriminate; auto; apply andb_true_iff in H; destruct H as (H1 & H2); rewrite IHe, IHf; auto.
Qed.
Definition fresh_val (h h' : heap) (v : val) : Prop := match v with VEq l => length h <= l < length h' | VNone => False | _ => True end.
(** adding: the left operand is symbolic *)
Lemma add_left h a b : (match a with VEq l => l < length h | VVar _ => True | _ => False end) -> b <> VNone -> (forall m, b = VEq m -> m < length h /\ a <> VEq m) ->
  exists h' l, vadd_ h a b = (h', Ok (VEq l)) /\ length h <= length h' /\ (forall m, m < length h -> a <> VEq m -> get h' m = get h m) /\ (a = VEq l \/ length h <= l) /\ l < length h' /\ vtop h' (VEq l) = Nat.max (vtop h a) (vtop h b).
Proof.
  intros Ha Hn Hb. destruct a as [q|k|l|]; try contradiction.
  - cbn [vadd_ alloc]. exists (add_to (h ++ [of_variable k 1%Qc]) (length h) b), (length h). rewrite length_add_to, app_length. cbn [length]. split; [reflexivity|]. split; [lia|]. split; [intros m Hm _; rewrite add_to_other by lia; now apply get_alloc|]. split; [right; lia|]. split; [lia|].
    rewrite vtop_add; [|rewrite app_length; cbn; lia|auto|intros m ->; destruct (Hb m eq_refl); lia]. f_equal.
    + cbn [vtop]. rewrite get_new. reflexivity.
    + apply vtop_frame. intros m ->. destruct (Hb m eq_refl). now apply get_alloc.
  - cbn [vadd_]. exists (add_to h l b), l. rewrite length_add_to. split; [reflexivity|]. split; [lia|]. split; [intros m Hm K; apply add_to_other; intros ->; congruence|]. split; [now left|]. split; [exact Ha|]. apply vtop_add; auto. intros m ->. destruct (Hb m eq_refl) as (_ & K). intros ->. now apply K.
Qed.
(** adding: a number on the left *)
Lemma add_right h q b : (match b with VEq l => l < length h | VVar _ => True | _ => False end) ->
  exists h' l, vadd_ h (VNum q) b = (h', Ok (VEq l)) /\ length h <= length h' /\ (forall m, m < length h -> b <> VEq m -> get h' m = get h m) /\ (b = VEq l \/ length h <= l) /\ l < length h' /\ vtop h' (VEq l) = vtop h b.
Proof.
  intros Hb. destruct b as [r|k|l|]; try contradiction.
  - cbn [vadd_ alloc]. exists (add_to (h ++ [of_variable k 1%Qc]) (length h) (VNum q)), (length h). rewrite length_add_to, app_length. cbn [length]. split; [reflexivity|]. split; [lia|]. split; [intros m Hm _; rewrite add_to_other by lia; now apply get_alloc|]. split; [right; lia|]. split; [lia|].
    rewrite vtop_add; [|rewrite app_length; cbn; lia|discriminate|intros m K; discriminate K]. cbn [vtop]. rewrite get_new. reflexivity.
  - cbn [vadd_]. exists (add_to h l (VNum q)), l. rewrite length_add_to. split; [reflexivity|]. split; [lia|]. split; [intros m Hm K; apply add_to_other; intros ->; congruence|]. split; [now left|]. split; [exact Hb|]. rewrite vtop_add; auto; [cbn [vtop]; lia|discriminate|intros m K; discriminate K].
Qed.
Lemma neg_any h a : a <> VNone -> (forall m, a = VEq m -> m < length h) ->
  exists h' b, vneg h a = (h', Ok b) /\ length h <= length h' /\ (forall m, m < length h -> a <> VEq m -> get h' m = get h m) /\
    match a with VNum q => b = VNum (- q)%Qc /\ h' = h | _ => exists l, b = VEq l /\ (a = VEq l \/ length h <= l) /\ l < length h' /\ vtop h' (VEq l) = vtop h a end.
Proof.
  intros Hn Hm. destruct a as [q|k|l|]; [| | |congruence]; cbn [vneg alloc].
  - exists h, (VNum (- q)%Qc). repeat split; auto.
  - exists (h ++ [of_variable k (- (1))%Qc]), (VEq (length h)). rewrite app_length. cbn [length]. split; [reflexivity|]. split; [lia|]. split; [intros m K _; now apply get_alloc|]. exists (length h). split; auto. split; [right; lia|]. split; [lia|]. cbn [vtop]. now rewrite get_new.
  - exists (upd h l (minus (get h l))), (VEq l). rewrite length_upd. split; [reflexivity|]. split; [lia|]. split; [intros m K N; apply get_upd_other; intros ->; congruence|]. exists l. split; auto. split; [now left|]. pose proof (Hm l eq_refl). split; auto. cbn [vtop]. rewrite get_upd_same by auto. unfold minus. cbn [eterms]. now rewrite ttop_map.
Qed.
Lemma pure_eval e : linear e -> pure e -> forall h, exists h' v, eval e h = (h', Ok v) /\ evaluated e h h' v.
Proof.
  induction e as [q|k|i|l|e IHe|e IHe|e IHe f IHf|e IHe f IHf|e IHe f IHf]; cbn [linear]; intros Hl Hp h; cbn [eval].
  - exists h, (VNum q). split; auto. constructor; auto; [split; eauto|discriminate].
  - exists h, (VVar k). split; auto. constructor; auto; [split; [discriminate|intros (q & K); discriminate]|intros j K; injection K as ->; auto].
  - unfold item. destruct (Z.leb_spec i 0); [lia|]. cbn [alloc]. eexists _, _. split; [reflexivity|].
    constructor; [rewrite app_length; lia|intros m Hm; now apply get_alloc|rewrite app_length; cbn; lia|split; [discriminate|intros (q & K); discriminate]|discriminate| |].
    + cbn [vtop]. rewrite get_new. unfold ttop. cbn. lia.
    + apply (reach h (OItem i) _ (Ok (VEq (length h)))); [|cbn; contradiction]. cbn [apply]. unfold item. destruct (Z.leb_spec i 0); [lia|]. reflexivity.
  - discriminate Hp.
  - destruct (IHe Hl Hp h) as (h1 & v & E & [V1 V2 V3 V4 V5 V6 V7]). rewrite E.
    assert (Hv : forall m, v = VEq m -> m < length h1) by (intros m ->; lia). assert (Hn : v <> VNone) by (intros ->; contradiction).
    destruct (neg_any h1 v Hn Hv) as (h2 & b & E2 & N1 & N2 & N3). exists h2, b. split; [exact E2|].
    assert (R : reachable_heap h -> reachable_heap h2) by (intros R; apply (reach h1 (ONeg v) h2 (Ok b)); auto; intros w [<-|[]]; destruct v; cbn; auto; lia).
    destruct v as [q|k|l|]; [| | |contradiction].
    + destruct N3 as (-> & ->). constructor; auto; [|discriminate]. cbn [numeric]. split; [eauto|]. intros _. apply V4. eauto.
    + destruct N3 as (l & -> & [K|K] & L & T); [discriminate K|].
      constructor; [lia|intros m Hm; rewrite N2; [auto|lia|discriminate]|lia|cbn [numeric]; rewrite V4; split; intros (q & K'); discriminate K'|discriminate|rewrite T; exact V6|exact R].
    + destruct N3 as (l' & -> & K & L & T). assert (Hl' : length h <= l') by (destruct K as [K|K]; [injection K as <-|]; lia).
      constructor; [lia|intros m Hm; rewrite N2; [auto|lia|intros K'; injection K' as ->; lia]|lia|cbn [numeric]; rewrite V4; split; intros (q & K'); discriminate K'|discriminate|rewrite T; exact V6|exact R].
  - destruct (IHe Hl Hp h) as (h1 & v & E & [V1 V2 V3 V4 V5 V6 V7]). rewrite E. cbn [numeric].
    destruct v as [q|k|l|]; [| | |contradiction]; cbn [vpos alloc].
    + exists h1, (VNum q). split; auto. constructor; auto. discriminate.
    + eexists _, _. split; [reflexivity|]. constructor; [rewrite app_length; lia|intros m Hm; rewrite get_alloc by lia; auto|rewrite app_length; cbn; lia|cbn [numeric]; rewrite V4; split; intros (q & K); discriminate K|discriminate| |].
      * cbn [vtop]. rewrite get_new. exact V6.
      * intros R. apply (reach h1 (OPos (VVar k)) _ (Ok (VEq (length h1)))); auto. intros w [<-|[]]; exact I.
    + exists h1, (VEq l). split; auto. constructor; auto. discriminate.
  - destruct (pure_two e f Hp) as (Pe & Pf). destruct Hl as (Le & Lf). destruct (IHe Le Pe h) as (h1 & v & E & [V1 V2 V3 V4 V5 V6 V7]). destruct (IHf Lf Pf h1) as (h2 & w & F & [W1 W2 W3 W4 W5 W6 W7]). unfold binary. rewrite E, F.
    assert (Vf : vtop h2 v = vtop h1 v) by (apply vtop_frame; intros m ->; apply W2; lia). assert (Hw : w <> VNone) by (intros ->; contradiction). assert (Hv : v <> VNone) by (intros ->; contradiction).
    assert (R : forall h3 r, vadd_ h2 v w = (h3, r) -> reachable_heap h -> reachable_heap h3) by (intros h3 r K R; apply (reach h2 (OAdd v w) h3 r); auto; intros u [<-|[<-|[]]]; [destruct v; cbn; auto; lia|destruct w; cbn; auto; lia]).
    assert (NN : numeric e && numeric f = true <-> (exists q, v = VNum q) /\ exists q, w = VNum q) by (rewrite andb_true_iff, V4, W4; reflexivity).
    destruct v as [q|k|l|]; [|  | |contradiction].
    + destruct w as [r|k|l|]; [| | |contradiction].
      * exists h2, (VNum (q + r)%Qc). split; [reflexivity|]. constructor; try lia; [intros m Hm; rewrite W2 by lia; auto|cbn [numeric]; rewrite NN; split; intros _; eauto|discriminate| |auto].
        cbn [vtop top] in *. lia.
      * destruct (add_right h2 q (VVar k) I) as (h3 & l & E3 & A1 & A2 & A3 & A4 & A5). exists h3, (VEq l). split; [exact E3|]. destruct A3 as [A3|A3]; [discriminate A3|].
        constructor; try lia; [intros m Hm; rewrite A2, W2, V2 by (lia || discriminate); auto|cbn [numeric]; rewrite NN; split; [intros (_ & (q' & K)); discriminate K|intros (q' & K); discriminate K]|discriminate|rewrite A5; cbn [vtop top] in *; lia|apply (R h3 _ E3)].
      * destruct (add_right h2 q (VEq l)) as (h3 & l' & E3 & A1 & A2 & A3 & A4 & A5); [lia|]. exists h3, (VEq l'). split; [exact E3|].
        assert (Hl' : length h <= l') by (destruct A3 as [A3|A3]; [injection A3 as <-|]; lia).
        constructor; try lia; [intros m Hm; rewrite A2, W2, V2 by (lia || (intros K; injection K as ->; lia)); auto|cbn [numeric]; rewrite NN; split; [intros (_ & (q' & K)); discriminate K|intros (q' & K); discriminate K]|discriminate|rewrite A5; cbn [vtop top] in *; lia|apply (R h3 _ E3)].
    + destruct (add_left h2 (VVar k) w I Hw) as (h3 & l & E3 & A1 & A2 & A3 & A4 & A5); [intros m ->; split; [lia|discriminate]|]. exists h3, (VEq l). split; [exact E3|]. destruct A3 as [A3|A3]; [discriminate A3|].
      constructor; try lia; [intros m Hm; rewrite A2, W2, V2 by (lia || discriminate); auto|cbn [numeric]; rewrite NN; split; [intros ((q' & K) & _); discriminate K|intros (q' & K); discriminate K]|discriminate|rewrite A5, Vf; cbn [vtop top] in *; lia|apply (R h3 _ E3)].
    + destruct (add_left h2 (VEq l) w) as (h3 & l' & E3 & A1 & A2 & A3 & A4 & A5); [lia|auto|intros m ->; split; [lia|intros K; injection K as ->; lia]|]. exists h3, (VEq l'). split; [exact E3|].
      assert (Hl' : length h <= l') by (destruct A3 as [A3|A3]; [injection A3 as <-|]; lia).
      constructor; try lia; [intros m Hm; rewrite A2, W2, V2 by (lia || (intros K; injection K as ->; lia)); auto|cbn [numeric]; rewrite NN; split; [intros ((q' & K) & _); discriminate K|intros (q' & K); discriminate K]|discriminate|rewrite A5, Vf; cbn [vtop top] in *; lia|apply (R h3 _ E3)].
  - destruct (pure_two e f Hp) as (Pe & Pf). destruct Hl as (Le & Lf). destruct (IHe Le Pe h) as (h1 & v & E & [V1 V2 V3 V4 V5 V6 V7]). destruct (IHf Lf Pf h1) as (h2 & w & F & [W1 W2 W3 W4 W5 W6 W7]). unfold binary. rewrite E, F.
    assert (Vf : vtop h2 v = vtop h1 v) by (apply vtop_frame; intros m ->; apply W2; lia). assert (Hw : w <> VNone) by (intros ->; contradiction).
    assert (R : forall h3 r, vsub_ h2 v w = (h3, r) -> reachable_heap h -> reachable_heap h3) by (intros h3 r K R; apply (reach h2 (OSub v w) h3 r); auto; intros u [<-|[<-|[]]]; [destruct v; cbn; auto; lia|destruct w; cbn; auto; lia]).
    assert (NN : numeric e && numeric f = true <-> (exists q, v = VNum q) /\ exists q, w = VNum q) by (rewrite andb_true_iff, V4, W4; reflexivity).
    assert (Hwm : forall m, w = VEq m -> m < length h2) by (intros m ->; lia). destruct (neg_any h2 w Hw Hwm) as (h3 & w' & E3 & N1 & N2 & N3).
    assert (Fresh : forall m, m < length h -> get h3 m = get h m) by (intros m Hm; rewrite N2, W2, V2 by (lia || (intros ->; lia)); auto).
    destruct v as [q|k|l|]; [| | |contradiction].
    + destruct w as [r|k|l|]; [| | |contradiction].
      * exists h2, (VNum (q - r)%Qc). split; [reflexivity|]. constructor; try lia; [intros m Hm; rewrite W2 by lia; auto|cbn [numeric]; rewrite NN; split; intros _; eauto|discriminate| |auto].
        cbn [vtop top] in *. lia.
      * destruct N3 as (l & -> & [K|K] & L & T); [discriminate K|]. cbn [vsub_] in R |- *. rewrite E3 in R |- *. destruct (add_left h3 (VEq l) (VNum q)) as (h4 & l' & E4 & A1 & A2 & A3 & A4 & A5); [lia|discriminate|intros m K'; discriminate K'|]. exists h4, (VEq l'). split; [exact E4|].
        assert (Hl' : length h <= l') by (destruct A3 as [A3|A3]; [injection A3 as <-|]; lia).
        constructor; try lia; [intros m Hm; rewrite A2 by (lia || (intros K'; injection K' as ->; lia)); auto|cbn [numeric]; rewrite NN; split; [intros (_ & (q' & K')); discriminate K'|intros (q' & K'); discriminate K']|discriminate|rewrite A5, T; cbn [vtop top] in *; lia|apply (R h4 _ E4)].
      * destruct N3 as (l0 & -> & K & L & T). assert (Hl0 : length h <= l0) by (destruct K as [K|K]; [injection K as <-|]; lia). cbn [vsub_] in R |- *. rewrite E3 in R |- *. destruct (add_left h3 (VEq l0) (VNum q)) as (h4 & l' & E4 & A1 & A2 & A3 & A4 & A5); [lia|discriminate|intros m K'; discriminate K'|]. exists h4, (VEq l'). split; [exact E4|].
        assert (Hl' : length h <= l') by (destruct A3 as [A3|A3]; [injection A3 as <-|]; lia).
        constructor; try lia; [intros m Hm; rewrite A2 by (lia || (intros K'; injection K' as ->; lia)); auto|cbn [numeric]; rewrite NN; split; [intros (_ & (q' & K')); discriminate K'|intros (q' & K'); discriminate K']|discriminate|rewrite A5, T; cbn [vtop top] in *; lia|apply (R h4 _ E4)].
    + cbn [vsub_] in R |- *. rewrite E3 in R |- *. assert (T' : vtop h3 w' = vtop h2 w) by (destruct w as [r|j|m|]; [destruct N3 as (-> & ->); reflexivity| | |contradiction]; destruct N3 as (l0 & -> & _ & _ & T); exact T).
      assert (W' : w' <> VNone /\ forall m, w' = VEq m -> m < length h3) by (destruct w as [r|j|m|]; [destruct N3 as (-> & ->); split; discriminate| | |contradiction]; destruct N3 as (l0 & -> & _ & L & T); (split; [discriminate|]); intros m' K; injection K as <-; exact L).
      destruct W' as (W8 & W9). destruct (add_left h3 (VVar k) w' I W8) as (h4 & l' & E4 & A1 & A2 & A3 & A4 & A5); [intros m K; split; [auto|discriminate]|]. exists h4, (VEq l'). split; [exact E4|]. destruct A3 as [A3|A3]; [discriminate A3|].
      constructor; try lia; [intros m Hm; rewrite A2 by (lia || discriminate); auto|cbn [numeric]; rewrite NN; split; [intros ((q' & K') & _); discriminate K'|intros (q' & K'); discriminate K']|discriminate|rewrite A5, T'; cbn [vtop top] in *; lia|apply (R h4 _ E4)].
    + cbn [vsub_] in R |- *. rewrite E3 in R |- *. assert (T' : vtop h3 w' = vtop h2 w) by (destruct w as [r|j|m|]; [destruct N3 as (-> & ->); reflexivity| | |contradiction]; destruct N3 as (l0 & -> & _ & _ & T); exact T).
      assert (W' : w' <> VNone /\ forall m, w' = VEq m -> length h1 <= m < length h3) by (destruct w as [r|j|m|]; [destruct N3 as (-> & ->); split; discriminate| | |contradiction]; destruct N3 as (l0 & -> & K0 & L & T); (split; [discriminate|]); intros m' K; injection K as <-; (split; [destruct K0 as [K0|K0]; [try discriminate K0; injection K0 as <-; lia|lia]|exact L])).
      destruct W' as (W8 & W9). assert (V3' : vtop h3 (VEq l) = vtop h1 (VEq l)) by (apply vtop_frame; intros m K; injection K as <-; rewrite N2, W2 by (lia || (intros ->; lia)); auto).
      destruct (add_left h3 (VEq l) w') as (h4 & l' & E4 & A1 & A2 & A3 & A4 & A5); [lia|exact W8|intros m K; specialize (W9 m K); split; [lia|intros K'; injection K' as ->; lia]|]. exists h4, (VEq l'). split; [exact E4|].
      assert (Hl' : length h <= l') by (destruct A3 as [A3|A3]; [injection A3 as <-|]; lia).
      constructor; try lia; [intros m Hm; rewrite A2 by (lia || (intros K; injection K as ->; lia)); auto|cbn [numeric]; rewrite NN; split; [intros ((q' & K') & _); discriminate K'|intros (q' & K'); discriminate K']|discriminate|rewrite A5, T', V3'; cbn [top] in *; lia|apply (R h4 _ E4)].
  - destruct (pure_two e f Hp) as (Pe & Pf). destruct Hl as (Le & Lf & HN). destruct (IHe Le Pe h) as (h1 & v & E & [V1 V2 V3 V4 V5 V6 V7]). destruct (IHf Lf Pf h1) as (h2 & w & F & [W1 W2 W3 W4 W5 W6 W7]). unfold binary. rewrite E, F.
    assert (Vf : vtop h2 v = vtop h1 v) by (apply vtop_frame; intros m ->; apply W2; lia).
    assert (R : forall h3 r, vmul h2 v w = (h3, r) -> reachable_heap h -> reachable_heap h3) by (intros h3 r K R; apply (reach h2 (OMul v w) h3 r); auto; intros u [<-|[<-|[]]]; [destruct v; cbn; auto; lia|destruct w; cbn; auto; lia]).
    assert (NN : numeric e && numeric f = true <-> (exists q, v = VNum q) /\ exists q, w = VNum q) by (rewrite andb_true_iff, V4, W4; reflexivity).
    assert (G : forall a q, vmul h2 v w = vmul h2 a (VNum q) -> (match a with VEq l => length h <= l < length h2 | VVar _ => True | _ => False end) -> vtop h2 a = Nat.max (top e) (top f) -> ~ ((exists q, v = VNum q) /\ exists q, w = VNum q) ->
      exists h' u, vmul h2 v w = (h', Ok u) /\ evaluated (Mul e f) h h' u).
    { intros a q Eq Ha Ta Nn. destruct a as [r|k|l|]; try contradiction; cbn [vmul alloc] in Eq.
      - eexists _, _. split; [exact Eq|]. constructor; [rewrite app_length; lia|intros m Hm; rewrite get_alloc, W2 by lia; auto|rewrite app_length; cbn; lia|cbn [numeric]; rewrite NN; split; [intros K; now destruct Nn|intros (q' & K); discriminate K]|discriminate| |apply (R _ _ Eq)].
        cbn [vtop]. rewrite get_new. exact Ta.
      - eexists _, _. split; [exact Eq|]. constructor; [rewrite length_upd; lia|intros m Hm; rewrite get_upd_other, W2 by lia; auto|rewrite length_upd; lia|cbn [numeric]; rewrite NN; split; [intros K; now destruct Nn|intros (q' & K); discriminate K]|discriminate| |apply (R _ _ Eq)].
        cbn [vtop] in *. rewrite get_upd_same by lia. unfold scale. cbn [eterms]. rewrite ttop_map by auto. exact Ta. }
    apply orb_true_iff in HN. destruct v as [q|k|l|]; [| | |contradiction].
    + assert (T0 : top e = 0) by (rewrite <- V6; reflexivity). destruct w as [r|k|l|]; [| | |contradiction].
      * exists h2, (VNum (q * r)%Qc). split; [reflexivity|]. constructor; try lia; [intros m Hm; rewrite W2 by lia; auto|cbn [numeric]; rewrite NN; split; intros _; eauto|discriminate| |auto]. cbn [vtop top] in *. lia.
      * apply (G (VVar k) q); [reflexivity|exact I|rewrite W6, T0; lia|intros (_ & (q' & K)); discriminate K].
      * apply (G (VEq l) q); [reflexivity|lia|rewrite W6, T0; lia|intros (_ & (q' & K)); discriminate K].
    + destruct HN as [HN|HN]; [apply V4 in HN; destruct HN as (q & K); discriminate K|]. pose proof (top_numeric f HN) as T0. apply W4 in HN. destruct HN as (r & ->).
      apply (G (VVar k) r); [reflexivity|exact I|rewrite Vf, V6, T0; lia|intros ((q' & K) & _); discriminate K].
    + destruct HN as [HN|HN]; [apply V4 in HN; destruct HN as (q & K); discriminate K|]. pose proof (top_numeric f HN) as T0. apply W4 in HN. destruct HN as (r & ->).
      apply (G (VEq l) r); [reflexivity|lia|rewrite Vf, V6, T0; lia|intros ((q' & K) & _); discriminate K].
Qed.
