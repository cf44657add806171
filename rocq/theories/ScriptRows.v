(** Proofs about scripts: rows, signs and the compiled program. *)
From Coq Require Import String List Bool Arith ZArith QArith Qcanon Lia.
From Verif Require Import Py QcTac QSum QInt MatModel MatTheory LinearModel LinearSpec LinearInv LinearProofs LinearProps FormulationModel FormulationSpec FormulationProofs FormulationProps ScriptModel ScriptSpec ScriptProofs.
Import ListNotations.
Open Scope nat_scope.
Open Scope string_scope.
Open Scope list_scope.

(** ** expressions without stored ones do not depend on the heap *)
Lemma value_any h e a : pure e -> value_of h e a = value_of [] e a.
Proof.
  induction e as [q|k|i|l|e IHe|e IHe|e IHe f IHf|e IHe f IHf|e IHe f IHf]; cbn [value_of]; intros Hp; auto; try discriminate Hp; try (now rewrite IHe); apply pure_two in Hp; destruct Hp; now rewrite IHe, IHf.
Qed.
Lemma homogeneous_any h e : pure e -> homogeneous [] e -> homogeneous h e.
Proof.
  induction e as [q|k|i|l|e IHe|e IHe|e IHe f IHf|e IHe f IHf|e IHe f IHf]; cbn [homogeneous]; intros Hp; auto; try discriminate Hp; apply pure_two in Hp; destruct Hp as (P1 & P2); tauto.
Qed.
Lemma plain_any h e : pure e -> plain [] e -> plain h e.
Proof.
  induction e as [q|k|i|l|e IHe|e IHe|e IHe f IHf|e IHe f IHf|e IHe f IHf]; cbn [plain]; intros Hp; try discriminate Hp; try pose proof (homogeneous_any h _ Hp) as HH; try (apply pure_two in Hp; destruct Hp as (P1 & P2); pose proof (homogeneous_any h e P1); pose proof (homogeneous_any h f P2)); tauto.
Qed.
Lemma readable_eval e : readable e -> forall h, exists h' v, eval e h = (h', Ok v) /\ evaluated e h h' v /\ forall a, val_value h' v a = value_of [] e a.
Proof.
  intros (H1 & H2 & H3 & H4) h. destruct (pure_eval e H1 H2 h) as (h' & v & E & V). exists h', v. split; auto. split; auto.
  destruct (C47_arithmetic_partial e h H1 (no_uses h e H2)) as (h2 & v2 & E2 & _ & K & _). rewrite E in E2. injection E2 as <- <-. intros a. rewrite K by (now apply plain_any). now apply value_any.
Qed.

(** ** one comparison *)
Lemma max_succ l : l <> [] -> list_max (map S l) = S (list_max l).
Proof.
  induction l as [|x l IH]; intros H; [congruence|]. cbn [map list_max fold_right]. change (fold_right Nat.max 0 ?l) with (list_max l). destruct l as [|y l]; [cbn; lia|]. rewrite IH by discriminate. lia.
Qed.
Lemma coefficients_len e v : good e -> coefficients e = Some v -> length v = ttop (eterms e).
Proof.
  intros (H1 & H2). unfold coefficients. destruct (eterms e) as [|t ts] eqn:E; [congruence|]. rewrite <- E in *. intros Kv. apply (f_equal (fun o => match o with Some u => length u | None => 0 end)) in Kv. cbn beta iota in Kv. rewrite <- Kv. clear Kv.
  assert (K : forall k, In k (map fst (eterms e)) -> k < length (repeat 0%Qc (S (list_max (map fst (eterms e))))) /\ nth k (repeat 0%Qc (S (list_max (map fst (eterms e))))) 0%Qc = 0%Qc).
  { intros k Hk. rewrite repeat_length. split; [|apply nth_zeros]. assert (F : Forall (fun i => i <= list_max (map fst (eterms e))) (map fst (eterms e))) by now apply list_max_le. rewrite Forall_forall in F. apply F in Hk. lia. }
  destruct (row_fold (eterms e) _ zero H2 K) as (_ & ->). rewrite repeat_length. unfold ttop. rewrite <- max_succ, map_map; [reflexivity|]. intros C. apply map_eq_nil in C. congruence.
Qed.
Lemma broadcast_len u v w : broadcast_subtract (Some u) (Some v) = Ok (Some w) -> length w = Nat.max (length u) (length v).
Proof.
  unfold broadcast_subtract. assert (L : length (vopp v) = length v) by apply map_length. destruct (Nat.eqb_spec (length u) (length (vopp v))) as [E|E].
  - intros K. injection K as <-. unfold vadd. rewrite map_length, combine_length. lia.
  - destruct (Nat.ltb_spec (length (vopp v)) (length u)) as [K|K].
    + destruct (pad_right (Some (vopp v)) (length u)) as [x| |] eqn:X; try discriminate. apply pad_right_spec in X. destruct X as (X & _). cbn [bind]. intros Y. injection Y as <-. unfold vadd. rewrite map_length, combine_length. lia.
    + destruct (pad_right (Some u) (length (vopp v))) as [x| |] eqn:X; try discriminate. apply pad_right_spec in X. destruct X as (X & _). cbn [bind]. intros Y. injection Y as <-. unfold vadd. rewrite map_length, combine_length. lia.
Qed.
Lemma generate_row e s o : good e -> good o \/ eterms o = [] -> exists v, generate e s o = Ok (Linear v s (econstant o - econstant e)%Qc) /\
  length v = Nat.max (ttop (eterms e)) (ttop (eterms o)) /\ forall a, row_value v a = (tsum (eterms e) a - tsum (eterms o) a)%Qc.
Proof.
  intros He Ho. destruct (coefficients_good e He) as (u & Eu & _ & Ru). pose proof (coefficients_len e u He Eu) as Lu.
  assert (K : exists w, broadcast_subtract (coefficients e) (coefficients o) = Ok (Some w) /\ length w = Nat.max (ttop (eterms e)) (ttop (eterms o)) /\ forall a, row_value w a = (tsum (eterms e) a - tsum (eterms o) a)%Qc).
  { rewrite Eu. destruct Ho as [Ho|Ho].
    - destruct (coefficients_good o Ho) as (v & Ev & _ & Rv). rewrite Ev. destruct (broadcast_spec u v) as (w & Ew & Rw). exists w. split; auto. split; [rewrite (broadcast_len u v w Ew), Lu; now rewrite (coefficients_len o v Ho Ev)|]. intros a. now rewrite Rw, Ru, Rv.
    - assert (Ec : coefficients o = None) by (unfold coefficients; now rewrite Ho). rewrite Ec. exists u. split; auto. split; [rewrite Ho; unfold ttop at 2; cbn; lia|]. intros a. rewrite Ru, Ho, tsum_nil. ring. }
  destruct K as (w & Ew & Lw & Rw). exists w. unfold generate. rewrite Ew. auto.
Qed.
(** the row of a comparison: up to the sign, left minus right, and the constants the other way round *)
Definition plus_or_minus (t : Qc) : Prop := (t = 1 \/ t = - (1))%Qc.
Lemma equation_parts e a : (equation_value e a - equation_value e zero = tsum (eterms e) a)%Qc /\ (equation_value e zero = econstant e)%Qc.
Proof.
  assert (Z : tsum (eterms e) zero = 0%Qc) by (unfold tsum; induction (eterms e) as [|t ts IH]; [reflexivity|rewrite Sigma_cons, IH; unfold zero; ring]).
  rewrite !equation_tsum, Z. split; ring.
Qed.
Lemma compare_row h c a b : good_heap h -> valid h a -> valid h b -> (exists q, a = VNum q) \/ (exists m, a = VEq m) -> (exists q, b = VNum q) \/ (exists m, b = VEq m) -> ~ ((exists q, a = VNum q) /\ exists q, b = VNum q) ->
  exists v s q t, compare h c a b = Ok (Linear v s q) /\ length v = Nat.max (vtop h a) (vtop h b) /\ plus_or_minus t /\
    (forall st, row_value v st = t * ((val_value h a st - val_value h a zero) - (val_value h b st - val_value h b zero)))%Qc /\ (q = t * (val_value h b zero - val_value h a zero))%Qc /\
    ((t = 1%Qc /\ s = symbol c) \/ (t = (- (1))%Qc /\ s = symbol (mirror c) /\ exists q, a = VNum q)).
Proof.
  intros Hh Ha Hb [(q & ->)|(l & ->)] [(r & ->)|(m & ->)] N; cbn [compare generate_with].
  - destruct N. eauto.
  - destruct (generate_row (get h m) (symbol (mirror c)) (mkequation [] q) (Hh m Hb) (or_intror eq_refl)) as (v & E & L & R). exists v, (symbol (mirror c)), (q - econstant (get h m))%Qc, (- (1))%Qc. split; [exact E|]. cbn [vtop val_value]. split; [rewrite L; cbn [eterms]; unfold ttop at 2; cbn; lia|]. split; [right; reflexivity|]. split; [|split].
    + intros st. rewrite R. cbn [eterms]. rewrite tsum_nil. destruct (equation_parts (get h m) st) as (-> & _). ring.
    + destruct (equation_parts (get h m) zero) as (_ & ->). ring.
    + right. split; auto. split; eauto.
  - destruct (generate_row (get h l) (symbol c) (mkequation [] r) (Hh l Ha) (or_intror eq_refl)) as (v & E & L & R). exists v, (symbol c), (r - econstant (get h l))%Qc, 1%Qc. split; [exact E|]. cbn [vtop val_value]. split; [rewrite L; cbn [eterms]; unfold ttop at 2; cbn; lia|]. split; [left; reflexivity|]. split; [|split].
    + intros st. rewrite R. cbn [eterms]. rewrite tsum_nil. destruct (equation_parts (get h l) st) as (-> & _). ring.
    + destruct (equation_parts (get h l) zero) as (_ & ->). ring.
    + left. split; reflexivity.
  - destruct (generate_row (get h l) (symbol c) (get h m) (Hh l Ha) (or_introl (Hh m Hb))) as (v & E & L & R). exists v, (symbol c), (econstant (get h m) - econstant (get h l))%Qc, 1%Qc. split; [exact E|]. cbn [vtop val_value]. split; [exact L|]. split; [left; reflexivity|]. split; [|split].
    + intros st. rewrite R. destruct (equation_parts (get h l) st) as (-> & _). destruct (equation_parts (get h m) st) as (-> & _). ring.
    + destruct (equation_parts (get h l) zero) as (_ & ->). destruct (equation_parts (get h m) zero) as (_ & ->). ring.
    + left. split; reflexivity.
Qed.

(** ** all rows *)
Definition matches (w : expr * comparison_ * expr) (k : constraint) : Prop :=
  let '(l, c, r) := w in
  exists v s q t, k = Linear v s q /\ well_formed k /\ length v = Nat.max (top l) (top r) /\ plus_or_minus t /\
    (forall st, row_value v st = t * ((value_of [] l st - value_of [] l zero) - (value_of [] r st - value_of [] r zero)))%Qc /\
    (q = t * (intercept r - intercept l))%Qc /\
    (forall st, satisfied k st <-> compared c (value_of [] l st) (value_of [] r st)) /\
    ((t = 1%Qc /\ s = symbol c) \/ (t = (- (1))%Qc /\ s = symbol (mirror c) /\ numeric l = true)).
Lemma build_rows rows : (forall l c r, In (l, c, r) rows -> readable l /\ readable r /\ numeric l && numeric r = false) -> forall h, reachable_heap h ->
  exists h' cs, build rows h = (h', Ok cs) /\ Forall2 matches rows cs.
Proof.
  induction rows as [|((l & c) & r) rows IH]; intros H h Hh; [exists h, []; split; [reflexivity|constructor]|]. cbn [build].
  destruct (H l c r) as (Rl & Rr & N); [now left|].
  destruct (readable_eval l Rl h) as (h1 & a & E1 & [A1 A2 A3 A4 A5 A6 A7] & V1). destruct (readable_eval r Rr h1) as (h2 & b & E2 & [B1 B2 B3 B4 B5 B6 B7] & V2). rewrite E1, E2.
  assert (R2 : reachable_heap h2) by auto. pose proof (reachable_good h2 R2) as G2.
  assert (Ka : (exists q, a = VNum q) \/ (exists m, a = VEq m)) by (destruct a as [q|k|m|]; eauto; [|contradiction]; destruct Rl as (_ & _ & _ & Rl); destruct (Rl k); auto).
  assert (Kb : (exists q, b = VNum q) \/ (exists m, b = VEq m)) by (destruct b as [q|k|m|]; eauto; [|contradiction]; destruct Rr as (_ & _ & _ & Rr); destruct (Rr k); auto).
  assert (Va : valid h2 a) by (destruct a; cbn; auto; lia). assert (Vb : valid h2 b) by (destruct b; cbn; auto; lia).
  assert (Ta : vtop h2 a = top l) by (rewrite <- A6; apply vtop_frame; intros m ->; apply B2; lia).
  assert (Xa : forall st, val_value h2 a st = value_of [] l st) by (intros st; rewrite <- V1; destruct a as [q|k|m|]; auto; cbn [val_value]; rewrite B2 by lia; auto).
  assert (Nn : ~ ((exists q, a = VNum q) /\ exists q, b = VNum q)) by (rewrite <- A4, <- B4; intros (K1 & K2); rewrite K1, K2 in N; discriminate N).
  destruct (compare_row h2 c a b G2 Va Vb Ka Kb Nn) as (v & s & q & t & E & L & T & R & Q & O).
  destruct (compare_total h2 c a b G2 Va Vb) as (k & Ek & Sk).
  { destruct Ka as [(x & Ka)|(x & Ka)]; [right; split; [eauto|destruct Kb as [Kb|(y & ->)]; [destruct Nn; eauto|exact I]]|left; rewrite Ka; split; [exact I|exact Kb]]. }
  rewrite Ek in E. injection E as ->. rewrite Ek. destruct (IH (fun l' c' r' K => H l' c' r' (or_intror K)) h2 R2) as (h3 & ks & E3 & F). rewrite E3. cbn [bind]. exists h3, (Linear v s q :: ks). split; [reflexivity|]. constructor; auto.
  exists v, s, q, t. split; [reflexivity|]. split; [now apply (C49_comparisons_well_formed h2 c a b)|]. split; [rewrite L, Ta, B6; reflexivity|]. split; auto. split; [intros st; rewrite R, !Xa, !V2; reflexivity|]. split; [rewrite Q, Xa, V2; reflexivity|]. split; [intros st; rewrite Sk, Xa, V2; reflexivity|].
  destruct O as [O|(O1 & O2 & O3)]; [now left|right]. split; auto. split; auto. now apply A4.
Qed.
Lemma matches_width rows cs : Forall2 matches rows cs -> width cs = list_max (map (fun lcr => Nat.max (top (fst (fst lcr))) (top (snd lcr))) rows).
Proof.
  intros F. unfold width. f_equal. induction F as [|((l & c) & r) k rows cs M F IH]; cbn [map]; auto. rewrite IH. f_equal. destruct M as (v & s & q & t & -> & _ & L & _). exact L.
Qed.
Lemma matches_in rows cs k : Forall2 matches rows cs -> In k cs -> exists w, In w rows /\ matches w k.
Proof. induction 1 as [|w k' rows cs M F IH]; intros K; [contradiction|]. destruct K as [<-|K]; [exists w; split; [now left|auto]|]. destruct (IH K) as (w' & H1 & H2). exists w'. split; [now right|auto]. Qed.
Lemma matches_out rows cs w : Forall2 matches rows cs -> In w rows -> exists k, In k cs /\ matches w k.
Proof. induction 1 as [|w' k' rows cs M F IH]; intros K; [contradiction|]. destruct K as [<-|K]; [exists k'; split; [now left|auto]|]. destruct (IH K) as (k & H1 & H2). exists k. split; [now right|auto]. Qed.
