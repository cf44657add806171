(** Proofs about the parsers: the matcher recognises the language of the expression; the first match
    of each term is the whole term. *)
From Coq Require Import String Ascii List FinFun Bool Arith ZArith QArith Qcanon Lia.
From Verif Require Import Py ParserModel ParserSpec.
Import ListNotations.
Open Scope nat_scope.
Open Scope list_scope.

(** ** languages *)
Inductive L : re -> text -> Prop :=
| L_chr p c : p c = true -> L (Chr p) [c]
| L_eps : L Eps []
| L_cat a b u v : L a u -> L b v -> L (Cat a b) (u ++ v)
| L_alt1 a b u : L a u -> L (Alt a b) u
| L_alt2 a b u : L b u -> L (Alt a b) u
| L_star0 a : L (Star a) []
| L_star a u v : L a u -> u <> [] -> L (Star a) v -> L (Star a) (u ++ v)
| L_grp a u : L a u -> L (Grp a) u
| L_skip : L Skip [].
Fixpoint no_eol (r : re) : bool :=
  match r with Eol => false | Cat a b | Alt a b => no_eol a && no_eol b | Star a | Grp a => no_eol a | _ => true end.
Lemma star_sound f (P : text -> Prop) : (forall s c t, In (c, t) (f s) -> exists u, s = u ++ t /\ P u) ->
  forall n s c t, In (c, t) (star f n s) -> exists us, s = concat us ++ t /\ forall u, In u us -> u <> [] /\ P u.
Proof.
  intros Hf. induction n as [|n IH]; intros s c t H; cbn [star] in H.
  - destruct H as [H|[]]. injection H as <- <-. exists []. split; auto. intros u [].
  - apply in_app_or in H. destruct H as [H|[H|[]]].
    + apply in_flat_map in H. destruct H as ((c1 & s1) & H1 & H2). cbn [fst snd] in H2. destruct (Nat.ltb_spec (length s1) (length s)) as [Hl|]; [|contradiction].
      apply in_map_iff in H2. destruct H2 as ((c2 & s2) & E & H2). injection E as <- <-. destruct (Hf _ _ _ H1) as (u & -> & Hu). destruct (IH _ _ _ H2) as (us & -> & Hus).
      exists (u :: us). cbn [concat snd]. split; [now rewrite <- app_assoc|]. intros v [<-|Hv]; auto. split; auto. intros ->. simpl in Hl. lia.
    + injection H as <- <-. exists []. split; auto. intros u [].
Qed.
Lemma L_stars a us : (forall u, In u us -> u <> [] /\ L a u) -> L (Star a) (concat us).
Proof. induction us as [|u us IH]; intros H; cbn [concat]; [constructor|]. destruct (H u) as (H1 & H2); [simpl; auto|]. constructor; auto. apply IH. intros; apply H; simpl; auto. Qed.
Lemma star_inv a s : L (Star a) s -> exists us, s = concat us /\ forall u, In u us -> u <> [] /\ L a u.
Proof.
  intros H. remember (Star a) as r eqn:E. induction H; try discriminate E.
  - exists []. split; auto. intros u [].
  - injection E as ->. destruct (IHL2 eq_refl) as (us & -> & Hus). exists (u :: us). split; auto. intros w [<-|Hw]; auto.
Qed.
Lemma run_sound r : no_eol r = true -> forall s c t, In (c, t) (run r s) -> exists u, s = u ++ t /\ L r u.
Proof.
  induction r as [p| |a IHa b IHb|a IHa b IHb|a IHa|a IHa| |]; cbn [no_eol]; intros Hn s c t H; cbn [run] in H; try discriminate Hn.
  - destruct s as [|d s]; [contradiction|]. destruct (p d) eqn:E; [|contradiction]. destruct H as [H|[]]. injection H as <- <-. exists [d]. split; auto. now constructor.
  - destruct H as [H|[]]. injection H as <- <-. exists []. split; auto. constructor.
  - apply andb_true_iff in Hn. destruct Hn as (N1 & N2). apply in_flat_map in H. destruct H as ((c1 & s1) & H1 & H2). apply in_map_iff in H2. destruct H2 as ((c2 & s2) & E & H2). injection E as <- <-.
    destruct (IHa N1 _ _ _ H1) as (u & -> & Hu). destruct (IHb N2 _ _ _ H2) as (v & Ev & Hv). cbn [snd] in *. subst s1. exists (u ++ v). split; [now rewrite app_assoc|]. now constructor.
  - apply andb_true_iff in Hn. destruct Hn as (N1 & N2). apply in_app_or in H. destruct H as [H|H].
    + destruct (IHa N1 _ _ _ H) as (u & -> & Hu). exists u. split; auto. now constructor.
    + destruct (IHb N2 _ _ _ H) as (u & -> & Hu). exists u. split; auto. now constructor.
  - apply (star_sound (run a) (L a) (IHa Hn)) in H. destruct H as (us & -> & Hus). exists (concat us). split; auto. now apply L_stars.
  - apply in_map_iff in H. destruct H as ((c1 & s1) & E & H). injection E as <- <-. destruct (IHa Hn _ _ _ H) as (u & -> & Hu). exists u. split; auto. now constructor.
  - destruct H as [H|[]]. injection H as <- <-. exists []. split; auto. constructor.
Qed.
Lemma star_complete f us : (forall u, In u us -> u <> [] /\ forall t, exists c, In (c, t) (f (u ++ t))) ->
  forall n t, length (concat us) <= n -> exists c, In (c, t) (star f n (concat us ++ t)).
Proof.
  induction us as [|u us IH]; intros Hus n t Hn.
  - exists []. cbn [concat app]. destruct n; cbn [star]; [simpl; auto|]. apply in_or_app. right. simpl. auto.
  - destruct (Hus u) as (H1 & H2); [simpl; auto|]. cbn [concat] in *. rewrite app_length in Hn. destruct u as [|x u]; [congruence|]. destruct n as [|n]; [simpl in Hn; lia|].
    destruct (IH (fun v Hv => Hus v (or_intror Hv)) n t) as (c & Hc); [simpl in Hn; lia|]. rewrite <- app_assoc. destruct (H2 (concat us ++ t)) as (c1 & Hc1).
    exists (c1 ++ c). cbn [star]. apply in_or_app. left. apply in_flat_map. exists (c1, concat us ++ t). split; auto. cbn [fst snd].
    destruct (Nat.ltb_spec (length (concat us ++ t)) (length ((x :: u) ++ concat us ++ t))) as [Hl|Hl]; [|rewrite !app_length in Hl; simpl in Hl; rewrite ?app_length in Hl; lia].
    apply in_map_iff. exists (c, t). split; auto.
Qed.
Lemma run_complete r u : L r u -> no_eol r = true -> forall t, exists c, In (c, t) (run r (u ++ t)).
Proof.
  revert u. induction r as [p| |a IHa b IHb|a IHa b IHb|a IHa|a IHa| |]; cbn [no_eol]; intros u H Hn t; try discriminate Hn.
  - inversion H; subst. exists []. cbn. rewrite H1. simpl. auto.
  - inversion H; subst. exists []. simpl. auto.
  - apply andb_true_iff in Hn. destruct Hn as (N1 & N2). inversion H as [| |? ? u1 u2 Hu1 Hu2| | | | | |]; subst. rewrite <- app_assoc. destruct (IHa _ Hu1 N1 (u2 ++ t)) as (c1 & H1). destruct (IHb _ Hu2 N2 t) as (c2 & H2).
    exists (c1 ++ c2). cbn [run]. apply in_flat_map. exists (c1, u2 ++ t). split; auto. apply in_map_iff. exists (c2, t). auto.
  - apply andb_true_iff in Hn. destruct Hn as (N1 & N2). cbn [run]. inversion H; subst.
    + destruct (IHa u) with (t := t) as (c & Hc); auto. exists c. apply in_or_app. auto.
    + destruct (IHb u) with (t := t) as (c & Hc); auto. exists c. apply in_or_app. auto.
  - apply star_inv in H. destruct H as (us & -> & Hus). cbn [run]. apply star_complete; [|rewrite app_length; lia]. intros v Hv. destruct (Hus v Hv) as (H1 & H2). auto.
  - inversion H; subst. destruct (IHa u) with (t := t) as (c & Hc); auto. eexists. cbn [run]. apply in_map_iff. eexists. split; [|exact Hc]. reflexivity.
  - inversion H; subst. exists [[]]. simpl. auto.
Qed.
(** a pattern that ends with [$] *)
Lemma matches_eol a s : no_eol a = true -> (matches (Cat a Eol) s = true <-> exists u, L a u /\ (s = u \/ s = u ++ [newline])).
Proof.
  intros Hn. unfold matches. split.
  - intros H. destruct (run (Cat a Eol) s) as [|(c & t) l] eqn:E; [discriminate|]. assert (K : In (c, t) (run (Cat a Eol) s)) by (rewrite E; simpl; auto). clear H E l.
    cbn [run] in K. apply in_flat_map in K. destruct K as ((c1 & s1) & H1 & H2). destruct (run_sound a Hn _ _ _ H1) as (u & -> & Hu). exists u. split; auto. cbn [snd] in H2.
    destruct s1 as [|x [|y s1]]; [left; now rewrite app_nil_r| |contradiction]. destruct (Ascii.eqb_spec x newline) as [->|]; [auto|contradiction].
  - intros (u & Hu & Hs). assert (K : exists t, s = u ++ t /\ (t = [] \/ t = [newline])) by (destruct Hs as [->| ->]; [exists []|exists [newline]]; rewrite ?app_nil_r; auto). destruct K as (t & -> & Ht).
    destruct (run_complete a u Hu Hn t) as (c & Hc).
    assert (K : In (also c ([], t)) (run (Cat a Eol) (u ++ t))).
    { cbn [run]. apply in_flat_map. exists (c, t). split; auto. cbn [fst snd]. apply in_map. destruct Ht as [->| ->]; [simpl; auto|]. rewrite Ascii.eqb_refl. simpl. auto. }
    destruct (run (Cat a Eol) (u ++ t)); [contradiction|reflexivity].
Qed.
Lemma matches_cat a r s : matches (Cat a r) s = true <-> exists c t, In (c, t) (run a s) /\ matches r t = true.
Proof.
  unfold matches. cbn [run]. split.
  - destruct (flat_map _ _) as [|k l] eqn:E; [discriminate|]. intros _. assert (K : In k (flat_map (fun r0 => map (also (fst r0)) (run r (snd r0))) (run a s))) by (rewrite E; simpl; auto).
    apply in_flat_map in K. destruct K as ((c & t) & H1 & H2). exists c, t. split; auto. cbn [snd] in H2. destruct (run r t); [contradiction|auto].
  - intros (c & t & H1 & H2). destruct (run r t) as [|k l] eqn:E; [discriminate|].
    assert (K : In (also c k) (flat_map (fun r0 => map (also (fst r0)) (run r (snd r0))) (run a s))) by (apply in_flat_map; exists (c, t); split; auto; cbn [fst snd]; rewrite E; simpl; auto).
    destruct (flat_map _ _); [contradiction|auto].
Qed.
Lemma matches_several a s : no_eol a = true -> (matches (several a) s = true <-> exists u, L (Cat a (Star (Cat (Chr space) a))) u /\ (s = u \/ s = u ++ [newline])).
Proof.
  intros Hn. unfold several. rewrite matches_cat. split.
  - intros (c & t & H1 & H2). apply matches_eol in H2; [|cbn [no_eol]; auto]. destruct H2 as (v & Hv & Ht). apply run_sound in H1; auto. destruct H1 as (u & -> & Hu).
    exists (u ++ v). split; [now constructor|]. destruct Ht as [->| ->]; [auto|]. right. now rewrite app_assoc.
  - intros (w & Hw & Hs). inversion Hw as [| |? ? u v Hu Hv| | | | | |]; subst. assert (K : exists t, s = u ++ v ++ t /\ (t = [] \/ t = [newline])).
    { destruct Hs as [->| ->]; [exists []|exists [newline]]; rewrite ?app_nil_r, ?app_assoc; auto. }
    destruct K as (t & -> & Ht). destruct (run_complete a u Hu Hn (v ++ t)) as (c & Hc). exists c, (v ++ t). split; auto. apply matches_eol; [cbn [no_eol]; auto|].
    exists v. split; auto. destruct Ht as [->| ->]; rewrite ?app_nil_r; auto.
Qed.
Lemma L_several a u : (L (Cat a (Star (Cat (Chr space) a))) u <-> exists ts, (forall t, In t ts -> L a t) /\ spaced ts u).
Proof.
  split.
  - intros H. inversion H as [| |? ? t v Ht Hv| | | | | |]; subst. apply star_inv in Hv. destruct Hv as (us & -> & Hus). clear H. revert t Ht. induction us as [|w us IH]; intros t Ht.
    + exists [t]. rewrite app_nil_r. split; [intros s [<-|[]]; auto|constructor].
    + destruct (Hus w) as (_ & Hw); [simpl; auto|]. inversion Hw as [| |? ? w1 w2 H1 H2| | | | | |]; subst. inversion H1; subst.
      destruct (IH (fun u Hu => Hus u (or_intror Hu)) w2 H2) as (ts & H3 & H4). exists (t :: ts). cbn [concat]. split; [intros s [<-|Hs]; auto|].
      cbn [app]. now constructor.
  - intros (ts & H1 & H2). revert H1. induction H2 as [t|t c ts s Hc Hs IH]; intros H1.
    + rewrite <- (app_nil_r t). constructor; [apply H1; simpl; auto|constructor].
    + assert (K : L (Cat a (Star (Cat (Chr space) a))) s) by (apply IH; intros; apply H1; simpl; auto). inversion K as [| |? ? t' v Ht Hv| | | | | |]; subst.
      constructor; [apply H1; simpl; auto|]. change (c :: t' ++ v) with ((c :: t') ++ v). constructor; auto; [|discriminate]. change (c :: t') with ([c] ++ t'). constructor; auto. now constructor.
Qed.
Lemma L_plus p u : L (plus (Chr p)) u <-> u <> [] /\ forall c, In c u -> p c = true.
Proof.
  unfold plus. split.
  - intros H. inversion H as [| |? ? t v Ht Hv| | | | | |]; subst. inversion Ht; subst. apply star_inv in Hv. destruct Hv as (us & -> & Hus). split; [discriminate|].
    intros d [<-|Hd]; auto. apply in_concat in Hd. destruct Hd as (w & Hw & Hd). destruct (Hus w Hw) as (_ & K). inversion K; subst. destruct Hd as [<-|[]]. auto.
  - intros (Hne & H). destruct u as [|c u]; [congruence|]. change (c :: u) with ([c] ++ u). constructor; [constructor; apply H; simpl; auto|].
    replace u with (concat (map (fun d => [d]) u)) by (clear; induction u as [|d u IH]; cbn; [auto|now rewrite IH]). apply L_stars. intros w Hw. apply in_map_iff in Hw. destruct Hw as (d & <- & Hd).
    split; [discriminate|]. constructor. apply H. simpl. auto.
Qed.
Lemma L_lit c u : L (lit c) u <-> u = [c].
Proof. unfold lit. split; [intros H; inversion H; subst; apply Ascii.eqb_eq in H1; now subst|intros ->; constructor; apply Ascii.eqb_refl]. Qed.
Lemma L_Cat a b w : L (Cat a b) w <-> exists u v, w = u ++ v /\ L a u /\ L b v.
Proof. split; [intros H; inversion H; subst; eauto|intros (u & v & -> & H1 & H2); now constructor]. Qed.
Lemma L_Chr p u : L (Chr p) u <-> exists c, u = [c] /\ p c = true.
Proof. split; [intros H; inversion H; subst; eauto|intros (c & -> & H); now constructor]. Qed.
Lemma L_number u : L number u <-> exists d, decimal_ok d /\ u = decimal_text d.
Proof.
  unfold number. rewrite L_Cat. split.
  - intros (w & v & -> & H1 & H2). apply L_plus in H1. inversion H2 as [| | |? ? ? H3|? ? ? H3| | | |]; subst.
    + apply L_Cat in H3. destruct H3 as (x & f & -> & H3 & H4). apply L_lit in H3. subst x. apply L_plus in H4. exists (mkdecimal w (Some f)). split; [split; auto|reflexivity].
    + inversion H3; subst. exists (mkdecimal w None). split; [split; [exact H1|exact I]|reflexivity].
  - intros (d & (H1 & H2) & ->). exists (whole d), (match fraction d with None => [] | Some f => "."%char :: f end). split; auto. split; [now apply L_plus|].
    destruct (fraction d) as [f|]; [apply L_alt1|apply L_alt2; constructor]. apply L_Cat. exists ["."%char], f. split; auto. split; [now apply L_lit|now apply L_plus].
Qed.

(** ** the four notations *)
Definition body (k : notation) : re :=
  match k with
  | Short => Cat (Chr word) (Chr word)
  | Long => Cat (plus (Chr word)) (Cat (lit "-") (plus (Chr word)))
  | ShortWeighted => Cat (Chr word) (Cat (Chr word) (Cat (lit ":") number))
  | LongWeighted => Cat (plus (Chr word)) (Cat (lit "-") (Cat (plus (Chr word)) (Cat (lit ":") number)))
  end.
Lemma short_Chr t : short_name t <-> L (Chr word) t.
Proof.
  rewrite L_Chr. split.
  - intros ((_ & H) & Hl). destruct t as [|c [|]]; try discriminate Hl. exists c. split; auto. apply H. simpl. auto.
  - intros (c & -> & H). split; auto. split; [discriminate|]. intros d [<-|[]]. auto.
Qed.
Lemma L_body k t : L (body k) t <-> exists e, written k e t.
Proof.
  destruct k; cbn [body written]; rewrite L_Cat.
  - split.
    + intros (u & v & -> & H1 & H2). exists (mkentry u v (mkdecimal [] None)). cbn [left right]. now rewrite !short_Chr.
    + intros (e & H1 & H2 & ->). exists (left e), (right e). now rewrite <- !short_Chr.
  - split.
    + intros (u & v & -> & H1 & H2). apply L_Cat in H2. destruct H2 as (x & w & -> & H2 & H3). apply L_lit in H2. subst x. apply L_plus in H1, H3. now exists (mkentry u w (mkdecimal [] None)).
    + intros (e & H1 & H2 & ->). exists (left e), ("-"%char :: right e). split; auto. split; [now apply L_plus|]. apply L_Cat. exists ["-"%char], (right e). split; auto. split; [now apply L_lit|now apply L_plus].
  - split.
    + intros (u & v & -> & H1 & H2). apply L_Cat in H2. destruct H2 as (w & x & -> & H2 & H3). apply L_Cat in H3. destruct H3 as (y & n & -> & H3 & H4). apply L_lit in H3. subst y. apply L_number in H4. destruct H4 as (d & Hd & ->).
      exists (mkentry u w d). cbn [left right ParserSpec.weight]. now rewrite !short_Chr.
    + intros (e & H1 & H2 & H3 & ->). exists (left e), (right e ++ ":"%char :: decimal_text (ParserSpec.weight e)). split; auto. split; [now apply short_Chr|]. apply L_Cat. eexists _, _. split; [reflexivity|]. split; [now apply short_Chr|].
      apply L_Cat. exists [":"%char], (decimal_text (ParserSpec.weight e)). split; auto. split; [now apply L_lit|]. apply L_number. eauto.
  - split.
    + intros (u & v & -> & H1 & H2). apply L_Cat in H2. destruct H2 as (x & w & -> & H2 & H3). apply L_lit in H2. subst x. apply L_Cat in H3. destruct H3 as (r & y & -> & H3 & H4). apply L_Cat in H4. destruct H4 as (z & n & -> & H4 & H5). apply L_lit in H4. subst z.
      apply L_number in H5. destruct H5 as (d & Hd & ->). apply L_plus in H1, H3. now exists (mkentry u r d).
    + intros (e & H1 & H2 & H3 & ->). eexists (left e), _. split; [reflexivity|]. split; [now apply L_plus|]. apply L_Cat. eexists ["-"%char], _. split; [reflexivity|]. split; [now apply L_lit|].
      apply L_Cat. eexists (right e), _. split; [reflexivity|]. split; [now apply L_plus|]. apply L_Cat. exists [":"%char], (decimal_text (ParserSpec.weight e)). split; auto. split; [now apply L_lit|]. apply L_number. eauto.
Qed.
Lemma no_eol_body k : no_eol (body k) = true. Proof. now destruct k. Qed.
Lemma matches_body k s : matches (several (body k)) s = true <-> exists es, in_notation k es s.
Proof.
  rewrite matches_several by apply no_eol_body. unfold in_notation. split.
  - intros (u & Hu & Hs). apply L_several in Hu. destruct Hu as (ts & H1 & H2). assert (K : exists es, Forall2 (written k) es ts).
    { clear H2. induction ts as [|t ts IH]; [exists []; constructor|]. destruct IH as (es & IH); [intros; apply H1; simpl; auto|]. destruct (proj1 (L_body k t)) as (e & He); [apply H1; simpl; auto|]. exists (e :: es). now constructor. }
    destruct K as (es & K). exists es, ts, u. auto.
  - intros (es & ts & u & H1 & H2 & H3). exists u. split; auto. apply L_several. exists ts. split; auto. intros t Ht. apply L_body. clear - H1 Ht. induction H1; [contradiction|]. destruct Ht as [<-|Ht]; eauto.
Qed.

(** ** the first match *)
Definition stops (p : ascii -> bool) (s : text) : Prop := match s with [] => True | c :: _ => p c = false end.
Definition starts (r : re) (u : text) (c : list text) (rest : text) : Prop := exists zs, run r (u ++ rest) = (c, rest) :: zs.
Lemma starts_cat a b u v c d rest : starts a u c (v ++ rest) -> starts b v d rest -> starts (Cat a b) (u ++ v) (c ++ d) rest.
Proof.
  intros (zs & Hz) (ys & Hy). unfold starts. rewrite <- app_assoc. cbn [run]. rewrite Hz. cbn [flat_map fst snd]. rewrite Hy. cbn [map app]. eexists. reflexivity.
Qed.
Lemma starts_grp a u c rest : starts a u c rest -> starts (Grp a) u (u :: c) rest.
Proof.
  intros (zs & Hz). unfold starts. cbn [run]. rewrite Hz. cbn [map fst snd]. rewrite app_length. replace (length u + length rest - length rest) with (length u) by lia.
  rewrite firstn_app, Nat.sub_diag, firstn_all. cbn [firstn]. rewrite app_nil_r. eexists. reflexivity.
Qed.
Lemma starts_chr p c rest : p c = true -> starts (Chr p) [c] [] rest.
Proof. intros H. exists []. cbn. now rewrite H. Qed.
Lemma starts_lit c rest : starts (lit c) [c] [] rest.
Proof. apply starts_chr, Ascii.eqb_refl. Qed.
Lemma star_class p w rest : (forall c, In c w -> p c = true) -> stops p rest -> forall n, length w <= n -> exists zs, star (run (Chr p)) n (w ++ rest) = ([], rest) :: zs.
Proof.
  induction w as [|c w IH]; intros Hw Hr n Hn.
  - cbn [app]. destruct n; cbn [star]; [eexists; reflexivity|]. destruct rest as [|c rest]; [eexists; reflexivity|]. cbn [stops] in Hr. cbn [run]. rewrite Hr. eexists. reflexivity.
  - destruct n as [|n]; [simpl in Hn; lia|]. destruct (IH (fun d Hd => Hw d (or_intror Hd)) Hr n) as (zs & Hz); [simpl in Hn; lia|]. cbn [app star].
    assert (E : run (Chr p) (c :: w ++ rest) = [([], w ++ rest)]) by (cbn; rewrite Hw by (simpl; auto); reflexivity). rewrite E. cbn [flat_map fst snd].
    destruct (Nat.ltb_spec (length (w ++ rest)) (length (c :: w ++ rest))) as [_|K]; [|simpl in K; lia]. rewrite Hz. eexists. reflexivity.
Qed.
Lemma starts_plus p u rest : u <> [] -> (forall c, In c u -> p c = true) -> stops p rest -> starts (plus (Chr p)) u [] rest.
Proof.
  intros Hne Hu Hr. destruct u as [|c u]; [congruence|]. unfold plus. change (c :: u) with ([c] ++ u). change (@nil text) with (@nil text ++ []). apply starts_cat; [apply starts_chr; apply Hu; simpl; auto|].
  unfold starts. cbn [run]. apply star_class; auto; [intros; apply Hu; simpl; auto|]. rewrite app_length. lia.
Qed.
Lemma dot_not_digit : digit "." = false. Proof. reflexivity. Qed.
Lemma starts_number d rest : decimal_ok d -> stops digit rest -> stops (Ascii.eqb ".") rest -> starts number (decimal_text d) [] rest.
Proof.
  intros ((H1 & H2) & H3) Hr Hd. unfold number, decimal_text. change (@nil text) with (@nil text ++ []). destruct (fraction d) as [f|].
  - destruct H3 as (H3 & H4). apply starts_cat; [apply starts_plus; auto; reflexivity|].
    assert (K : starts (Cat (lit ".") (plus (Chr digit))) ("."%char :: f) [] rest).
    { change ("."%char :: f) with (["."%char] ++ f). change (@nil text) with (@nil text ++ []). apply starts_cat; [apply starts_lit|]. now apply starts_plus. }
    destruct K as (zs & Hz). unfold starts, opt. cbn [run] in Hz |- *. rewrite Hz. eexists. reflexivity.
  - apply starts_cat; [apply starts_plus; auto; cbn [app]; auto|]. unfold starts, opt. cbn [run app]. destruct rest as [|c rest]; [eexists; reflexivity|]. unfold lit. cbn [run]. cbn [stops] in Hd. rewrite Hd. eexists. reflexivity.
Qed.
Definition term_of (k : notation) : re := match k with Short => term_one | Long => term_two | ShortWeighted => term_three | LongWeighted => term_four end.
Definition groups (k : notation) (e : entry) : list text :=
  match k with Short | Long => [left e; right e] | ShortWeighted | LongWeighted => [left e; right e; decimal_text (ParserSpec.weight e)] end.
Lemma space_class c : space c = true -> word c = false /\ digit c = false /\ Ascii.eqb "." c = false /\ c <> "-"%char /\ c <> ":"%char.
Proof. destruct c as [[] [] [] [] [] [] [] []]; cbv; intros H; try discriminate H; repeat split; discriminate. Qed.
Lemma short_chr t : short_name t -> exists c, t = [c] /\ word c = true.
Proof. rewrite short_Chr, L_Chr. auto. Qed.
Lemma starts_term k e t rest : written k e t -> stops word rest -> stops digit rest -> stops (Ascii.eqb ".") rest -> starts (term_of k) t (groups k e) rest.
Proof.
  intros H R1 R2 R3. destruct k; cbn [written term_of groups] in *.
  - destruct H as (H1 & H2 & ->). apply short_chr in H1, H2. destruct H1 as (c & -> & Hc), H2 as (d & -> & Hd). unfold term_one.
    apply (starts_cat _ _ [c] [d] [[c]] [[d]]); apply starts_grp; now apply starts_chr.
  - destruct H as ((H1 & H1') & (H2 & H2') & ->). unfold term_two. apply (starts_cat _ _ (left e) ("-"%char :: right e) [left e] [right e]); [apply starts_grp; apply starts_plus; auto; reflexivity|].
    apply (starts_cat _ _ ["-"%char] (right e) [] [right e]); [apply starts_lit|]. apply starts_grp. now apply starts_plus.
  - destruct H as (H1 & H2 & H3 & ->). apply short_chr in H1, H2. destruct H1 as (c & -> & Hc), H2 as (d & -> & Hd). unfold term_three.
    apply (starts_cat _ _ [c] _ [[c]] [[d]; _]); [apply starts_grp; now apply starts_chr|]. apply (starts_cat _ _ [d] _ [[d]] [_]); [apply starts_grp; now apply starts_chr|].
    apply (starts_cat _ _ [":"%char] _ [] [_]); [apply starts_lit|]. apply starts_grp. now apply starts_number.
  - destruct H as ((H1 & H1') & (H2 & H2') & H3 & ->). unfold term_four. apply (starts_cat _ _ (left e) _ [left e] [right e; _]); [apply starts_grp; apply starts_plus; auto; reflexivity|].
    apply (starts_cat _ _ ["-"%char] _ [] [right e; _]); [apply starts_lit|]. apply (starts_cat _ _ (right e) _ [right e] [_]); [apply starts_grp; apply starts_plus; auto; reflexivity|].
    apply (starts_cat _ _ [":"%char] _ [] [_]); [apply starts_lit|]. apply starts_grp. now apply starts_number.
Qed.
(** nothing starts with a character that is not a word character *)
Lemma run_space k c s : word c = false -> run (term_of k) (c :: s) = [].
Proof. intros H. destruct k; cbn [term_of]; unfold term_one, term_two, term_three, term_four, plus; cbn [run]; rewrite H; reflexivity. Qed.
Lemma run_end k : run (term_of k) [] = []. Proof. destruct k; reflexivity. Qed.
Lemma written_nonempty k e t : written k e t -> t <> [].
Proof. destruct k; cbn [written]; intros H E; subst; decompose [and] H; unfold short_name, name in *; destruct (left e); simpl in *; try discriminate; tauto. Qed.
Lemma findall_step r fuel u c rest : starts r u c rest -> u <> [] -> findall r (S fuel) (u ++ rest) = c :: findall r fuel rest.
Proof.
  intros (zs & Hz) Hu. cbn [findall]. rewrite Hz. destruct (Nat.ltb_spec (length rest) (length (u ++ rest))) as [_|K]; auto. rewrite app_length in K. destruct u; [congruence|]. simpl in K. lia.
Qed.
Lemma findall_nothing r fuel c s : run r (c :: s) = [] -> findall r (S fuel) (c :: s) = findall r fuel s.
Proof. intros H. cbn [findall]. now rewrite H. Qed.
Lemma findall_tail k t fuel : t = [] \/ t = [newline] -> findall (term_of k) fuel t = [].
Proof. intros H. destruct fuel as [|fuel]; auto. destruct H as [->| ->]; cbn [findall]; [now rewrite run_end|]. rewrite run_space by reflexivity. destruct fuel; auto. cbn [findall]. now rewrite run_end. Qed.
Lemma findall_spaced k tl : tl = [] \/ tl = [newline] -> forall ts s es fuel, spaced ts s -> Forall2 (written k) es ts -> length (s ++ tl) < fuel -> findall (term_of k) fuel (s ++ tl) = map (groups k) es.
Proof.
  intros Htl ts s es fuel Hs. revert es fuel. induction Hs as [t|t c ts s Hc Hs IH]; intros es fuel HF Hf.
  - inversion HF as [|e ? es' ? H1 H2]; subst. inversion H2; subst. destruct fuel as [|fuel]; [lia|]. rewrite findall_step with (c := groups k e).
    + cbn [map]. f_equal. now apply findall_tail.
    + apply starts_term; auto; destruct Htl as [->| ->]; reflexivity || exact I.
    + now apply (written_nonempty k e).
  - inversion HF as [|e ? es' ? H1 H2]; subst. destruct fuel as [|[|fuel]]; [lia|rewrite !app_length in Hf; simpl in Hf; lia|]. rewrite <- app_assoc. rewrite findall_step with (c := groups k e).
    + cbn [map app]. f_equal. destruct (space_class c Hc) as (C1 & _). rewrite findall_nothing by now apply run_space. apply IH; auto. pose proof (written_nonempty k e t H1) as Hne. destruct t; [congruence|]. rewrite !app_length in *. simpl in Hf. lia.
    + destruct (space_class c Hc) as (C1 & C2 & C3 & _). apply starts_term; auto.
    + now apply (written_nonempty k e).
Qed.

(** ** the notations exclude each other *)
Definition dashed (k : notation) : bool := match k with Long | LongWeighted => true | _ => false end.
Definition weighted (k : notation) : bool := match k with ShortWeighted | LongWeighted => true | _ => false end.
Lemma word_class c : word c = true -> c <> "-"%char /\ c <> ":"%char.
Proof. intros H. split; intros ->; discriminate H. Qed.
Lemma digit_class c : digit c = true -> c <> "-"%char /\ c <> ":"%char /\ c <> "."%char /\ c <> "+"%char /\ c <> "|"%char /\ c <> "x"%char.
Proof. intros H. repeat split; intros ->; discriminate H. Qed.
Lemma decimal_chars d : decimal_ok d -> ~ In "-"%char (decimal_text d) /\ ~ In ":"%char (decimal_text d).
Proof.
  intros ((_ & H1) & H2). unfold decimal_text. split; intros K; apply in_app_or in K; destruct K as [K|K].
  - apply H1, digit_class in K. tauto.
  - destruct (fraction d) as [f|]; [|contradiction]. destruct K as [K|K]; [discriminate K|]. apply H2, digit_class in K. tauto.
  - apply H1, digit_class in K. tauto.
  - destruct (fraction d) as [f|]; [|contradiction]. destruct K as [K|K]; [discriminate K|]. apply H2, digit_class in K. tauto.
Qed.
Lemma name_chars t : name t -> ~ In "-"%char t /\ ~ In ":"%char t.
Proof. intros (_ & H). split; intros K; apply H, word_class in K; tauto. Qed.
Lemma written_chars k e t : written k e t -> (In "-"%char t <-> dashed k = true) /\ (In ":"%char t <-> weighted k = true).
Proof.
  intros H. destruct k; cbn [written dashed weighted] in *; decompose [and] H; unfold short_name in *; subst; repeat match goal with K : _ /\ _ |- _ => destruct K end;
  repeat match goal with K : name _ |- _ => apply name_chars in K end; repeat match goal with K : decimal_ok _ |- _ => apply decimal_chars in K end; repeat rewrite in_app_iff; simpl; repeat rewrite in_app_iff; simpl;
  split; split; intros; try discriminate; try reflexivity; try tauto; repeat match goal with K : _ \/ _ |- _ => destruct K | K : ":"%char = _ |- _ => discriminate K | K : "-"%char = _ |- _ => discriminate K end; tauto.
Qed.
Lemma in_notation_chars k es s : in_notation k es s -> (In "-"%char s <-> dashed k = true) /\ (In ":"%char s <-> weighted k = true).
Proof.
  intros (ts & s' & HF & Hs & Ht). assert (K : (In "-"%char s' <-> dashed k = true) /\ (In ":"%char s' <-> weighted k = true)).
  { clear Ht. revert es HF. induction Hs as [t|t c ts s0 Hc Hs IH]; intros es HF; inversion HF as [|e ? es' ? H1 H2]; subst.
    - now apply (written_chars k e).
    - destruct (written_chars k e t H1) as (A1 & A2). destruct (IH es' H2) as (B1 & B2). destruct (space_class c Hc) as (_ & _ & _ & C1 & C2).
      rewrite !in_app_iff. cbn [In]. rewrite A1, A2, B1, B2. split; split; try tauto; intros [K|[K|K]]; auto; congruence. }
  destruct Ht as [->| ->]; auto. rewrite !in_app_iff. cbn [In]. destruct K as (K1 & K2). rewrite K1, K2. split; split; try tauto; intros [K|[K|[]]]; auto; discriminate K.
Qed.
Lemma in_notation_unique k k' es es' s : in_notation k es s -> in_notation k' es' s -> k = k'.
Proof.
  intros H H'. apply in_notation_chars in H, H'. destruct H as (H1 & H2), H' as (H3 & H4). rewrite H1 in H3. rewrite H2 in H4.
  destruct k, k'; cbn in *; auto; exfalso; destruct H3 as (H3 & H3'), H4 as (H4 & H4'); try discriminate (H3 eq_refl); try discriminate (H3' eq_refl); try discriminate (H4 eq_refl); try discriminate (H4' eq_refl).
Qed.

(** ** numbers *)
Lemma fold_digits t n : fold_left (fun n c => 10 * n + digit_value c) t n = n * 10 ^ length t + digits_value t.
Proof. revert n. induction t as [|c t IH]; intros n; cbn [fold_left digits_value length Nat.pow]; [lia|]. rewrite IH. unfold digit_value. nia. Qed.
Lemma int_of_digits t : int_of t = digits_value t.
Proof. unfold int_of. rewrite fold_digits. lia. Qed.
Lemma before_dot_digits t r : digits t -> before_dot (t ++ r) = t ++ before_dot r.
Proof.
  intros (_ & H). induction t as [|c t IH]; auto. cbn [app before_dot]. destruct (Ascii.eqb_spec c ".") as [->|_]; [discriminate (H "."%char (or_introl eq_refl))|].
  f_equal. apply IH. intros d Hd. apply H. simpl. auto.
Qed.
Lemma after_dot_digits t r : digits t -> after_dot (t ++ r) = after_dot r.
Proof.
  intros (_ & H). induction t as [|c t IH]; auto. cbn [app after_dot]. destruct (Ascii.eqb_spec c ".") as [->|_]; [discriminate (H "."%char (or_introl eq_refl))|].
  apply IH. intros d Hd. apply H. simpl. auto.
Qed.
Lemma float_of_decimal d : decimal_ok d -> float_of (decimal_text d) = decimal_value d.
Proof.
  intros (H1 & H2). unfold float_of, decimal_text, decimal_value. rewrite before_dot_digits, after_dot_digits by auto. rewrite !int_of_digits. destruct (fraction d) as [f|].
  - cbn [before_dot after_dot Ascii.eqb Bool.eqb]. rewrite app_nil_r. reflexivity.
  - cbn [before_dot after_dot]. rewrite app_nil_r. f_equal.
Qed.

(** ** GraphParser *)
Lemma validation_body s : (matches validation_one s, matches validation_two s, matches validation_three s, matches validation_four s) =
  (matches (several (body Short)) s, matches (several (body Long)) s, matches (several (body ShortWeighted)) s, matches (several (body LongWeighted)) s).
Proof. reflexivity. Qed.
Lemma matches_other k k' es s : in_notation k es s -> k <> k' -> matches (several (body k')) s = false.
Proof. intros H Hk. destruct (matches (several (body k')) s) eqn:E; auto. apply matches_body in E. destruct E as (es' & E). destruct Hk. eapply in_notation_unique; eauto. Qed.
Lemma type_in_notation k es s : in_notation k es s -> get_expression_type s = notation_number k.
Proof.
  intros H. unfold get_expression_type. change validation_one with (several (body Short)). change validation_two with (several (body Long)). change validation_three with (several (body ShortWeighted)).
  change validation_four with (several (body LongWeighted)). assert (K : matches (several (body k)) s = true) by (apply matches_body; eauto).
  destruct k; rewrite ?(matches_other _ Short _ _ H), ?(matches_other _ Long _ _ H), ?(matches_other _ ShortWeighted _ _ H) by discriminate; now rewrite K.
Qed.
Lemma type_cases s : (exists k es, in_notation k es s) \/ (get_expression_type s = (-1)%Z /\ forall k es, ~ in_notation k es s).
Proof.
  destruct (matches (several (body Short)) s) eqn:E1; [left; exists Short; now apply matches_body|].
  destruct (matches (several (body Long)) s) eqn:E2; [left; exists Long; now apply matches_body|].
  destruct (matches (several (body ShortWeighted)) s) eqn:E3; [left; exists ShortWeighted; now apply matches_body|].
  destruct (matches (several (body LongWeighted)) s) eqn:E4; [left; exists LongWeighted; now apply matches_body|].
  right. split.
  - unfold get_expression_type. change validation_one with (several (body Short)). change validation_two with (several (body Long)). change validation_three with (several (body ShortWeighted)).
    change validation_four with (several (body LongWeighted)). now rewrite E1, E2, E3, E4.
  - intros k es H. assert (K : matches (several (body k)) s = true) by (apply matches_body; eauto). destruct k; congruence.
Qed.
Lemma edge_groups k e t : written k e t -> edge_of (1 <? notation_number k)%Z (groups k e) = edge k e.
Proof. intros H. unfold edge_of, edge. destruct k; cbn [groups nth notation_number written] in *; auto; (rewrite float_of_decimal by tauto); reflexivity. Qed.
Lemma findall_notation k es s : in_notation k es s -> findall (term_of k) (S (length s)) s = map (groups k) es.
Proof.
  intros (ts & s' & HF & Hs & Ht). assert (K : exists tl, s = s' ++ tl /\ (tl = [] \/ tl = [newline])) by (destruct Ht as [->| ->]; [exists []|exists [newline]]; rewrite ?app_nil_r; auto).
  destruct K as (tl & -> & Htl). apply findall_spaced with (ts := ts); auto.
Qed.
Lemma parse_graph_ok k es s : in_notation k es (list_ascii_of_string s) -> parse_graph s = Ok (map (edge k) es).
Proof.
  intros H. unfold parse_graph. rewrite (type_in_notation k es) by auto.
  assert (K : (notation_number k =? -1)%Z = false) by now destruct k. rewrite K. f_equal.
  replace (if (notation_number k =? 0)%Z then term_one else if (notation_number k =? 1)%Z then term_two else if (notation_number k =? 2)%Z then term_three else term_four) with (term_of k) by now destruct k.
  rewrite (findall_notation k es) by auto. rewrite map_map. destruct H as (ts & s' & HF & _). clear - HF. induction HF; cbn [map]; auto. f_equal; auto. eapply edge_groups; eauto.
Qed.

(** ** LinearParser: the language *)
Lemma L_summand u : L summand u <-> exists t, summand_ok t /\ u = summand_text t.
Proof.
  unfold summand. rewrite L_Cat. split.
  - intros (n & v & -> & H1 & H2). apply L_number in H1. destruct H1 as (d & Hd & ->). apply L_Cat in H2. destruct H2 as (x & w & -> & H2 & H3). apply L_lit in H2. subst x.
    apply L_Cat in H3. destruct H3 as (y & p & -> & H3 & H4). apply L_lit in H3. subst y. apply L_plus in H4. exists (mksummand d p). split; [split; auto|reflexivity].
  - intros (t & (H1 & H2) & ->). exists (decimal_text (coefficient t)), ("x"%char :: "_"%char :: position t). split; auto. split; [apply L_number; eauto|].
    apply L_Cat. exists ["x"%char], ("_"%char :: position t). split; auto. split; [now apply L_lit|]. apply L_Cat. exists ["_"%char], (position t). split; auto. split; [now apply L_lit|now apply L_plus].
Qed.
Lemma joint_sign c : joint c = true <-> exists g, c = sign_text g.
Proof.
  unfold joint. split.
  - destruct (Ascii.eqb_spec c "+") as [->|]; [now exists Plus|]. destruct (Ascii.eqb_spec c "|") as [->|]; [now exists Bar|]. destruct (Ascii.eqb_spec c "-") as [->|]; [now exists Minus|]. discriminate.
  - intros (g & ->). now destruct g.
Qed.
Definition tail_text (l : list (sign * summand_)) : text := flat_map (fun gt => sign_text (fst gt) :: summand_text (snd gt)) l.
Lemma L_tail u : L (Star (Cat (Chr joint) summand)) u <-> exists l, (forall g t, In (g, t) l -> summand_ok t) /\ u = tail_text l.
Proof.
  split.
  - intros H. apply star_inv in H. destruct H as (us & -> & Hus). induction us as [|w us IH]; [exists []; split; auto; intros g t []|].
    destruct IH as (l & Hl & El); [intros; apply Hus; simpl; auto|]. destruct (Hus w) as (_ & Hw); [simpl; auto|]. apply L_Cat in Hw. destruct Hw as (a & b & -> & H1 & H2).
    apply L_Chr in H1. destruct H1 as (c & -> & Hc). apply joint_sign in Hc. destruct Hc as (g & ->). apply L_summand in H2. destruct H2 as (t & Ht & ->).
    exists ((g, t) :: l). split; [intros g' t' [K|K]; [injection K as <- <-; auto|eauto]|]. cbn [concat]. rewrite El. reflexivity.
  - intros (l & Hl & ->). induction l as [|(g & t) l IH]; [constructor|]. unfold tail_text. cbn [flat_map fst snd]. apply L_star; [|discriminate|apply IH; intros; eapply Hl; simpl; eauto].
    change (sign_text g :: summand_text t) with ([sign_text g] ++ summand_text t). constructor; [constructor; apply joint_sign; eauto|]. apply L_summand. exists t. split; auto. eapply Hl. simpl. eauto.
Qed.
Lemma L_minus u : L (opt (lit "-")) u <-> exists b : bool, u = if b then ["-"%char] else [].
Proof.
  unfold opt. split.
  - intros H. inversion H as [| | |? ? ? H1|? ? ? H1| | | |]; subst; [apply L_lit in H1; subst; now exists true|inversion H1; subst; now exists false].
  - intros ([] & ->); [apply L_alt1, L_lit; auto|apply L_alt2; constructor].
Qed.
Lemma validates s : validate_expression s = true <-> exists e, accepted e s.
Proof.
  unfold validate_expression, linear_validation. rewrite matches_cat. split.
  - intros (c & t & H1 & H2). apply run_sound in H1; auto. destruct H1 as (u & -> & Hu). apply L_minus in Hu. destruct Hu as (b & ->).
    apply matches_cat in H2. destruct H2 as (c2 & t2 & H2 & H3). apply run_sound in H2; auto. destruct H2 as (v & -> & Hv). apply L_summand in Hv. destruct Hv as (f & Hf & ->).
    apply matches_eol in H3; auto. destruct H3 as (w & Hw & Hs). apply L_tail in Hw. destruct Hw as (l & Hl & ->).
    exists (mkexpression b f l). split; [split; auto|]. unfold expression_text. cbn [negative first others]. fold (tail_text l). destruct Hs as [->| ->]; [left|right]; auto. now rewrite <- !app_assoc.
  - intros (e & (Hf & Hl) & Hs). assert (K : exists tl, s = (if negative e then ["-"%char] else []) ++ summand_text (first e) ++ tail_text (others e) ++ tl /\ (tl = [] \/ tl = [newline])).
    { unfold expression_text in Hs. fold (tail_text (others e)) in Hs. destruct Hs as [->| ->]; [exists []|exists [newline]]; rewrite <- ?app_assoc, ?app_nil_r; auto. }
    destruct K as (tl & -> & Htl).
    destruct (run_complete (opt (lit "-")) (if negative e then ["-"%char] else []) (proj2 (L_minus _) (ex_intro _ (negative e) eq_refl)) eq_refl (summand_text (first e) ++ tail_text (others e) ++ tl)) as (c1 & H1).
    eexists _, _. split; [exact H1|]. apply matches_cat.
    destruct (run_complete summand (summand_text (first e)) (proj2 (L_summand _) (ex_intro _ (first e) (conj Hf eq_refl))) eq_refl (tail_text (others e) ++ tl)) as (c2 & H2).
    eexists _, _. split; [exact H2|]. apply matches_eol; auto. exists (tail_text (others e)). split; [apply L_tail; eauto|]. destruct Htl as [->| ->]; rewrite ?app_nil_r; auto.
Qed.

(** ** LinearParser: the terms *)
Definition summand_groups (minus : text) (t : summand_) : list text := [minus; decimal_text (coefficient t); position t].
Definition core : re := Cat (Grp number) (Cat (lit "x") (Cat (lit "_") (Grp (plus (Chr digit))))).
Lemma starts_core t rest : summand_ok t -> stops digit rest -> starts core (summand_text t) [decimal_text (coefficient t); position t] rest.
Proof.
  intros (H1 & H2 & H3) Hr. unfold core, summand_text. apply (starts_cat _ _ (decimal_text (coefficient t)) _ [_] [_]); [apply starts_grp; now apply starts_number|].
  apply (starts_cat _ _ ["x"%char] _ [] [_]); [apply starts_lit|]. apply (starts_cat _ _ ["_"%char] _ [] [_]); [apply starts_lit|]. apply starts_grp. now apply starts_plus.
Qed.
Lemma run_sign c s : c = "+"%char \/ c = "-"%char -> run (Alt (Grp (Alt (lit "+") (lit "-"))) Skip) (c :: s) = [([[c]], s); ([[]], c :: s)].
Proof. assert (E : S (length s) - length s = 1) by lia. intros [->| ->]; cbn -[Nat.sub firstn]; rewrite E; reflexivity. Qed.
Lemma starts_signed c t rest : c = "+"%char \/ c = "-"%char -> summand_ok t -> stops digit rest -> starts linear_term (c :: summand_text t) (summand_groups [c] t) rest.
Proof.
  intros Hc Ht Hr. unfold linear_term. change (c :: summand_text t) with ([c] ++ summand_text t). apply (starts_cat _ _ [c] _ [[c]] [_; _]); [|now apply starts_core].
  unfold starts. cbn [app]. rewrite run_sign by auto. eexists. reflexivity.
Qed.
Lemma starts_unsigned t rest : summand_ok t -> stops digit rest -> starts linear_term (summand_text t) (summand_groups [] t) rest.
Proof.
  intros Ht Hr. unfold linear_term. apply (starts_cat _ _ [] _ [[]] [_; _]); [|now apply starts_core]. unfold starts. cbn [app].
  destruct Ht as (((Hn & Hd) & _) & _). unfold summand_text, decimal_text. destruct (whole (coefficient t)) as [|c w]; [congruence|]. assert (D : digit c = true) by (apply Hd; simpl; auto).
  apply digit_class in D. cbn [app run]. unfold lit. cbn [run]. destruct (Ascii.eqb_spec "+" c); [subst; tauto|]. destruct (Ascii.eqb_spec "-" c); [subst; tauto|]. cbn [app map]. eexists. reflexivity.
Qed.
Lemma run_term_none c s : c <> "+"%char -> c <> "-"%char -> digit c = false -> run linear_term (c :: s) = [].
Proof.
  intros H1 H2 H3. unfold linear_term, number, plus. cbn [run]. unfold lit. cbn [run]. destruct (Ascii.eqb_spec "+" c); [subst; tauto|]. destruct (Ascii.eqb_spec "-" c); [subst; tauto|].
  cbn [app map flat_map fst snd]. rewrite H3. reflexivity.
Qed.
Lemma run_term_end : run linear_term [] = []. Proof. reflexivity. Qed.
Lemma summand_nonempty t : summand_ok t -> summand_text t <> [].
Proof. intros _. unfold summand_text. destruct (decimal_text (coefficient t)); discriminate. Qed.
Lemma tail_stops l tl : (tl = [] \/ tl = [newline]) -> stops digit (tail_text l ++ tl).
Proof. intros H. destruct l as [|(g & t) l]; cbn; [destruct H as [->| ->]; [exact I|reflexivity]|]. now destruct g. Qed.
Definition sign_group (g : sign) : text := match g with Plus => ["+"%char] | Minus => ["-"%char] | Bar => [] end.
Lemma findall_tail_text tl : (tl = [] \/ tl = [newline]) -> forall l fuel, (forall g t, In (g, t) l -> summand_ok t) -> length (tail_text l ++ tl) < fuel ->
  findall linear_term fuel (tail_text l ++ tl) = map (fun gt => summand_groups (sign_group (fst gt)) (snd gt)) l.
Proof.
  intros Htl. induction l as [|(g & t) l IH]; intros fuel Hl Hf.
  - cbn [tail_text flat_map app map]. destruct fuel as [|[|fuel]]; auto.
    + destruct Htl as [->| ->]; [reflexivity|simpl in Hf; lia].
    + destruct Htl as [->| ->]; [cbn [findall]; now rewrite run_term_end|]. rewrite findall_nothing by now apply run_term_none. cbn [findall]. now rewrite run_term_end.
  - assert (Ht : summand_ok t) by (eapply Hl; simpl; eauto). assert (E : tail_text ((g, t) :: l) ++ tl = (sign_text g :: summand_text t) ++ (tail_text l ++ tl)) by (unfold tail_text; cbn [flat_map fst snd]; now rewrite <- app_assoc).
    rewrite E in *. rewrite app_length in Hf. cbn [map fst snd]. pose proof (summand_nonempty t Ht) as Hne. assert (Hpos : 1 <= length (summand_text t)) by (destruct (summand_text t); [congruence|simpl; lia]). cbn [length] in Hf.
    assert (IH' : forall fuel, length (tail_text l ++ tl) < fuel -> findall linear_term fuel (tail_text l ++ tl) = map (fun gt => summand_groups (sign_group (fst gt)) (snd gt)) l) by (intros; apply IH; auto; intros; eapply Hl; simpl; eauto).
    destruct g; cbn [sign_text sign_group].
    + destruct fuel as [|fuel]; [lia|]. rewrite findall_step with (c := summand_groups ["+"%char] t); [f_equal; apply IH'; lia| |discriminate]. apply starts_signed; auto. now apply tail_stops.
    + destruct fuel as [|fuel]; [lia|]. rewrite findall_step with (c := summand_groups ["-"%char] t); [f_equal; apply IH'; lia| |discriminate]. apply starts_signed; auto. now apply tail_stops.
    + destruct fuel as [|[|fuel]]; [lia|lia|]. cbn [app]. rewrite findall_nothing by now apply run_term_none. rewrite findall_step with (c := summand_groups [] t); [f_equal; apply IH'; lia| |auto]. apply starts_unsigned; auto. now apply tail_stops.
Qed.
Lemma findall_expression e s : accepted e s ->
  findall linear_term (S (length s)) s = summand_groups (if negative e then ["-"%char] else []) (first e) :: map (fun gt => summand_groups (sign_group (fst gt)) (snd gt)) (others e).
Proof.
  intros ((Hf & Hl) & Hs). assert (K : exists tl, s = (if negative e then ["-"%char] else []) ++ summand_text (first e) ++ tail_text (others e) ++ tl /\ (tl = [] \/ tl = [newline])).
  { unfold expression_text in Hs. fold (tail_text (others e)) in Hs. destruct Hs as [->| ->]; [exists []|exists [newline]]; rewrite <- ?app_assoc, ?app_nil_r; auto. }
  destruct K as (tl & -> & Htl). pose proof (summand_nonempty _ Hf) as Hne. assert (Hpos : 1 <= length (summand_text (first e))) by (destruct (summand_text (first e)); [congruence|simpl; lia]).
  destruct (negative e); cbn [app].
  - change ("-"%char :: summand_text (first e) ++ tail_text (others e) ++ tl) with (("-"%char :: summand_text (first e)) ++ tail_text (others e) ++ tl).
    rewrite findall_step with (c := summand_groups ["-"%char] (first e)); [|apply starts_signed; auto; now apply tail_stops|discriminate]. f_equal. apply findall_tail_text; auto. rewrite (app_length (_ :: _)). cbn [length]. lia.
  - rewrite findall_step with (c := summand_groups [] (first e)); [|apply starts_unsigned; auto; now apply tail_stops|auto]. f_equal. apply findall_tail_text; auto. rewrite (app_length (summand_text _)). lia.
Qed.

(** ** LinearParser: the result *)
Definition term_value (info : list text) : nat * Qc :=
  (int_of (nth 2 info []), match nth 0 info [] with ["-"%char] => (- float_of (nth 1 info []))%Qc | _ => float_of (nth 1 info []) end).
Lemma terms_values e s : accepted e s -> map term_value (findall linear_term (S (length s)) s) = terms e.
Proof.
  intros H. rewrite (findall_expression e) by auto. destruct H as ((Hf & Hl) & _). unfold terms. cbn [map]. f_equal.
  - unfold term_value, summand_groups. cbn [nth]. rewrite int_of_digits, float_of_decimal by apply Hf. now destruct (negative e).
  - rewrite map_map. apply map_ext_in. intros (g & t) Hin. destruct (Hl g t Hin) as (H1 & H2). unfold term_value, summand_groups. cbn [nth fst snd]. rewrite int_of_digits, float_of_decimal by auto. now destruct g.
Qed.
Definition key (i : nat) : Z := (Z.of_nat i - 1)%Z.
Lemma key_inj i j : key i = key j -> i = j. Proof. unfold key. lia. Qed.
Definition keyed (ts : list (nat * Qc)) : list (Z * Qc) := map (fun t => (key (fst t), snd t)) ts.
Lemma dset_new (d : list (Z * Qc)) k v : ~ In k (dkeys d) -> dset Z.eqb k v d = d ++ [(k, v)].
Proof. induction d as [|(k0 & v0) d IH]; cbn [dset app dkeys map fst In]; auto. intros H. destruct (Z.eqb_spec k k0) as [->|]; [tauto|]. f_equal. apply IH. tauto. Qed.
Definition longest (ts : list (nat * Qc)) (len : Z) : Z := fold_left (fun l t => if (key (fst t) >? l)%Z then key (fst t) else l) ts len.
Lemma collect_ok infos data len : NoDup (dkeys data ++ map (fun t => key (fst t)) (map term_value infos)) ->
  collect infos data len = Ok (data ++ keyed (map term_value infos), longest (map term_value infos) len).
Proof.
  revert data len. induction infos as [|info infos IH]; intros data len H; cbn [collect map longest fold_left keyed].
  - now rewrite app_nil_r.
  - cbn [map fst] in H. set (t := term_value info) in *. assert (Hk : ~ In (key (fst t)) (dkeys data)) by (apply NoDup_remove_2 in H; intros K; apply H; apply in_or_app; auto).
    change (Z.of_nat (int_of (nth 2 info [])) - 1)%Z with (key (fst t)). destruct (dmem Z.eqb (key (fst t)) data) eqn:E; [apply (dmem_keys Z.eqb Z.eqb_spec) in E; contradiction|].
    rewrite dset_new by auto. change (match nth 0 info [] with ["-"%char] => (- float_of (nth 1 info []))%Qc | _ => float_of (nth 1 info []) end) with (snd t). rewrite IH.
    + rewrite <- app_assoc. reflexivity.
    + unfold dkeys. rewrite map_app. cbn [map fst]. rewrite <- app_assoc. exact H.
Qed.
Lemma collect_duplicate infos data len : NoDup (dkeys data) -> ~ NoDup (dkeys data ++ map (fun t => key (fst t)) (map term_value infos)) -> collect infos data len = Raise PlainException.
Proof.
  revert data len. induction infos as [|info infos IH]; intros data len Hd H; cbn [collect].
  - destruct H. cbn [map]. now rewrite app_nil_r.
  - cbn [map] in H. set (t := term_value info) in *. change (Z.of_nat (int_of (nth 2 info [])) - 1)%Z with (key (fst t)). destruct (dmem Z.eqb (key (fst t)) data) eqn:E; auto.
    assert (Hk : ~ In (key (fst t)) (dkeys data)) by (intros K; apply (dmem_keys Z.eqb Z.eqb_spec) in K; congruence). rewrite dset_new by auto. apply IH.
    + unfold dkeys. rewrite map_app. cbn [map fst]. apply NoDup_rev in Hd. rewrite <- (rev_involutive (_ ++ [_])). apply NoDup_rev. rewrite rev_app_distr. cbn [rev app]. constructor; auto. rewrite <- in_rev. auto.
    + intros K. apply H. unfold dkeys in K. rewrite map_app in K. cbn [map fst] in K. rewrite <- app_assoc in K. exact K.
Qed.
Lemma longest_spec ts len : (-1 <= len)%Z -> longest ts len = Z.max len (Z.of_nat (largest ts) - 1).
Proof.
  revert len. unfold longest, largest. induction ts as [|(i & v) ts IH]; intros len Hl; cbn [fold_left map list_max fold_right]; [lia|]. cbn [fst]. fold (list_max (map fst ts)). rewrite IH.
  - unfold key. rewrite Z.gtb_ltb. destruct (Z.ltb_spec len (Z.of_nat i - 1)); lia.
  - unfold key. destruct (_ >? _)%Z; lia.
Qed.
Lemma put_length v i x : length (put v i x) = length v.
Proof. revert i. induction v as [|y v IH]; intros [|i]; cbn; auto. Qed.
Lemma put_nth v i x j : i < length v -> nth j (put v i x) 0%Qc = if j =? i then x else nth j v 0%Qc.
Proof. revert i j. induction v as [|y v IH]; intros [|i] [|j] H; cbn in *; auto; try lia. apply IH. lia. Qed.
Lemma fill_ok ts v : NoDup (map fst ts) -> (forall i x, In (i, x) ts -> 1 <= i <= length v) -> exists r, fill (keyed ts) v = Ok r /\ length r = length v /\
  (forall i x, In (i, x) ts -> nth (i - 1) r 0%Qc = x) /\ (forall j, (forall x, ~ In (S j, x) ts) -> nth j r 0%Qc = nth j v 0%Qc).
Proof.
  revert v. induction ts as [|(i & x) ts IH]; intros v Hn Hi; cbn [keyed map fill fst snd].
  - exists v. repeat split; auto. intros i x [].
  - inversion Hn as [|? ? N1 N2]; subst. destruct (Hi i x) as (I1 & I2); [simpl; auto|]. unfold key at 1 2. destruct (Z.ltb_spec (Z.of_nat i - 1) 0); [lia|].
    destruct (Z.ltb_spec (key i) 0) as [K|_]; [unfold key in K; lia|]. destruct (Z.leb_spec (Z.of_nat (length v)) (key i)) as [K|_]; [unfold key in K; lia|]. cbn [orb].
    replace (Z.to_nat (key i)) with (i - 1) by (unfold key; lia). fold (keyed ts). destruct (IH (put v (i - 1) x)) as (r & R1 & R2 & R3 & R4); auto.
    { intros j y Hj. rewrite put_length. eapply Hi. simpl. eauto. }
    rewrite put_length in R2. exists r. split; [exact R1|]. split; auto. split.
    + intros j y [K|K]; [|eauto]. injection K as <- <-. rewrite R4; [rewrite put_nth by lia; now rewrite Nat.eqb_refl|]. intros y Hy. replace (S (i - 1)) with i in Hy by lia. apply N1. apply in_map_iff. exists (i, y). auto.
    + intros j Hj. rewrite R4; [|intros y Hy; apply (Hj y); simpl; auto]. rewrite put_nth by lia. destruct (Nat.eqb_spec j (i - 1)) as [->|]; auto. destruct (Hj x). left. f_equal. lia.
Qed.
Lemma fill_range ts v : (forall i x, In (i, x) ts -> 1 <= i) -> (exists i x, In (i, x) ts /\ length v < i) -> fill (keyed ts) v = Raise IndexError.
Proof.
  revert v. induction ts as [|(i & x) ts IH]; intros v H1 (j & y & Hj & Hl); [contradiction|]. cbn [keyed map fill fst snd]. assert (I : 1 <= i) by (eapply H1; simpl; eauto).
  destruct (Z.ltb_spec (key i) 0) as [K|_]; [unfold key in K; lia|]. destruct (Z.ltb_spec (key i) 0) as [K|_]; [unfold key in K; lia|]. cbn [orb]. destruct (Z.leb_spec (Z.of_nat (length v)) (key i)) as [K|K]; auto.
  fold (keyed ts). apply IH; [intros; eapply H1; simpl; eauto|]. rewrite put_length. destruct Hj as [E|Hj]; [injection E as <- <-; unfold key in K; lia|eauto].
Qed.
Lemma NoDup_keys ts : NoDup (map fst ts) <-> NoDup (map (fun t : nat * Qc => key (fst t)) ts).
Proof.
  rewrite <- (map_map fst key). split; intros H.
  - apply FinFun.Injective_map_NoDup; auto. intros a b. apply key_inj.
  - now apply NoDup_map_inv in H.
Qed.
Lemma parse_linear_not s size : (forall e, ~ accepted e (list_ascii_of_string s)) -> parse_linear s size = Raise PlainException.
Proof.
  intros H. unfold parse_linear. destruct (validate_expression (list_ascii_of_string s)) eqn:E; auto. apply validates in E. destruct E as (e & E). destruct (H e E).
Qed.
Lemma parse_linear_duplicate s e size : accepted e (list_ascii_of_string s) -> ~ NoDup (map fst (terms e)) -> parse_linear s size = Raise PlainException.
Proof.
  intros H Hn. unfold parse_linear. rewrite (proj2 (validates _)) by eauto. rewrite collect_duplicate; auto; [constructor|]. cbn [dkeys map app]. rewrite (terms_values e) by auto. now rewrite <- NoDup_keys.
Qed.
Lemma fill_exact ts : forall v, 1 <= length v -> (forall i x, In (i, x) ts -> i <= length v) ->
  exists r, fill (keyed ts) v = Ok r /\ length r = length v /\
    forall j, j < length v -> nth j r 0%Qc = fold_left (fun x iv => if Nat.eqb (lands (length v) (fst iv)) j then snd iv else x) ts (nth j v 0%Qc).
Proof.
  induction ts as [|(i & x) ts IH]; intros v Hv Hi; cbn [keyed map fill fst snd fold_left].
  - exists v. auto.
  - assert (Bi : i <= length v) by (eapply Hi; simpl; eauto).
    set (k := (if (key i <? 0)%Z then (key i + Z.of_nat (length v))%Z else key i)).
    assert (Ek : Z.to_nat k = lands (length v) i /\ (0 <= k < Z.of_nat (length v))%Z).
    { unfold k, key, lands. destruct (Z.ltb_spec (Z.of_nat i - 1) 0); destruct i; lia. }
    destruct Ek as (Ek & Bk). destruct (Z.ltb_spec k 0); [lia|]. destruct (Z.leb_spec (Z.of_nat (length v)) k); [lia|]. cbn [orb]. rewrite Ek.
    destruct (IH (put v (lands (length v) i) x)) as (r & R1 & R2 & R3); rewrite ?put_length; auto.
    { intros i' x' H'. apply (Hi i' x'). now right. }
    rewrite put_length in *. exists r. split; auto. split; auto. intros j Hj. rewrite R3 by auto. rewrite put_nth by lia. rewrite (Nat.eqb_sym j). reflexivity.
Qed.
Lemma fill_fails ts : forall v, (length v = 0 /\ ts <> []) \/ (exists i x, In (i, x) ts /\ length v < i) -> fill (keyed ts) v = Raise IndexError.
Proof.
  induction ts as [|(i & x) ts IH]; intros v H; [destruct H as [(_ & H)|(i & x & [] & _)]; congruence|]. cbn [keyed map fill fst snd].
  set (k := (if (key i <? 0)%Z then (key i + Z.of_nat (length v))%Z else key i)).
  destruct (Z.ltb_spec k 0) as [K|K]; [reflexivity|]. destruct (Z.leb_spec (Z.of_nat (length v)) k) as [K'|K']; [reflexivity|]. cbn [orb].
  apply IH. rewrite put_length. destruct H as [(H & _)|(i' & x' & [E|H] & L)]; [lia| |right; eauto].
  injection E as -> ->. exfalso. unfold k, key in *. destruct (Z.ltb_spec (Z.of_nat i' - 1) 0); lia.
Qed.
Lemma parse_linear_accepted s e size : accepted e (list_ascii_of_string s) -> NoDup (map fst (terms e)) ->
  parse_linear s size = let n := match size with None => Z.max 1 (Z.of_nat (largest (terms e))) | Some n => n end in if (n <? 0)%Z then Raise ValueError else fill (keyed (terms e)) (repeat 0%Qc (Z.to_nat n)).
Proof.
  intros H Hn. unfold parse_linear. rewrite (proj2 (validates _)) by eauto. rewrite collect_ok; [|cbn [dkeys map app]; rewrite (terms_values e) by auto; now apply NoDup_keys].
  rewrite (terms_values e) by auto. cbn [bind fst snd app]. rewrite longest_spec by lia. cbv zeta. replace (Z.max 0 (Z.of_nat (largest (terms e)) - 1) + 1)%Z with (Z.max 1 (Z.of_nat (largest (terms e)))) by lia. reflexivity.
Qed.
Lemma in_largest ts i v : In (i, v) ts -> i <= largest ts.
Proof. intros H. unfold largest. assert (K : Forall (fun k => k <= list_max (map fst ts)) (map fst ts)) by now apply list_max_le. rewrite Forall_forall in K. apply K. apply in_map_iff. exists (i, v). auto. Qed.
Lemma largest_in ts : ts <> [] -> exists v, In (largest ts, v) ts.
Proof.
  unfold largest. induction ts as [|(i & v) ts IH]; [congruence|]. intros _. cbn [map list_max fold_right fst]. fold (list_max (map fst ts)). destruct (Nat.max_spec i (list_max (map fst ts))) as [(Hl & ->)|(Hl & ->)]; [|exists v; simpl; auto].
  destruct ts as [|t ts]; [cbn in Hl; lia|]. destruct IH as (w & Hw); [discriminate|]. exists w. simpl. auto.
Qed.
Lemma repeat_nth n j : nth j (repeat 0%Qc n) 0%Qc = 0%Qc.
Proof. revert j. induction n; intros [|j]; cbn; auto. Qed.
Lemma parse_linear_ok s e size n : accepted e (list_ascii_of_string s) -> NoDup (map fst (terms e)) -> (forall i v, In (i, v) (terms e) -> 1 <= i) ->
  match size with None => n = largest (terms e) | Some z => z = Z.of_nat n /\ largest (terms e) <= n end ->
  exists r, parse_linear s size = Ok r /\ length r = n /\ placed (terms e) r.
Proof.
  intros H Hn H1 Hs. rewrite (parse_linear_accepted s e) by auto. assert (T : terms e <> []) by discriminate. destruct (largest_in _ T) as (w & Hw). pose proof (H1 _ _ Hw) as Hpos.
  cbv zeta. assert (E : match size with None => Z.max 1 (Z.of_nat (largest (terms e))) | Some z => z end = Z.of_nat n) by (destruct size as [z|]; [tauto|subst; lia]). rewrite E.
  destruct (Z.ltb_spec (Z.of_nat n) 0); [lia|]. rewrite Nat2Z.id. assert (B : largest (terms e) <= n) by (destruct size; [tauto|lia]).
  destruct (fill_ok (terms e) (repeat 0%Qc n)) as (r & R1 & R2 & R3 & R4); auto.
  { intros i x Hi. rewrite repeat_length. split; [eauto|]. apply in_largest in Hi. lia. }
  rewrite repeat_length in R2. exists r. split; auto. split; auto. split.
  - intros i v Hi. split; [eauto|]. split; [rewrite R2; apply in_largest in Hi; lia|auto].
  - intros j Hj. rewrite R4 by auto. apply repeat_nth.
Qed.
