(** Reading back the printed form of a program. *)
From Coq Require Import String Ascii List Bool Arith ZArith QArith Qcanon Qround Lia Sorted.
From Verif Require Import Py QcTac QInt ComparatorModel MatTheory LinearModel LinearSpec LinearProofs BasicModel PolyProofs TextModel TextSpec TextProofs.
Import ListNotations.
Open Scope nat_scope.
Open Scope string_scope.
Open Scope list_scope.

Lemma Forall2_length {A B} (R : A -> B -> Prop) l m : Forall2 R l m -> length l = length m.
Proof. induction 1; cbn; auto. Qed.
(** ** pieces, words *)
Lemma split_on_free c a : ~ In c a -> split_on c a = [a].
Proof.
  induction a as [|x a IH]; intros H; cbn [split_on]; [reflexivity|]. destruct (Z.eqb_spec x c) as [E|E]; [destruct H; now left|].
  rewrite IH by (intros I; apply H; now right). reflexivity.
Qed.
Lemma split_on_cut c a b : ~ In c a -> split_on c (a ++ c :: b) = a :: split_on c b.
Proof.
  induction a as [|x a IH]; intros H; cbn [app split_on]; [now rewrite Z.eqb_refl|].
  destruct (Z.eqb_spec x c) as [E|E]; [destruct H; now left|]. rewrite IH; auto. intros I. apply H. now right.
Qed.
Lemma words_space t : words (32%Z :: t) = words t.
Proof. reflexivity. Qed.
Lemma words_spaces n t : words (spaces n ++ t) = words t.
Proof. induction n as [|n IH]; [reflexivity|]. cbn [spaces repeat app]. rewrite words_space. exact IH. Qed.
Lemma words_only_spaces n : words (spaces n) = [].
Proof. rewrite <- (app_nil_r (spaces n)), words_spaces. reflexivity. Qed.
Lemma words_cut a t : a <> [] -> ~ In 32%Z a -> words (a ++ 32%Z :: t) = a :: words t.
Proof. intros N H. unfold words. rewrite split_on_cut by auto. cbn [filter]. destruct a; [congruence|reflexivity]. Qed.
Lemma words_one a : a <> [] -> ~ In 32%Z a -> words a = [a].
Proof. intros N H. unfold words. rewrite split_on_free by auto. cbn [filter]. destruct a; [congruence|reflexivity]. Qed.
Lemma words_trail a n : a <> [] -> ~ In 32%Z a -> words (a ++ spaces n) = [a].
Proof. intros N H. destruct n as [|n]; [rewrite app_nil_r; now apply words_one|]. cbn [spaces repeat]. rewrite words_cut by auto. rewrite words_only_spaces. reflexivity. Qed.

(** ** formatted numbers *)
Definition fmt (x : Qc) (f : printed) : Prop := formatted x (ptext f) (pint f) (pdec f).
Lemma fmt_free x f c : fmt x f -> ~ plain_char c -> ~ In c (ptext f).
Proof. intros H N I. apply N, (f_chars _ _ _ _ H), I. Qed.
Lemma fmt_nonempty x f : fmt x f -> ptext f <> [].
Proof. intros H E. destruct (f_parts _ _ _ _ H) as (a & r & P & _). rewrite E in P. destruct a; discriminate P. Qed.
Lemma fmt_32 x f : fmt x f -> ~ In 32%Z (ptext f). Proof. intros H. apply (fmt_free x); auto. unfold plain_char. lia. Qed.
Lemma mapM_format l : exists fs, mapM format_number l = Ok fs /\ Forall2 fmt l fs.
Proof.
  induction l as [|x l (fs & E & F)]; [exists []; split; [reflexivity|constructor]|].
  destruct (format_spec x) as (t & i & d & Ef & Hf). exists ((t, i, d) :: fs). cbn [mapM]. rewrite Ef. cbn [bind]. rewrite E. cbn [bind]. split; [reflexivity|]. constructor; auto.
Qed.
Lemma mapM_rows A : exists fs, mapM (mapM format_number) A = Ok fs /\ Forall2 (Forall2 fmt) A fs.
Proof.
  induction A as [|x l (fs & E & F)]; [exists []; split; [reflexivity|constructor]|].
  destruct (mapM_format x) as (g & Eg & Hg). exists (g :: fs). cbn [mapM]. rewrite Eg. cbn [bind]. rewrite E. cbn [bind]. split; [reflexivity|]. constructor; auto.
Qed.
Lemma read_fmts l fs : Forall2 fmt l fs -> exists vs, read_numbers (map ptext fs) = Some vs /\ Forall2 shown_as vs l.
Proof.
  induction 1 as [|x f l fs H _ (vs & E & S)]; [exists []; split; [reflexivity|constructor]|].
  destruct (f_read _ _ _ _ H) as (v & V1 & V2 & _). exists (v :: vs). cbn [map read_numbers]. rewrite V1, E. split; [reflexivity|]. constructor; auto.
Qed.
Lemma cell_text I D x f : fmt x f -> cell I D f = spaces (I - pint f) ++ ptext f ++ spaces (D - pdec f).
Proof.
  intros H. destruct (f_parts _ _ _ _ H) as (a & r & P & La & Lr & _ & _). unfold cell. rewrite P, <- La, <- Lr.
  assert (F : firstn (length a + 1) (a ++ dot :: r) = a ++ [dot]).
  { rewrite firstn_app. replace (length a + 1 - length a)%nat with 1%nat by lia. rewrite firstn_all2 by lia. reflexivity. }
  rewrite F. f_equal. destruct (Nat.eqb_spec (length r) 0) as [E|E].
  - destruct r; [|discriminate E]. cbn [length]. rewrite Nat.sub_0_r. reflexivity.
  - unfold last_chars. rewrite app_length. cbn [length]. replace (length a + S (length r) - length r)%nat with (length (a ++ [dot])) by (rewrite app_length; cbn; lia).
    replace (a ++ dot :: r) with ((a ++ [dot]) ++ r) by (rewrite <- app_assoc; reflexivity). rewrite skipn_app, skipn_all, Nat.sub_diag. cbn [skipn app]. rewrite <- !app_assoc. reflexivity.
Qed.
Lemma cells_words : forall l fs ws, Forall2 fmt l fs -> length ws = length fs -> words (row_cells ws fs) = map ptext fs.
Proof.
  unfold row_cells. induction l as [|x l IH]; intros fs ws F L; inversion F; subst; destruct ws as [|w ws]; try discriminate L; [reflexivity|].
  cbn [combine map join fst snd]. rewrite (cell_text _ _ x) by auto. pose proof (fmt_nonempty _ _ H1) as N. pose proof (fmt_32 _ _ H1) as S.
  destruct l as [|x' l]; inversion H3; subst; destruct ws as [|w' ws]; try discriminate L.
  - cbn [combine map join]. rewrite words_spaces. rewrite words_trail by auto. reflexivity.
  - specialize (IH (y0 :: l'0) (w' :: ws) H3 ltac:(cbn in *; lia)). cbn [combine map] in *. cbn [join] in *.
    set (rest := match map _ (combine ws l'0) with [] => _ | _ => _ end) in *. clearbody rest. rewrite <- !app_assoc. rewrite words_spaces.
    transitivity (words (ptext y ++ 32%Z :: spaces (snd w - pdec y) ++ 32%Z :: rest)).
    + f_equal. f_equal. clear. generalize (snd w - pdec y). intros k. induction k as [|k IH]; [reflexivity|]. cbn [spaces repeat app]. f_equal. exact IH.
    + rewrite words_cut by auto. rewrite words_spaces, words_space. rewrite IH. reflexivity.
Qed.
Lemma In_spaces c n : In c (spaces n) -> c = 32%Z.
Proof. intros H. now apply repeat_spec in H. Qed.
Lemma In_cells : forall l fs ws c, Forall2 fmt l fs -> In c (row_cells ws fs) -> c = 32%Z \/ plain_char c.
Proof.
  unfold row_cells. induction l as [|x l IH]; intros fs ws c F; inversion F; subst; [destruct ws; intros []|]. destruct ws as [|w ws]; [intros []|].
  assert (C : In c (cell (fst w) (snd w) y) -> c = 32%Z \/ plain_char c).
  { rewrite (cell_text _ _ x) by auto. rewrite !in_app_iff. intros [I|[I|I]]; [left; eapply In_spaces; eauto| |left; eapply In_spaces; eauto]. right. now apply (f_chars _ _ _ _ H1). }
  cbn [combine map join fst snd]. specialize (IH l' ws c H3). destruct (map _ (combine ws l')) eqn:E; [auto|].
  rewrite !in_app_iff. intros [I|[I|I]]; auto. left. eapply In_spaces; eauto.
Qed.
Lemma words_numbers l fs : Forall2 fmt l fs -> words (join (lit " ") (map ptext fs)) = map ptext fs.
Proof.
  induction 1 as [|x f l fs H F IH]; [reflexivity|]. pose proof (fmt_nonempty _ _ H) as N. pose proof (fmt_32 _ _ H) as S. cbn [map join] in *.
  destruct (map ptext fs) as [|t ts] eqn:E; [now apply words_one|]. change (lit " ") with [32%Z] in *. cbn [app]. rewrite words_cut by auto. now rewrite IH.
Qed.
Lemma In_numbers l fs c : Forall2 fmt l fs -> In c (join (lit " ") (map ptext fs)) -> c = 32%Z \/ plain_char c.
Proof.
  induction 1 as [|x f l fs H F IH]; [intros []|]. assert (C : In c (ptext f) -> c = 32%Z \/ plain_char c) by (intros I; right; now apply (f_chars _ _ _ _ H)).
  cbn [map join] in *. destruct (map ptext fs) as [|t ts] eqn:E; auto. rewrite !in_app_iff. intros [I|[[I|[]]|I]]; auto.
Qed.

(** ** zero *)
Lemma shown_zero x : (qabs x < Q2Qc (1 # 10000000000))%Qc -> shown_as 0 x.
Proof.
  intros H. destruct (format_spec x) as (t & i & d & _ & F). destruct (f_read _ _ _ _ F) as (v & _ & S & _). pose proof (proj1 S H) as E. now rewrite E in S.
Qed.

(** ** the objective *)
Definition constant_text (z : Qc) (t : text) : text := lit " " ++ (if is_negative z then lit "-" else lit "+") ++ lit " " ++ t.
Lemma read_header (mx : bool) l fs z zt : Forall2 fmt l fs ->
  (is_close_to_zero z = true /\ zt = [] \/ is_close_to_zero z = false /\ exists f, fmt (qabs z) f /\ zt = constant_text z (ptext f)) ->
  exists vs v, read_objective ((if mx then lit "Max [" else lit "Min [") ++ join (lit " ") (map ptext fs) ++ lit "]x" ++ zt) = Some (mx, vs, v) /\ Forall2 shown_as vs l /\ shown_as v z.
Proof.
  intros F Hz. destruct (read_fmts l fs F) as (vs & V1 & V2). set (J := join (lit " ") (map ptext fs)) in *.
  assert (C : cut 93 (J ++ lit "]x" ++ zt) = Some (J, lit "x" ++ zt)).
  { change (lit "]x" ++ zt) with (93%Z :: lit "x" ++ zt). apply cut_free. intros I. destruct (In_numbers _ _ _ F I) as [D|D]; [discriminate D|]. unfold plain_char in D. lia. }
  assert (R : forall rest, rest = lit "x" ++ zt -> exists v, match words rest with [_] => Some (mx, vs, 0%Qc) | [_; s; n] => match read_number n with Some v => if Z.eqb (hd 0%Z s) 43 then Some (mx, vs, v) else Some (mx, vs, (- v)%Qc) | None => None end | _ => None end = Some (mx, vs, v) /\ shown_as v z).
  { intros rest ->. destruct Hz as [(E & ->)|(E & f & Hf & ->)].
    - exists 0%Qc. split; [reflexivity|]. apply shown_zero. unfold is_close_to_zero, tol_zero in E. destruct (qlt_spec (qabs z) (Q2Qc (1 # 10000000000))); [assumption|discriminate E].
    - destruct (f_read _ _ _ _ Hf) as (v & R1 & R2 & _). pose proof (fmt_nonempty _ _ Hf) as N. pose proof (fmt_32 _ _ Hf) as S.
      assert (NZ : ~ (qabs z < Q2Qc (1 # 10000000000))%Qc) by (unfold is_close_to_zero, tol_zero in E; destruct (qlt_spec (qabs z) (Q2Qc (1 # 10000000000))); [discriminate E|assumption]).
      unfold constant_text. destruct (is_negative z) eqn:EN.
      + apply is_negative_spec in EN. unfold tol_zero in EN. exists (- v)%Qc. split.
        * change (lit "x" ++ lit " " ++ lit "-" ++ lit " " ++ ptext f) with ([120%Z] ++ 32%Z :: [45%Z] ++ 32%Z :: ptext f).
          rewrite !words_cut by (try discriminate; intros [D|[]]; discriminate D). rewrite words_one by auto. rewrite R1. reflexivity.
        * replace z with (- qabs z)%Qc; [now apply shown_opp|]. unfold qabs. destruct (qlt_spec z 0); [ring|exfalso; clear - EN n; qclra].
      + exists v. split.
        * change (lit "x" ++ lit " " ++ lit "+" ++ lit " " ++ ptext f) with ([120%Z] ++ 32%Z :: [43%Z] ++ 32%Z :: ptext f).
          rewrite !words_cut by (try discriminate; intros [D|[]]; discriminate D). rewrite words_one by auto. rewrite R1. reflexivity.
        * replace z with (qabs z); auto. assert (X : ~ (z <= - tol_zero)%Qc) by (rewrite <- is_negative_spec; congruence). unfold tol_zero in X. unfold qabs in *. destruct (qlt_spec z 0); [exfalso; clear - X NZ; qclra|reflexivity]. }
  destruct (R _ eq_refl) as (v & R1 & R2). exists vs, v. split; [|auto]. unfold read_objective.
  assert (W : words J = map ptext fs) by now apply (words_numbers l).
  destruct mx; cbn [starts_with].
  - change (starts_with (lit "Max [") (lit "Max [" ++ J ++ lit "]x" ++ zt)) with true. cbv iota. change (skipn 5 (lit "Max [" ++ J ++ lit "]x" ++ zt)) with (J ++ lit "]x" ++ zt). rewrite C, W, V1. exact R1.
  - change (starts_with (lit "Max [") (lit "Min [" ++ J ++ lit "]x" ++ zt)) with false. change (starts_with (lit "Min [") (lit "Min [" ++ J ++ lit "]x" ++ zt)) with true. cbv iota. change (skipn 5 (lit "Min [" ++ J ++ lit "]x" ++ zt)) with (J ++ lit "]x" ++ zt). rewrite C, W, V1. exact R1.
Qed.

(** ** a row *)
Definition row_line_text (p : lp) (ws : list (nat * nat)) (bw : nat * nat) (i : nat) (r : list printed) (y : printed) : text :=
  lit "[" ++ row_cells ws r ++ lit "]" ++ (if Nat.eqb i (rows p / 2) then lit "x    " else lit "     ") ++
  (match dget Nat.eqb i (lineq p) with Some s => if String.eqb s ">=" then [8805%Z] else [8804%Z] | None => lit "=" end) ++ lit "   " ++
  lit "[" ++ cell (fst bw) (snd bw) y ++ lit "]".
Lemma row_text_line p ws bw i r y : row_text p ws bw i r y = row_line_text p ws bw i r y ++ [10%Z].
Proof. unfold row_text, row_line_text. rewrite <- !app_assoc. reflexivity. Qed.
Lemma cell_words I D x f : fmt x f -> words (cell I D f) = [ptext f].
Proof. intros H. rewrite (cell_text _ _ x) by auto. rewrite words_spaces. apply words_trail; [now apply (fmt_nonempty x)|now apply (fmt_32 x)]. Qed.
Lemma In_cell I D x f c : fmt x f -> In c (cell I D f) -> c = 32%Z \/ plain_char c.
Proof.
  intros H. rewrite (cell_text _ _ x) by auto. rewrite !in_app_iff. intros [K|[K|K]]; [left; eapply In_spaces; eauto| |left; eapply In_spaces; eauto]. right. now apply (f_chars _ _ _ _ H).
Qed.
Lemma read_row_line p ws bw i l fs x y : wf p -> Forall2 fmt l fs -> length ws = length fs -> fmt x y ->
  exists vs v, read_row (row_line_text p ws bw i fs y) = Some (vs, rel p i, v) /\ Forall2 shown_as vs l /\ shown_as v x.
Proof.
  intros W F L Hx. destruct (read_fmts l fs F) as (vs & V1 & V2). destruct (f_read _ _ _ _ Hx) as (v & X1 & X2 & _). exists vs, v. split; [|auto].
  unfold read_row, row_line_text. set (mid := (if Nat.eqb i (rows p / 2) then lit "x    " else lit "     ") ++ (match dget Nat.eqb i (lineq p) with Some s => if String.eqb s ">=" then [8805%Z] else [8804%Z] | None => lit "=" end) ++ lit "   ").
  assert (E : skipn 1 (lit "[" ++ row_cells ws fs ++ lit "]" ++ (if Nat.eqb i (rows p / 2) then lit "x    " else lit "     ") ++ (match dget Nat.eqb i (lineq p) with Some s => if String.eqb s ">=" then [8805%Z] else [8804%Z] | None => lit "=" end) ++ lit "   " ++ lit "[" ++ cell (fst bw) (snd bw) y ++ lit "]")
    = row_cells ws fs ++ 93%Z :: mid ++ 91%Z :: cell (fst bw) (snd bw) y ++ [93%Z]).
  { unfold mid. rewrite <- !app_assoc. reflexivity. }
  rewrite E. clear E.
  assert (M : ~ In 91%Z mid /\ hd 0%Z (last (words mid) []) = match rel p i with AtMost => 8804%Z | AtLeast => 8805%Z | Equal => 61%Z end).
  { unfold mid, rel. destruct (dget Nat.eqb i (lineq p)) as [s|] eqn:D.
    - apply (dget_In _ eqb_reflect) in D. destruct (wf_ineq _ W _ _ D) as (_ & [->| ->]); destruct (Nat.eqb i (rows p / 2)); cbn; (split; [intros I; repeat (destruct I as [I|I]; [discriminate I|]); exact I|reflexivity]).
    - destruct (Nat.eqb i (rows p / 2)); cbn; (split; [intros I; repeat (destruct I as [I|I]; [discriminate I|]); exact I|reflexivity]). }
  destruct M as (M1 & M2). rewrite cut_free by (intros I; destruct (In_cells _ _ _ _ F I) as [D|D]; [discriminate D|unfold plain_char in D; lia]).
  rewrite cut_free by auto. rewrite cut_free by (intros I; destruct (In_cell _ _ _ _ _ Hx I) as [D|D]; [discriminate D|unfold plain_char in D; lia]).
  rewrite (cells_words l) by auto. rewrite V1, (cell_words _ _ x) by auto. cbn [read_numbers]. rewrite X1, M2. destruct (rel p i); reflexivity.
Qed.
Lemma row_line_free p ws bw i l fs x y : Forall2 fmt l fs -> fmt x y -> ~ In 10%Z (row_line_text p ws bw i fs y).
Proof.
  intros F Hx I. unfold row_line_text in I. rewrite !in_app_iff in I. destruct I as [I|[I|[I|[I|[I|[I|[I|[I|I]]]]]]]].
  - destruct I as [I|[]]. discriminate I.
  - destruct (In_cells _ _ _ _ F I) as [D|D]; [discriminate D|unfold plain_char in D; lia].
  - destruct I as [I|[]]. discriminate I.
  - destruct (Nat.eqb i (rows p / 2)); cbn in I; repeat (destruct I as [I|I]; [discriminate I|]); exact I.
  - destruct (dget _ _ _) as [s|]; [destruct (String.eqb s ">=")|]; destruct I as [I|[]]; discriminate I.
  - cbn in I; repeat (destruct I as [I|I]; [discriminate I|]); exact I.
  - destruct I as [I|[]]. discriminate I.
  - destruct (In_cell _ _ _ _ _ Hx I) as [D|D]; [discriminate D|unfold plain_char in D; lia].
  - destruct I as [I|[]]. discriminate I.
Qed.

(** ** the signs *)
Definition named_list (zs : list Z) : text := subscript (join (lit ", ") (map (fun i => lit "x" ++ int_text i) zs)).
Definition sub_digits (z : Z) : text := map (fun d => (8320 + d)%Z) (int_digits z).
Lemma subscript_name z : (0 <= z)%Z -> subscript (lit "x" ++ int_text z) = 120%Z :: sub_digits z.
Proof.
  intros H. change (lit "x") with [120%Z]. cbn [app]. unfold subscript at 1. cbn [map]. change ((48 <=? 120)%Z && (120 <=? 57)%Z) with false. cbv iota. f_equal.
  unfold int_text, sub_digits, int_digits. rewrite map_map. apply map_ext_in. intros d Hd. destruct (int_digits_spec z H) as (D & _). eapply Forall_forall in D; [|exact Hd].
  unfold digit_code. destruct (Z.leb_spec 48 (48 + d)); [|lia]. destruct (Z.leb_spec (48 + d) 57); [|lia]. cbn [andb]. lia.
Qed.
Lemma fold_sub l : digits_ok l -> forall acc, fold_left (fun n c => if Z.leb 8320 c && Z.leb c 8329 then (10 * n + (c - 8320))%Z else n) (map (fun d => (8320 + d)%Z) l) acc = dval acc l.
Proof.
  induction 1 as [|d l Hd _ IH]; intros acc; [reflexivity|]. cbn [map fold_left dval]. destruct (Z.leb_spec 8320 (8320 + d)); [|lia]. destruct (Z.leb_spec (8320 + d) 8329); [|lia]. cbn [andb].
  replace (8320 + d - 8320)%Z with d by lia. apply IH.
Qed.
Lemma name_value z tl j : (0 <= z)%Z -> (tl = [] \/ tl = [44%Z]) -> names (120%Z :: sub_digits z ++ tl) j = Z.eqb (Z.of_nat (S j)) z.
Proof.
  intros H T. destruct (int_digits_spec z H) as (D1 & D2 & D3 & _). unfold names.
  assert (V : subscript_value (120%Z :: sub_digits z ++ tl) = z).
  { unfold subscript_value. cbn [fold_left]. change ((8320 <=? 120)%Z && (120 <=? 8329)%Z) with false. cbv iota. unfold sub_digits. rewrite fold_left_app, fold_sub, D2 by auto. destruct T as [->| ->]; reflexivity. }
  rewrite V. unfold sub_digits. destruct (int_digits z); [congruence|]. cbn [map app]. apply Z.eqb_sym.
Qed.
Lemma sub_digits_free z c : (0 <= z)%Z -> (c < 8320)%Z -> ~ In c (sub_digits z).
Proof. intros H K I. apply in_map_iff in I. destruct I as (d & <- & Hd). destruct (int_digits_spec z H) as (D & _). eapply Forall_forall in D; [|exact Hd]. lia. Qed.
Lemma sub_digits_small z c : (0 <= z)%Z -> (8330 <= c)%Z -> ~ In c (sub_digits z).
Proof. intros H K I. apply in_map_iff in I. destruct I as (d & <- & Hd). destruct (int_digits_spec z H) as (D & _). eapply Forall_forall in D; [|exact Hd]. lia. Qed.
Lemma subscript_app a b : subscript (a ++ b) = subscript a ++ subscript b.
Proof. apply map_app. Qed.
Lemma named_list_cons z z' zs : (0 <= z)%Z -> named_list (z :: z' :: zs) = (120%Z :: sub_digits z ++ [44%Z]) ++ 32%Z :: named_list (z' :: zs).
Proof.
  intros H. unfold named_list. cbn [map]. change (join (lit ", ") (?a :: ?b :: ?c)) with (a ++ lit ", " ++ join (lit ", ") (b :: c)).
  rewrite !subscript_app. rewrite <- subscript_app, subscript_name by auto. change (subscript (lit ", ")) with [44%Z; 32%Z]. cbn [app]. rewrite <- app_assoc. reflexivity.
Qed.
Lemma named_list_one z : (0 <= z)%Z -> named_list [z] = 120%Z :: sub_digits z.
Proof. intros H. unfold named_list. cbn [map join]. now apply subscript_name. Qed.
Lemma named_words zs j : Forall (fun z => (0 <= z)%Z) zs -> existsb (fun w => names w j) (words (named_list zs ++ lit " ")) = existsb (Z.eqb (Z.of_nat (S j))) zs.
Proof.
  intros F. induction F as [|z zs Hz F IH]; [reflexivity|]. destruct zs as [|z' zs].
  - rewrite named_list_one by auto. change (lit " ") with (spaces 1). rewrite words_trail; [|discriminate|].
    + cbn [existsb]. rewrite <- (app_nil_r (sub_digits z)). rewrite name_value by auto. reflexivity.
    + intros [I|I]; [discriminate I|]. now apply (sub_digits_free z 32) in I.
  - rewrite named_list_cons by auto. rewrite <- app_assoc. cbn [app]. change (120%Z :: (sub_digits z ++ [44%Z]) ++ 32%Z :: named_list (z' :: zs) ++ lit " ") with ((120%Z :: sub_digits z ++ [44%Z]) ++ 32%Z :: named_list (z' :: zs) ++ lit " ").
    rewrite words_cut; [|discriminate|].
    + cbn [existsb] in *. rewrite IH. f_equal. apply name_value; auto.
    + intros [I|I]; [discriminate I|]. apply in_app_or in I. destruct I as [I|[I|[]]]; [|discriminate I]. now apply (sub_digits_free z 32) in I.
Qed.
Lemma named_chars zs c : Forall (fun z => (0 <= z)%Z) zs -> In c (named_list zs) -> c = 120%Z \/ c = 44%Z \/ c = 32%Z \/ (8320 <= c <= 8329)%Z.
Proof.
  intros F. assert (S : forall z, (0 <= z)%Z -> In c (sub_digits z) -> (8320 <= c <= 8329)%Z).
  { intros z H I. destruct (Z.lt_ge_cases c 8320) as [L|L]; [now apply (sub_digits_free z c H L) in I|]. destruct (Z.lt_ge_cases c 8330) as [L'|L']; [lia|]. now apply (sub_digits_small z c H L') in I. }
  induction F as [|z zs Hz F IH]; [intros []|]. destruct zs as [|z' zs].
  - rewrite named_list_one by auto. intros [<-|I]; auto. right; right; right. eapply S; eauto.
  - rewrite named_list_cons by auto. rewrite in_app_iff. intros [[<-|I]|[<-|I]]; auto. apply in_app_or in I. destruct I as [I|[<-|[]]]; auto. right; right; right. eapply S; eauto.
Qed.
Lemma named_starts z zs : (0 <= z)%Z -> exists t, named_list (z :: zs) = 120%Z :: t.
Proof. intros H. destruct zs as [|z' zs]; [rewrite named_list_one by auto|rewrite named_list_cons by auto]; eexists; reflexivity. Qed.

(** one line, for all variables or for a list of them *)
Definition sign_line (n : nat) (symbol : Z) (zs : list Z) : list text :=
  if Nat.eqb (length zs) n then [lit "x " ++ [symbol] ++ lit " 0"]
  else if Nat.ltb 0 (length zs) then [named_list zs ++ lit " " ++ [symbol] ++ lit " 0"] else [].
Lemma signs_text_lines p : signs_text p = concat (map (fun l => l ++ [10%Z]) (sign_line (cols p) 8804 (negative_variables p) ++ sign_line (cols p) 8805 (positive_variables p))).
Proof.
  rewrite map_app, concat_app. unfold signs_text, sign_line.
  assert (E : length (negative_variables p) = length (lneg p)) by (unfold negative_variables, to_math_indexing; apply map_length). rewrite E. f_equal.
  - destruct (Nat.eqb (length (lneg p)) (cols p)); [reflexivity|]. destruct (Nat.ltb 0 (length (lneg p))); [|reflexivity]. cbn [map concat]. rewrite app_nil_r, <- !app_assoc. f_equal.
    unfold named_list, negative_variables, to_math_indexing. rewrite map_map. reflexivity.
  - destruct (Nat.eqb (length (positive_variables p)) (cols p)); [reflexivity|]. destruct (Nat.ltb 0 (length (positive_variables p))); [|reflexivity]. cbn [map concat]. rewrite app_nil_r, <- !app_assoc. reflexivity.
Qed.
Lemma sign_line_ok n s zs l : (8330 <= s)%Z -> Forall (fun z => (0 <= z)%Z) zs -> In l (sign_line n s zs) -> ~ In 10%Z l /\ row_line l = false.
Proof.
  intros Hs F. unfold sign_line. destruct (Nat.eqb (length zs) n); [intros [<-|[]]|destruct (Nat.ltb_spec 0 (length zs)) as [L|L]; [intros [<-|[]]|intros []]].
  - split; [|reflexivity]. cbn. intros I. repeat (destruct I as [I|I]; [try discriminate I; try lia|]); exact I.
  - split.
    + rewrite !in_app_iff. intros [I|[I|[I|I]]].
      * destruct (named_chars _ _ F I) as [D|[D|[D|D]]]; try discriminate D; lia.
      * destruct I as [I|[]]; discriminate I.
      * destruct I as [I|[]]; lia.
      * destruct I as [I|[I|[]]]; discriminate I.
    + destruct zs as [|z zs]; [cbn in L; lia|]. destruct (named_starts z zs) as (t & ->); [now inversion F|]. reflexivity.
Qed.
Lemma sign_line_names n s s' zs j : (8330 <= s)%Z -> (8330 <= s')%Z -> Forall (fun z => (0 <= z)%Z) zs ->
  (length zs = n -> In (Z.of_nat (S j)) zs) ->
  existsb (line_names s' j) (sign_line n s zs) = (Z.eqb s s' && existsb (Z.eqb (Z.of_nat (S j))) zs).
Proof.
  intros Hs Hs' F A. unfold sign_line. destruct (Nat.eqb_spec (length zs) n) as [E|E].
  - cbn [existsb]. rewrite orb_false_r. unfold line_names. destruct (Z.eqb_spec s s') as [->|N]; cbn [andb].
    + change (lit "x " ++ [s'] ++ lit " 0") with ([120%Z; 32%Z] ++ s' :: lit " 0"). rewrite cut_free by (intros [I|[I|[]]]; lia). symmetry. apply existsb_exists. eexists. split; [apply (A E)|apply Z.eqb_refl].
    + rewrite cut_none; [reflexivity|]. cbn. intros I. repeat (destruct I as [I|I]; [lia|]). exact I.
  - destruct (Nat.ltb_spec 0 (length zs)) as [L|L].
    + cbn [existsb]. rewrite orb_false_r. unfold line_names. assert (K : forall t, (8330 <= t)%Z -> ~ In t (named_list zs ++ lit " ")).
      { intros t Ht I. apply in_app_or in I. destruct I as [I|[I|[]]]; [|cbn in I; lia]. pose proof (named_chars _ _ F I). lia. }
      destruct (Z.eqb_spec s s') as [->|N]; cbn [andb].
      * rewrite app_assoc. change ([s'] ++ lit " 0") with (s' :: lit " 0"). rewrite cut_free by auto. now apply named_words.
      * rewrite app_assoc. rewrite cut_none; [reflexivity|]. rewrite in_app_iff. intros [I|I]; [now apply (K s')|]. cbn in I. repeat (destruct I as [I|I]; [lia|]). exact I.
    + destruct zs; [|cbn in L; lia]. cbn. now rewrite andb_false_r.
Qed.
Lemma math_positive l : Forall (fun z => (0 <= z)%Z) (to_math_indexing l).
Proof. apply Forall_forall. intros z I. apply in_map_iff in I. destruct I as (x & <- & _). lia. Qed.
Lemma read_signs p j extra : wf p -> j < cols p -> (forall s, existsb (line_names s j) extra = false) ->
  read_sign ((sign_line (cols p) 8804 (negative_variables p) ++ sign_line (cols p) 8805 (positive_variables p)) ++ extra) j = sgn p j.
Proof.
  intros W Hj Hx. unfold read_sign. rewrite !existsb_app, !Hx, !orb_false_r. pose proof (math_positive (lneg p)) as P1. pose proof (math_positive (filter (fun i => negb (inb i (lneg p)) && negb (inb i (lfree p))) (seq 0 (cols p)))) as P2.
  assert (A1 : length (negative_variables p) = cols p -> In (Z.of_nat (S j)) (negative_variables p)).
  { intros E. unfold negative_variables, to_math_indexing in *. rewrite map_length in E. apply in_map_iff. exists j. split; auto.
    assert (N : NoDup (lneg p)) by (pose proof (wf_neg _ W) as SS; clear - SS; induction SS as [|x l SS IH F]; constructor; auto; intros I; eapply Forall_forall in F; [|exact I]; lia).
    apply (@NoDup_length_incl nat (lneg p) (seq 0 (cols p)) N); [rewrite seq_length; lia| |apply in_seq; lia]. intros x I. apply in_seq. pose proof (wf_neg_lt _ W x I). lia. }
  assert (A2 : length (positive_variables p) = cols p -> In (Z.of_nat (S j)) (positive_variables p)).
  { intros E. unfold positive_variables, to_math_indexing in *. rewrite map_length in E. apply in_map_iff. exists j. split; auto.
    apply (@NoDup_length_incl nat _ (seq 0 (cols p)) (NoDup_filter _ (seq_NoDup _ _))); [rewrite seq_length; lia| |apply in_seq; lia]. intros x I. now apply filter_In in I. }
  rewrite !sign_line_names by (auto; lia). cbn [Z.eqb Pos.eqb andb orb]. rewrite orb_false_r. unfold sgn. unfold negative_variables, positive_variables. rewrite !math_In.
  assert (Q : inb j (filter (fun i => negb (inb i (lneg p)) && negb (inb i (lfree p))) (seq 0 (cols p))) = negb (inb j (lneg p)) && negb (inb j (lfree p))).
  { destruct (negb (inb j (lneg p)) && negb (inb j (lfree p))) eqn:E.
    - apply inb_In. apply filter_In. split; auto. apply in_seq. lia.
    - apply inb_false. intros I. apply filter_In in I. rewrite E in I. now destruct I. }
  rewrite Q. destruct (inb j (lneg p)) eqn:E1, (inb j (lfree p)) eqn:E2; try reflexivity. exfalso. apply (wf_disj _ W j); now apply inb_In.
Qed.

(** ** the whole program *)
Lemma lines_concat ls : Forall (fun l => ~ In 10%Z l) ls -> lines (concat (map (fun l => l ++ [10%Z]) ls)) = ls ++ [[]].
Proof.
  unfold lines. induction 1 as [|l ls H _ IH]; [reflexivity|]. cbn [map concat app]. rewrite <- app_assoc. cbn [app]. rewrite split_on_cut by auto. now rewrite IH.
Qed.
Lemma read_all_rows p ws bw : wf p -> forall A FA, Forall2 (Forall2 fmt) A FA -> forall b Fb, Forall2 fmt b Fb -> length A = length b -> Forall (fun r => length r = length ws) A -> forall s,
  let ls := map (fun iry => row_line_text p ws bw (fst iry) (fst (snd iry)) (snd (snd iry))) (combine (seq s (length A)) (combine FA Fb)) in
  Forall (fun l => ~ In 10%Z l) ls /\ Forall (fun l => row_line l = true) ls /\
  exists rs, read_rows ls = Some rs /\ Forall2 (Forall2 shown_as) (map (fun r => fst (fst r)) rs) A /\ Forall2 shown_as (map snd rs) b /\ map (fun r => snd (fst r)) rs = map (rel p) (seq s (length A)).
Proof.
  intros W A FA HA. induction HA as [|r fr A FA Hr HA IH]; intros b Fb Hb L SH s.
  - inversion Hb; subst; [|discriminate L]. cbn. repeat split; try constructor. exists []. repeat split; constructor.
  - inversion Hb as [|x y b' Fb' Hx Hb']; subst; [discriminate L|]. inversion SH as [|? ? S1 S2]; subst.
    destruct (IH b' Fb' Hb' ltac:(cbn in L; lia) S2 (S s)) as (I1 & I2 & rs & I3 & I4 & I5 & I6).
    assert (LW : length ws = length fr) by (rewrite <- S1; eapply Forall2_length; eauto).
    destruct (read_row_line p ws bw s r fr x y W Hr LW Hx) as (vs & v & R1 & R2 & R3).
    cbn [length seq combine map fst snd]. split; [|split].
    + constructor; auto. eapply row_line_free; eauto.
    + constructor; auto.
    + exists ((vs, rel p s, v) :: rs). cbn [read_rows]. rewrite R1, I3. cbn [map fst snd]. rewrite I6. repeat split; constructor; auto.
Qed.
Lemma filter_all {A} (f : A -> bool) l : Forall (fun x => f x = true) l -> filter f l = l.
Proof. induction 1 as [|x l H _ IH]; cbn; [reflexivity|]. now rewrite H, IH. Qed.
Lemma filter_none {A} (f : A -> bool) l : Forall (fun x => f x = false) l -> filter f l = [].
Proof. induction 1 as [|x l H _ IH]; cbn; [reflexivity|]. now rewrite H. Qed.
Lemma meaning_relations p : wf p -> relations (meaning p) = map (rel p) (seq 0 (rows p)).
Proof.
  intros W. unfold meaning, relations, inequalities. rewrite map_map, (wf_b _ W). apply map_ext. intros i. unfold rel. destruct (dget Nat.eqb i (lineq p)); reflexivity.
Qed.
Lemma meaning_signs p : wf p -> signs (meaning p) = map (sgn p) (seq 0 (cols p)).
Proof.
  intros W. unfold meaning, signs. apply map_ext. intros j. unfold sign_of, free_variables, negative_variables. rewrite !math_In. reflexivity.
Qed.
Theorem repr_reads p : wf p -> 0 < rows p -> exists t P, repr p = Ok t /\ read_program t = Some P /\ shows P (meaning p).
Proof.
  intros W HR. unfold repr. destruct (mapM_format (lc p)) as (cs & E1 & F1). destruct (mapM_rows (lA p)) as (FA & E2 & F2). destruct (mapM_format (lb p)) as (Fb & E3 & F3).
  assert (Z : exists zt, (if is_close_to_zero (lz p) then Ok [] else do zn <- format_number (qabs (lz p)) ; Ok (lit " " ++ (if is_negative (lz p) then lit "-" else lit "+") ++ lit " " ++ ptext zn)) = Ok zt /\
    (is_close_to_zero (lz p) = true /\ zt = [] \/ is_close_to_zero (lz p) = false /\ exists f, fmt (qabs (lz p)) f /\ zt = constant_text (lz p) (ptext f))).
  { destruct (is_close_to_zero (lz p)); [eexists; split; [reflexivity|auto]|]. destruct (format_spec (qabs (lz p))) as (t & i & d & Ef & Hf). rewrite Ef. cbn [bind]. eexists. split; [reflexivity|]. right. split; auto. exists (t, i, d). auto. }
  destruct Z as (zt & E4 & Hz). rewrite E1. cbn [bind]. rewrite E4. cbn [bind]. rewrite E2. cbn [bind]. rewrite E3. cbn [bind]. destruct (Nat.eqb_spec (rows p) 0) as [E|_]; [lia|].
  set (ws := map _ (seq 0 (cols p))). set (bw := (widest pint Fb, widest pdec Fb)).
  assert (LW : length ws = cols p) by (unfold ws; rewrite map_length, seq_length; reflexivity).
  destruct (read_all_rows p ws bw W (lA p) FA F2 (lb p) Fb F3) with (s := 0) as (R1 & R2 & rs & R3 & R4 & R5 & R6).
  { rewrite (wf_b _ W). reflexivity. }
  { pose proof (wf_A _ W) as SA. rewrite LW. apply Forall_forall. intros r I. unfold shaped in SA. eapply Forall_forall in SA; eauto. }
  set (rl := map (fun iry : nat * (list printed * printed) => row_line_text p ws bw (fst iry) (fst (snd iry)) (snd (snd iry))) (combine (seq 0 (length (lA p))) (combine FA Fb))) in *.
  set (sl := sign_line (cols p) 8804 (negative_variables p) ++ sign_line (cols p) 8805 (positive_variables p)).
  set (head_ := (if String.eqb (lobj p) "max" then lit "Max [" else lit "Min [") ++ join (lit " ") (map ptext cs) ++ lit "]x" ++ zt).
  assert (MM : (if String.eqb (lobj p) "min" then lit "Min [" else lit "Max [") = (if String.eqb (lobj p) "max" then lit "Max [" else lit "Min [")) by (destruct (wf_obj _ W) as [-> | ->]; reflexivity).
  destruct (read_header (String.eqb (lobj p) "max") (lc p) cs (lz p) zt F1 Hz) as (vs & v & H1 & H2 & H3). fold head_ in H1.
  assert (HF : ~ In 10%Z head_).
  { unfold head_. rewrite !in_app_iff. intros [I|[I|[I|I]]].
    - destruct (String.eqb (lobj p) "max"); cbn in I; repeat (destruct I as [I|I]; [discriminate I|]); exact I.
    - destruct (In_numbers _ _ _ F1 I) as [D|D]; [discriminate D|unfold plain_char in D; lia].
    - cbn in I; repeat (destruct I as [I|I]; [discriminate I|]); exact I.
    - destruct Hz as [(_ & ->)|(_ & f & Hf & ->)]; [exact I|]. unfold constant_text in I. rewrite !in_app_iff in I. destruct I as [I|[I|[I|I]]].
      + destruct I as [I|[]]; discriminate I.
      + destruct (is_negative (lz p)); destruct I as [I|[]]; discriminate I.
      + destruct I as [I|[]]; discriminate I.
      + apply (f_chars _ _ _ _ Hf) in I. unfold plain_char in I. lia. }
  assert (SL : forall l, In l sl -> ~ In 10%Z l /\ row_line l = false).
  { intros l I. apply in_app_or in I. destruct I as [I|I]; eapply sign_line_ok; try exact I; try lia; apply math_positive. }
  match goal with |- context [?X ++ join (lit " ") (map ptext cs) ++ ?Y] => replace X with (if String.eqb (lobj p) "max" then lit "Max [" else lit "Min [") by (symmetry; exact MM) end.
  eexists _, _. split; [reflexivity|].
  match goal with |- read_program ?T = _ /\ _ => assert (ET : T = concat (map (fun l => l ++ [10%Z]) (head_ :: lit "Subject To:" :: [] :: rl ++ sl))) end.
  { assert (ER : concat (map (fun iry : nat * (list printed * printed) => row_text p ws bw (fst iry) (fst (snd iry)) (snd (snd iry))) (combine (seq 0 (rows p)) (combine FA Fb))) = concat (map (fun l => l ++ [10%Z]) rl)).
    { unfold rl. rewrite map_map. apply (f_equal (@concat Z)). apply map_ext. intros a. apply row_text_line. }
    rewrite ER. cbn [map concat]. rewrite map_app, concat_app. unfold sl. rewrite <- signs_text_lines. unfold head_. rewrite <- !app_assoc. reflexivity. }
  rewrite ET. unfold read_program. rewrite lines_concat.
  2:{ constructor; auto. constructor; [cbn; intros I; repeat (destruct I as [I|I]; [discriminate I|]); exact I|]. constructor; [intros []|]. apply Forall_app. split; auto. apply Forall_forall. intros l I. now apply SL. }
  cbn [app]. rewrite H1.
  assert (FR : filter row_line ((rl ++ sl) ++ [[]]) = rl).
  { rewrite !filter_app, (filter_all _ rl) by auto. rewrite (filter_none _ sl); [cbn; now rewrite !app_nil_r|]. apply Forall_forall. intros l I. now apply SL. }
  assert (FS : filter (fun u => negb (row_line u)) ((rl ++ sl) ++ [[]]) = sl ++ [[]]).
  { rewrite !filter_app. rewrite (filter_none _ rl); [|apply Forall_forall; intros l I; eapply Forall_forall in R2; [|exact I]; now rewrite R2]. rewrite (filter_all _ sl); [reflexivity|]. apply Forall_forall. intros l I. rewrite (proj2 (SL l I)). reflexivity. }
  match goal with |- context [filter row_line ?l] => replace (filter row_line l) with rl by (symmetry; exact FR) end.
  match goal with |- context [filter ?f ?l] => replace (filter f l) with (sl ++ [[]]) by (symmetry; exact FS) end.
  assert (R3' : read_rows rl = Some rs) by exact R3. rewrite R3'. split; [reflexivity|]. unfold shows. cbn [maximise relations signs coefficients rhs costs constant]. split; [reflexivity|]. split; [|split; [|auto]].
  - rewrite R6. symmetry. exact (meaning_relations p W).
  - transitivity (map (sgn p) (seq 0 (cols p))); [|symmetry; exact (meaning_signs p W)]. rewrite (Forall2_length _ _ _ H2). apply map_ext_in. intros j Hj. apply in_seq in Hj. apply read_signs; auto. lia.
Qed.
