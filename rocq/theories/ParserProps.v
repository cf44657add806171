(** C05 - C08: GraphParser and LinearParser. *)
From Coq Require Import String Ascii List Bool Arith ZArith QArith Qcanon Lia.
From Verif Require Import Py ParserModel ParserSpec ParserProofs.
Import ListNotations.
Open Scope nat_scope.
Open Scope string_scope.
Open Scope list_scope.

(** * C05 *)
(** The text of a nonempty list of entries, in one of the four notations and separated by single
    white-space characters, parses to exactly these edges. *)
Theorem C05_parse_inverts k es ts s : Forall2 (written k) es ts -> spaced ts (list_ascii_of_string s) -> parse_graph s = Ok (map (edge k) es).
Proof. intros H1 H2. apply parse_graph_ok. exists ts, (list_ascii_of_string s). auto. Qed.
(** the same before a final newline *)
Theorem C05_newline k es ts s : Forall2 (written k) es ts -> spaced ts (list_ascii_of_string s) ->
  parse_graph (s ++ string_of_list_ascii [newline]) = Ok (map (edge k) es).
Proof.
  intros H1 H2. apply parse_graph_ok. exists ts, (list_ascii_of_string s). split; auto. split; auto. right.
  clear. induction s; cbn; auto. now f_equal.
Qed.

Definition en (l r w f : string) : entry := mkentry (list_ascii_of_string l) (list_ascii_of_string r) (mkdecimal (list_ascii_of_string w) (match f with "" => None | _ => Some (list_ascii_of_string f) end)).
Ltac words := split; [discriminate|]; cbn; intros c Hc; repeat (destruct Hc as [<-|Hc]; [reflexivity|]); contradiction.
Example C05_example : parse_graph "s-a:2.5 a-t1:10
" = Ok [("s", "a", Q2Qc (5 # 2)); ("a", "t1", Q2Qc 10)].
Proof.
  change ("s-a:2.5 a-t1:10
") with ("s-a:2.5 a-t1:10" ++ string_of_list_ascii [newline])%string.
  rewrite (C05_newline LongWeighted [en "s" "a" "2" "5"; en "a" "t1" "10" ""] [list_ascii_of_string "s-a:2.5"; list_ascii_of_string "a-t1:10"]).
  - cbn [map]. unfold edge, en. cbn [left right weight]. repeat f_equal; apply Qc_is_canon; reflexivity.
  - constructor; [|constructor; [|constructor]]; (split; [words|]; split; [words|]; split; [split; [words|]; try words; exact I|reflexivity]).
  - apply (spaced_more (list_ascii_of_string "s-a:2.5") " "%char [list_ascii_of_string "a-t1:10"] (list_ascii_of_string "a-t1:10")); [reflexivity|constructor].
Qed.

(** * C06 *)
Theorem C06_exact s k : get_expression_type s = notation_number k <-> exists es, in_notation k es s.
Proof.
  split.
  - intros H. destruct (type_cases s) as [(k' & es & K)|(K & _)].
    + pose proof (type_in_notation k' es s K) as E. exists es. assert (k = k') as -> by (rewrite E in H; destruct k, k'; cbn in H; congruence). exact K.
    + rewrite K in H. destruct k; discriminate H.
  - intros (es & H). now apply type_in_notation with (es := es).
Qed.
Theorem C06_other s : get_expression_type s = (-1)%Z <-> forall k es, ~ in_notation k es s.
Proof.
  split.
  - intros H k es K. apply type_in_notation in K. rewrite H in K. destruct k; discriminate K.
  - intros H. destruct (type_cases s) as [(k' & es & K)|(K & _)]; auto. now apply H in K.
Qed.
(** parse raises ValueError outside the four languages and nowhere else; the edges it returns are the
    ones written *)
Theorem C06_rejects s : parse_graph s = Raise ValueError <-> forall k es, ~ in_notation k es (list_ascii_of_string s).
Proof.
  split.
  - intros H k es K. rewrite (parse_graph_ok k es) in H by auto. discriminate H.
  - intros H. unfold parse_graph. apply C06_other in H. rewrite H. reflexivity.
Qed.
Theorem C06_only s l : parse_graph s = Ok l -> exists k es, in_notation k es (list_ascii_of_string s) /\ l = map (edge k) es.
Proof.
  intros H. destruct (type_cases (list_ascii_of_string s)) as [(k & es & K)|(_ & K)].
  - exists k, es. split; auto. rewrite (parse_graph_ok k es) in H by auto. congruence.
  - apply C06_rejects in K. congruence.
Qed.
(** no text is in two notations, and no text stands for two edge lists *)
Theorem C06_unambiguous k k' es es' s : in_notation k es s -> in_notation k' es' s -> k = k' /\ map (edge k) es = map (edge k') es'.
Proof.
  intros H H'. split; [eapply in_notation_unique; eauto|]. rewrite <- (list_ascii_of_string_of_list_ascii s) in H, H'. apply parse_graph_ok in H, H'. congruence.
Qed.
Example C06_example : map get_expression_type (map list_ascii_of_string ["ab bc"; "ab-c d-e"; "ab:1 bc:2.50"; "a-b:1"; ""; "ab  bc"; "ab c-d"; "ab:.5"; "a-b:1 "; "abc"]) =
  [0; 1; 2; 3; -1; -1; -1; -1; -1; -1]%Z.
Proof. vm_compute. reflexivity. Qed.

(** * C07 *)
(** Terms with distinct positive indices, joined by plus and minus: entry i - 1 of the result is the
    signed coefficient of x_i, every other entry is 0, and the length is the largest index. *)
Theorem C07_reads_back e s : expression_ok e -> (forall g t, In (g, t) (others e) -> g <> Bar) ->
  NoDup (map fst (terms e)) -> (forall i v, In (i, v) (terms e) -> 1 <= i) ->
  s = string_of_list_ascii (expression_text e) ->
  exists r, parse_linear s None = Ok r /\ length r = largest (terms e) /\ placed (terms e) r.
Proof. intros H _ H1 H2 ->. apply parse_linear_ok; auto. split; auto. rewrite list_ascii_of_string_of_list_ascii. auto. Qed.
(** with a size at least as large, the vector has that size *)
Theorem C07_size e s n : expression_ok e -> (forall g t, In (g, t) (others e) -> g <> Bar) ->
  NoDup (map fst (terms e)) -> (forall i v, In (i, v) (terms e) -> 1 <= i) ->
  s = string_of_list_ascii (expression_text e) -> largest (terms e) <= n ->
  exists r, parse_linear s (Some (Z.of_nat n)) = Ok r /\ length r = n /\ placed (terms e) r.
Proof. intros H _ H1 H2 -> Hn. apply parse_linear_ok; auto. split; auto. rewrite list_ascii_of_string_of_list_ascii. auto. Qed.

Definition su (c f i : string) : summand_ := mksummand (mkdecimal (list_ascii_of_string c) (match f with "" => None | _ => Some (list_ascii_of_string f) end)) (list_ascii_of_string i).
Definition an_expression : expression := mkexpression true (su "3" "" "2") [(Plus, su "0" "5" "10"); (Minus, su "12" "" "1")].
Lemma an_expression_ok : expression_ok an_expression.
Proof.
  split; [split; [split; [words|exact I]|words]|]. intros g t [K|[K|[]]]; injection K as <- <-; (split; [split; [words|]; try words; exact I|words]).
Qed.
Example C07_example : exists r, parse_linear "-3x_2+0.5x_10-12x_1" None = Ok r /\ length r = 10 /\ placed (terms an_expression) r /\ nth 1 r 0%Qc = (- Q2Qc 3)%Qc /\ nth 9 r 0%Qc = Q2Qc (1 # 2).
Proof.
  destruct (C07_reads_back an_expression "-3x_2+0.5x_10-12x_1") as (r & R1 & R2 & R3).
  - apply an_expression_ok.
  - intros g t [K|[K|[]]]; injection K as <- <-; discriminate.
  - cbn. repeat constructor; simpl; intuition discriminate.
  - intros i v Hi. cbn [terms map In others an_expression] in Hi. destruct Hi as [K|[K|[K|[]]]]; apply (f_equal fst) in K; cbn in K; subst i; lia.
  - reflexivity.
  - exists r. split; auto. split; [rewrite R2; reflexivity|]. split; auto. destruct R3 as (R3 & _). split.
    + destruct (R3 2 (- decimal_value (coefficient (su "3" "" "2")))%Qc) as (_ & _ & E); [simpl; auto|]. cbn [Nat.sub] in E. rewrite E. apply Qc_is_canon. reflexivity.
    + destruct (R3 10 (decimal_value (coefficient (su "0" "5" "10")))) as (_ & _ & E); [simpl; auto|]. cbn [Nat.sub] in E. rewrite E. apply Qc_is_canon. reflexivity.
Qed.

(** * C08 *)
(** everything that is not an expression (up to a final newline) is refused *)
Theorem C08_rejects s size : (forall e, ~ accepted e (list_ascii_of_string s)) -> parse_linear s size = Raise PlainException.
Proof. apply parse_linear_not. Qed.
(** so is every expression that uses an index twice *)
Theorem C08_duplicate s e size : accepted e (list_ascii_of_string s) -> ~ NoDup (map fst (terms e)) -> parse_linear s size = Raise PlainException.
Proof. apply parse_linear_duplicate. Qed.
(** an index beyond the given size raises IndexError, a negative size ValueError *)
Theorem C08_too_small s e n : accepted e (list_ascii_of_string s) -> NoDup (map fst (terms e)) -> (forall i v, In (i, v) (terms e) -> 1 <= i) ->
  (n < Z.of_nat (largest (terms e)))%Z -> parse_linear s (Some n) = Raise (if (n <? 0)%Z then ValueError else IndexError).
Proof.
  intros H H1 H2 Hn. rewrite (parse_linear_accepted s e) by auto. cbv zeta. destruct (Z.ltb_spec n 0); auto. apply fill_range; auto.
  destruct (largest_in (terms e)) as (v & Hv); [discriminate|]. exists (largest (terms e)), v. split; auto. rewrite repeat_length. lia.
Qed.
(** Whatever is returned comes from an expression without repeated indices.  Its terms are determined by
    the text, and if no index is 0 each coefficient is at its own position and all else is 0. *)
Theorem C08_sound_partial s size r : parse_linear s size = Ok r ->
  exists e, accepted e (list_ascii_of_string s) /\ NoDup (map fst (terms e)) /\
    (forall e', accepted e' (list_ascii_of_string s) -> terms e' = terms e) /\
    ((forall i v, In (i, v) (terms e) -> 1 <= i) -> placed (terms e) r).
Proof.
  intros H. destruct (validate_expression (list_ascii_of_string s)) eqn:E.
  - apply validates in E. destruct E as (e & He). exists e. split; auto. assert (N : NoDup (map fst (terms e))).
    { destruct (ListDec.NoDup_dec Nat.eq_dec (map fst (terms e))) as [|N]; auto. rewrite (parse_linear_duplicate s e) in H by auto. discriminate H. }
    split; auto. split.
    + intros e' He'. now rewrite <- (terms_values e _ He), <- (terms_values e' _ He').
    + intros H1. destruct size as [n|].
      * destruct (Z.lt_ge_cases n (Z.of_nat (largest (terms e)))) as [K|K]; [rewrite (C08_too_small s e) in H by auto; discriminate H|].
        destruct (parse_linear_ok s e (Some n) (Z.to_nat n)) as (r' & R1 & _ & R2); auto; [lia|]. congruence.
      * destruct (parse_linear_ok s e None (largest (terms e))) as (r' & R1 & _ & R2); auto. congruence.
  - rewrite parse_linear_not in H; [discriminate H|]. intros e He. rewrite (proj2 (validates _)) in E by eauto. discriminate E.
Qed.
(** Index 0 is accepted and stored in the last entry; a bar is accepted and read as a plus. *)
(** the outcome for every expression without a repeated index, indices 0 included *)
Theorem C08_exact s e size : accepted e (list_ascii_of_string s) -> NoDup (map fst (terms e)) ->
  let n := match size with None => Z.max 1 (Z.of_nat (largest (terms e))) | Some n => n end in
  ((n < 0)%Z -> parse_linear s size = Raise ValueError) /\
  ((0 <= n)%Z -> (n = 0 \/ n < Z.of_nat (largest (terms e)))%Z -> parse_linear s size = Raise IndexError) /\
  ((1 <= n)%Z -> (Z.of_nat (largest (terms e)) <= n)%Z -> exists r, parse_linear s size = Ok r /\ length r = Z.to_nat n /\
    forall j, nth j r 0%Qc = if Nat.ltb j (Z.to_nat n) then entry_after (terms e) (Z.to_nat n) j else 0%Qc).
Proof.
  intros H N n. rewrite (parse_linear_accepted s e) by auto. cbv zeta. fold n. split; [|split].
  - intros Hn. apply Z.ltb_lt in Hn. now rewrite Hn.
  - intros H0 Hn. destruct (Z.ltb_spec n 0); [lia|]. apply fill_fails. rewrite repeat_length. destruct Hn as [-> |Hn].
    + left. split; [reflexivity|discriminate].
    + right. destruct (largest_in (terms e)) as (w & Hw); [discriminate|]. exists (largest (terms e)), w. split; auto. lia.
  - intros H1 Hn. destruct (Z.ltb_spec n 0); [lia|].
    destruct (fill_exact (terms e) (repeat 0%Qc (Z.to_nat n))) as (r & R1 & R2 & R3); rewrite ?repeat_length in *; [lia| |].
    { intros i x Hi. apply in_largest in Hi. lia. }
    exists r. split; auto. split; auto. intros j. destruct (Nat.ltb_spec j (Z.to_nat n)) as [Hj|Hj].
    + rewrite R3 by auto. now rewrite nth_repeat.
    + apply nth_overflow. lia.
Qed.
Theorem C08_index_zero_refuted : exists s r e, parse_linear s None = Ok r /\ accepted e (list_ascii_of_string s) /\ In (0, Q2Qc 7) (terms e) /\ nth (3 - 1) r 0%Qc = Q2Qc 7.
Proof.
  exists "2x_3+7x_0", [0%Qc; 0%Qc; Q2Qc 7], (mkexpression false (su "2" "" "3") [(Plus, su "7" "" "0")]). split; [|split; [|split]].
  - vm_compute. repeat f_equal; apply Qc_is_canon; reflexivity.
  - split; [|left; reflexivity]. split; [split; [split; [words|exact I]|words]|]. intros g t [K|[]]. injection K as <- <-. split; [split; [words|exact I]|words].
  - right. left. cbn. f_equal.
  - reflexivity.
Qed.
Theorem C08_bar_refuted : exists r, parse_linear "1x_1|2x_2" None = Ok r /\ r = [Q2Qc 1; Q2Qc 2].
Proof. eexists. split; [vm_compute; reflexivity|]. repeat f_equal; apply Qc_is_canon; reflexivity. Qed.
Example C08_example : parse_linear "1x_1+2x_1" None = Raise PlainException /\ parse_linear "1x_1 + 2x_2" None = Raise PlainException /\ parse_linear "x_1" None = Raise PlainException /\
  parse_linear "+1x_1" None = Raise PlainException /\ parse_linear "1x_4" (Some 3%Z) = Raise IndexError.
Proof. repeat split; vm_compute; reflexivity. Qed.

Print Assumptions C05_parse_inverts.
Print Assumptions C05_newline.
Print Assumptions C06_exact.
Print Assumptions C06_other.
Print Assumptions C06_rejects.
Print Assumptions C06_only.
Print Assumptions C06_unambiguous.
Print Assumptions C07_reads_back.
Print Assumptions C07_size.
Print Assumptions C08_rejects.
Print Assumptions C08_duplicate.
Print Assumptions C08_too_small.
Print Assumptions C08_sound_partial.
Print Assumptions C08_exact.
Print Assumptions C08_index_zero_refuted.
Print Assumptions C08_bar_refuted.

(** * C76 *)
(** parse_multiple raises exactly when parse raises on one of the expressions, and then what parse
    raises on the first of them *)
Theorem C76_accepts l size : (exists r, parse_multiple l size = Ok r) <-> forall s, In s l -> exists r, parse_linear s size = Ok r.
Proof.
  induction l as [|s l IH]; cbn [parse_multiple].
  - split; [intros _ s []|eauto].
  - assert (V : forall r, parse_linear s size = Ok r -> validate_expression (list_ascii_of_string s) = true).
    { unfold parse_linear. destruct (validate_expression _); auto. discriminate. }
    destruct (validate_expression (list_ascii_of_string s)) eqn:E.
    + destruct (parse_linear s size) as [r|x|] eqn:Er; cbn [bind].
      * rewrite IH. split; [intros K t [<-|Ht]; eauto|intros K t Ht; apply K; now right].
      * split; [intros (r & Hr); discriminate|]. intros K. destruct (K s (or_introl eq_refl)) as (r & Hr). congruence.
      * split; [intros (r & Hr); discriminate|]. intros K. destruct (K s (or_introl eq_refl)) as (r & Hr). congruence.
    + split; [intros (r & Hr); discriminate|]. intros K. destruct (K s (or_introl eq_refl)) as (r & Hr). apply V in Hr. congruence.
Qed.
Theorem C76_first_failure l1 s l2 size x : (forall t, In t l1 -> exists r, parse_linear t size = Ok r) -> parse_linear s size = Raise x ->
  parse_multiple (l1 ++ s :: l2) size = Raise x.
Proof.
  intros H Hs. induction l1 as [|t l1 IH]; cbn [app parse_multiple].
  - destruct (validate_expression (list_ascii_of_string s)) eqn:E; [now rewrite Hs|]. unfold parse_linear in Hs. rewrite E in Hs. congruence.
  - destruct (H t (or_introl eq_refl)) as (r & Hr). destruct (validate_expression (list_ascii_of_string t)) eqn:E.
    + rewrite Hr. cbn [bind]. apply IH. intros u Hu. apply H. now right.
    + unfold parse_linear in Hr. rewrite E in Hr. discriminate.
Qed.
(** but the rows are never returned *)
Theorem C76_rows_refuted l size : parse_multiple l size <> Ok (Some (map (fun s => match parse_linear s size with Ok r => r | _ => [] end) l)) /\
  forall r, parse_multiple l size = Ok r -> r = None.
Proof.
  assert (K : forall r, parse_multiple l size = Ok r -> r = None).
  { induction l as [|s l IH]; cbn [parse_multiple]; intros r Hr; [congruence|].
    destruct (validate_expression _); [|discriminate]. destruct (parse_linear s size); try discriminate. now apply IH. }
  split; [intros E; apply K in E; discriminate|exact K].
Qed.
Example C76_example : parse_multiple ["1x_1"; "2x_1-3x_2"] (Some 2%Z) = Ok None /\
  parse_multiple ["1x_1"; "2x_3"; "x"] (Some 2%Z) = Raise IndexError /\ parse_multiple ["1x_1"; "x"; "2x_3"] (Some 2%Z) = Raise PlainException.
Proof. repeat split; vm_compute; reflexivity. Qed.
Print Assumptions C76_accepts.
Print Assumptions C76_first_failure.
Print Assumptions C76_rows_refuted.
