(** C64: the recorded steps. *)
From Coq Require Import String Ascii List Bool Arith ZArith QArith Qcanon Lia.
From Verif Require Import Py QcTac QSum QInt ComparatorModel MatModel MatTheory LinearModel LinearSpec LinearProofs SefProofs LinearInv DualProofs BasisProofs BlandProofs SimplexProofs LinearProps SimplexProps TwoPhaseProofs BasicProps TextModel TextSpec TextProofs TextRead TextProps StepsModel StepsSpec StepsProofs.
Import ListNotations.
Open Scope nat_scope.
Open Scope string_scope.
Open Scope list_scope.

(** * Texts of numbers and lists *)
Lemma sint_number n : (0 <= n)%Z -> number_text (sint_text n) n.
Proof.
  intros H. unfold sint_text. destruct (Z.ltb_spec n 0); [lia|]. destruct (int_digits_spec n H) as (D1 & D2 & D3 & _).
  unfold int_text. fold (int_digits n). split; [destruct (int_digits n); [contradiction|discriminate]|]. now rewrite decimal_digits, D2.
Qed.
Lemma ints_list l : (forall n, In n l -> (0 <= n)%Z) -> list_text (ints_text l) l.
Proof.
  intros H. exists (map sint_text l). split; [|reflexivity]. induction l as [|n l IH]; cbn [map]; constructor.
  - apply sint_number, H. now left. - apply IH. intros m Hm. apply H. now right.
Qed.

Section C64.
Ltac txt := unfold step_of; cbn; rewrite ?app_nil_r; reflexivity.
Variable array_text : array -> text.

(** * The record does not influence the answers *)
(** the object's program and the answer are those of the methods without a record *)
Theorem C64_answers p l show fuel x d Bz : reachable p ->
  (let '(o, r) := is_feasible_s array_text show x (p, l) in fst o = p /\ r = is_feasible p x) /\
  (let '(o, r) := is_basic_solution_s array_text show x Bz (p, l) in fst o = p /\ r = is_basic_solution p x Bz) /\
  (let '(o, r) := to_canonical_form_s array_text show Bz (p, l) in
     match to_canonical_form p Bz with Ok q => o = (q, snd o) /\ r = Ok tt | Raise e => fst o = p /\ r = Raise e | Diverges => False end) /\
  (let '(o, r) := to_sef_s array_text show (p, l) in fst o = fst (to_sef p) /\ r = Ok (snd (to_sef p))) /\
  (let '(o, r) := verify_unboundedness_s array_text show x d (p, l) in fst o = p /\ r = verify_unboundedness p x d) /\
  (let '(o, r) := value_of_s array_text x (p, l) in fst o = p /\ r = value_of p x) /\
  (0 < length (lb p) ->
   (let '(o, r) := simplex_s array_text show fuel Bz (p, l) in (fst o, r) = simplex fuel p Bz) /\
   (let '(o, r) := two_phase_simplex_s array_text show fuel (p, l) in (fst o, r) = two_phase_simplex fuel p) /\
   (let '(o, r) := solve_s array_text show fuel (p, l) in (fst o, r) = solve fuel p)).
Proof.
  intros Hr. pose proof (reachable_wf p Hr) as H.
  rewrite feasible_run, basic_run, to_canonical_run, to_sef_run, unboundedness_run, value_run. cbv zeta.
  split; [split; reflexivity|]. split; [split; reflexivity|]. split.
  { destruct (to_canonical_form p Bz) eqn:E; cbn [fst snd]; try (split; reflexivity).
    unfold to_canonical_form in E. destruct (negb (lsef p)); [discriminate|]. unfold is_basis, canonical, minv in E.
    repeat match type of E with context [if ?b then _ else _] => destruct b; cbn [bind] in E end; discriminate. }
  split; [split; reflexivity|]. split; [split; reflexivity|]. split; [split; reflexivity|]. rewrite (wf_b _ H). intros R. split; [|split].
  - rewrite simplex_run by auto. cbn [fst]. now destruct (simplex fuel p Bz).
  - destruct (two_phase_run array_text show fuel p l H R) as (new & -> & _). cbn [fst]. now destruct (two_phase_simplex fuel p).
  - destruct (solve_run array_text show fuel p l H R) as (new & -> & _). cbn [fst]. now destruct (solve fuel p).
Qed.

(** * The record only grows, and only when asked for *)
Definition grows {A} (show : bool) (l : list step) (r : obj * res A) : Prop :=
  exists new, snd (fst r) = l ++ new /\ (show = false -> new = []).
Lemma grows_rec {A} show l p es (r : res A) : grows show l ((p, l ++ rec_ array_text show es), r).
Proof. eexists. split; [reflexivity|]. intros ->. reflexivity. Qed.
Theorem C64_grows p l show fuel x Bz : reachable p ->
  grows show l (is_feasible_s array_text show x (p, l)) /\ grows show l (is_basic_solution_s array_text show x Bz (p, l)) /\
  grows show l (to_canonical_form_s array_text show Bz (p, l)) /\ grows show l (to_sef_s array_text show (p, l)) /\
  grows show l (simplex_iteration_s array_text show Bz (p, l)) /\
  (0 < length (lb p) -> grows show l (simplex_s array_text show fuel Bz (p, l)) /\ grows show l (two_phase_simplex_s array_text show fuel (p, l)) /\
     grows true l (solve_s array_text show fuel (p, l))).
Proof.
  intros Hr. pose proof (reachable_wf p Hr) as H. rewrite feasible_run, basic_run, to_canonical_run, to_sef_run. cbv zeta.
  assert (N : forall A (o : lp) (r : res A), grows show l ((o, l), r)) by (intros; exists []; cbn; now rewrite app_nil_r).
  assert (N' : forall A (o : lp) (r : res A), grows show l ((o, l ++ []), r)) by (intros; rewrite app_nil_r; apply N).
  split; [destruct (Nat.eqb (length x) (cols p)); [apply grows_rec|apply N']|].
  split; [destruct (is_basic_solution p x Bz); [apply grows_rec|apply N'..]|]. split.
  { destruct (lsef p); destruct (to_canonical_form p Bz); try apply grows_rec; try apply N. eexists. cbn [fst snd]. rewrite <- app_assoc. split; [reflexivity|]. intros ->. reflexivity. }
  split; [apply grows_rec|]. split. { destruct (iteration_run array_text show p Bz l) as (o & -> & _ & G). exact G. }
  rewrite (wf_b _ H). intros R. split; [|split].
  - rewrite simplex_run by auto. apply grows_rec.
  - destruct (two_phase_run array_text show fuel p l H R) as (new & -> & _). apply grows_rec.
  - destruct (solve_run array_text show fuel p l H R) as (new & -> & _). exists new. split; [reflexivity|discriminate].
Qed.

(** solve on a program in SEF records steps also when told not to; on any other program it records
    none, even when asked *)
Theorem C64_solve_refuted p l show fuel : reachable p -> 0 < length (lb p) ->
  (lsef p = true -> forall x, snd (solve_s array_text show fuel (p, l)) = Ok (Some x) -> snd (fst (solve_s array_text show fuel (p, l))) <> l) /\
  (lsef p = false -> fst (solve_s array_text show fuel (p, l)) = (p, l)).
Proof.
  intros Hr R. pose proof (reachable_wf p Hr) as H. rewrite (wf_b _ H) in R. destruct (solve_run array_text show fuel p l H R) as (new & -> & N1 & N2). cbn [fst snd]. split.
  - intros HS x E K. rewrite <- (app_nil_r l) in K at 2. apply app_inv_head in K. exact (N2 HS x E K).
  - intros HS. rewrite (N1 HS), app_nil_r. unfold solve. rewrite HS. destruct (to_sef p) as [q rv].
    destruct (if Nat.leb (rows q) (cols q) then _ else _); reflexivity.
Qed.
(** value_of and verify_unboundedness record the check of feasibility whatever is asked *)
Theorem C64_unasked_refuted p l show x d : length x = length (lc p) ->
  says (snd (fst (value_of_s array_text x (p, l)))) (lit "Is " ++ array_text (Vec x) ++ lit " Feasible?") /\
  (lsef p = true -> says (snd (fst (verify_unboundedness_s array_text show x d (p, l)))) (lit "Is " ++ array_text (Vec x) ++ lit " Feasible?")).
Proof.
  intros L. rewrite value_run, unboundedness_run. unfold cols. rewrite L, Nat.eqb_refl. cbn [fst snd].
  assert (G : says (l ++ rec_ array_text true (feasible_record p x)) (lit "Is " ++ array_text (Vec x) ++ lit " Feasible?")).
  { exists (step_of array_text (With "2.01" [AArr (Vec x)])). split; [|reflexivity]. apply in_or_app. right. now left. }
  split; [exact G|]. intros ->. exact G.
Qed.

(** * The record of is_feasible *)
Lemma nonneg_reason x : forallb (fun v => cc_ge v 0) x = false -> exists i, i < length x /\ (nth i x 0 < 0)%Qc.
Proof.
  intros E. assert (K : exists v, In v x /\ cc_ge v 0 = false).
  { induction x as [|v x IH]; [discriminate|]. cbn [forallb] in E. destruct (cc_ge v 0) eqn:Ev; [|exists v; split; [now left|auto]].
    destruct (IH E) as (w & Hw & E'). exists w. split; [now right|auto]. }
  destruct K as (v & Hv & Ev). apply (In_nth _ _ 0%Qc) in Hv. destruct Hv as (i & Hi & <-). exists i. split; auto.
  apply Qcnot_le_lt. intros K. enough (cc_ge (nth i x 0%Qc) 0%Qc = true) by congruence. apply ge0_true. pose proof tol_pos as T. qclra.
Qed.
Lemma allclose_refl v : allclose v v = true.
Proof.
  apply allclose_true; [reflexivity|]. intros i Hi. replace (at_ v i - at_ v i)%Qc with 0%Qc by ring.
  assert (Q : (0 <= qabs (at_ v i))%Qc) by (destruct (qabs_spec (at_ v i)) as [(Q1 & ->)|(Q1 & ->)]; [exact Q1|clear - Q1; set (w := at_ v i) in *; clearbody w; qclra]). assert (0 <= np_rtol * qabs (at_ v i))%Qc by (apply qmul_nonneg; [discriminate|exact Q]).
  assert (A : (0 < np_atol)%Qc) by reflexivity. set (a := np_atol) in *. set (b := (np_rtol * qabs (at_ v i))%Qc) in *. clearbody a b. change (qabs 0) with 0%Qc. qclra.
Qed.
Lemma unsatisfied p x : wf p -> allclose (mulmv (lA p) x) (lb p) = false -> exists i, i < length (lb p) /\ inner (nth i (lA p) []) x <> nth i (lb p) 0%Qc.
Proof.
  intros H E. destruct (forallb (fun i => qeq (inner (nth i (lA p) []) x) (nth i (lb p) 0%Qc)) (seq 0 (length (lb p)))) eqn:F.
  - exfalso. enough (mulmv (lA p) x = lb p) as K by (rewrite K, allclose_refl in E; discriminate E).
    apply (nth_ext _ _ 0%Qc 0%Qc); [rewrite length_mulmv; symmetry; apply (wf_b _ H)|]. intros i Hi. rewrite length_mulmv in Hi.
    assert (G : inner (nth i (lA p) []) x = nth i (lb p) 0%Qc).
    { rewrite forallb_forall in F. specialize (F i). destruct (qeq_spec (inner (nth i (lA p) []) x) (nth i (lb p) 0%Qc)); auto. discriminate F. apply in_seq. rewrite (wf_b _ H). unfold rows. lia. }
    rewrite <- G, (inner_row (cols p)) by (auto; apply (wf_A _ H)). change (nth i (mulmv (lA p) x) 0%Qc) with (at_ (mulmv (lA p) x) i). now rewrite (at_mulmv (cols p)) by (auto; apply (wf_A _ H)).
  - assert (K : exists i, In i (seq 0 (length (lb p))) /\ qeq (inner (nth i (lA p) []) x) (nth i (lb p) 0%Qc) = false).
    { revert F. generalize (seq 0 (length (lb p))). intros s. induction s as [|i s IH]; [discriminate|]. cbn [forallb].
      destruct (qeq (inner (nth i (lA p) []) x) (nth i (lb p) 0%Qc)) eqn:Ei; [|exists i; split; [now left|auto]]. intros F. destruct (IH F) as (j & Hj & Ej). exists j. split; [now right|auto]. }
    destruct K as (i & Hi & Ei). apply in_seq in Hi. exists i. split; [lia|]. intros K. rewrite K in Ei. destruct (qeq_spec (nth i (lb p) 0%Qc) (nth i (lb p) 0%Qc)); [discriminate Ei|contradiction].
Qed.
(** the question comes first; a positive answer is recorded exactly when the answer is positive; for a
    program in SEF a negative one is recorded with a reason, and the reasons are true *)
Theorem C64_feasible_partial p l x b o : reachable p -> is_feasible_s array_text true x (p, l) = (o, Ok b) ->
  let X := array_text (Vec x) in
  exists s new, snd o = l ++ s :: new /\ stext s = lit "Is " ++ X ++ lit " Feasible?" /\
    (b = true -> stext (hd s new) = X ++ lit " is Feasible:" /\ (forall s', In s' new -> skey s' <> "2.06" /\ skey s' <> "2.07" /\ skey s' <> "2.08")) /\
    (b = false -> (forall s', In s' new -> skey s' <> "2.02") /\
      (lsef p = true -> stext (hd s new) = X ++ lit " is Not Feasible:" /\
        (says new (lit "* Some Entries of " ++ X ++ lit " are Negative") \/ says new (lit "* Constraints are Not Satisfied (Ax " ++ [8800%Z] ++ lit " b)")) /\
        ((exists s', In s' new /\ skey s' = "2.07") -> exists i, i < length x /\ (nth i x 0 < 0)%Qc) /\
        ((exists s', In s' new /\ skey s' = "2.08") -> exists i, i < length (lb p) /\ inner (nth i (lA p) []) x <> nth i (lb p) 0%Qc))).
Proof.
  intros Hr E X. pose proof (reachable_wf p Hr) as H. rewrite feasible_run in E. injection E as <- E. cbn [fst snd].
  assert (L : Nat.eqb (length x) (cols p) = true) by (unfold is_feasible in E; destruct (Nat.eqb (length x) (cols p)); [reflexivity|discriminate E]).
  rewrite L. unfold rec_, feasible_record. rewrite E. cbn [map]. eexists. eexists. split; [reflexivity|]. split; [reflexivity|].
  assert (G : forall (es : list entry) (ks : list string), map entry_key es = ks -> forall s', In s' (map (step_of array_text) es) -> In (skey s') ks).
  { intros es ks <- s' Hs. apply in_map_iff in Hs. destruct Hs as (e & <- & He). apply (in_map entry_key) in He. exact He. }
  destruct (lsef p) eqn:HS.
  - unfold is_feasible in E. rewrite L, HS in E. cbn [negb] in E. injection E as E. rewrite E. destruct b.
    + split; [|discriminate]. intros _. split; [reflexivity|]. intros s' Hs. apply (G _ _ eq_refl) in Hs. cbn in Hs.
      repeat split; intros K; rewrite K in Hs; repeat (destruct Hs as [Hs|Hs]; try discriminate Hs); exact Hs.
    + split; [discriminate|]. intros _. split.
      { intros s' Hs K. apply (G _ _ eq_refl) in Hs. rewrite K in Hs.
        destruct (forallb (fun v => cc_ge v 0) x), (allclose (mulmv (lA p) x) (lb p)); cbn in Hs; repeat (destruct Hs as [Hs|Hs]; try discriminate Hs); exact Hs. }
      intros _. split; [reflexivity|].
      destruct (forallb (fun v => cc_ge v 0) x) eqn:E1, (allclose (mulmv (lA p) x) (lb p)) eqn:E2; try discriminate E; cbn [negb app map].
      * split; [right; eexists; split; [right; right; left; reflexivity|reflexivity]|]. split; [|intros _; now apply unsatisfied].
        intros (s' & Hs & K). exfalso. repeat (destruct Hs as [<-|Hs]; try discriminate K). exact Hs.
      * split; [left; eexists; split; [right; right; left; reflexivity|reflexivity]|]. split; [intros _; now apply nonneg_reason|].
        intros (s' & Hs & K). exfalso. repeat (destruct Hs as [<-|Hs]; try discriminate K). exact Hs.
      * split; [left; eexists; split; [right; right; left; reflexivity|reflexivity]|]. split; [intros _; now apply nonneg_reason|intros _; now apply unsatisfied].
  - destruct b; (split; [|try discriminate]); try discriminate.
    + intros _. split; [reflexivity|]. intros s' Hs. apply (G _ _ eq_refl) in Hs. cbn in Hs.
      repeat split; intros K; rewrite K in Hs; repeat (destruct Hs as [Hs|Hs]; try discriminate Hs); exact Hs.
    + intros _. split; [intros s' []|discriminate].
Qed.
(** for any other program a negative answer leaves nothing but the question *)
Theorem C64_no_verdict_refuted p l x : reachable p -> lsef p = false -> is_feasible p x = Ok false ->
  exists s, snd (fst (is_feasible_s array_text true x (p, l))) = l ++ [s] /\ stext s = lit "Is " ++ array_text (Vec x) ++ lit " Feasible?".
Proof.
  intros Hr HS E. rewrite feasible_run. cbn [fst snd].
  assert (L : Nat.eqb (length x) (cols p) = true) by (unfold is_feasible in E; destruct (Nat.eqb (length x) (cols p)); [reflexivity|discriminate E]).
  rewrite L. unfold rec_, feasible_record. rewrite HS, E. eexists. split; reflexivity.
Qed.

(** * The record of is_basic_solution *)
(** a positive answer is recorded exactly when the answer is positive, a negative one with a reason:
    a column outside the basis with a nonzero entry, or Ax <> b; and the reasons are true *)
Theorem C64_basic p l x Bz b o : reachable p -> is_basic_solution_s array_text true x Bz (p, l) = (o, Ok b) ->
  let X := array_text (Vec x) in
  exists s new z, snd o = l ++ s :: new ++ [z] /\
    (exists d, stext s = lit "Is " ++ d ++ lit " A Basic Solution" /\ list_text d Bz) /\
    (b = true -> (exists d, stext z = X ++ lit " is A Basic Solution for Basis " ++ d /\ list_text d (map (fun c => c - 1)%Z Bz)) /\
       says new (lit "Ax = b") /\ says new (lit "Columns of Basis are Zero") /\ forall s', In s' new -> skey s' <> "4.02" /\ skey s' <> "4.03") /\
    (b = false -> (exists d, stext z = X ++ lit " is Not A Basic Solution for Basis " ++ d /\ list_text d (map (fun c => c - 1)%Z Bz)) /\ new <> [] /\
       forall s', In s' new ->
         (exists d j, stext s' = lit "Column " ++ d ++ lit " Is Not a Zero" /\ number_text d (Z.of_nat (S j)) /\ j < length x /\ ~ In (Z.of_nat (S j)) Bz /\ nth j x 0%Qc <> 0%Qc) \/
         (stext s' = lit "Ax " ++ [8800%Z] ++ lit " b" /\ exists i, i < length (lb p) /\ inner (nth i (lA p) []) x <> nth i (lb p) 0%Qc)).
Proof.
  intros Hr E X. pose proof (reachable_wf p Hr) as H. rewrite basic_run in E. injection E as <- E. rewrite E. cbn [fst snd].
  assert (HB : lsef p = true /\ length x = cols p /\ is_basis p Bz = Ok true).
  { unfold is_basic_solution in E. destruct (lsef p); [|discriminate]. destruct (Nat.eqb_spec (length x) (cols p)); [|discriminate]. cbn [negb] in E.
    destruct (is_basis p Bz) as [[|]| |]; try discriminate. auto. }
  destruct HB as (HS & L & HB). pose proof (is_basis_true _ _ HB) as (LB & _ & HBr & _).
  assert (EB : map Z.of_nat (to_array_indexing Bz) = map (fun c => c - 1)%Z Bz).
  { unfold to_array_indexing. rewrite map_map. apply map_ext_in. intros c Hc. apply HBr in Hc. lia. }
  assert (LT : list_text (ints_text (map (fun c => c - 1)%Z Bz)) (map (fun c => c - 1)%Z Bz)).
  { apply ints_list. intros n Hn. apply in_map_iff in Hn. destruct Hn as (c & <- & Hc). apply HBr in Hc. lia. }
  assert (Eb : b = forallb (fun i => inb i (to_array_indexing Bz) || is_close_to_zero (at_ x i)) (seq 0 (cols p)) && allclose (mulmv (lA p) x) (lb p)).
  { unfold is_basic_solution in E. rewrite HS, HB, L, Nat.eqb_refl in E. cbn [negb bind] in E. now injection E as <-. }
  unfold rec_, basic_record. rewrite <- Eb, EB. clear E. cbn [map]. set (B := to_array_indexing Bz) in *.
  exists (step_of array_text (With "4.01" [AInts Bz])).
  set (cs := map column_entry (bad_columns B x (seq 0 (cols p)))). set (a := if allclose (mulmv (lA p) x) (lb p) then [] else [Key "4.03"]).
  set (shown := [AArr (Vec x); AInts (map (fun c => c - 1)%Z Bz)]).
  exists (map (step_of array_text) (cs ++ a ++ (if b then [Key "4.06"; Key "4.07"] else []))).
  exists (step_of array_text (if b then With "4.04" shown else With "4.05" shown)).
  split. { rewrite !map_app. destruct b; cbn [map]; rewrite <- ?app_assoc, ?app_nil_r; reflexivity. }
  split. { eexists. split; [reflexivity|]. apply ints_list. intros n Hn. apply HBr in Hn. lia. }
  assert (Bad : forall i, In i (bad_columns B x (seq 0 (cols p))) -> i < length x /\ ~ In (Z.of_nat (S i)) Bz /\ nth i x 0%Qc <> 0%Qc).
  { intros i Hi. apply filter_In in Hi. destruct Hi as (Hi & K). apply in_seq in Hi. apply andb_true_iff in K. destruct K as (K1 & K2). split; [lia|]. split.
    - intros K. apply (In_array p Bz i HB) in K. apply inb_In in K. fold B in K. rewrite K in K1. discriminate K1.
    - intros K. unfold at_ in K2. rewrite K in K2. discriminate K2. }
  assert (Bad0 : forallb (fun i => inb i B || is_close_to_zero (at_ x i)) (seq 0 (cols p)) = true <-> bad_columns B x (seq 0 (cols p)) = []).
  { unfold bad_columns. generalize (seq 0 (cols p)). intros s. induction s as [|i s IH]; [split; reflexivity|]. cbn [forallb filter].
    destruct (inb i B), (is_close_to_zero (at_ x i)); cbn [orb andb negb]; try exact IH. split; discriminate. }
  destruct b; (split; [|try discriminate]); try discriminate; intros _.
  - symmetry in Eb. apply andb_true_iff in Eb. destruct Eb as (E1 & E2). apply Bad0 in E1. split; [exists (ints_text (map (fun c => c - 1)%Z Bz)); split; [txt|exact LT]|].
    unfold cs, a. rewrite E1, E2. cbn [map app]. split; [eexists; split; [left; reflexivity|reflexivity]|]. split; [eexists; split; [right; left; reflexivity|reflexivity]|].
    intros s' [<-|[<-|[]]]; split; discriminate.
  - split; [exists (ints_text (map (fun c => c - 1)%Z Bz)); split; [txt|exact LT]|]. rewrite app_nil_r. split.
    + intros K. apply map_eq_nil, app_eq_nil in K. destruct K as (K1 & K2). apply map_eq_nil, Bad0 in K1. rewrite K1 in Eb. cbn [andb] in Eb. unfold a in K2. rewrite <- Eb in K2. discriminate K2.
    + intros s' Hs. apply in_map_iff in Hs. destruct Hs as (e & <- & He). apply in_app_iff in He. destruct He as [He|He].
      * left. apply in_map_iff in He. destruct He as (i & <- & Hi). exists (sint_text (Z.of_nat i + 1)), i. split; [reflexivity|].
        replace (Z.of_nat i + 1)%Z with (Z.of_nat (S i)) by lia. split; [apply sint_number; lia|]. now apply Bad.
      * right. unfold a in He. destruct (allclose (mulmv (lA p) x) (lb p)) eqn:E2; [destruct He|]. destruct He as [<-|[]]. split; [reflexivity|]. now apply unsatisfied.
Qed.
(** the basis is shown shifted by one: not the one that was given, unless it is empty *)
Theorem C64_basis_shown_refuted p l x Bz o : reachable p -> is_basic_solution_s array_text true x Bz (p, l) = (o, Ok true) ->
  exists z d B', stext (last (snd o) z) = array_text (Vec x) ++ lit " is A Basic Solution for Basis " ++ d /\ list_text d B' /\ B' <> Bz.
Proof.
  intros Hr E. destruct (C64_basic p l x Bz true o Hr E) as (s & new & z & Eo & _ & T & _). destruct (T eq_refl) as ((d & E1 & E2) & _).
  exists s, d, (map (fun c => c - 1)%Z Bz). rewrite Eo. split; [|split; [exact E2|]].
  - rewrite app_comm_cons, app_assoc, last_last. exact E1.
  - intros K. destruct Bz as [|c Bz]; [|injection K as K; lia]. rewrite basic_run in E. injection E as _ E. unfold is_basic_solution in E.
    destruct (lsef p); [|discriminate]. destruct (Nat.eqb (length x) (cols p)); [|discriminate]. cbn [negb] in E. unfold is_basis in E. cbn [length] in E.
    destruct (negb (Nat.eqb (rows p) 0)); discriminate E.
Qed.

(** * The record of to_sef *)
(** the conversion, and the coefficients before and after when the sense changes *)
Theorem C64_to_sef p l : reachable p ->
  let o := fst (to_sef_s array_text true (p, l)) in
  (lsef p = true -> snd o = l) /\
  (lsef p = false -> lobj p = "max" -> exists s, snd o = l ++ [s] /\ stext s = lit "Convert to SEF") /\
  (lsef p = false -> lobj p = "min" -> exists s1 s2 s3, snd o = l ++ [s1; s2; s3] /\ stext s1 = lit "Convert to SEF" /\
     stext s2 = lit "Take Negative of Coefficient Vector to Set Objective to Maximization" /\
     stext s3 = array_text (Vec (lc p)) ++ lit " => " ++ array_text (Vec (map Qcopp (lc p)))).
Proof.
  intros Hr. cbv zeta. rewrite to_sef_run. cbn [fst snd]. unfold rec_, sef_record. split; [|split].
  - intros ->. cbn [map]. apply app_nil_r.
  - intros -> ->. eexists. split; reflexivity.
  - intros -> ->. rewrite vopp_vopp. eexists. eexists. eexists. split; [reflexivity|]. split; [reflexivity|]. split; [reflexivity|].
    unfold step_of. cbn. now rewrite app_nil_r.
Qed.

(** * The record of to_canonical_form *)
(** the basis, its columns of A and entries of c, the inverse of the former, and y with y A_B = c_B *)
Theorem C64_canonical p l Bz q : reachable p -> to_canonical_form p Bz = Ok q ->
  exists s1 s2 s3 s4 s5 d AB cB X y, let m := length Bz in
  snd (fst (to_canonical_form_s array_text true Bz (p, l))) = l ++ [s1; s2; s3; s4; s5] /\
  stext s1 = lit "Convert to Canonical Form for Base Indices of " ++ d /\ list_text d Bz /\
  stext s2 = lit "Basis:" ++ [10%Z] ++ array_text (Mat m AB) /\
  stext s3 = lit "Corresponding Coefficient Entries: " ++ array_text (Vec cB) /\
  stext s4 = lit "Basis Inverse:" ++ [10%Z] ++ array_text (Mat m X) /\
  stext s5 = lit "y Vector:" ++ [10%Z] ++ array_text (Vec y) /\
  length AB = m /\ length X = m /\ length cB = m /\ length y = m /\
  (forall i k, i < m -> k < m -> nth k (nth i AB []) 0%Qc = nth (Z.to_nat (nth k Bz 1%Z - 1)) (nth i (lA p) []) 0%Qc) /\
  (forall k, k < m -> nth k cB 0%Qc = nth (Z.to_nat (nth k Bz 1%Z - 1)) (lc p) 0%Qc) /\
  (forall i k, i < m -> k < m -> inner (nth i X []) (map (fun r => nth k r 0%Qc) AB) = if Nat.eqb i k then 1%Qc else 0%Qc) /\
  (forall k, k < m -> inner y (map (fun r => nth k r 0%Qc) AB) = nth k cB 0%Qc).
Proof.
  intros Hr E. pose proof (reachable_wf p Hr) as H. rewrite to_canonical_run. cbv zeta. rewrite E.
  assert (HB : lsef p = true /\ is_basis p Bz = Ok true).
  { unfold to_canonical_form in E. destruct (lsef p); [|discriminate]. cbn [negb] in E. destruct (is_basis p Bz) as [[|]| |]; try discriminate. auto. }
  destruct HB as (HS & HB). pose proof (is_basis_true _ _ HB) as (LB & R0 & HBr & _). rewrite HS. set (B := to_array_indexing Bz).
  assert (LA : length B = rows p) by (unfold B; now rewrite length_array_indexing).
  unfold to_canonical_form in E. rewrite HS, HB in E. cbn [negb bind] in E. fold B in E. unfold canonical in E.
  assert (LM : length (columns_of B (lA p)) = rows p) by now rewrite length_columns.
  destruct (minv (columns_of B (lA p))) as [X| |] eqn:EX; try discriminate E. cbn [bind] in E. clear E.
  destruct (minv_ok _ _ LM (minv_inv _ _ EX)) as (X' & E' & LX & SX & XA & _). rewrite EX in E'. injection E' as <-.
  set (AB := columns_of B (lA p)) in *. set (cB := take B (lc p)). set (y := mulmv (transpose (rows p) X) cB).
  exists (step_of array_text (With "1.01" [AInts Bz])), (step_of array_text (With "1.02" [AArr (Mat (length B) AB)])), (step_of array_text (With "1.03" [AArr (Vec cB)])),
    (step_of array_text (With "1.04" [AArr (Mat (length B) X)])), (step_of array_text (With "1.05" [AArr (Vec y)])), (ints_text Bz), AB, cB, X, y.
  assert (EntX : forall i k, i < rows p -> ent X i k = nth k (nth i X []) 0%Qc) by (intros i k Hi; unfold ent, at_; reflexivity).
  assert (Col : forall k i, at_ (map (fun r => nth k r 0%Qc) AB) i = ent AB i k) by (intros k i; exact (at_column AB k i)).
  cbv zeta. split. { cbn [fst snd]. unfold rec_, canonical_record. change (to_array_indexing Bz) with B. change (columns_of B (lA p)) with AB. rewrite EX. cbn [map]. rewrite <- app_assoc. reflexivity. }
  assert (LBB : length B = length Bz) by (unfold B; apply length_array_indexing).
  split; [unfold step_of; cbn; now rewrite app_nil_r|]. split; [apply ints_list; intros n Hn; apply HBr in Hn; lia|].
  split; [unfold step_of; cbn [stext entry_key entry_args]; rewrite <- LBB; cbn; now rewrite app_nil_r|].
  split; [unfold step_of; cbn; now rewrite app_nil_r|].
  split; [unfold step_of; cbn [stext entry_key entry_args]; rewrite <- LBB; cbn; now rewrite app_nil_r|].
  split; [unfold step_of; cbn; now rewrite app_nil_r|]. rewrite LB.
  assert (Lc : length cB = rows p) by (unfold cB, take; rewrite map_length; exact LA).
  assert (Ly : length y = rows p) by (unfold y; rewrite length_mulmv; apply length_transpose).
  split; [exact LM|]. split; [exact LX|]. split; [exact Lc|]. split; [exact Ly|].
  assert (Bn : forall k, k < rows p -> Z.to_nat (nth k Bz 1%Z - 1) = nth k B 0) by (intros k Hk; apply nth_array; lia).
  assert (Hc : forall k, k < rows p -> at_ cB k = at_ (lc p) (nth k B 0)).
  { intros k Hk. unfold cB, take, at_ at 1. rewrite (nth_indep _ _ (at_ (lc p) 0)) by (rewrite map_length; lia). now rewrite (map_nth (at_ (lc p))). }
  split. { intros i k Hi Hk. rewrite Bn by auto. change (ent AB i k = ent (lA p) i (nth k B 0)). apply ent_columns; [exact Hi|lia]. }
  split. { intros k Hk. rewrite Bn by auto. now apply Hc. }
  split.
  - intros i k Hi Hk. rewrite (inner_row (rows p)) by (auto; lia). rewrite (Sum_ext _ _ (fun j => ent X i j * ent AB j k)%Qc) by (intros j Hj; now rewrite Col). rewrite XA by auto. reflexivity.
  - intros k Hk. change (nth k cB 0%Qc) with (at_ cB k). rewrite (inner_Sum (rows p)) by auto.
    rewrite (Sum_ext _ _ (fun j => Sum (rows p) (fun i => at_ cB i * ent X i j) * ent AB j k)%Qc).
    2:{ intros j Hj. rewrite Col. f_equal. unfold y. rewrite (at_mulmv (rows p)).
      - apply Sum_ext. intros i Hi. rewrite ent_transpose by lia. ring.
      - unfold transpose. rewrite <- LX. apply shaped_mkmat.
      - rewrite length_transpose. exact Hj. }
    rewrite <- Sum_assoc. rewrite (Sum_ext _ _ (fun i => at_ cB i * DetTheory.delta i k)%Qc) by (intros i Hi; now rewrite XA).
    now apply (Sum_delta_r (rows p) k (fun i => at_ cB i)).
Qed.

(** * The record of simplex *)
Lemma solves_equivalent q p : wf q -> wf p -> lsef q = true -> lsef p = true -> cols q = cols p ->
  (forall f, solves 1 p f <-> solves 1 q f) -> (forall f, solves 1 p f -> (BasisProofs.obj q f + lz q = BasisProofs.obj p f + lz p)%Qc) -> equivalent q p.
Proof.
  intros Hq Hp Sq Sp C SS OO.
  assert (G : forall r x, wf r -> (forall i, i < rows r -> Sum (cols r) (fun j => ent (lA r) i j * at_ x j)%Qc = at_ (lb r) i) <-> solves 1 r (at_ x)).
  { intros r x Hr. unfold solves, lhs. split; intros K i Hi; specialize (K i Hi); rewrite K; ring. }
  assert (F : forall x, feasible (meaning q) x <-> feasible (meaning p) x).
  { intros x. rewrite !sfeas_iff by auto. unfold sfeas. rewrite (G q x Hq), (G p x Hp), C, SS. tauto. }
  split; [exact F|]. split; [|now rewrite !max_sef by auto].
  intros x Hx. apply sfeas_iff in Hx; auto. destruct Hx as (_ & Hx & _). apply (G p x Hp) in Hx. rewrite !value_Sum. exact (OO _ Hx).
Qed.
Lemma negate_equivalent p : wf p -> lsef p = true -> equivalent (negate_rows p) p.
Proof.
  intros H HS. apply solves_equivalent; auto; [now apply wf_negate|..].
  intros f. symmetry. now apply solves_neg.
Qed.
Lemma canon_equivalent p B q : wf p -> lsef p = true -> canon p B q -> equivalent q p.
Proof.
  intros H HS HC. apply solves_equivalent; auto; [apply HC| |apply HC|intros f; apply (cn_eq _ _ _ HC)|].
  - destruct (cn_frame _ _ _ HC) as (_ & _ & -> & _). exact HS.
  - intros f Hf. pose proof (cn_obj _ _ _ HC _ _ Hf) as K. clear - K. set (a := BasisProofs.obj p f) in *. set (b := BasisProofs.obj q f) in *. clearbody a b. qclra.
Qed.
Lemma equivalent_trans r q p : equivalent r q -> equivalent q p -> equivalent r p.
Proof.
  intros (F1 & V1 & M1) (F2 & V2 & M2). split; [intros x; now rewrite F1|]. split; [|congruence]. intros x Hx. rewrite V1 by now apply F2. now apply V2.
Qed.
Lemma iterations_numbered qs : (forall q, In q qs -> wf q /\ 0 < rows q) -> forall k, iterations k qs (map (step_of array_text) (numbered (Z.of_nat k) qs)).
Proof.
  induction qs as [|q qs IH]; intros Hq k; cbn [numbered map]; [constructor|]. destruct (Hq q) as (W & R); [now left|]. destruct (repr_reads q W R) as (t & P & E & _).
  apply (its_cons k q qs _ _ _ (sint_text (Z.of_nat k))).
  - apply sint_number. lia.
  - txt.
  - rewrite (step_of_prog array_text q t E). exact E.
  - replace (Z.of_nat k + 1)%Z with (Z.of_nat (S k)) by lia. apply IH. intros q' Hq'. apply Hq. now right.
Qed.
Lemma last_nth {A} (l : list A) d : l <> [] -> last l d = nth (length l - 1) l d.
Proof.
  induction l as [|a l IH]; [contradiction|]. intros _. destruct l as [|b l]; [reflexivity|]. change (last (a :: b :: l) d) with (last (b :: l) d). rewrite IH by discriminate.
  cbn [length]. replace (S (S (length l)) - 1) with (S (S (length l) - 1)) by lia. reflexivity.
Qed.
Lemma Forall2_nth {A B} (R : A -> B -> Prop) l m : Forall2 R l m -> forall k a b, k < length l -> R (nth k l a) (nth k m b).
Proof. induction 1 as [|x y l m H _ IH]; intros k a b Hk; [cbn in Hk; lia|]. destruct k as [|k]; [exact H|]. apply IH. cbn in Hk. lia. Qed.

(** the iterations are numbered from 0; the first program shown is the given one up to the signs of
    its rows, the others are its canonical forms for a sequence of bases that starts with the given
    basis, exchanges one column at a time and ends with the basis returned; all of them have the same
    feasible points and values as the given program; the record ends with the answer *)
Theorem C64_simplex p l fuel Bz o r : reachable p -> simplex_s array_text true fuel Bz (p, l) = (o, Ok r) ->
  exists q0 qs Bs its ends, snd o = l ++ its ++ ends /\ iterations 0 (q0 :: qs) its /\ concluded array_text r ends /\
    (forall q, In q (q0 :: qs) -> equivalent q p) /\
    length Bs = length qs /\ qs <> [] /\
    (forall c, In c (hd [] Bs) <-> In c Bz) /\
    (forall k, S k < length Bs -> exchanged (nth k Bs []) (nth (S k) Bs [])) /\
    (forall k, k < length Bs -> in_canonical_form (nth k qs q0) (nth k Bs [])) /\
    (forall x B y, r = (Some x, Some B, y) -> B = last Bs [] /\
       (forall k, k < length B -> nth (Z.to_nat (nth k B 1%Z - 1)) x 0%Qc = nth k (lb (last qs q0)) 0%Qc) /\
       (forall j, j < length (lc p) -> (nth j (lc (last qs q0)) 0 < Q2Qc (1 # 10000000000))%Qc)).
Proof.
  intros Hr E. pose proof (reachable_wf p Hr) as H.
  assert (R : 0 < rows p).
  { destruct (rows p) eqn:ER; [exfalso|lia]. unfold simplex_s in E. rewrite bind_prog in E. destruct (lsef p) eqn:HS; cbn [negb] in E; [|discriminate E].
    rewrite bind_put in E. rewrite bind_say in E by (constructor; [eexists; reflexivity|constructor]).
    unfold mbind, say, append_all, append, mbind, lift, render in E. cbn [entry_key entry_args dget descriptors String.eqb Ascii.eqb Bool.eqb fst snd mapM arg_text] in E.
    assert (K : repr (negate_rows p) = Raise UnboundLocalError).
    { apply repr_no_rows; [now apply wf_negate|]. rewrite rows_neg; auto. }
    rewrite K in E. cbn [bind] in E. discriminate E. }
  rewrite simplex_run in E by auto. injection E as <- E. cbn [fst snd].
  destruct (simplex_inv _ _ _ _ E) as (HS & it & EL & ER). pose proof (wf_negate p H) as H'. pose proof (neg_again p H) as NN.
  destruct (trace_spec (negate_rows p) H' HS NN fuel Bz it EL) as (Bs & N1 & N2 & N3 & N4 & N5 & N6).
  set (p' := negate_rows p) in *. set (qs := map updated (loop_trace fuel p' Bz)) in *.
  destruct (loop_inv p' H' HS _ _ _ EL) as (Fin & B & q & HI & HR & _). fold p' in HI, HR. rewrite NN in HI, HR.
  assert (Lq : length Bs = length qs) by (apply (Forall2_length _ _ _ N4)).
  assert (Rp : rows p' = rows p) by now apply rows_neg.
  assert (Qs : forall q, In q qs -> wf q /\ 0 < rows q /\ equivalent q p).
  { intros q1 Hq. apply (In_nth _ _ p') in Hq. destruct Hq as (k & Hk & <-). assert (Hk' : k < length Bs) by lia.
    destruct (Forall2_nth _ _ _ N4 k [] p' Hk') as (_ & HC). split; [apply HC|]. split; [rewrite (cn_rows _ _ _ HC); lia|].
    apply (equivalent_trans _ p'); [now apply (canon_equivalent p' (nth k Bs []))|now apply negate_equivalent]. }
  assert (HBz : is_basis p Bz = Ok true).
  { rewrite <- (is_basis_neg p Bz H). fold p'. destruct fuel as [|fuel]; [discriminate EL|]. cbn [simplex_loop] in EL. unfold simplex_iteration in EL. assert (HS' : lsef p' = true) by exact HS. rewrite HS' in EL. cbn [negb] in EL.
    destruct (is_basis p' Bz) as [[|]| |]; cbn [negb bind] in EL; try discriminate. reflexivity. }
  exists p', qs, (map to_math_indexing Bs), (map (step_of array_text) (numbered 0 (p' :: qs))), (map (step_of array_text) (closing r)).
  split. { unfold rec_, simplex_record. rewrite HS. cbn [negb]. rewrite E. fold p'. fold qs. now rewrite map_app. }
  split. { apply (iterations_numbered (p' :: qs)). intros q1 [<-|Hq]; [split; [exact H'|lia]|]. destruct (Qs q1 Hq) as (W & R1 & _). auto. }
  split.
  { destruct it as [x B1 q1|x B1 q1|B1 q1]; [|injection ER as <-; eexists; split; reflexivity|destruct Fin].
    cbn [simplex_result] in ER. destruct (minv _) as [X| |]; try discriminate ER. cbn [bind] in ER. injection ER as <-.
    unfold closing, concluded. cbn [map]. eexists. eexists. eexists. exists (ints_text (to_math_indexing B1)). split; [reflexivity|]. split; [txt|]. split; [txt|]. split; [|txt].
    apply ints_list. intros n Hn. apply In_math in Hn. destruct Hn as (i & _ & ->). lia. }
  split. { intros q1 [<-|Hq]; [now apply negate_equivalent|]. now apply Qs. }
  split; [now rewrite map_length|]. split. { intros K. rewrite K in Lq. destruct Bs; [contradiction|discriminate Lq]. }
  assert (NthB : forall k, nth k (map to_math_indexing Bs) [] = to_math_indexing (nth k Bs [])) by (intros k; exact (map_nth to_math_indexing Bs [] k)).
  split.
  { intros c. destruct Bs as [|B0 Bs]; [contradiction|]. cbn [map hd] in *. rewrite N2, In_math. split.
    - intros (i & Hi & ->). apply (proj1 (In_sort _ _)) in Hi. now apply (In_array p Bz i HBz).
    - intros Hc. pose proof (is_basis_true _ _ HBz) as (_ & _ & HBr & _). specialize (HBr c Hc). exists (Z.to_nat (c - 1)).
      assert (Ec : c = Z.of_nat (S (Z.to_nat (c - 1)))) by lia. split; [|exact Ec]. apply In_sort, (In_array p Bz _ HBz). now rewrite <- Ec. }
  split.
  { intros k Hk. rewrite map_length in Hk. rewrite !NthB. destruct (N5 k Hk) as (i & j & Hi & Hj & Hx). exists (Z.of_nat (S i)), (Z.of_nat (S j)).
    split; [apply In_math; now exists i|]. split. { intros K. apply In_math in K. destruct K as (j' & K1 & K2). apply Hj. now replace j with j' by lia. }
    intros c. rewrite !In_math. split.
    - intros (c' & Hc & ->). apply Hx in Hc. destruct Hc as [(Hc & Hne)|Hc]; [left; split; [now exists c'|lia]|right; lia].
    - intros [((c' & Hc & ->) & Hne)|Hc]; [exists c'; split; [apply Hx; left; split; [exact Hc|intros ->; now apply Hne]|reflexivity]|exists j; split; [apply Hx; now right|exact Hc]]. }
  assert (CF : forall k, k < length Bs -> basis p' (nth k Bs []) /\ canon p' (nth k Bs []) (nth k qs p')) by (intros k Hk; now apply (Forall2_nth _ _ _ N4)).
  assert (NthM : forall C k, k < length C -> Z.to_nat (nth k (to_math_indexing C) 1%Z - 1) = bk C k).
  { intros C k Hk. unfold to_math_indexing, bk. rewrite (nth_indep _ 1%Z (Z.of_nat (S 0))) by now rewrite map_length. rewrite (map_nth (fun i => Z.of_nat (S i))). lia. }
  assert (LM : forall C, length (to_math_indexing C) = length C) by (intros; apply map_length).
  split.
  { intros k Hk. rewrite map_length in Hk. rewrite NthB. destruct (CF k Hk) as (HB & HC). pose proof (bs_len _ _ HB) as LB. intros j Hj. rewrite LM in Hj. rewrite NthM by auto. split.
    - apply (cn_cost _ _ _ HC). lia.
    - intros i Hi. rewrite LM in Hi. apply (cn_unit _ _ _ HC); lia. }
  intros x B0 y Er. destruct it as [x1 B1 q1|x1 B1 q1|B1 q1]; [|subst r; discriminate ER|destruct Fin].
  cbn [simplex_result] in ER. destruct (minv _) as [X| |]; try discriminate ER. cbn [bind] in ER. subst r. injection ER as Ex EB _. subst x1 B0.
  cbn [it_basis updated] in N3, N6. cbn [result_of] in HR. destruct HR as (-> & -> & Ex & Ec & _).
  assert (Lq1 : last qs p' = q) by exact N6. rewrite Lq1. split.
  { rewrite (last_nth (map to_math_indexing Bs)) by (destruct Bs; [contradiction|discriminate]). rewrite map_length, NthB. f_equal. rewrite <- N3. now apply last_nth. }
  pose proof (it_B _ _ _ HI) as HB. pose proof (it_canon _ _ _ HI) as HC. split.
  - intros k Hk. rewrite LM in Hk. rewrite NthM by auto. rewrite Ex. change (nth (bk B k) ?v 0%Qc) with (at_ v (bk B k)).
    apply at_scatter; auto; [now apply (bs_NoDup p')|rewrite (length_lb p' B q HC); apply HB|apply (bk_lt p'); auto; now rewrite <- (bs_len _ _ HB)].
  - intros j Hj. exact (Ec j Hj).
Qed.

(** * Programs without constraints *)
(** simplex with a record fails to print the program, two_phase_simplex fails also without a record *)
Theorem C64_no_rows_refuted p l show fuel Bz : reachable p -> lsef p = true -> length (lb p) = 0 ->
  snd (simplex_s array_text true fuel Bz (p, l)) = Raise UnboundLocalError /\
  snd (two_phase_simplex_s array_text show fuel (p, l)) = Raise UnboundLocalError /\
  snd (simplex_s array_text false (S fuel) [] (p, l)) = Raise ValueError.
Proof.
  intros Hr HS L. pose proof (reachable_wf p Hr) as H. rewrite (wf_b _ H) in L.
  assert (K : forall p l fuel Bz, wf p -> lsef p = true -> rows p = 0 -> snd (simplex_s array_text true fuel Bz (p, l)) = Raise UnboundLocalError).
  { clear. intros p l fuel Bz H HS L. unfold simplex_s. rewrite bind_prog, HS. cbn [negb]. rewrite bind_put.
    rewrite bind_say by (constructor; [eexists; reflexivity|constructor]).
    assert (K : repr (negate_rows p) = Raise UnboundLocalError) by (apply repr_no_rows; [now apply wf_negate|rewrite rows_neg; auto]).
    unfold mbind, say, append_all, append, mbind, lift, render. cbn [entry_key entry_args dget descriptors String.eqb Ascii.eqb Bool.eqb fst snd mapM arg_text].
    rewrite K. reflexivity. }
  split; [now apply K|]. split.
  - unfold two_phase_simplex_s. rewrite bind_prog, bind_lift. destruct (auxiliary_aux p HS) as (a0 & E0 & Ea). rewrite E0. unfold on_object. rewrite bind_lift.
    unfold mbind at 1. rewrite to_sef_run, Ea. specialize (K (aux p) ([] ++ rec_ array_text show (sef_record a0)) fuel (map Z.of_nat (seq (S (cols p)) (rows p))) (wf_aux p H) eq_refl).
    rewrite rows_aux in K by auto. specialize (K L). destruct (simplex_s array_text true fuel _ _) as [o' r]. cbn [snd] in K. now subst r.
  - rewrite simplex_run by (auto; discriminate). cbn [snd]. unfold simplex. rewrite HS. cbn [negb simplex_loop]. unfold simplex_iteration. change (lsef (negate_rows p)) with (lsef p). rewrite HS. cbn [negb].
    unfold is_basis. rewrite rows_neg, L by auto. reflexivity.
Qed.

(** * clear_steps *)
(** in place it empties the record and keeps the program; not in place it calls itself for ever *)
Theorem C64_clear_partial fuel p l : clear_steps (S fuel) true (p, l) = ((p, []), Ok (p, [])).
Proof. reflexivity. Qed.
Theorem C64_clear_refuted fuel o : snd (clear_steps fuel false o) = Diverges /\ fst (clear_steps fuel false o) = o.
Proof. apply clear_false. Qed.

End C64.

(** * The record as one text *)
Definition blank (t : text) : Prop := Forall (fun c => is_space c = true) t.
Lemma strip_left_spec t : exists u, t = u ++ strip_left t /\ blank u /\ match strip_left t with c :: _ => is_space c = false | [] => True end.
Proof.
  induction t as [|c t (u & E & Bu & K)]; [exists []; repeat split; constructor|]. cbn [strip_left]. destruct (is_space c) eqn:Ec.
  - exists (c :: u). split; [cbn; congruence|]. split; [constructor; auto|exact K].
  - exists []. split; [reflexivity|]. split; [constructor|exact Ec].
Qed.
(** the texts of the steps in order, one per line; only blanks at the two ends are left out *)
Theorem C64_string o : exists u v, blank u /\ blank v /\ u ++ steps_string o ++ v = concat (map (fun s => 10%Z :: stext s) (snd o)) /\
  (forall c t, steps_string o = c :: t -> is_space c = false) /\ (forall c t, steps_string o = t ++ [c] -> is_space c = false).
Proof.
  unfold steps_string. assert (E : forall l acc, fold_left (fun previous current => previous ++ nl ++ stext current) l acc = acc ++ concat (map (fun s => 10%Z :: stext s) l)).
  { induction l as [|s l IH]; intros acc; cbn [fold_left map concat]; [now rewrite app_nil_r|]. rewrite IH, <- app_assoc. reflexivity. }
  rewrite E. cbn [app]. set (t := concat _). unfold strip. destruct (strip_left_spec t) as (u & E1 & B1 & K1). destruct (strip_left_spec (rev (strip_left t))) as (v & E2 & B2 & K2).
  exists u, (rev v). split; auto. split; [now apply Forall_rev|].
  assert (E3 : strip_left t = rev (strip_left (rev (strip_left t))) ++ rev v) by (rewrite <- rev_app_distr, <- E2; symmetry; apply rev_involutive).
  split; [rewrite <- E3; now rewrite <- E1|]. split.
  - intros c t' K. rewrite K in E3. rewrite E3 in K1. exact K1.
  - intros c t' K. apply (f_equal (@rev Z)) in K. rewrite rev_involutive, rev_app_distr in K. rewrite K in K2. exact K2.
Qed.

(** * The hypotheses are met *)
Definition blob (a : array) : text := lit "<array>".
Definition keys (l : list step) : list string := map skey l.
Example C64_nontrivial : exists p u, small_program = Ok p /\ reachable p /\ lsef p = true /\ 0 < length (lb p) /\ unbounded_program = Ok u /\ reachable u /\
  (exists q, to_canonical_form p [2; 1]%Z = Ok q) /\
  (let '(o, r) := simplex_s blob true 16 [4; 3]%Z (p, []) in
     keys (snd o) = ["5.02"; "5.01"; "5.02"; "5.01"; "5.02"; "5.01"; "5.03"; "5.04"; "5.06"] /\ match r with Ok (Some _, Some B, CVec _) => B = [1; 4]%Z | _ => False end) /\
  (let '(o, r) := simplex_s blob true 16 [3; 4]%Z (u, []) in
     last (keys (snd o)) "" = "5.05" /\ match r with Ok (None, None, CPair _ _) => True | _ => False end) /\
  (exists x, snd (solve_s blob false 16 (p, [])) = Ok (Some x)) /\
  (let '(o, r) := is_feasible_s blob true [qz 4; 0; 0; qz 2]%Qc (p, []) in keys (snd o) = ["2.01"; "2.02"; "2.03"; "2.04"; "2.05"] /\ r = Ok true) /\
  (let '(o, r) := is_feasible_s blob true [qz 4; qz (-1); 0; qz 2]%Qc (p, []) in keys (snd o) = ["2.01"; "2.06"; "2.03"; "2.07"; "2.08"] /\ r = Ok false) /\
  (let '(o, r) := is_basic_solution_s blob true [qz 4; 0; 0; qz 2]%Qc [1; 4]%Z (p, []) in r = Ok true) /\
  (let '(o, r) := is_basic_solution_s blob true [qz 4; 0; qz 1; qz 2]%Qc [1; 4]%Z (p, []) in keys (snd o) = ["4.01"; "4.02"; "4.03"; "4.05"] /\ r = Ok false).
Proof.
  destruct small_program as [p| |] eqn:E; try discriminate E. pose proof (small_program_reachable p E) as Hr.
  destruct unbounded_program as [u| |] eqn:E'; try discriminate E'. pose proof (unbounded_program_reachable u E') as Hr'. injection E as <-. injection E' as <-.
  eexists. eexists. split; [reflexivity|]. split; [exact Hr|]. split; [reflexivity|]. split; [vm_compute; lia|]. split; [reflexivity|]. split; [exact Hr'|].
  split; [eexists; reflexivity|]. split; [vm_compute; split; reflexivity|]. split; [vm_compute; split; reflexivity|]. split; [eexists; vm_compute; reflexivity|].
  split; [vm_compute; split; reflexivity|]. split; [vm_compute; split; reflexivity|]. split; [vm_compute; reflexivity|]. vm_compute. split; reflexivity.
Qed.
Example C64_not_sef_nontrivial : exists p, sample3 = Ok p /\ reachable p /\ lsef p = false /\ lobj p = "max" /\ is_feasible p [0; 0; 0]%Qc = Ok false.
Proof. destruct C63_nontrivial as (p & E & R & _). exists p. split; [exact E|]. split; [exact R|]. unfold sample3 in E. injection E as <-. split; [reflexivity|]. split; [reflexivity|]. vm_compute. reflexivity. Qed.
Example C64_minimisation_nontrivial : exists p, sample_short = Ok p /\ reachable p /\ lsef p = false /\ lobj p = "min".
Proof. destruct C63_exact_nontrivial as (p & E & R & _). exists p. split; [exact E|]. split; [exact R|]. unfold sample_short in E. injection E as <-. split; reflexivity. Qed.
Definition sample_empty_sef : res lp := linear_program (Nd (Mat 2 [])) (Nd (Vec [])) (Nd (Vec [qz 1; qz 2])) 0%Qc "max" (Some []) None None.
Example C64_no_rows_nontrivial : exists p, sample_empty_sef = Ok p /\ reachable p /\ lsef p = true /\ length (lb p) = 0.
Proof. eexists. split; [reflexivity|]. split; [|split; reflexivity]. refine (r_new (Nd (Mat 2 [])) (Nd (Vec [])) (Nd (Vec [qz 1; qz 2])) 0%Qc "max" (Some []) None None _ _ eq_refl). constructor. Qed.

Print Assumptions C64_answers.
Print Assumptions C64_grows.
Print Assumptions C64_solve_refuted.
Print Assumptions C64_unasked_refuted.
Print Assumptions C64_feasible_partial.
Print Assumptions C64_no_verdict_refuted.
Print Assumptions C64_basic.
Print Assumptions C64_basis_shown_refuted.
Print Assumptions C64_to_sef.
Print Assumptions C64_canonical.
Print Assumptions C64_simplex.
Print Assumptions C64_no_rows_refuted.
Print Assumptions C64_clear_partial.
Print Assumptions C64_clear_refuted.
Print Assumptions C64_string.
