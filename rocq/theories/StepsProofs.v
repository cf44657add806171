(** Runs of the recording methods. *)
From Coq Require Import String Ascii List Bool Arith ZArith QArith Qcanon Lia.
From Verif Require Import Py QcTac QSum QInt ComparatorModel MatModel MatTheory LinearModel LinearSpec LinearProofs SefProofs LinearInv DualProofs BasisProofs BlandProofs SimplexProofs LinearProps SimplexProps TwoPhaseProofs TextModel TextSpec TextProofs TextRead StepsModel.
Import ListNotations.
Open Scope nat_scope.
Open Scope string_scope.
Open Scope list_scope.

Section Runs.
Variable array_text : array -> text.
Notation render := (render array_text).
Notation say := (say array_text).

Definition good (e : entry) : Prop := exists t, render (entry_key e) (entry_args e) = Ok t.
Definition step_of (e : entry) : step :=
  mkstep (entry_key e) (match render (entry_key e) (entry_args e) with Ok t => t | _ => [] end).
Definition rec_ (show : bool) (es : list entry) : list step := if show then map step_of es else [].

Lemma append_all_run es : Forall good es -> forall o, append_all array_text es o = ((fst o, snd o ++ map step_of es), Ok tt).
Proof.
  induction 1 as [|e es (t & Ht) _ IH]; intros (p & l); cbn [append_all map fst snd].
  - unfold ret. now rewrite app_nil_r.
  - unfold mbind at 1, append, mbind, lift. rewrite Ht. rewrite IH. cbn [fst snd]. rewrite <- app_assoc. cbn [app]. unfold step_of at 2. now rewrite Ht.
Qed.
Lemma say_run show es o : Forall good es -> say show es o = ((fst o, snd o ++ rec_ show es), Ok tt).
Proof.
  intros H. unfold StepsModel.say, rec_. destruct show; [now apply append_all_run|]. unfold ret. rewrite app_nil_r. now destruct o.
Qed.
Lemma bind_say {B} show es (k : unit -> M B) p l : Forall good es -> mbind (say show es) k (p, l) = k tt (p, l ++ rec_ show es).
Proof. intros H. unfold mbind. rewrite say_run by auto. reflexivity. Qed.

Lemma bind_lift {A B} (r : res A) (k : A -> M B) o :
  mbind (lift r) k o = match r with Ok x => k x o | Raise e => (o, Raise e) | Diverges => (o, Diverges) end.
Proof. reflexivity. Qed.
Lemma bind_prog {B} (k : lp -> M B) p l : mbind prog k (p, l) = k p (p, l). Proof. reflexivity. Qed.
Lemma bind_put {B} q (k : unit -> M B) p l : mbind (put q) k (p, l) = k tt (q, l). Proof. reflexivity. Qed.

Ltac good := repeat (apply Forall_cons; [eexists; reflexivity|]); try apply Forall_nil.

(** * is_feasible *)
Definition feasible_record (p : lp) (x : list Qc) : list entry :=
  let X := AArr (Vec x) in
  With "2.01" [X] ::
  if lsef p then
    let nonnegative := forallb (fun v => cc_ge v 0) x in
    let satisfied := allclose (mulmv (lA p) x) (lb p) in
    if nonnegative && satisfied then [With "2.02" [X]; Key "2.03"; With "2.04" [X]; Key "2.05"]
    else [With "2.06" [X]; Key "2.03"] ++ (if negb nonnegative then [With "2.07" [X]] else []) ++ (if negb satisfied then [Key "2.08"] else [])
  else match is_feasible p x with Ok true => [With "2.02" [X]; Key "2.14"; Key "2.15"] | _ => [] end.
Lemma feasible_run show p x l : is_feasible_s array_text show x (p, l) =
  ((p, l ++ (if Nat.eqb (length x) (cols p) then rec_ show (feasible_record p x) else [])), is_feasible p x).
Proof.
  unfold is_feasible_s. rewrite bind_prog. unfold is_feasible. destruct (Nat.eqb (length x) (cols p)) eqn:EL; cbn [negb]; [|unfold lift; now rewrite app_nil_r].
  rewrite bind_say by good. destruct (lsef p) eqn:ES.
  - rewrite bind_say by good. rewrite bind_say.
    + unfold ret. unfold rec_, feasible_record. rewrite ES, <- !app_assoc. destruct show; cbn [andb]; [|reflexivity].
      destruct (forallb (fun v => cc_ge v 0) x), (allclose (mulmv (lA p) x) (lb p)); cbn [andb negb map app]; now rewrite ?app_nil_r.
    + apply Forall_app. split; [good|]. apply Forall_app. split; match goal with |- Forall _ (if ?c then _ else _) => destruct c end; good.
  - rewrite bind_say by good. unfold ret. unfold rec_, feasible_record, is_feasible. rewrite ES, EL, <- !app_assoc. cbn [negb].
    match goal with |- context [show && ?b] => destruct b end; destruct show; reflexivity.
Qed.

(** * is_basic_solution *)
Definition bad_columns (B : list nat) (x : list Qc) (is : list nat) : list nat :=
  filter (fun i => negb (inb i B) && negb (is_close_to_zero (at_ x i))) is.
Definition column_entry (i : nat) : entry := With "4.02" [AInt (Z.of_nat i + 1)].
Lemma columns_run show B x is : forall r p l, check_columns array_text show B x is r (p, l) =
  ((p, l ++ rec_ show (map column_entry (bad_columns B x is))), Ok (r && forallb (fun i => inb i B || is_close_to_zero (at_ x i)) is)).
Proof.
  induction is as [|i is IH]; intros r p l; cbn [check_columns bad_columns filter map forallb].
  - unfold ret, rec_. rewrite andb_true_r. destruct show; cbn [map]; now rewrite app_nil_r.
  - fold (bad_columns B x is). destruct (inb i B) eqn:E1; cbn [negb andb orb]; [now rewrite IH|].
    destruct (is_close_to_zero (at_ x i)) eqn:E2; cbn [negb andb orb]; [now rewrite IH|].
    rewrite bind_say by good. rewrite IH. rewrite andb_false_r. unfold rec_. rewrite <- app_assoc. destruct show; reflexivity.
Qed.
Definition basic_record (p : lp) (x : list Qc) (basis : list Z) : list entry :=
  let B := to_array_indexing basis in
  let shown := [AArr (Vec x); AInts (map Z.of_nat B)] in
  With "4.01" [AInts basis] :: map column_entry (bad_columns B x (seq 0 (cols p))) ++
  (if allclose (mulmv (lA p) x) (lb p) then [] else [Key "4.03"]) ++
  (if forallb (fun i => inb i B || is_close_to_zero (at_ x i)) (seq 0 (cols p)) && allclose (mulmv (lA p) x) (lb p)
   then [Key "4.06"; Key "4.07"; With "4.04" shown] else [With "4.05" shown]).
Lemma basic_run show p x basis l : is_basic_solution_s array_text show x basis (p, l) =
  ((p, l ++ (match is_basic_solution p x basis with Ok _ => rec_ show (basic_record p x basis) | _ => [] end)), is_basic_solution p x basis).
Proof.
  unfold is_basic_solution_s. rewrite bind_prog. unfold is_basic_solution. destruct (lsef p); cbn [negb]; [|unfold lift; now rewrite app_nil_r].
  destruct (Nat.eqb (length x) (cols p)); cbn [negb]; [|unfold lift; now rewrite app_nil_r]. rewrite bind_lift.
  destruct (is_basis p basis) as [[|]| |]; cbn [negb bind]; unfold lift; rewrite ?app_nil_r; auto.
  rewrite bind_say by good. unfold mbind at 1. rewrite columns_run. cbn [andb]. rewrite !bind_say by good. unfold ret. f_equal. f_equal.
  unfold rec_, basic_record. destruct show; cbn [andb]; [|rewrite !app_nil_r; reflexivity].
  destruct (allclose (mulmv (lA p) x) (lb p)), (forallb (fun i => inb i (to_array_indexing basis) || is_close_to_zero (at_ x i)) (seq 0 (cols p)));
    cbn [negb andb map]; rewrite ?map_app, <- ?app_assoc; cbn [map app]; rewrite ?app_nil_r; reflexivity.
Qed.

(** * to_canonical_form *)
Definition canonical_record (p : lp) (B : list nat) : list entry :=
  match minv (columns_of B (lA p)) with
  | Ok X => [With "1.02" [AArr (Mat (length B) (columns_of B (lA p)))]; With "1.03" [AArr (Vec (take B (lc p)))];
             With "1.04" [AArr (Mat (length B) X)]; With "1.05" [AArr (Vec (mulmv (transpose (rows p) X) (take B (lc p))))]]
  | _ => []
  end.
Lemma canonical_run show p B l : canonical_s array_text show B (p, l) =
  match canonical p B with
  | Ok q => ((q, l ++ rec_ show (canonical_record p B)), Ok tt)
  | Raise e => ((p, l), Raise e)
  | Diverges => ((p, l), Diverges)
  end.
Proof.
  unfold canonical_s, canonical, canonical_record. rewrite bind_prog, bind_lift. destruct (minv (columns_of B (lA p))) as [X| |]; cbn [bind]; auto.
  rewrite bind_say by good. unfold put. cbn [fst snd]. reflexivity.
Qed.
Lemma to_canonical_run show p basis l : to_canonical_form_s array_text show basis (p, l) =
  let l' := if lsef p then l ++ rec_ show [With "1.01" [AInts basis]] else l in
  match to_canonical_form p basis with
  | Ok q => ((q, l' ++ rec_ show (canonical_record p (to_array_indexing basis))), Ok tt)
  | Raise e => ((p, l'), Raise e)
  | Diverges => ((p, l'), Diverges)
  end.
Proof.
  unfold to_canonical_form_s, to_canonical_form. rewrite bind_prog. destruct (lsef p); cbn [negb]; [|reflexivity].
  rewrite bind_say by good. rewrite bind_lift. destruct (is_basis p basis) as [[|]| |]; cbn [bind]; auto. now rewrite canonical_run.
Qed.

(** * to_sef *)
Definition sef_record (p : lp) : list entry :=
  if lsef p then [] else
  Key "3.01" :: if String.eqb (lobj p) "min" then [Key "3.02"; With "3.03" [AArr (Vec (vopp (vopp (lc p)))); AArr (Vec (vopp (lc p)))]] else [].
Lemma to_sef_run show p l : to_sef_s array_text show (p, l) = ((fst (to_sef p), l ++ rec_ show (sef_record p)), Ok (snd (to_sef p))).
Proof.
  unfold to_sef_s, sef_record. rewrite bind_prog. destruct (lsef p) eqn:E.
  - unfold to_sef. rewrite E. unfold ret, rec_. destruct show; cbn [map]; now rewrite app_nil_r.
  - rewrite !bind_say by good. destruct (to_sef p) as [q r]. rewrite bind_put. unfold ret. f_equal. f_equal. unfold rec_. rewrite <- app_assoc.
    destruct show; cbn [andb]; [|reflexivity]. destruct (String.eqb (lobj p) "min"); reflexivity.
Qed.

(** * simplex *)
Lemma iteration_run show p basis l : exists o, simplex_iteration_s array_text show basis (p, l) = (o, simplex_iteration p basis) /\
  (forall it, simplex_iteration p basis = Ok it -> fst o = updated it) /\ (exists new, snd o = l ++ new /\ (show = false -> new = [])).
Proof.
  unfold simplex_iteration_s, simplex_iteration. rewrite bind_prog.
  assert (Z0 : forall n : list step, exists new, n = n ++ new /\ (show = false -> new = [])) by (intros n; exists []; now rewrite app_nil_r).
  destruct (lsef p); cbn [negb]; [|exists (p, l); repeat split; auto; discriminate]. rewrite bind_lift.
  destruct (is_basis p basis) as [[|]| |]; cbn [negb bind]; try (exists (p, l); repeat split; auto; discriminate).
  rewrite bind_put. unfold mbind at 1. rewrite canonical_run.
  destruct (canonical (negate_rows p) (sort (to_array_indexing basis))) as [q| |]; cbn [bind]; try (exists (negate_rows p, l); repeat split; auto; discriminate).
  set (B := sort (to_array_indexing basis)). set (l' := l ++ rec_ show (canonical_record (negate_rows p) B)).
  exists (q, l'). assert (L : exists new, snd (q, l') = l ++ new /\ (show = false -> new = [])) by (unfold l'; eexists; split; [reflexivity|]; intros ->; reflexivity).
  rewrite bind_prog, bind_lift. destruct (basic_solution q B) as [x| |]; cbn [bind]; try (repeat split; auto; discriminate).
  destruct (forallb (fun v => cc_le v 0) (take _ (lc q))).
  { destruct (existsb is_negative x); repeat split; auto; try discriminate. intros it E. now injection E as <-. }
  destruct (find _ _) as [k|]; [|repeat split; auto; discriminate].
  destruct (forallb (fun v => cc_le v 0) (map _ (lA q))); [repeat split; auto; intros it E; now injection E as <-|].
  destruct (ratio_test 0 (lb q) _ None None); repeat split; auto; try discriminate. intros it E. now injection E as <-.
Qed.

(** the programs shown by the loop, in order *)
Fixpoint loop_trace (fuel : nat) (p : lp) (basis : list Z) : list iter :=
  match fuel with
  | 0 => []
  | S f => match simplex_iteration p basis with Ok it => it :: match it with Next B _ => loop_trace f p (to_math_indexing B) | _ => [] end | _ => [] end
  end.
Fixpoint numbered (k : Z) (ps : list lp) : list entry :=
  match ps with [] => [] | q :: ps' => With "5.02" [AInt k] :: With "5.01" [AProg q] :: numbered (k + 1) ps' end.

Lemma good_prog p : wf p -> 0 < rows p -> good (With "5.01" [AProg p]).
Proof. intros H R. destruct (repr_reads p H R) as (t & P & E & _). exists (t ++ []). cbn. rewrite E. reflexivity. Qed.
Lemma step_of_prog p t : repr p = Ok t -> step_of (With "5.01" [AProg p]) = mkstep "5.01" t.
Proof. intros E. unfold step_of. cbn. rewrite E. cbn. now rewrite app_nil_r. Qed.
Lemma good_numbered ps : (forall q, In q ps -> wf q /\ 0 < rows q) -> forall k, Forall good (numbered k ps).
Proof.
  induction ps as [|q ps IH]; intros H k; cbn [numbered]; [constructor|]. constructor; [eexists; reflexivity|]. constructor; [|apply IH; intros; apply H; now right].
  destruct (H q); [now left|]. now apply good_prog.
Qed.

Lemma updated_wf p basis it : wf p -> simplex_iteration p basis = Ok it -> wf (updated it) /\ 0 < rows (updated it).
Proof.
  intros H E. assert (HS : lsef p = true) by (unfold simplex_iteration in E; destruct (lsef p); [reflexivity|discriminate]).
  assert (HB : is_basis p basis = Ok true).
  { unfold simplex_iteration in E. rewrite HS in E. cbn [negb] in E. destruct (is_basis p basis) as [[|]| |]; cbn in E; try discriminate. reflexivity. }
  destruct (iteration_cases p basis H HS HB) as (q & HI & [(it' & E' & HR)|[(E' & _)|(E' & _)]]); rewrite E in E'; try discriminate. injection E' as <-.
  assert (Q : updated it = q) by (destruct it; cbn in HR |- *; tauto). rewrite Q. pose proof (it_canon _ _ _ HI) as HC. split; [apply HC|].
  rewrite (cn_rows _ _ _ HC), rows_neg by auto. apply is_basis_true in HB. tauto.
Qed.
Lemma loop_run show p : wf p -> forall fuel basis k l, simplex_loop_s array_text show fuel k basis (p, l) =
  ((p, l ++ rec_ show (numbered (k + 1) (map updated (loop_trace fuel p basis)))), simplex_loop fuel p basis).
Proof.
  intros H. induction fuel as [|fuel IH]; intros basis k l; cbn [simplex_loop_s simplex_loop loop_trace].
  { unfold lift, rec_. destruct show; cbn [map numbered]; now rewrite app_nil_r. }
  destruct (iteration_run show p basis l) as (o & E & U & _). unfold mbind at 1, on_copy. rewrite E.
  destruct (simplex_iteration p basis) as [it| |] eqn:EI; cbn [bind];
    try (unfold rec_; destruct show; cbn [map numbered]; now rewrite app_nil_r).
  cbn [fst snd]. rewrite (U it eq_refl). destruct (updated_wf p basis it H EI) as (W & R).
  rewrite bind_say by good. rewrite bind_say by (constructor; [now apply good_prog|constructor]).
  assert (Hd : forall its, (l ++ rec_ show [With "5.02" [AInt (k + 1)]]) ++ rec_ show [With "5.01" [AProg (updated it)]] ++ rec_ show (numbered (k + 1 + 1) its) =
                           l ++ rec_ show (numbered (k + 1) (updated it :: its))).
  { intros its. unfold rec_. destruct show; cbn [numbered map]; rewrite <- !app_assoc; reflexivity. }
  cbn [map]. rewrite <- Hd. clear Hd. rewrite app_assoc.
  assert (N : forall X : list step, X ++ rec_ show (numbered (k + 1 + 1) []) = X) by (intros X; unfold rec_; destruct show; cbn; apply app_nil_r).
  destruct it as [x B1 q1|x B1 q1|B' q1]; cbn [map]; [rewrite N; reflexivity..|]. apply IH.
Qed.

Definition closing (r : outcome) : list entry :=
  match r with
  | (Some x, Some B, CVec y) => [With "5.03" [AArr (Vec x)]; With "5.04" [AInts B]; With "5.06" [AArr (Vec y)]]
  | _ => [Key "5.05"]
  end.
Definition simplex_record (fuel : nat) (p : lp) (basis : list Z) : list entry :=
  if negb (lsef p) then [] else
  numbered 0 (negate_rows p :: map updated (loop_trace fuel (negate_rows p) basis)) ++
  match snd (simplex fuel p basis) with Ok r => closing r | _ => [] end.
Lemma simplex_run show fuel p basis l : wf p -> (show = true -> 0 < rows p) ->
  simplex_s array_text show fuel basis (p, l) =
  ((fst (simplex fuel p basis), l ++ rec_ show (simplex_record fuel p basis)), snd (simplex fuel p basis)).
Proof.
  intros H R. unfold simplex_s, simplex_record, simplex. rewrite bind_prog. destruct (lsef p); cbn [negb].
  2:{ unfold lift, rec_. cbn [fst snd]. destruct show; cbn [map]; now rewrite app_nil_r. }
  rewrite bind_put. pose proof (wf_negate p H) as H'. rewrite bind_say by good.
  assert (G : say show [With "5.01" [AProg (negate_rows p)]] = say show [With "5.01" [AProg (negate_rows p)]]) by reflexivity.
  assert (SP : forall (B : Type) (k : unit -> M B) ll, mbind (say show [With "5.01" [AProg (negate_rows p)]]) k (negate_rows p, ll) = k tt (negate_rows p, ll ++ rec_ show [With "5.01" [AProg (negate_rows p)]])).
  { intros B k ll. destruct show; [apply bind_say; constructor; [apply good_prog; auto; rewrite rows_neg by auto; now apply R|constructor]|]. unfold mbind, StepsModel.say, ret, rec_. now rewrite app_nil_r. }
  rewrite SP. clear G SP. unfold mbind at 1. rewrite loop_run by auto.
  set (tr := map updated (loop_trace fuel (negate_rows p) basis)).
  assert (Hd : forall rest, ((l ++ rec_ show [With "5.02" [AInt 0]]) ++ rec_ show [With "5.01" [AProg (negate_rows p)]]) ++ rec_ show (numbered (0 + 1) tr) ++ rec_ show rest
              = l ++ rec_ show (numbered 0 (negate_rows p :: tr) ++ rest)).
  { intros rest. unfold rec_. destruct show; cbn [numbered map app]; rewrite <- ?app_assoc; cbn [app]; rewrite ?map_app; reflexivity. }
  assert (N : forall X : list step, X ++ rec_ show [] = X) by (intros X; unfold rec_; destruct show; cbn; apply app_nil_r).
  destruct (simplex_loop fuel (negate_rows p) basis) as [it| |]; cbn [bind]; [|cbn [fst snd]; rewrite <- Hd, N; reflexivity..].
  rewrite bind_lift. destruct (simplex_result (lb p) (negate_rows p) it) as [r| |]; [|cbn [fst snd]; rewrite <- Hd, N; reflexivity..].
  cbn [fst snd]. rewrite <- Hd, app_assoc.
  destruct r as [[[x|] [B|]] [y|x' d]]; unfold mbind at 1; try (rewrite say_run by good; reflexivity).
  rewrite !bind_say by good. rewrite say_run by good. unfold put, mbind, ret, closing. cbn [fst snd]. f_equal. f_equal. unfold rec_. rewrite <- !app_assoc.
  destruct show; reflexivity.
Qed.

(** * two_phase_simplex, solve *)
(** the call of simplex that two_phase_simplex ends with, if it gets there *)
Lemma two_phase_run show fuel p l : wf p -> 0 < rows p ->
  exists new, two_phase_simplex_s array_text show fuel (p, l) = ((fst (two_phase_simplex fuel p), l ++ rec_ show new), snd (two_phase_simplex fuel p)) /\
  (new = [] \/ exists B, two_phase_simplex fuel p = simplex fuel p B /\ new = simplex_record fuel p B) /\
  (forall x B y, snd (two_phase_simplex fuel p) = Ok (Some x, B, y) -> new <> []).
Proof.
  intros H R. unfold two_phase_simplex_s, two_phase_simplex. rewrite bind_prog, bind_lift.
  assert (N : forall X : list step, X ++ rec_ show [] = X) by (intros X; unfold rec_; destruct show; cbn; apply app_nil_r).
  assert (Done : forall r : res outcome, (forall x B y, r <> Ok (Some x, B, y)) -> exists new, ((p, l), r) = ((fst (p, r), l ++ rec_ show new), snd (p, r)) /\
    (new = [] \/ exists B, (p, r) = simplex fuel p B /\ new = simplex_record fuel p B) /\ (forall x B y, snd (p, r) = Ok (Some x, B, y) -> new <> [])).
  { intros r Hr. exists []. rewrite N. split; [reflexivity|]. split; [now left|]. intros x B y E. cbn [snd] in E. destruct (Hr x B y E). }
  assert (Call : forall B, exists new, simplex_s array_text show fuel B (p, l) = ((fst (simplex fuel p B), l ++ rec_ show new), snd (simplex fuel p B)) /\
    (new = [] \/ exists B', simplex fuel p B = simplex fuel p B' /\ new = simplex_record fuel p B') /\ (forall x B' y, snd (simplex fuel p B) = Ok (Some x, B', y) -> new <> [])).
  { intros B. exists (simplex_record fuel p B). split; [now apply simplex_run|]. split; [right; now exists B|].
    intros x B' y E. unfold simplex_record. unfold simplex in E. destruct (lsef p); [discriminate|]. discriminate E. }
  destruct (lsef p) eqn:HS.
  2:{ unfold auxiliary. rewrite HS. cbn [negb]. apply Done. discriminate. }
  destruct (auxiliary_aux p HS) as (a0 & E0 & Ea). rewrite E0. unfold on_object. rewrite bind_lift.
  unfold mbind at 1. rewrite to_sef_run. rewrite Ea. rewrite simplex_run by (try apply wf_aux; auto; intros _; rewrite rows_aux; auto).
  destruct (simplex fuel (aux p) (map Z.of_nat (seq (S (cols p)) (rows p)))) as [a' [[[[x|] [B|]] y]|e|]]; cbn [fst snd]; try (apply Done; discriminate).
  rewrite bind_lift. destruct (evaluate a' x) as [v| |]; try (apply Done; discriminate).
  destruct (is_close_to_zero v).
  - rewrite bind_lift. destruct (is_basis p B) as [[|]| |]; try (apply Done; discriminate); [apply Call|].
    match goal with |- context [if Nat.leb ?a ?b then _ else _] => destruct (Nat.leb a b); [apply Done; discriminate|] end.
    rewrite bind_lift. match goal with |- context [complete_basis ?a ?b ?c ?d ?e ?f] => destruct (complete_basis a b c d e f) as [[B'|]| |]; try (apply Done; discriminate) end; apply Call.
  - rewrite bind_lift. match goal with |- context [minv ?M] => destruct (minv M); try (apply Done; discriminate) end.
Qed.
Lemma solve_run show fuel p l : wf p -> 0 < rows p ->
  exists new, solve_s array_text show fuel (p, l) = ((fst (solve fuel p), l ++ new), snd (solve fuel p)) /\
  (lsef p = false -> new = []) /\ (lsef p = true -> forall x, snd (solve fuel p) = Ok (Some x) -> new <> []).
Proof.
  intros H R. unfold solve_s, solve. rewrite bind_prog. destruct (lsef p) eqn:HS.
  - destruct (two_phase_run true fuel p l H R) as (new & E & _ & Hn). exists (rec_ true new). unfold mbind. rewrite E.
    destruct (two_phase_simplex fuel p) as [p' [[[x B] y]| |]]; cbn [fst snd rmap bind ret] in *; (split; [reflexivity|]; split; [discriminate|]); try discriminate.
    intros _ x0 E0. injection E0 as ->. intros K. apply map_eq_nil in K. revert K. exact (Hn x0 B y eq_refl).
  - exists []. rewrite app_nil_r. cut (solve_s array_text show fuel (p, l) = (p, l, snd (solve fuel p)) /\ fst (solve fuel p) = p).
    { unfold solve_s, solve. rewrite bind_prog, HS. intros (-> & ->). split; [reflexivity|]. split; [reflexivity|discriminate]. }
    unfold solve_s. rewrite bind_prog, HS. unfold mbind at 1, on_copy at 1. unfold mbind at 1. rewrite to_sef_run. rewrite bind_prog.
    unfold solve. rewrite HS. pose proof (wf_to_sef p H) as Hw. destruct (to_sef p) as [q rv] eqn:Eq. cbn [fst snd] in *.
    assert (Rq : rows q = rows p).
    { destruct (to_sef_parts p H HS) as (_ & _ & _ & _ & _ & _ & _ & _ & P & _). rewrite Eq in P. exact P. }
    rewrite <- Rq in R.
    set (back := fun o : option (list Qc) => match o, rv with Some x, Some r => Some (from_sef r x) | o, _ => o end).
    set (candidate := map Z.of_nat (seq (S (rows q)) (cols q - rows q))).
    assert (T : forall ll, snd (mbind (two_phase_simplex_s array_text show fuel) (fun r => ret (back (fst (fst r)))) (q, ll)) =
              rmap (fun o => back (fst (fst o))) (snd (two_phase_simplex fuel q))).
    { intros ll. destruct (two_phase_run show fuel q ll Hw R) as (new & E & _). unfold mbind. rewrite E. destruct (two_phase_simplex fuel q) as [q' [r| |]]; reflexivity. }
    assert (Fin : forall (o' : obj) r, r = rmap (fun o => back (fst (fst o))) (snd (two_phase_simplex fuel q)) ->
      (let '(o'0, r0) := ((p, l), match r with Ok x => Ok (x, o') | Raise e => Raise e | Diverges => Diverges end) in
       match r0 with Ok x => ret (fst x) o'0 | Raise e => (o'0, Raise e) | Diverges => (o'0, Diverges) end) =
      (p, l, snd (p, rmap (fun o => back (fst (fst o))) (snd (two_phase_simplex fuel q)))) /\
      fst (p, rmap (fun o => back (fst (fst o))) (snd (two_phase_simplex fuel q))) = p).
    { intros o' r E. rewrite <- E. destruct r; split; reflexivity. }
    match goal with |- context [if Nat.leb ?a ?b then _ else _] => destruct (Nat.leb a b) eqn:EL end.
    + rewrite bind_lift. destruct (is_basis q candidate) as [[|]| |] eqn:EB; try (split; reflexivity).
      * unfold mbind at 1, catch. rewrite simplex_run by auto. destruct (simplex fuel q candidate) as [q' [[[x B] y]|[]|]]; split; reflexivity.
      * specialize (T (l ++ rec_ show (sef_record p))). destruct (mbind (two_phase_simplex_s array_text show fuel) _ _) as [o' r]. cbn [snd] in T. exact (Fin o' r T).
    + specialize (T (l ++ rec_ show (sef_record p))). destruct (mbind (two_phase_simplex_s array_text show fuel) _ _) as [o' r]. cbn [snd] in T. exact (Fin o' r T).
Qed.

(** * verify_unboundedness, value_of *)
Lemma unboundedness_run show p x d l : verify_unboundedness_s array_text show x d (p, l) =
  ((p, l ++ (if lsef p && Nat.eqb (length x) (cols p) then rec_ true (feasible_record p x) else [])), verify_unboundedness p x d).
Proof.
  unfold verify_unboundedness_s, verify_unboundedness. rewrite bind_prog. destruct (lsef p) eqn:HS; cbn [negb andb]; [|unfold lift; now rewrite app_nil_r].
  unfold mbind. rewrite feasible_run. destruct (is_feasible p x) as [[|]| |]; cbn [bind negb]; try reflexivity.
  repeat match goal with |- context [if ?b then _ else _] => destruct b; try reflexivity end.
Qed.
Lemma value_run p x l : value_of_s array_text x (p, l) =
  ((p, l ++ (if Nat.eqb (length x) (cols p) then rec_ true (feasible_record p x) else [])), value_of p x).
Proof.
  unfold value_of_s, value_of. rewrite bind_prog. unfold mbind. rewrite feasible_run. destruct (is_feasible p x) as [[|]| |]; reflexivity.
Qed.

(** * clear_steps *)
Lemma clear_false fuel o : snd (clear_steps fuel false o) = Diverges /\ fst (clear_steps fuel false o) = o.
Proof.
  revert o. induction fuel as [|fuel IH]; intros o; [now split|]. cbn [clear_steps]. unfold mbind, on_copy. destruct (IH o) as (E & _).
  destruct (clear_steps fuel false o) as [o' r]. cbn [fst snd] in *. subst r. split; reflexivity.
Qed.

(** * The programs shown *)
Lemma ratio_test_lt : forall b a i t leave l, ratio_test i b a t leave = Some l -> leave = Some l \/ i <= l < i + length b.
Proof.
  induction b as [|v b IH]; intros [|w a] i t leave l E; cbn [ratio_test] in E; auto.
  assert (G : forall t' leave', ratio_test (S i) b a t' leave' = Some l -> leave' = Some l \/ S i <= l < S i + length b) by (intros; eapply IH; eauto).
  cbn [length]. destruct (is_positive w); [destruct (match t with None => _ | Some _ => _ end)|]; apply G in E; destruct E as [E|E]; auto; try (right; lia).
  injection E as <-. right. lia.
Qed.
(** the bases of a run, as the loop visits them *)
Lemma trace_spec p : wf p -> lsef p = true -> negate_rows p = p -> forall fuel Bz it, simplex_loop fuel p Bz = Ok it ->
  exists Bs, Bs <> [] /\ hd [] Bs = sort (to_array_indexing Bz) /\ last Bs [] = it_basis it /\
    Forall2 (fun B q => basis p B /\ canon p B q) Bs (map updated (loop_trace fuel p Bz)) /\
    (forall k, S k < length Bs -> exists i j, In i (nth k Bs []) /\ ~ In j (nth k Bs []) /\
       forall c, In c (nth (S k) Bs []) <-> (In c (nth k Bs []) /\ c <> i) \/ c = j) /\
    last (map updated (loop_trace fuel p Bz)) p = updated it.
Proof.
  intros H HS HN. induction fuel as [|fuel IH]; intros Bz it E; [discriminate|]. cbn [simplex_loop] in E. cbn [loop_trace].
  destruct (is_basis p Bz) as [[|]|e|] eqn:HBz;
    try (exfalso; unfold simplex_iteration in E; rewrite HS, HBz in E; cbn [negb bind] in E; discriminate).
  destruct (iteration_cases p Bz H HS HBz) as (q & HI & [(it' & E' & HR)|[(E' & _)|(E' & _)]]); rewrite E' in *; cbn [bind] in E; try discriminate.
  rewrite HN in HI, HR. set (B := sort (to_array_indexing Bz)) in *. pose proof (it_B _ _ _ HI) as HB. pose proof (it_canon _ _ _ HI) as HC.
  destruct it' as [x B1 q1|x B1 q1|B' q1]; cbn in HR.
  - injection E as <-. destruct HR as (-> & -> & _). exists [B]. split; [discriminate|]. split; [reflexivity|]. split; [reflexivity|]. split; [constructor; [split; auto|constructor]|]. split; [intros k Hk; cbn [length] in Hk; lia|reflexivity].
  - injection E as <-. destruct HR as (-> & -> & _). exists [B]. split; [discriminate|]. split; [reflexivity|]. split; [reflexivity|]. split; [constructor; [split; auto|constructor]|]. split; [intros k Hk; cbn [length] in Hk; lia|reflexivity].
  - destruct HR as (-> & k & l & Hk & Hkn & _ & _ & (i0 & Hi0 & _) & Hl & ->).
    destruct (IH _ _ E) as (Bs & N1 & N2 & N3 & N4 & N5 & N6).
    assert (HBB : is_basis p (to_math_indexing (sort (remove_first (bk B l) B ++ [k]))) = Ok true).
    { destruct fuel as [|fuel]; [discriminate E|]. cbn [simplex_loop] in E. unfold simplex_iteration in E. rewrite HS in E. cbn [negb] in E.
      destruct (is_basis p (to_math_indexing _)) as [[|]| |]; cbn [negb bind] in E; try discriminate. reflexivity. }
    set (B' := sort (remove_first (bk B l) B ++ [k])) in *.
    assert (Hl' : l < rows p) by (apply ratio_test_lt in Hl; rewrite (length_lb p B q HC) in Hl; destruct Hl as [Hl|Hl]; [discriminate|lia]).
    pose proof (bs_NoDup _ _ HB) as ND.
    assert (ND' : NoDup (remove_first (bk B l) B ++ [k])) by (apply NoDup_rev'; [now apply NoDup_remove_first|]; rewrite In_remove_first by auto; tauto).
    exists (B :: Bs). split; [discriminate|]. split; [reflexivity|]. split; [destruct Bs; [contradiction|exact N3]|]. split; [|split].
    + cbn [map updated]. constructor; auto.
    + intros j Hj. destruct j as [|j]; [|apply (N5 j); cbn [length] in Hj; lia]. cbn [nth]. exists (bk B l), k.
      assert (EB : nth 0 Bs [] = B').
      { destruct Bs as [|B0 Bs]; [contradiction|]. cbn [hd nth] in *. rewrite N2, array_math. now apply sort_id, sort_strict. }
      rewrite EB. split; [now apply (bk_In p)|]. split; [exact Hkn|]. intros c. unfold B'. rewrite In_sort, in_app_iff, In_remove_first by auto. cbn [In]. intuition.
    + cbn [map updated]. destruct (map updated (loop_trace fuel p (to_math_indexing B'))) eqn:ET; [|exact N6].
      exfalso. inversion N4. subst. contradiction.
Qed.
End Runs.
