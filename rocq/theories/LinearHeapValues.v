(** A program that shares no array with itself behaves as in the model without a heap. *)
From Coq Require Import String List Bool Arith ZArith QArith Qcanon Lia Sorted.
From Verif Require Import Py QcTac QSum ComparatorModel MatModel MatTheory LinearModel LinearSpec LinearProofs LinearInv DualProofs SefProofs IntegerModel LinearHeap LinearHeapSpec LinearHeapProofs.
Import ListNotations.
Open Scope nat_scope.
Open Scope string_scope.
Open Scope list_scope.

Record typed (H : heap) (o : pobj) : Prop := {
  t_valid : forall r, In r (cells o) -> r < length H;
  t_sep : ob o <> oc o;
  t_A : exists n M, hget H (oA o) = Mat n M /\ shaped n M;
  t_b : exists v, hget H (ob o) = Vec v;
  t_c : exists v, hget H (oc o) = Vec v;
  t_cols : read_cols H (oA o) (oT o) = cols (load H o);
  t_wf : wf (load H o) }.

Lemma transpose_twice m n M : length M = n -> shaped m M -> transpose n (transpose m M) = M.
Proof.
  intros L S. apply (mat_ext m).
  - rewrite <- (length_transpose m M) at 1. apply shaped_transpose.
  - exact S.
  - now rewrite length_transpose.
  - rewrite length_transpose. intros i j Hi Hj. rewrite ent_transpose; [|auto|now rewrite length_transpose]. apply ent_transpose; auto. lia.
Qed.
Lemma typed_diff H o : typed H o -> oA o <> ob o /\ oA o <> oc o.
Proof. intros T. destruct (t_A _ _ T) as (n & M & E & _), (t_b _ _ T) as (v & Eb), (t_c _ _ T) as (w & Ec). split; intros K; rewrite K in E; congruence. Qed.
Lemma read_mat_shape H r T n M : hget H r = Mat n M -> shaped n M ->
  length (read_mat H r T) = (if T then n else length M) /\ shaped (read_cols H r T) (read_mat H r T).
Proof.
  intros E S. unfold read_mat, read_cols. rewrite E. destruct T; [|auto]. split; [apply length_transpose|apply shaped_transpose].
Qed.
(** writing a matrix of the same shape through a view *)
Lemma write_read_mat H r T n M M' : r < length H -> hget H r = Mat n M -> shaped n M ->
  length M' = length (read_mat H r T) -> shaped (read_cols H r T) M' ->
  read_mat (write_mat H r T M') r T = M' /\ read_cols (write_mat H r T M') r T = read_cols H r T /\
  exists n' M'', hget (write_mat H r T M') r = Mat n' M'' /\ shaped n' M''.
Proof.
  intros L E S L' S'. unfold write_mat, read_mat, read_cols in *. rewrite E in *. rewrite hget_hwrite_eq by auto. destruct T.
  - rewrite length_transpose in L'. split; [now apply transpose_twice|]. split; [apply length_transpose|].
    eexists _, _. split; [reflexivity|]. rewrite <- L'. apply shaped_transpose.
  - split; auto. split; auto. eexists _, _. split; [reflexivity|exact S'].
Qed.
Lemma flip_y_self b : flip_y b b = flip_b b.
Proof. unfold flip_y, flip_b. induction b as [|x b IH]; [reflexivity|]. cbn [combine map fst snd]. now rewrite IH. Qed.
Lemma load_fields H o A b c : read_mat H (oA o) (oT o) = A -> read_vec H (ob o) = b -> read_vec H (oc o) = c ->
  load H o = mklp A b c (oz o) (oobj o) (oineq o) (osef o) (ofree o) (oneg o).
Proof. intros <- <- <-. reflexivity. Qed.
Lemma wf_shape p A b c : wf p -> length A = rows p -> shaped (cols p) A -> length b = length (lb p) -> length c = length (lc p) ->
  wf (mklp A b c (lz p) (lobj p) (lineq p) (lsef p) (lfree p) (lneg p)).
Proof.
  intros W LA SA Lb Lc. destruct W. unfold rows, cols in *. constructor; unfold rows, cols; cbn [lA lb lc lz lobj lineq lsef lfree lneg]; rewrite ?Lc, ?LA; auto; try congruence.
Qed.
Lemma h_flip_load b0 H o : typed H o -> length b0 = length (lb (load H o)) ->
  load (h_flip b0 H o) o = mklp (flip_A b0 (lA (load H o))) (flip_y b0 (lb (load H o))) (lc (load H o)) (oz o) (oobj o) (oineq o) (osef o) (ofree o) (oneg o)
  /\ typed (h_flip b0 H o) o.
Proof.
  intros T L0. destruct (typed_diff H o T) as (D1 & D2). pose proof (t_wf _ _ T) as W. pose proof (t_sep _ _ T) as D3.
  destruct (t_A _ _ T) as (n & M & EA & SA). destruct (t_b _ _ T) as (vb & Eb). destruct (t_c _ _ T) as (vc & Ec).
  assert (VA : oA o < length H) by (apply (t_valid _ _ T); cbn; auto). assert (Vb : ob o < length H) by (apply (t_valid _ _ T); cbn; auto).
  pose proof (t_cols _ _ T) as TC.
  set (H1 := write_vec H (ob o) (flip_y b0 (read_vec H (ob o)))).
  assert (EA1 : hget H1 (oA o) = Mat n M) by (unfold H1, write_vec; rewrite hget_hwrite_ne; auto).
  assert (RA1 : read_mat H1 (oA o) (oT o) = read_mat H (oA o) (oT o)) by (unfold read_mat; now rewrite EA1, EA).
  assert (RC1 : read_cols H1 (oA o) (oT o) = read_cols H (oA o) (oT o)) by (unfold read_cols; now rewrite EA1, EA).
  assert (Wb := wf_b _ W). unfold rows in Wb. cbn [load lA lb lc] in *.
  assert (LL : length b0 = length (read_mat H (oA o) (oT o))) by congruence.
  destruct (write_read_mat H1 (oA o) (oT o) n M (flip_A b0 (read_mat H1 (oA o) (oT o)))) as (Q1 & Q2 & Q3); auto.
  { unfold H1, write_vec. now rewrite length_hwrite. }
  { rewrite RA1. now apply length_flip_A. }
  { rewrite RA1, RC1. apply shaped_flip_A; auto. unfold read_cols, read_mat. rewrite EA. destruct (oT o); [apply shaped_transpose|auto]. }
  assert (E2 : h_flip b0 H o = write_mat H1 (oA o) (oT o) (flip_A b0 (read_mat H1 (oA o) (oT o)))) by reflexivity.
  rewrite RA1 in Q1. rewrite RC1 in Q2.
  assert (R2b : hget (h_flip b0 H o) (ob o) = Vec (flip_y b0 (read_vec H (ob o)))).
  { rewrite E2. unfold write_mat. rewrite hget_hwrite_ne by auto. unfold H1, write_vec. now rewrite hget_hwrite_eq. }
  assert (R2c : hget (h_flip b0 H o) (oc o) = hget H (oc o)).
  { rewrite E2. unfold write_mat. rewrite hget_hwrite_ne by auto. unfold H1, write_vec. rewrite hget_hwrite_ne by auto. reflexivity. }
  assert (EL : load (h_flip b0 H o) o = mklp (flip_A b0 (read_mat H (oA o) (oT o))) (flip_y b0 (read_vec H (ob o))) (read_vec H (oc o)) (oz o) (oobj o) (oineq o) (osef o) (ofree o) (oneg o)).
  { apply load_fields; [rewrite E2, RA1; exact Q1|unfold read_vec at 1; now rewrite R2b|unfold read_vec; now rewrite R2c]. }
  assert (LF : length (flip_y b0 (read_vec H (ob o))) = length (read_vec H (ob o))) by (unfold flip_y; rewrite map_length, combine_length; lia).
  split; [exact EL|]. constructor.
  - intros r Hr. rewrite E2. unfold write_mat. rewrite length_hwrite. unfold H1, write_vec. rewrite length_hwrite. now apply (t_valid _ _ T).
  - exact D3.
  - rewrite E2. exact Q3.
  - eauto.
  - rewrite R2c. eauto.
  - rewrite EL. rewrite E2. rewrite Q2. exact TC.
  - rewrite EL. apply (wf_shape (load H o)); auto; cbn [load lA lb lc]; unfold rows, cols; cbn [load lA lb lc].
    + now apply length_flip_A.
    + apply shaped_flip_A; auto. apply (wf_A _ W).
Qed.
Lemma h_flip_negate H o : typed H o -> load (h_flip (read_vec H (ob o)) H o) o = negate_rows (load H o).
Proof. intros T. destruct (h_flip_load (read_vec H (ob o)) H o T eq_refl) as (-> & _). cbn [load lb]. rewrite flip_y_self. reflexivity. Qed.

Theorem h_simplex_load fuel H o B : typed H o ->
  load (fst (h_simplex fuel H o B)) o = fst (simplex fuel (load H o) B) /\
  snd (h_simplex fuel H o B) = snd (simplex fuel (load H o) B) /\ typed (fst (h_simplex fuel H o B)) o.
Proof.
  intros T. unfold h_simplex, simplex. change (lsef (load H o)) with (osef o). destruct (negb (osef o)); [auto|].
  pose proof (h_flip_negate H o T) as E. destruct (h_flip_load (read_vec H (ob o)) H o T eq_refl) as (E' & T1). rewrite E.
  change (lb (load H o)) with (read_vec H (ob o)).
  destruct (bind _ _) as [r|e|]; cbn [fst snd]; auto.
  assert (L : length (read_vec H (ob o)) = length (lb (load (h_flip (read_vec H (ob o)) H o) o))).
  { rewrite E. unfold negate_rows. cbn [lb load]. now rewrite length_flip_b. }
  destruct (h_flip_load (read_vec H (ob o)) (h_flip (read_vec H (ob o)) H o) o T1 L) as (E2 & T2).
  split; [|split; auto]. rewrite E2, E. reflexivity.
Qed.
Lemma phase_one_spec fuel p : two_phase_simplex fuel p =
  match phase_one fuel p with
  | Raise e => (p, Raise e) | Diverges => (p, Diverges)
  | Ok (inl B) => simplex fuel p B | Ok (inr r) => (p, Ok r)
  end.
Proof.
  unfold two_phase_simplex, phase_one. destruct (auxiliary p) as [aux| |]; cbn [bind]; auto.
  destruct (simplex fuel (fst (to_sef aux)) _) as [aux' [[[x b] z]| |]]; auto. destruct x as [x|], b as [b|]; auto.
  destruct (evaluate aux' x) as [v| |]; cbn [bind]; auto. destruct (is_close_to_zero v).
  - destruct (is_basis p b) as [[]| |]; cbn [bind]; auto. destruct (Nat.leb _ _); auto.
    destruct (complete_basis _ _ _ _ _ _) as [[B|]| |]; auto.
  - destruct (minv _); auto.
Qed.
Theorem h_two_phase_load fuel H o : typed H o ->
  load (fst (h_two_phase fuel H o)) o = fst (two_phase_simplex fuel (load H o)) /\
  snd (h_two_phase fuel H o) = snd (two_phase_simplex fuel (load H o)) /\ typed (fst (h_two_phase fuel H o)) o.
Proof.
  intros T. rewrite phase_one_spec. unfold h_two_phase. destruct (phase_one fuel (load H o)) as [[B|r]| |]; cbn [fst snd]; auto.
  now apply h_simplex_load.
Qed.
Theorem h_solve_load fuel H o : typed H o ->
  load (fst (h_solve fuel H o)) o = fst (solve fuel (load H o)) /\
  snd (h_solve fuel H o) = snd (solve fuel (load H o)) /\ typed (fst (h_solve fuel H o)) o.
Proof.
  intros T. unfold h_solve. destruct (osef o) eqn:ES.
  - destruct (h_two_phase_load fuel H o T) as (E1 & E2 & T').
    unfold solve. change (lsef (load H o)) with (osef o). rewrite ES. destruct (h_two_phase fuel H o) as [H' r]. destruct (two_phase_simplex fuel (load H o)) as [p' r']. cbn [fst snd] in *. subst. auto.
  - cbn [fst snd]. split; [|auto]. unfold solve. change (lsef (load H o)) with (osef o). rewrite ES.
    destruct (to_sef (load H o)) as [sef rv]. set (m := if Nat.leb _ _ then _ else _). now destruct m.
Qed.

(** ** new arrays *)
Lemma fresh_load H p : wf p -> load (fst (fresh H p)) (snd (fresh H p)) = p /\ typed (fst (fresh H p)) (snd (fresh H p)).
Proof.
  intros W. set (H' := fst (fresh H p)). set (o := snd (fresh H p)).
  assert (E0 : hget H' (oA o) = Mat (cols p) (lA p)) by (unfold H', o; cbn; unfold hget; rewrite app_nth2 by lia; now rewrite Nat.sub_diag).
  assert (E1 : hget H' (ob o) = Vec (lb p)) by (unfold H', o; cbn; unfold hget; rewrite app_nth2 by lia; replace (S (length H) - length H) with 1 by lia; reflexivity).
  assert (E2 : hget H' (oc o) = Vec (lc p)) by (unfold H', o; cbn; unfold hget; rewrite app_nth2 by lia; replace (S (S (length H)) - length H) with 2 by lia; reflexivity).
  assert (EL : load H' o = p).
  { unfold load, read_mat, read_vec. rewrite E0, E1, E2. destruct p. reflexivity. }
  split; [exact EL|]. constructor.
  - unfold H', o. cbn. rewrite app_length. cbn. lia.
  - cbn. lia.
  - eexists _, _. split; [exact E0|apply (wf_A _ W)].
  - eauto.
  - eauto.
  - rewrite EL. unfold read_cols. rewrite E0. reflexivity.
  - now rewrite EL.
Qed.
Lemma copy_load H o : wf (load H o) -> load (fst (h_copy H o)) (snd (h_copy H o)) = load H o /\ typed (fst (h_copy H o)) (snd (h_copy H o)).
Proof. apply fresh_load. Qed.
Lemma typed_same H H' o : (forall r, In r (cells o) -> hget H' r = hget H r) -> length H <= length H' -> typed H o -> typed H' o.
Proof.
  intros E L T. pose proof (load_same H H' o E) as EL. destruct T as [V S TA Tb Tc TC W].
  constructor; auto; rewrite ?EL, ?(E (oA o)), ?(E (ob o)), ?(E (oc o)) by (cbn; auto); auto.
  - intros r Hr. apply V in Hr. lia.
  - unfold read_cols in *. rewrite (E (oA o)) by (cbn; auto). exact TC.
Qed.
(** an object with new [_A] and one other new array *)
Lemma typed_intro H o n M vb vc p : (forall r, In r (cells o) -> r < length H) -> ob o <> oc o ->
  hget H (oA o) = Mat n M -> hget H (ob o) = Vec vb -> hget H (oc o) = Vec vc -> oT o = false ->
  p = mklp M vb vc (oz o) (oobj o) (oineq o) (osef o) (ofree o) (oneg o) -> n = length vc -> wf p ->
  load H o = p /\ typed H o.
Proof.
  intros V D EA Eb Ec ET -> -> W.
  assert (EL : load H o = mklp M vb vc (oz o) (oobj o) (oineq o) (osef o) (ofree o) (oneg o)).
  { unfold load, read_mat, read_vec. now rewrite EA, Eb, Ec, ET. }
  split; [exact EL|]. constructor; eauto.
  - exists (length vc), M. split; auto. apply (wf_A _ W).
  - rewrite EL. unfold read_cols. rewrite EA, ET. reflexivity.
  - now rewrite EL.
Qed.
Lemma vec_of H r v : hget H r = Vec v -> read_vec H r = v. Proof. unfold read_vec. now intros ->. Qed.

Lemma constraint_load H o a q v : typed H o -> let r := fst (h_add_constraint H o a q v) in
  load (fst r) (snd r) = fst (add_constraint (load H o) a q v) /\ typed (fst r) (snd r).
Proof.
  intros T. cbv zeta. unfold h_add_constraint. pose proof (wf_constraint (load H o) a q v (t_wf _ _ T)) as W.
  assert (K : snd (add_constraint (load H o) a q v) <> Ok tt -> fst (add_constraint (load H o) a q v) = load H o).
  { unfold add_constraint. destruct (to_ndarray a) as [[]| |]; cbn [fst snd]; auto. destruct (negb _); auto. destruct (negb _); cbn [fst snd]; auto. congruence. }
  assert (Kc : lc (fst (add_constraint (load H o) a q v)) = read_vec H (oc o)).
  { unfold add_constraint. destruct (to_ndarray a) as [[]| |]; cbn [fst snd]; auto. destruct (negb _); auto. destruct (negb _); cbn [fst snd]; auto. }
  destruct (add_constraint (load H o) a q v) as [p [[]|e|]] eqn:E; cbn [fst snd] in *; try (rewrite K by discriminate; split; auto).
  destruct (t_c _ _ T) as (vc & Ec). assert (Vc : oc o < length H) by (apply (t_valid _ _ T); cbn; auto).
  apply (typed_intro _ _ (cols p) (lA p) (lb p) vc); cbn [oA ob oc oT oz oobj oineq osef ofree oneg cells]; auto.
  - cbn. rewrite app_length. cbn. lia.
  - lia.
  - rewrite hget_app2 by lia. now rewrite Nat.sub_diag.
  - rewrite hget_app2 by lia. replace (S (length H) - length H) with 1 by lia. reflexivity.
  - now rewrite hget_app.
  - rewrite (vec_of _ _ _ Ec) in Kc. rewrite <- Kc. now destruct p.
  - unfold cols. now rewrite Kc, (vec_of _ _ _ Ec).
Qed.
Lemma variable_load H o k col f n : typed H o -> snd (add_variable (load H o) k col f n) = Ok tt ->
  let r := fst (h_add_variable H o k col f n) in
  load (fst r) (snd r) = fst (add_variable (load H o) k col f n) /\ typed (fst r) (snd r).
Proof.
  intros T OK. cbv zeta. unfold h_add_variable.
  assert (Kb : lb (fst (add_variable (load H o) k col f n)) = read_vec H (ob o)).
  { unfold add_variable. destruct (f && n); auto. now destruct (Nat.eqb _ _). }
  destruct (add_variable (load H o) k col f n) as [p r] eqn:E; cbn [fst snd] in *. subst r.
  pose proof (wf_variable _ _ _ _ _ _ (t_wf _ _ T) E) as W. cbn [fst snd].
  destruct (t_b _ _ T) as (vb & Eb). assert (Vb : ob o < length H) by (apply (t_valid _ _ T); cbn; auto).
  apply (typed_intro _ _ (cols p) (lA p) vb (lc p)); cbn [oA ob oc oT oz oobj oineq osef ofree oneg cells]; auto.
  - cbn. rewrite app_length. cbn. lia.
  - lia.
  - rewrite hget_app2 by lia. now rewrite Nat.sub_diag.
  - now rewrite hget_app.
  - rewrite hget_app2 by lia. replace (S (length H) - length H) with 1 by lia. reflexivity.
  - rewrite (vec_of _ _ _ Eb) in Kb. rewrite <- Kb. now destruct p.
Qed.
Lemma canonical_load H o B : typed H o -> let r := fst (h_canonical H o B) in
  load (fst r) (snd r) = match to_canonical_form (load H o) B with Ok q => q | _ => load H o end /\ typed (fst r) (snd r).
Proof.
  intros T. cbv zeta. unfold h_canonical. destruct (to_canonical_form (load H o) B) as [q| |] eqn:E; cbn [fst snd]; auto.
  apply fresh_load. unfold to_canonical_form in E. destruct (negb _); [discriminate|].
  destruct (is_basis (load H o) B) as [[]| |] eqn:EB; cbn [bind] in E; try discriminate.
  eapply wf_canonical; [exact (t_wf _ _ T)| |exact E]. rewrite length_array_indexing. now apply (is_basis_true _ _ EB).
Qed.
Lemma iteration_load H o B : typed H o -> let r := fst (h_iteration H o B) in
  load (fst r) (snd r) = iterated (load H o) B /\ typed (fst r) (snd r).
Proof.
  intros T. cbv zeta. unfold h_iteration, iterated. change (lsef (load H o)) with (osef o). destruct (negb (osef o)); [auto|].
  destruct (is_basis (load H o) B) as [[]| |] eqn:EB; cbn [fst snd]; auto.
  rewrite (h_flip_negate H o T). destruct (h_flip_load (read_vec H (ob o)) H o T eq_refl) as (_ & T1).
  pose proof (h_flip_negate H o T) as EN.
  destruct (canonical (negate_rows (load H o)) (sort (to_array_indexing B))) as [q| |] eqn:E; cbn [fst snd]; auto.
  apply fresh_load. eapply wf_canonical; [apply wf_negate, (t_wf _ _ T)| |exact E].
  rewrite length_sort, length_array_indexing. destruct (is_basis_true _ _ EB) as (L & _). rewrite L.
  unfold negate_rows, rows. cbn [lA]. symmetry. apply length_flip_A. apply (wf_b _ (t_wf _ _ T)).
Qed.

(** ** to_sef *)
Lemma add_slacks_none ineq is : existsb (fun i => dmem Nat.eqb i ineq) is = false -> forall A c, add_slacks is ineq A c = (A, c).
Proof.
  induction is as [|i is IH]; intros E A c; [reflexivity|]. cbn [existsb] in E. apply orb_false_iff in E as (E1 & E2).
  cbn [add_slacks]. unfold dmem in E1. destruct (dget Nat.eqb i ineq); [discriminate|]. now apply IH.
Qed.
Lemma sef_load H o : typed H o -> load (fst (h_to_sef H o)) (snd (h_to_sef H o)) = fst (to_sef (load H o)) /\ typed (fst (h_to_sef H o)) (snd (h_to_sef H o)).
Proof.
  intros T. pose proof (t_wf _ _ T) as W. pose proof (wf_to_sef _ W) as WS. unfold h_to_sef, to_sef in *. change (lsef (load H o)) with (osef o) in *.
  destruct (osef o) eqn:ES; [auto|].
  change (lobj (load H o)) with (oobj o) in *. change (lc (load H o)) with (read_vec H (oc o)) in *. change (lneg (load H o)) with (oneg o) in *.
  change (lfree (load H o)) with (ofree o) in *. change (lineq (load H o)) with (oineq o) in *. change (lz (load H o)) with (oz o) in *.
  change (lb (load H o)) with (read_vec H (ob o)) in *. change (lA (load H o)) with (read_mat H (oA o) (oT o)) in *.
  destruct (if String.eqb (oobj o) "min" then (H ++ [Vec (vopp (read_vec H (oc o)))], length H) else (H, oc o)) as [H1 c1] eqn:E1.
  set (cv := if String.eqb (oobj o) "min" then vopp (read_vec H (oc o)) else read_vec H (oc o)) in *.
  destruct (typed_diff H o T) as (D1 & D2). pose proof (t_sep _ _ T) as D3.
  destruct (t_A _ _ T) as (n & M & EA & SA). destruct (t_b _ _ T) as (vb & Eb). destruct (t_c _ _ T) as (vc & Ec).
  assert (VA : oA o < length H) by (apply (t_valid _ _ T); cbn; auto). assert (Vb : ob o < length H) by (apply (t_valid _ _ T); cbn; auto).
  assert (Vc : oc o < length H) by (apply (t_valid _ _ T); cbn; auto).
  assert (P1 : hget H1 (oA o) = Mat n M /\ hget H1 (ob o) = Vec vb /\ hget H1 c1 = Vec cv /\ oA o < length H1 /\ ob o < length H1 /\ c1 < length H1 /\ oA o <> c1 /\ ob o <> c1 /\ length cv = length vc).
  { unfold cv. rewrite (vec_of _ _ _ Ec) in *. destruct (String.eqb (oobj o) "min"); injection E1 as <- <-.
    - rewrite !hget_app, hget_app2, Nat.sub_diag, app_length by lia. cbn [hget nth length]. rewrite length_vopp. repeat split; auto; lia.
    - repeat split; auto. }
  destruct P1 as (A1 & B1 & C1 & L1 & L2 & L3 & N1 & N2 & Lcv).
  assert (RA1 : read_mat H1 (oA o) (oT o) = read_mat H (oA o) (oT o)) by (unfold read_mat; now rewrite A1, EA).
  assert (RC1 : read_cols H1 (oA o) (oT o) = read_cols H (oA o) (oT o)) by (unfold read_cols; now rewrite A1, EA).
  rewrite RA1. set (A2 := map (fun r => fold_left (fun r i => neg_at i r) (oneg o) r) (read_mat H (oA o) (oT o))) in *.
  assert (SA2 : shaped (read_cols H (oA o) (oT o)) A2).
  { pose proof (wf_A _ W) as K. rewrite (t_cols _ _ T). cbn [load lA] in K. unfold A2. unfold shaped in *. rewrite Forall_forall in *. intros r Hr. apply in_map_iff in Hr as (r' & <- & Hr). etransitivity; [apply length_neg_all|]. auto. }
  assert (LA2 : length A2 = length (read_mat H (oA o) (oT o))) by apply map_length.
  destruct (write_read_mat H1 (oA o) (oT o) n M A2) as (Q1 & Q2 & Q3); auto.
  { now rewrite RA1. } { now rewrite RC1. }
  set (H2 := write_mat H1 (oA o) (oT o) A2) in *.
  assert (B2 : hget H2 (ob o) = Vec vb) by (unfold H2, write_mat; rewrite hget_hwrite_ne by auto; exact B1).
  assert (C2 : hget H2 c1 = Vec cv) by (unfold H2, write_mat; rewrite hget_hwrite_ne by auto; exact C1).
  assert (LH2 : length H2 = length H1) by apply length_hwrite.
  rewrite (vec_of _ _ _ C2). set (c2 := fold_left (fun c i => neg_at i c) (oneg o) cv) in *.
  assert (Lc2 : length c2 = length vc) by (etransitivity; [apply length_neg_all|exact Lcv]).
  set (H3 := write_vec H2 c1 c2).
  assert (LH3 : length H3 = length H1) by (unfold H3, write_vec; now rewrite length_hwrite).
  assert (A3 : hget H3 (oA o) = hget H2 (oA o)) by (unfold H3, write_vec; now apply hget_hwrite_ne).
  assert (B3 : hget H3 (ob o) = Vec vb) by (unfold H3, write_vec; rewrite hget_hwrite_ne by auto; exact B2).
  assert (C3 : hget H3 c1 = Vec c2) by (unfold H3, write_vec; apply hget_hwrite_eq; lia).
  assert (R3 : read_mat H3 (oA o) (oT o) = A2) by (unfold read_mat at 1; rewrite A3; exact Q1).
  rewrite R3, (vec_of _ _ _ C3), (vec_of _ _ _ B3). rewrite (vec_of _ _ _ Eb) in *.
  destruct (split_free 0 (ofree o) A2 c2 []) as [[A3' c3] cc] eqn:ESF. destruct (add_slacks (seq 0 (length vb)) (oineq o) A3' c3) as [A4 c4] eqn:EAS.
  cbn [fst] in WS.
  destruct (negb (Nat.eqb (length (ofree o)) 0) || existsb (fun i => dmem Nat.eqb i (oineq o)) (seq 0 (length vb))) eqn:ER; cbn [fst snd].
  - apply (typed_intro _ _ (length c4) A4 vb c4); cbn [oA ob oc oT oz oobj oineq osef ofree oneg cells]; auto.
    + cbn. rewrite app_length. cbn. lia.
    + lia.
    + rewrite hget_app2 by lia. now rewrite Nat.sub_diag.
    + rewrite hget_app by lia. exact B3.
    + rewrite hget_app2 by lia. replace (S (length H3) - length H3) with 1 by lia. reflexivity.
  - apply orb_false_iff in ER as (ER1 & ER2). apply negb_false_iff, Nat.eqb_eq, length_zero_iff_nil in ER1. rewrite ER1 in ESF. cbn [split_free] in ESF. injection ESF as <- <- <-.
    rewrite add_slacks_none in EAS by auto. injection EAS as <- <-.
    set (o' := mkobj (oA o) (oT o) (ob o) c1 (oz o) "max" [] true [] []).
    assert (EL : load H3 o' = mklp A2 vb c2 (oz o) "max" [] true [] []).
    { unfold load, o'. cbn [oA ob oc oT oz oobj oineq osef ofree oneg]. now rewrite R3, (vec_of _ _ _ B3), (vec_of _ _ _ C3). }
    split; [exact EL|]. constructor; auto.
    + cbn. lia.
    + destruct Q3 as (n' & M' & Q3 & Q4). exists n', M'. cbn [oA o']. rewrite A3. auto.
    + eauto.
    + eauto.
    + rewrite EL. cbn [oA oT o']. unfold read_cols. rewrite A3. fold (read_cols H2 (oA o) (oT o)). rewrite Q2, RC1, (t_cols _ _ T).
      unfold cols. cbn [lc load]. now rewrite (vec_of _ _ _ Ec).
    + now rewrite EL.
Qed.
Lemma dual_load H o : typed H o -> load H (h_dual H o) = dual (load H o) /\ typed H (h_dual H o).
Proof.
  intros T. destruct (t_A _ _ T) as (n & M & EA & SA). pose proof (t_cols _ _ T) as TC. unfold read_cols in TC. rewrite EA in TC.
  assert (EL : load H (h_dual H o) = dual (load H o)).
  { unfold load at 1. cbn [h_dual oA oT ob oc oz oobj oineq osef ofree oneg].
    assert (E : read_mat H (oA o) (negb (oT o)) = transpose (cols (load H o)) (read_mat H (oA o) (oT o))).
    { unfold read_mat. rewrite EA. destruct (oT o); cbn [negb]; rewrite <- TC; auto. symmetry. now apply transpose_twice. }
    rewrite E. reflexivity. }
  split; [exact EL|]. constructor.
  - intros r Hr. apply (t_valid _ _ T). cbn in *. tauto.
  - cbn. intros K. now apply (t_sep _ _ T).
  - exists n, M. auto.
  - exact (t_c _ _ T).
  - exact (t_b _ _ T).
  - rewrite EL, cols_dual by (apply (t_wf _ _ T)). cbn [h_dual oA oT]. unfold read_cols, rows. cbn [lA load]. unfold read_mat. rewrite EA. destruct (oT o); cbn [negb]; auto. now rewrite length_transpose.
  - rewrite EL. apply wf_dual, (t_wf _ _ T).
Qed.

Lemma set_load H o f a : typed H o -> load (h_set H o f a) o = assigned (load H o) f a /\ typed (h_set H o f a) o.
Proof.
  intros T. destruct (typed_diff H o T) as (D1 & D2). pose proof (t_wf _ _ T) as W. pose proof (t_sep _ _ T) as D3.
  destruct (t_A _ _ T) as (n & M & EA & SA). destruct (t_b _ _ T) as (vb & Eb). destruct (t_c _ _ T) as (vc & Ec).
  assert (VA : oA o < length H) by (apply (t_valid _ _ T); cbn; auto). assert (Vb : ob o < length H) by (apply (t_valid _ _ T); cbn; auto).
  assert (Vc : oc o < length H) by (apply (t_valid _ _ T); cbn; auto). pose proof (t_cols _ _ T) as TC.
  unfold h_set, assigned. destruct f, a as [w|k M']; auto.
  - change (rows (load H o)) with (length (read_mat H (oA o) (oT o))). rewrite <- TC. destruct (_ && _) eqn:E; auto. rewrite !andb_true_iff in E.
    destruct E as ((E1 & E2) & E3). apply Nat.eqb_eq in E1, E2. subst k.
    assert (S' : shaped (read_cols H (oA o) (oT o)) M').
    { apply Forall_forall. intros r Hr. rewrite forallb_forall in E3. apply Nat.eqb_eq. now apply E3. }
    destruct (write_read_mat H (oA o) (oT o) n M M' VA EA SA E2 S') as (R1 & R2 & R3).
    assert (Gb : hget (write_mat H (oA o) (oT o) M') (ob o) = hget H (ob o)) by (unfold write_mat; apply hget_hwrite_ne; auto).
    assert (Gc : hget (write_mat H (oA o) (oT o) M') (oc o) = hget H (oc o)) by (unfold write_mat; apply hget_hwrite_ne; auto).
    assert (EL : load (write_mat H (oA o) (oT o) M') o = mklp M' (lb (load H o)) (lc (load H o)) (oz o) (oobj o) (oineq o) (osef o) (ofree o) (oneg o)).
    { unfold load at 1. rewrite R1. unfold read_vec. now rewrite Gb, Gc. }
    split; [exact EL|]. constructor; auto.
    + unfold write_mat. rewrite length_hwrite. apply (t_valid _ _ T).
    + exists vb. now rewrite Gb.
    + exists vc. now rewrite Gc.
    + rewrite R2, EL. exact TC.
    + rewrite EL. apply (wf_shape (load H o)); auto. rewrite <- TC. exact S'.
  - change (lb (load H o)) with (read_vec H (ob o)). destruct (Nat.eqb_spec (length w) (length (read_vec H (ob o)))) as [E|]; auto.
    assert (GA : hget (write_vec H (ob o) w) (oA o) = hget H (oA o)) by (apply hget_hwrite_ne; auto).
    assert (Gb : hget (write_vec H (ob o) w) (ob o) = Vec w) by (now apply hget_hwrite_eq).
    assert (Gc : hget (write_vec H (ob o) w) (oc o) = hget H (oc o)) by (apply hget_hwrite_ne; auto).
    assert (EL : load (write_vec H (ob o) w) o = mklp (lA (load H o)) w (lc (load H o)) (oz o) (oobj o) (oineq o) (osef o) (ofree o) (oneg o)).
    { unfold load at 1, read_mat, read_vec. rewrite GA, Gb, Gc. reflexivity. }
    split; [exact EL|]. constructor; auto.
    + unfold write_vec. rewrite length_hwrite. apply (t_valid _ _ T).
    + exists n, M. now rewrite GA.
    + now exists w.
    + exists vc. now rewrite Gc.
    + rewrite EL. unfold read_cols. rewrite GA. exact TC.
    + rewrite EL. apply (wf_shape (load H o)); auto. apply (wf_A _ W).
  - change (lc (load H o)) with (read_vec H (oc o)). destruct (Nat.eqb_spec (length w) (length (read_vec H (oc o)))) as [E|]; auto.
    assert (GA : hget (write_vec H (oc o) w) (oA o) = hget H (oA o)) by (apply hget_hwrite_ne; auto).
    assert (Gc : hget (write_vec H (oc o) w) (oc o) = Vec w) by (now apply hget_hwrite_eq).
    assert (Gb : hget (write_vec H (oc o) w) (ob o) = hget H (ob o)) by (apply hget_hwrite_ne; auto).
    assert (EL : load (write_vec H (oc o) w) o = mklp (lA (load H o)) (lb (load H o)) w (oz o) (oobj o) (oineq o) (osef o) (ofree o) (oneg o)).
    { unfold load at 1, read_mat, read_vec. rewrite GA, Gb, Gc. reflexivity. }
    split; [exact EL|]. constructor; auto.
    + unfold write_vec. rewrite length_hwrite. apply (t_valid _ _ T).
    + exists n, M. now rewrite GA.
    + exists vb. now rewrite Gb.
    + now exists w.
    + rewrite EL. unfold read_cols in *. rewrite GA, TC. unfold cols. cbn [lc load]. auto.
    + rewrite EL. apply (wf_shape (load H o)); auto. apply (wf_A _ W).
Qed.
(** ** programs whose arrays nobody else has *)
Record private (s : state) (n : nat) (p : lp) (o : pobj) : Prop := {
  v_obj : nth_error (sobjs s) n = Some o;
  v_typed : typed (sheap s) o;
  v_load : load (sheap s) o = p;
  v_apart : forall k o' r, nth_error (sobjs s) k = Some o' -> k <> n -> In r (cells o') -> ~ In r (cells o);
  v_valid : forall k o' r, nth_error (sobjs s) k = Some o' -> In r (cells o') -> r < length (sheap s) }.
Lemma private_outside s n p o x : private s n p o -> receiver x <> Some n -> (forall r, In r (arrays x) -> ~ In r (cells o)) -> private (hstep s x) n p o.
Proof.
  intros P R A. destruct P as [P1 P2 P3 P4 P5].
  destruct (step_kept (fun r => In r (cells o)) (fun k => k = n) s x) as (K & S).
  - constructor; eauto.
    + intros k ->. apply nth_error_Some. congruence.
  - split; [|exact A]. intros i E ->. auto.
  - assert (L : length (sheap s) <= length (sheap (hstep s x))).
      { clear - x s P5.
      assert (F : forall i ip f, (forall H o, frame H o (fst (f H o)) (snd (f H o))) -> length (sheap s) <= length (sheap (on s i ip f))).
      { intros i ip f F. unfold on. destruct (nth_error (sobjs s) i) as [o|]; auto. destruct ip.
        - specialize (F (sheap s) o). destruct (f (sheap s) o). apply F.
        - pose proof (frame_fresh (sheap s) o (load (sheap s) o)) as F1. unfold h_copy. destruct (fresh (sheap s) (load (sheap s) o)) as [H1 o1].
          specialize (F H1 o1). destruct (f H1 o1). cbn [fst snd sheap] in *. destruct F1, F. lia. }
      assert (N : forall A b c z ob i f g, length (sheap s) <= length (sheap (added s (h_new (sheap s) A b c z ob i f g)))).
      { intros. unfold h_new. destruct (linear_program _ _ _ _ _ _ _ _); cbn; auto.
        destruct A; cbn; destruct b; cbn; destruct c; cbn; rewrite ?app_length; cbn; lia. }
      destruct x; cbn [hstep]; auto.
      - destruct (array_ok a); cbn [sheap]; rewrite ?app_length; lia.
      - destruct (same_shape _ _); cbn; rewrite ?length_hwrite; lia.
      - destruct (_ && _); auto.
      - apply F. intros; apply frame_refl.
      - apply F, frame_sef.
      - apply F. intros; apply frame_canonical.
      - apply F. intros; apply frame_constraint.
      - apply F. intros; apply frame_variable.
      - apply F. intros; apply frame_iteration.
      - apply F. intros; apply frame_simplex.
      - apply F. intros; apply frame_two_phase.
      - apply F. intros; apply frame_solve.
      - apply F. intros; apply frame_set.
      - destruct (nth_error (sobjs s) i); auto.
      - destruct (nth_error (sobjs s) i); auto. apply N. }
    pose proof (s_cells _ _ _ _ S) as SC. constructor.
    + rewrite (s_progs _ _ _ _ S); auto.
    + eapply typed_same; eauto.
    + rewrite (load_same (sheap s)); auto.
    + intros k o' r Hk Hn Hr. exact (k_apart _ _ _ K k o' r Hk Hn Hr).
    + apply (k_valid _ _ _ K).
Qed.
Lemma private_in_place s n p o f q : private s n p o -> (forall H o, frame H o (fst (f H o)) (snd (f H o))) ->
  (load (fst (f (sheap s) o)) (snd (f (sheap s) o)) = q /\ typed (fst (f (sheap s) o)) (snd (f (sheap s) o))) ->
  exists o', private (on s n true f) n q o'.
Proof.
  intros [P1 P2 P3 P4 P5] F (E & T). unfold on. rewrite P1. specialize (F (sheap s) o). destruct (f (sheap s) o) as [H o']. cbn [fst snd] in *.
  destruct F as (L & F & C). exists o'. constructor; cbn [sheap sobjs]; auto.
  - rewrite nth_set_obj, Nat.eqb_refl, P1. reflexivity.
  - intros k o1 r Hk Hn Hr Hc. rewrite nth_set_obj in Hk. destruct (Nat.eqb_spec k n); [contradiction|].
    apply C in Hc as [Hc|Hc]; [exact (P4 k o1 r Hk Hn Hr Hc)|]. pose proof (P5 k o1 r Hk Hr). lia.
  - intros k o1 r Hk Hr. rewrite nth_set_obj in Hk. destruct (Nat.eqb_spec k n) as [->|].
    + rewrite P1 in Hk. cbn in Hk. injection Hk as <-. now apply (t_valid _ _ T).
    + pose proof (P5 k o1 r Hk Hr). lia.
Qed.
(** the new program of an operation on a copy *)
Lemma on_copy s i f o : nth_error (sobjs s) i = Some o -> (forall H o, frame H o (fst (f H o)) (snd (f H o))) ->
  exists H o', on s i false f = mkstate H (sobjs s ++ [o']) /\ length (sheap s) <= length H /\
    (forall r, r < length (sheap s) -> hget H r = hget (sheap s) r) /\ (forall r, In r (cells o') -> length (sheap s) <= r < length H) /\
    (H, o') = f (fst (h_copy (sheap s) o)) (snd (h_copy (sheap s) o)).
Proof.
  intros Eo F. unfold on. rewrite Eo. destruct (h_copy (sheap s) o) as [H1 o1] eqn:E1. cbn [fst snd].
  specialize (F H1 o1). destruct (f H1 o1) as [H o']. cbn [fst snd] in F. destruct F as (L & F & C). unfold h_copy, fresh in E1. injection E1 as <- <-.
  rewrite app_length in *. cbn [length] in *. exists H, o'. split; auto. split; [lia|]. split; [|split; auto].
  - intros r Hr. rewrite F; [now apply hget_app|lia|]. cbn. lia.
  - intros r Hr. apply C in Hr as [Hr|Hr]; [cbn in Hr; lia|lia].
Qed.
Lemma nth_app_last {A} (l : list A) x k y : nth_error (l ++ [x]) k = Some y -> nth_error l k = Some y \/ k = length l /\ y = x.
Proof.
  intros Hk. destruct (Nat.lt_ge_cases k (length l)) as [Hl|Hl].
  - rewrite nth_error_app1 in Hk by auto. auto.
  - rewrite nth_error_app2 in Hk by auto. destruct (k - length l) as [|j] eqn:E; [cbn in Hk; right; split; [lia|congruence]|destruct j; discriminate].
Qed.
Lemma private_copied s n p o i f : private s n p o -> (forall H o, frame H o (fst (f H o)) (snd (f H o))) -> private (on s i false f) n p o.
Proof.
  intros P F. destruct (nth_error (sobjs s) i) as [oi|] eqn:Eo; [|unfold on; rewrite Eo; exact P].
  destruct (on_copy s i f oi Eo F) as (H & o' & -> & L & G & C & _). destruct P as [P1 P2 P3 P4 P5].
  constructor; cbn [sheap sobjs].
  - rewrite nth_error_app1; auto. apply nth_error_Some. congruence.
  - apply (typed_same (sheap s)); auto. intros r Hr. apply G. now apply (t_valid _ _ P2).
  - rewrite (load_same (sheap s)); auto. intros r Hr. apply G. now apply (t_valid _ _ P2).
  - intros k o1 r Hk Hn Hr Hc. apply nth_app_last in Hk as [Hk|(-> & ->)]; [exact (P4 k o1 r Hk Hn Hr Hc)|].
    apply C in Hr. pose proof (t_valid _ _ P2 r Hc). lia.
  - intros k o1 r Hk Hr. apply nth_app_last in Hk as [Hk|(-> & ->)]; [pose proof (P5 k o1 r Hk Hr); lia|]. apply C in Hr. lia.
Qed.
Lemma private_new s i f o q : heap_state s -> nth_error (sobjs s) i = Some o -> wf (load (sheap s) o) -> (forall H o, frame H o (fst (f H o)) (snd (f H o))) ->
  (forall H o1, typed H o1 -> load H o1 = load (sheap s) o -> load (fst (f H o1)) (snd (f H o1)) = q /\ typed (fst (f H o1)) (snd (f H o1))) ->
  exists o', private (on s i false f) (length (sobjs s)) q o'.
Proof.
  intros HS Eo W F K. destruct (on_copy s i f o Eo F) as (H & o' & -> & L & G & C & EF). destruct (copy_load (sheap s) o W) as (E1 & T1).
  destruct (K _ _ T1 E1) as (E2 & T2). rewrite <- EF in E2, T2. cbn [fst snd] in E2, T2.
  exists o'. constructor; cbn [sheap sobjs]; auto.
  - rewrite nth_error_app2, Nat.sub_diag by lia. reflexivity.
  - intros k o1 r Hk Hn Hr Hc. apply nth_app_last in Hk as [Hk|(-> & ->)]; [|contradiction].
    pose proof (heap_state_valid s k o1 r HS Hk Hr). apply C in Hc. lia.
  - intros k o1 r Hk Hr. apply nth_app_last in Hk as [Hk|(-> & ->)]; [pose proof (heap_state_valid s k o1 r HS Hk Hr); lia|]. apply C in Hr. lia.
Qed.
Theorem private_step s n p o x : private s n p o ->
  (forall r, In r (arrays x) -> ~ In r (cells o)) -> match x with HDual i | HRelax i => i <> n | _ => True end ->
  (receiver x = Some n -> on_itself x = true -> succeeds x p) -> exists o', private (hstep s x) n (effect_on n p x) o'.
Proof.
  intros P A D OK. unfold effect_on. destruct (receiver x) as [i|] eqn:R.
  2:{ exists o. apply private_outside; auto. congruence. }
  destruct (Nat.eqb_spec i n) as [->|N]; cbn [andb].
  2:{ exists o. apply private_outside; auto. congruence. }
  pose proof (v_typed _ _ _ _ P) as T. pose proof (v_load _ _ _ _ P) as EL. specialize (OK eq_refl).
  destruct x; cbn [receiver] in R; try discriminate; injection R as ->; cbn [on_itself effect hstep] in *; try contradiction.
  - exists o. apply private_copied; auto. intros; apply frame_refl.
  - destruct in_place; [|exists o; apply private_copied; auto; apply frame_sef].
    apply (private_in_place s n p o); auto; [apply frame_sef|]. rewrite <- EL. now apply sef_load.
  - destruct in_place; [|exists o; apply private_copied; auto; intros; apply frame_canonical].
    eapply (private_in_place s n p o); auto; [intros; apply frame_canonical|]. rewrite <- EL. now apply canonical_load.
  - destruct in_place; [|exists o; apply private_copied; auto; intros; apply frame_constraint].
    eapply (private_in_place s n p o); auto; [intros; apply frame_constraint|]. rewrite <- EL. now apply constraint_load.
  - destruct in_place; [|exists o; apply private_copied; auto; intros; apply frame_variable].
    eapply (private_in_place s n p o); auto; [intros; apply frame_variable|]. specialize (OK eq_refl). rewrite <- EL in *. now apply variable_load.
  - destruct in_place; [|exists o; apply private_copied; auto; intros; apply frame_iteration].
    eapply (private_in_place s n p o); auto; [intros; apply frame_iteration|]. rewrite <- EL. now apply iteration_load.
  - eapply (private_in_place s n p o); auto; [intros; apply frame_simplex|]. cbn [fst snd]. rewrite <- EL. destruct (h_simplex_load fuel (sheap s) o basis T) as (E & _ & T'). auto.
  - eapply (private_in_place s n p o); auto; [intros; apply frame_two_phase|]. cbn [fst snd]. rewrite <- EL. destruct (h_two_phase_load fuel (sheap s) o T) as (E & _ & T'). auto.
  - eapply (private_in_place s n p o); auto; [intros; apply frame_solve|]. cbn [fst snd]. rewrite <- EL. destruct (h_solve_load fuel (sheap s) o T) as (E & _ & T'). auto.
  - apply (private_in_place s n p o); auto; [intros; apply frame_set|]. cbn [fst snd]. rewrite <- EL. now apply set_load.
Qed.
Lemma private_shows s n p o : private s n p o -> shows s n = Some p.
Proof. intros P. unfold shows. rewrite (v_obj _ _ _ _ P). cbn. now rewrite (v_load _ _ _ _ P). Qed.
Theorem private_run n l : forall s p o, private s n p o -> undisturbed n s l -> exists o', private (hrun s l) n (fold_left (effect_on n) l p) o'.
Proof.
  induction l as [|x l IH]; intros s p o P U; [exists o; exact P|]. destruct U as (U1 & U2 & U3 & U4).
  destruct (private_step s n p o x P) as (o' & P'); auto.
  - intros r Hr. exact (U1 o r (v_obj _ _ _ _ P) Hr).
  - intros R I. apply U3; auto. eapply private_shows; eauto.
  - exact (IH (hstep s x) _ o' P' U4).
Qed.
Theorem private_copy s x i p : heap_state s -> makes_copy x i -> shows s i = Some p -> wf p -> succeeds x p ->
  exists o, private (hstep s x) (length (sobjs s)) (effect x p) o.
Proof.
  intros HS M Sh W OK. unfold shows in Sh. destruct (nth_error (sobjs s) i) as [o|] eqn:Eo; [|discriminate]. cbn in Sh. injection Sh as Sh.
  destruct x; cbn [makes_copy] in M; try contradiction; [subst i0|destruct M as (-> & ->)..]; cbn [hstep effect succeeds] in *.
  - eapply private_new; eauto; [now rewrite Sh|intros; apply frame_refl|]. cbn [fst snd]. intros H o1 T E. rewrite E. auto.
  - eapply private_new; eauto; [now rewrite Sh|apply frame_sef|]. intros H o1 T E. rewrite <- Sh, <- E. now apply sef_load.
  - eapply private_new; eauto; [now rewrite Sh|intros; apply frame_canonical|]. intros H o1 T E. rewrite <- Sh, <- E. now apply canonical_load.
  - eapply private_new; eauto; [now rewrite Sh|intros; apply frame_constraint|]. intros H o1 T E. rewrite <- Sh, <- E. now apply constraint_load.
  - eapply private_new; eauto; [now rewrite Sh|intros; apply frame_variable|]. intros H o1 T E. rewrite <- Sh, <- E in *. now apply variable_load.
  - eapply private_new; eauto; [now rewrite Sh|intros; apply frame_iteration|]. intros H o1 T E. rewrite <- Sh, <- E. now apply iteration_load.
Qed.
(** a program built from lists *)
Theorem private_built s A b c z obj ineq fr ng p : heap_state s ->
  linear_program (PyList A) (PyList b) (PyList c) z obj ineq fr ng = Ok p ->
  exists o, private (hstep s (HNew (Val A) (Val b) (Val c) z obj ineq fr ng)) (length (sobjs s)) p o.
Proof.
  intros HS E. assert (W : wf p) by (eapply wf_new; [|exact E]; exact I).
  assert (HN : hstep s (HNew (Val A) (Val b) (Val c) z obj ineq fr ng) = mkstate (fst (fresh (sheap s) p)) (sobjs s ++ [snd (fresh (sheap s) p)])).
  { cbn [hstep valid_ref andb]. unfold h_new. cbn [arg_source]. rewrite E. cbn [arg_cell added fresh fst snd]. rewrite <- !app_assoc. cbn [app]. f_equal. f_equal.
    rewrite !app_length. cbn [length]. rewrite !Nat.add_succ_r, !Nat.add_0_r. reflexivity. }
  rewrite HN. destruct (fresh_load (sheap s) p W) as (E1 & T1). set (o := snd (fresh (sheap s) p)) in *. exists o.
  assert (C : forall r, In r (cells o) -> length (sheap s) <= r) by (cbn; lia).
  constructor; cbn [sheap sobjs]; auto.
  - rewrite nth_error_app2, Nat.sub_diag by lia. reflexivity.
  - intros k o1 r Hk Hn Hr Hc. apply nth_app_last in Hk as [Hk|(-> & ->)]; [|contradiction].
    pose proof (heap_state_valid s k o1 r HS Hk Hr). apply C in Hc. lia.
  - intros k o1 r Hk Hr. apply nth_app_last in Hk as [Hk|(-> & ->)].
    + pose proof (heap_state_valid s k o1 r HS Hk Hr). cbn [fresh fst]. rewrite app_length. lia.
    + now apply (t_valid _ _ T1).
Qed.
