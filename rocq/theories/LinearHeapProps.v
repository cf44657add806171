(** C44: which programs share arrays, and what histories of calls do to them. *)
From Coq Require Import String List Bool Arith ZArith QArith Qcanon Lia.
From Verif Require Import Py QcTac QSum ComparatorModel MatModel MatTheory LinearModel LinearSpec LinearProofs LinearInv DualProofs IntegerModel LinearHeap LinearHeapSpec LinearHeapProofs LinearHeapValues.
Import ListNotations.
Open Scope nat_scope.
Open Scope string_scope.
Open Scope list_scope.

(** ** results do not affect the receiver *)
(** After copy, or an operation with in_place false, on a program of a reachable state: a history of
    calls on the result and on programs and arrays made later changes no array and no program that
    was there before the call. *)
Theorem C44_receiver_kept s x i l : heap_state s -> makes_copy x i ->
  (forall y k, In y l -> receiver y = Some k -> length (sobjs s) <= k) ->
  (forall y r, In y l -> In r (arrays y) -> length (sheap s) <= r) ->
  (forall r, r < length (sheap s) -> hget (sheap (hrun (hstep s x) l)) r = hget (sheap s) r) /\
  (forall k, k < length (sobjs s) -> shows (hrun (hstep s x) l) k = shows s k).
Proof.
  intros HS M R A.
  pose proof (fun k o r => heap_state_valid s k o r HS) as V.
  assert (K0 : kept (fun r => r < length (sheap s)) (fun k => k < length (sobjs s)) s).
  { constructor; eauto. intros k o r Hk Hn. exfalso. apply Hn. apply nth_error_Some. congruence. }
  assert (S1 : kept (fun r => r < length (sheap s)) (fun k => k < length (sobjs s)) (hstep s x) /\
               same (fun r => r < length (sheap s)) (fun k => k < length (sobjs s)) s (hstep s x)).
  { assert (Q : forall f, (forall H o, frame H o (fst (f H o)) (snd (f H o))) ->
      kept (fun r => r < length (sheap s)) (fun k => k < length (sobjs s)) (on s i false f) /\
      same (fun r => r < length (sheap s)) (fun k => k < length (sobjs s)) s (on s i false f)).
    { intros f F. destruct (nth_error (sobjs s) i) as [o|] eqn:Eo; [|unfold on; rewrite Eo; split; [auto|constructor; auto]].
      destruct (on_copy s i f o Eo F) as (H & o' & -> & L & G & C & _). apply step_add; auto. intros r Hr. apply C in Hr. lia. }
    destruct x; cbn [makes_copy] in M; try contradiction; [subst i0|destruct M as (-> & ->)..]; cbn [hstep]; apply Q; intros.
    - apply frame_refl.
    - apply frame_sef.
    - apply frame_canonical.
    - apply frame_constraint.
    - apply frame_variable.
    - apply frame_iteration. }
  destruct S1 as (K1 & S1).
  destruct (run_kept _ _ l (hstep s x) K1) as (K2 & S2).
  { intros y Hy. split.
    - intros k Hk Hl. specialize (R y k Hy Hk). lia.
    - intros r Hr Hl. specialize (A y r Hy Hr). lia. }
  assert (C : forall r, r < length (sheap s) -> hget (sheap (hrun (hstep s x) l)) r = hget (sheap s) r).
  { intros r Hr. rewrite (s_cells _ _ _ _ S2), (s_cells _ _ _ _ S1); auto. }
  split; [exact C|]. intros k Hk. unfold shows. rewrite (s_progs _ _ _ _ S2), (s_progs _ _ _ _ S1) by auto.
  destruct (nth_error (sobjs s) k) as [o|] eqn:E; auto. cbn. f_equal. apply load_same. intros r Hr. apply C. eauto.
Qed.
Print Assumptions C44_receiver_kept.

(** ** the receiver does not affect results *)
(** The result is the program the operation computes, and any history of calls on all programs, the
    receiver included, in which the result's arrays are not handed out, acts on the result only
    through the calls on it: it then shows what these calls, applied one after the other to a program
    sharing nothing, give. *)
Theorem C44_result_private s x i p l : heap_state s -> makes_copy x i -> shows s i = Some p -> reachable p -> succeeds x p ->
  undisturbed (length (sobjs s)) (hstep s x) l ->
  shows (hrun (hstep s x) l) (length (sobjs s)) = Some (fold_left (effect_on (length (sobjs s))) l (effect x p)).
Proof.
  intros HS M Sh W OK U. destruct (private_copy s x i p HS M Sh (reachable_wf p W) OK) as (o & P).
  destruct (private_run _ l _ _ _ P U) as (o' & P'). eapply private_shows; eauto.
Qed.
Print Assumptions C44_result_private.
(** the same for a program built from lists *)
Theorem C44_built_private s A b c z objective ineq free neg p l : heap_state s ->
  linear_program (PyList A) (PyList b) (PyList c) z objective ineq free neg = Ok p ->
  let s1 := hstep s (HNew (Val A) (Val b) (Val c) z objective ineq free neg) in
  undisturbed (length (sobjs s)) s1 l ->
  shows (hrun s1 l) (length (sobjs s)) = Some (fold_left (effect_on (length (sobjs s))) l p).
Proof.
  intros HS E s1 U. destruct (private_built s A b c z objective ineq free neg p HS E) as (o & P).
  destruct (private_run _ l _ _ _ P U) as (o' & P'). eapply private_shows; eauto.
Qed.
Print Assumptions C44_built_private.
(** such a program also returns the same answers as one that shares nothing *)
Theorem C44_answers_private s A b c z objective ineq free neg p l o fuel B : heap_state s ->
  linear_program (PyList A) (PyList b) (PyList c) z objective ineq free neg = Ok p ->
  let n := length (sobjs s) in
  let s1 := hstep s (HNew (Val A) (Val b) (Val c) z objective ineq free neg) in
  let s2 := hrun s1 l in let q := fold_left (effect_on n) l p in
  undisturbed n s1 l -> nth_error (sobjs s2) n = Some o ->
  snd (h_simplex fuel (sheap s2) o B) = snd (simplex fuel q B) /\
  snd (h_two_phase fuel (sheap s2) o) = snd (two_phase_simplex fuel q) /\
  snd (h_solve fuel (sheap s2) o) = snd (solve fuel q) /\
  load (sheap s2) (h_dual (sheap s2) o) = dual q.
Proof.
  intros HS E n s1 s2 q U Eo. destruct (private_built s A b c z objective ineq free neg p HS E) as (o1 & P).
  destruct (private_run _ l _ _ _ P U) as (o' & P'). fold n s1 s2 q in P'.
  assert (o' = o) by (pose proof (v_obj _ _ _ _ P'); congruence). subst o'.
  pose proof (v_typed _ _ _ _ P') as T. rewrite <- (v_load _ _ _ _ P').
  split; [apply (h_simplex_load fuel _ _ B T)|]. split; [apply (h_two_phase_load fuel _ _ T)|]. split; [apply (h_solve_load fuel _ _ T)|].
  now apply dual_load.
Qed.
Print Assumptions C44_answers_private.

(** ** sharing *)
Definition one_row (s : string) : hop := HNew (Val [IRow [CNum 1%Qc]]) (Val [INum 1%Qc]) (Val [INum 1%Qc]) 0%Qc "max" (Some [s]) None None.
(** dual shares all three arrays: converting the dual in place changes the program it came from *)
Theorem C44_dual_refuted : exists s, heap_state s /\ exists l,
  (forall y, In y l -> receiver y = Some (length (sobjs s)) /\ arrays y = []) /\
  shows (hrun (hstep s (HDual 0)) l) 0 <> shows s 0.
Proof.
  exists (hrun initial [one_row ">="]). split; [eexists; reflexivity|]. exists [HSef 1 true]. split.
  - intros y [<-|[]]. split; reflexivity.
  - vm_compute. discriminate.
Qed.
Print Assumptions C44_dual_refuted.
(** the constructor keeps the caller's arrays: an operation on the program changes them *)
Theorem C44_constructor_refuted : exists s, heap_state s /\ exists A b c z objective ineq free neg l,
  (forall y, In y l -> receiver y = Some (length (sobjs s)) /\ arrays y = []) /\
  exists r, r < length (sheap s) /\
    hget (sheap (hrun (hstep s (HNew A b c z objective ineq free neg)) l)) r <> hget (sheap s) r.
Proof.
  exists (hrun initial [HArray (Mat 1 [[1%Qc]]); HArray (Vec [1%Qc]); HArray (Vec [1%Qc])]). split; [eexists; reflexivity|].
  exists (Ref 0 false), (Ref 1 false), (Ref 2 false), 0%Qc, "max", None, None, (Some [1%Z]), [HSef 0 true]. split.
  - intros y [<-|[]]. split; reflexivity.
  - exists 0. split; [cbn; lia|]. vm_compute. discriminate.
Qed.
Print Assumptions C44_constructor_refuted.
(** relax gives the constructor the program's own arrays *)
Theorem C44_relax_refuted : exists s, heap_state s /\ exists l,
  (forall y, In y l -> receiver y = Some (length (sobjs s)) /\ arrays y = []) /\
  shows (hrun (hstep s (HRelax 0)) l) 0 <> shows s 0.
Proof.
  exists (hrun initial [HNew (Val [IRow [CNum 1%Qc]]) (Val [INum 1%Qc]) (Val [INum 1%Qc]) 0%Qc "max" None None (Some [1%Z])]).
  split; [eexists; reflexivity|]. exists [HSef 1 true]. split.
  - intros y [<-|[]]. split; reflexivity.
  - vm_compute. discriminate.
Qed.
Print Assumptions C44_relax_refuted.
(** the properties return the program's own arrays: the array read from [A] before a conversion in
    place has other entries afterwards, although the caller did nothing to it *)
Theorem C44_getter_refuted : exists s i o, heap_state s /\ nth_error (sobjs s) i = Some o /\
  hget (sheap (hstep s (HSef i true))) (oA o) <> hget (sheap s) (oA o).
Proof.
  eexists (hrun initial [HNew (Val [IRow [CNum 1%Qc]]) (Val [INum 1%Qc]) (Val [INum 1%Qc]) 0%Qc "max" None None (Some [1%Z])]), 0, _.
  split; [eexists; reflexivity|]. split; [reflexivity|]. vm_compute. discriminate.
Qed.
Print Assumptions C44_getter_refuted.
(** and the caller's assignments to them change the program, exactly as if it had been given the new
    entries, and change no program that shares nothing with it *)
Theorem C44_getter_write s A b c z objective ineq free neg p f a : heap_state s ->
  linear_program (PyList A) (PyList b) (PyList c) z objective ineq free neg = Ok p ->
  let n := length (sobjs s) in
  let s1 := hstep s (HNew (Val A) (Val b) (Val c) z objective ineq free neg) in
  shows (hstep s1 (HSet n f a)) n = Some (assigned p f a) /\
  (forall k, k < n -> shows (hstep s1 (HSet n f a)) k = shows s k).
Proof.
  intros HS E n s1. split.
  - destruct (private_built s A b c z objective ineq free neg p HS E) as (o & P). fold n s1 in P.
    destruct (private_step s1 n p o (HSet n f a) P) as (o' & P'); cbn [arrays receiver on_itself succeeds]; auto.
    apply private_shows in P'. rewrite P'. unfold effect_on. cbn [receiver on_itself]. now rewrite Nat.eqb_refl.
  - assert (K0 : kept (fun r => r < length (sheap s)) (fun k => k < length (sobjs s)) s).
    { constructor; auto; [intros k o r; now apply heap_state_valid|]. intros k o r Hk Hn. exfalso. apply Hn. apply nth_error_Some. congruence. }
    destruct (run_kept _ _ [HNew (Val A) (Val b) (Val c) z objective ineq free neg; HSet n f a] s K0) as (K2 & S2).
    { intros y [<-|[<-|[]]]; split; cbn [receiver arrays arg_ref app]; try discriminate; try (intros r Hr; contradiction).
      intros i Ei. injection Ei as <-. unfold n. lia. }
    cbn [hrun fold_left] in S2. fold s1 in S2. intros k Hk. unfold shows. rewrite (s_progs _ _ _ _ S2) by exact Hk.
    destruct (nth_error (sobjs s) k) as [o|] eqn:Ek; auto. cbn. f_equal. apply load_same. intros r Hr. apply (s_cells _ _ _ _ S2).
    eapply heap_state_valid; eauto.
Qed.
Print Assumptions C44_getter_write.
(** the same array given as right-hand side and as costs: the rows that simplex negates change the
    costs, and the answer is not the one for a program built from equal lists *)
Theorem C44_same_array_refuted : exists v p H o fuel B,
  linear_program (PyList [IRow [CNum (qz (-1))]]) (PyList [INum v]) (PyList [INum v]) 0%Qc "max" None None None = Ok p /\
  h_new [Mat 1 [[qz (-1)]]; Vec [v]] (Ref 0 false) (Ref 1 false) (Ref 1 false) 0%Qc "max" None None None = (H, Ok o) /\
  load H o = p /\ snd (h_simplex fuel H o B) <> snd (simplex fuel p B).
Proof.
  exists (qz (-1)). eexists _, _, _, 5, [1%Z]. split; [vm_compute; reflexivity|]. split; [vm_compute; reflexivity|].
  split; [vm_compute; reflexivity|]. vm_compute. discriminate.
Qed.
Print Assumptions C44_same_array_refuted.

(** ** the hypotheses are met *)
Definition ex_state : state := hrun initial [one_row "<="; HArray (Vec [qz 3])].
Example C44_copy_nonvacuous : heap_state ex_state /\ makes_copy (HSef 0 false) 0 /\
  (forall y k, In y [HCopy 1; HSimplex 9 1 [2%Z]; HDual 1] -> receiver y = Some k -> length (sobjs ex_state) <= k) /\
  length (sobjs ex_state) = 1 /\ length (sheap ex_state) = 4.
Proof.
  split; [eexists; reflexivity|]. split; [split; reflexivity|]. split; [|split; reflexivity].
  intros y k [<-|[<-|[<-|[]]]]; cbn; intros E; injection E as <-; lia.
Qed.
(** a history with calls on both programs and a caller's write; the result is still the program that
    the two calls on it compute *)
Definition ex_mixed : list hop :=
  [HSef 0 true; HWrite 3 (Vec [qz 5]); HSet 0 FieldB (Vec [qz 9]); HSet 1 FieldB (Vec [qz 7]); HConstraint 1 (Nd (Vec [1%Qc; 1%Qc])) "=" 1%Qc true; HSimplex 9 0 [2%Z]; HVariable 1 1%Qc None false true true].
Example C44_private_nonvacuous : exists p, shows ex_state 0 = Some p /\ reachable p /\ undisturbed 1 (hstep ex_state (HSef 0 false)) ex_mixed /\
  option_map (fun q => (map (map this) (lA q), map this (lb q), map this (lc q), lneg q)) (shows (hrun (hstep ex_state (HSef 0 false)) ex_mixed) 1)
  = Some ([[1; 1; 0]; [1; 1; 0]]%Q, [7; 1]%Q, [1; 0; 1]%Q, [2]) /\
  hget (sheap (hrun (hstep ex_state (HSef 0 false)) ex_mixed)) 3 = Vec [qz 5].
Proof.
  eexists. split; [vm_compute; reflexivity|]. split.
  { eapply (r_new (PyList [IRow [CNum 1%Qc]]) (PyList [INum 1%Qc]) (PyList [INum 1%Qc]) 0%Qc "max" (Some ["<="]) None None); [exact I|]. vm_compute. reflexivity. }
  split; [|split; vm_compute; reflexivity].
  cbn [undisturbed ex_mixed arrays receiver on_itself]. repeat match goal with |- _ /\ _ => apply conj | |- True => exact I end.
  all: try (intros o r _ Hr; contradiction).
  all: match goal with |- _ = Some 1 -> _ => intros R _ q E; first [discriminate R|clear R; vm_compute in E; injection E as <-; vm_compute; first [exact I|reflexivity|repeat split]] | _ => idtac end.
  intros o r E [<-|[]]. vm_compute in E. injection E as <-. cbn. lia.
Qed.
