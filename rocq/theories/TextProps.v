(** C63: the printed form of a linear program can be read back. *)
From Coq Require Import String Ascii List Bool Arith ZArith QArith Qcanon Lia.
From Verif Require Import Py QcTac QInt ComparatorModel LinearModel LinearSpec LinearProofs LinearProps DualProofs TextModel TextSpec TextProofs TextRead.
Import ListNotations.
Open Scope nat_scope.
Open Scope string_scope.
Open Scope list_scope.

(** every number is formatted; the text has one dot, with as many characters before and after it as
    reported; read as a number it is zero exactly below the tolerance, has a relative error of at
    most 1/2000 otherwise, is exact for at most three decimals up to 10^10, and has the right sign *)
Theorem C63_number x : exists t i d v, format_number x = Ok (t, i, d) /\
  (exists a r, t = a ++ [dot] ++ r /\ length a = i /\ length r = d /\ ~ In dot a /\ ~ In dot r) /\
  read_number t = Some v /\ shown_as v x /\ (0 < v -> 0 < x)%Qc /\ (v < 0 -> x < 0)%Qc.
Proof.
  destruct (format_spec x) as (t & i & d & E & F). destruct (f_read _ _ _ _ F) as (v & V1 & V2 & V3 & V4). exists t, i, d, v. repeat split; auto; try apply V2.
  exact (f_parts _ _ _ _ F).
Qed.

(** printing a program with at least one constraint succeeds, and what is printed shows the problem *)
Theorem C63_readable_partial p : reachable p -> 0 < length (lb p) ->
  exists t P, repr p = Ok t /\ read_program t = Some P /\ shows P (meaning p).
Proof. intros R H. apply reachable_wf in R. apply repr_reads; auto. now rewrite <- (wf_b _ R). Qed.

Lemma shown_short v x : shown_as v x -> short x -> v = x.
Proof. intros (_ & _ & S) (H1 & H2). now apply S. Qed.
Lemma shown_short_list vs l : Forall2 shown_as vs l -> Forall short l -> vs = l.
Proof. induction 1 as [|v x vs l H _ IH]; intros F; inversion F; subst; [reflexivity|]. f_equal; auto. now apply shown_short. Qed.
Lemma shown_short_rows vs l : Forall2 (Forall2 shown_as) vs l -> Forall (Forall short) l -> vs = l.
Proof. induction 1 as [|v x vs l H _ IH]; intros F; inversion F; subst; [reflexivity|]. f_equal; auto. now apply shown_short_list. Qed.
Lemma shows_short P R : shows P R -> short_problem R -> P = R.
Proof.
  intros (S1 & S2 & S3 & S4 & S5 & S6 & S7) (T1 & T2 & T3 & T4). destruct P, R. cbn in *.
  rewrite S1, S2, S3, (shown_short_rows _ _ S4 T1), (shown_short_list _ _ S5 T2), (shown_short_list _ _ S6 T3), (shown_short _ _ S7 T4). reflexivity.
Qed.
(** with at most three decimals the problem is read back exactly *)
Theorem C63_exact_partial p : reachable p -> 0 < length (lb p) -> short_problem (meaning p) ->
  exists t, repr p = Ok t /\ read_program t = Some (meaning p).
Proof.
  intros R H S. destruct (C63_readable_partial p R H) as (t & P & E1 & E2 & E3). exists t. split; auto. now rewrite <- (shows_short _ _ E3 S).
Qed.
Lemma repr_no_rows p : wf p -> rows p = 0 -> repr p = Raise UnboundLocalError.
Proof.
  intros W H. unfold repr.
  destruct (mapM_format (lc p)) as (cs & -> & _). destruct (mapM_rows (lA p)) as (FA & -> & _). destruct (mapM_format (lb p)) as (Fb & -> & _). cbn [bind].
  destruct (is_close_to_zero (lz p)); cbn [bind]; [now rewrite H|]. destruct (format_spec (qabs (lz p))) as (t & i & d & -> & _). cbn [bind]. now rewrite H.
Qed.
(** a program without constraints cannot be printed *)
Theorem C63_no_rows_refuted p : reachable p -> length (lb p) = 0 -> repr p = Raise UnboundLocalError.
Proof. intros R H. pose proof (reachable_wf _ R) as W. rewrite (wf_b _ W) in H. now apply repr_no_rows. Qed.
(** two programs that print the same have the same sense, sizes, relations and signs, and numbers
    that are shown by the same number; with at most three decimals they are the same problem *)
Corollary C63_determines_partial p q t : reachable p -> reachable q -> repr p = Ok t -> repr q = Ok t ->
  maximise (meaning p) = maximise (meaning q) /\ relations (meaning p) = relations (meaning q) /\ signs (meaning p) = signs (meaning q) /\
  length (costs (meaning p)) = length (costs (meaning q)) /\ (exists P, shows P (meaning p) /\ shows P (meaning q)) /\
  (short_problem (meaning p) -> short_problem (meaning q) -> meaning p = meaning q).
Proof.
  intros Rp Rq Ep Eq. assert (L : forall r, reachable r -> repr r = Ok t -> 0 < length (lb r)).
  { intros r Rr Er. destruct (length (lb r)) eqn:E; [|lia]. rewrite (C63_no_rows_refuted r Rr E) in Er. discriminate Er. }
  destruct (C63_readable_partial p Rp (L p Rp Ep)) as (t1 & P & E1 & E2 & E3). destruct (C63_readable_partial q Rq (L q Rq Eq)) as (t2 & P' & F1 & F2 & F3).
  rewrite Ep in E1. rewrite Eq in F1. injection E1 as <-. injection F1 as <-. rewrite E2 in F2. injection F2 as <-.
  pose proof E3 as (A1 & A2 & A3 & _ & _ & A6 & _). pose proof F3 as (B1 & B2 & B3 & _ & _ & B6 & _).
  split; [congruence|]. split; [congruence|]. split; [congruence|]. split; [rewrite <- (Forall2_length _ _ _ A6), <- (Forall2_length _ _ _ B6); reflexivity|].
  split; [eauto|]. intros S1 S2. rewrite <- (shows_short _ _ E3 S1). now apply shows_short.
Qed.
(** * The hypotheses are met *)
Definition sample3 : res lp :=
  linear_program (Nd (Mat 3 [[qz 100; Q2Qc (9589 # 1000); qz (-6)]; [qz 400; Q2Qc (1 # 10); qz (-60)]; [qz 7; qz (-8); Q2Qc (1 # 3)]])) (Nd (Vec [qz (-600); qz 15; 0%Qc])) (Nd (Vec [qz 3; qz 2; qz (-5)]))
    (qz (-7)) "max" (Some ["<="; "="; ">="]) None (Some [2%Z]).
Definition shown_text : text :=
  lit "Max [3. 2. -5.]x - 7." ++ [10%Z] ++ lit "Subject To:" ++ [10%Z; 10%Z] ++
  lit "[100.   9.589   -6.    ]     " ++ [8804%Z] ++ lit "   [-600.]" ++ [10%Z] ++
  lit "[400.   0.1    -60.    ]x    =   [  15.]" ++ [10%Z] ++
  lit "[  7.  -8.       0.3333]     " ++ [8805%Z] ++ lit "   [   0.]" ++ [10%Z] ++
  [120%Z; 8322%Z] ++ lit " " ++ [8804%Z] ++ lit " 0" ++ [10%Z] ++
  [120%Z; 8321%Z] ++ lit ", " ++ [120%Z; 8323%Z] ++ lit " " ++ [8805%Z] ++ lit " 0" ++ [10%Z].
Example C63_nontrivial : exists p, sample3 = Ok p /\ reachable p /\ 0 < length (lb p) /\ repr p = Ok shown_text /\
  exists P, read_program shown_text = Some P /\ relations P = [AtMost; Equal; AtLeast] /\ signs P = [Nonnegative; Nonpositive; Nonnegative].
Proof.
  destruct sample3 as [p|e|] eqn:E; [|exfalso; revert E; vm_compute; discriminate..]. exists p. split; [reflexivity|]. split.
  { unfold sample3 in E. refine (r_new _ _ _ _ _ _ _ _ _ _ E). repeat constructor. }
  assert (Ep : p = match sample3 with Ok p => p | _ => p end) by now rewrite E. clear E. split; [rewrite Ep; vm_compute; lia|].
  split; [rewrite Ep; vm_compute; reflexivity|]. eexists. split; [vm_compute; reflexivity|]. split; reflexivity.
Qed.
Definition sample_short : res lp :=
  linear_program (Nd (Mat 2 [[Q2Qc (1 # 8); qz 20]])) (Nd (Vec [Q2Qc (25 # 10)])) (Nd (Vec [0%Qc; qz (-1)])) 0%Qc "min" (Some [">="]) (Some [1%Z]) None.
Example C63_exact_nontrivial : exists p, sample_short = Ok p /\ reachable p /\ 0 < length (lb p) /\ short_problem (meaning p).
Proof.
  destruct sample_short as [p|e|] eqn:E; [|exfalso; revert E; vm_compute; discriminate..]. exists p. split; [reflexivity|]. split.
  { unfold sample_short in E. refine (r_new _ _ _ _ _ _ _ _ _ _ E). repeat constructor. }
  assert (Ep : p = match sample_short with Ok p => p | _ => p end) by now rewrite E. clear E. rewrite Ep. clear Ep.
  split; [vm_compute; lia|]. cbn.
  assert (Sh : forall x z, (x * qz 1000 = qz z)%Qc -> qle (qabs x) (qz 10000000000) = true -> short x).
  { intros x z H K. split; [now exists z|]. destruct (qle_spec (qabs x) (qz 10000000000)); [assumption|discriminate K]. }
  unfold short_problem. cbn [coefficients rhs costs constant]. split; [|split; [|split]]; repeat (apply Forall_cons || apply Forall_nil);
    [apply (Sh _ 125%Z)|apply (Sh _ 20000%Z)|apply (Sh _ 2500%Z)|apply (Sh _ 0%Z)|apply (Sh _ (-1000)%Z)|apply (Sh _ 0%Z)]; first [vm_compute; reflexivity|apply Qc_is_canon; reflexivity].
Qed.
Definition sample_empty : res lp := linear_program (Nd (Mat 2 [])) (Nd (Vec [])) (Nd (Vec [qz 1; qz 2])) 0%Qc "max" None None None.
Example C63_no_rows_nontrivial : exists p, sample_empty = Ok p /\ reachable p /\ length (lb p) = 0.
Proof. eexists. split; [reflexivity|]. split; [|reflexivity]. refine (r_new (Nd (Mat 2 [])) (Nd (Vec [])) (Nd (Vec [qz 1; qz 2])) 0%Qc "max" None None None _ _ eq_refl). constructor. Qed.

Print Assumptions C63_number.
Print Assumptions C63_readable_partial.
Print Assumptions C63_exact_partial.
Print Assumptions C63_determines_partial.
Print Assumptions C63_no_rows_refuted.
