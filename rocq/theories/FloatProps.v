(** C77: the comparator on double precision numbers, with rounding, overflow, infinities and nan. *)
From Coq Require Import String List Bool Arith ZArith QArith Qcanon Lia.
From Verif Require Import Py QcTac QInt ComparatorModel ComparatorSpec ComparatorProofs MatTheory DoubleSpec DoubleProofs FloatModel FloatSpec FloatProofs.
Import ListNotations.
Open Scope nat_scope.
Open Scope string_scope.
Open Scope list_scope.

(** The rounding of the model is the one of IEEE 754: to a nearest double, and of two nearest ones to the
    one with an even significand. *)
Theorem C77_rounding : forall x, rounds x (rnd x) /\ forall d, is_double d -> distance x d = distance x (rnd x) -> d = rnd x \/ even_double (rnd x).
Proof. exact rnd_spec. Qed.
Print Assumptions C77_rounding.

(** The answers respect the order of the numbers: a true strict comparison is right, and a right weak
    comparison is true. *)
Theorem C77_order : forall v t,
  (fl_compare v ">" t = Ok true -> below t v) /\ (fl_compare v "<" t = Ok true -> below v t) /\
  (at_most t v -> fl_compare v ">=" t = Ok true) /\ (at_most v t -> fl_compare v "<=" t = Ok true).
Proof.
  intros v t. cbn -[fl_comparator f_le f_lt]. rewrite <- !f_lt_spec, <- !f_le_spec.
  assert (K : forall b, Ok b = Ok true -> b = true) by congruence. repeat split.
  - intros H. apply K, andb_true_iff in H. apply H.
  - intros H. apply K, andb_true_iff in H. apply H.
  - intros ->. now rewrite orb_true_r.
  - intros ->. now rewrite orb_true_r.
Qed.
Print Assumptions C77_order.

(** Without nan the pairs (>=, <) and (<=, >) are complementary. *)
Theorem C77_complementary : forall v t, v <> NaN -> t <> NaN ->
  (exists b, fl_compare v ">=" t = Ok b /\ fl_compare v "<" t = Ok (negb b)) /\
  (exists b, fl_compare v "<=" t = Ok b /\ fl_compare v ">" t = Ok (negb b)).
Proof.
  intros v t Hv Ht. cbn -[fl_comparator f_le f_lt]. rewrite (f_le_lt t v), (f_le_lt v t) by auto.
  split; eexists; (split; [reflexivity|]); f_equal; destruct (fl_comparator t v), (f_lt v t), (f_lt t v); reflexivity.
Qed.
Print Assumptions C77_complementary.

(** With nan on either side all four comparisons are false, so they are not complementary. *)
Theorem C77_nan_refuted : forall v t op, v = NaN \/ t = NaN -> In op [">="; ">"; "<="; "<"] -> fl_compare v op t = Ok false.
Proof.
  intros v t op H Hop. assert (E : forall a b, a = NaN \/ b = NaN -> f_le a b = false /\ f_lt a b = false) by (intros a b [->| ->]; [split; reflexivity|destruct a; split; reflexivity]).
  pose proof (comparator_nan v t H) as C. destruct (E v t H) as (E1 & E2). destruct (E t v ltac:(tauto)) as (E3 & E4).
  destruct Hop as [<-|[<-|[<-|[<-|[]]]]]; cbn -[fl_comparator f_le f_lt]; rewrite C, ?E1, ?E2, ?E3, ?E4; reflexivity.
Qed.
Print Assumptions C77_nan_refuted.

(** ">=" stays true when the value grows and "<=" when it shrinks. *)
Theorem C77_monotone : forall v v' t, is_float t -> at_most v v' ->
  (fl_compare v ">=" t = Ok true -> fl_compare v' ">=" t = Ok true) /\ (fl_compare v' "<=" t = Ok true -> fl_compare v "<=" t = Ok true).
Proof.
  intros v v' t Ht H. assert (K : forall b, Ok b = Ok true -> b = true) by congruence. split; intros E; apply K in E.
  - pose proof (ge_mono v v' t Ht H E) as G. unfold ge in G. cbn -[fl_comparator f_le]. now rewrite G.
  - pose proof (le_anti v' v t Ht H E) as G. unfold le in G. cbn -[fl_comparator f_le]. now rewrite G.
Qed.
Print Assumptions C77_monotone.

(** Against zero, rounding changes no answer: the functions agree with exact arithmetic on every finite double. *)
Theorem C77_zero_exact : forall x op, is_float (Fin x) ->
  fl_close_to_zero (Fin x) = is_close_to_zero x /\ fl_compare (Fin x) op (Fin 0) = is_close_compare x op 0.
Proof.
  intros x op (D & _). pose proof (close_exact x D) as E. split; [exact E|]. unfold fl_compare, fl_entry, is_close_compare, fl_comparator, comparator. cbn [f_eq f_le f_lt]. change (qeq 0 0) with true. cbn [andb]. now rewrite E.
Qed.
Print Assumptions C77_zero_exact.
(** Each number that is not nan is exactly one of: close to zero, positive, negative; nan is none of them. *)
Theorem C77_trichotomy : forall v, exists p n,
  fl_is_positive v = Ok p /\ fl_is_negative v = Ok n /\
  (v <> NaN -> (p = true /\ n = false /\ fl_close_to_zero v = false) \/ (p = false /\ n = true /\ fl_close_to_zero v = false) \/ (p = false /\ n = false /\ fl_close_to_zero v = true)) /\
  (v = NaN -> p = false /\ n = false /\ fl_close_to_zero v = false).
Proof.
  intros v. unfold fl_is_positive, fl_is_negative. cbn -[fl_comparator f_le f_lt]. do 2 eexists. split; [reflexivity|]. split; [reflexivity|].
  unfold fl_comparator. change (f_eq (Fin 0) (Fin 0)) with true. cbn [andb]. destruct v as [x| | |]; unfold fl_close_to_zero; rewrite tenth_lit; cbn; split; try contradiction; try discriminate; auto. intros _. pose proof tenth_pos.
  destruct (qlt_spec (qabs x) tenth) as [A|A], (qlt_spec 0 x) as [B|B], (qlt_spec x 0) as [C|C]; cbn; auto; exfalso; qab; qclra.
Qed.
Print Assumptions C77_trichotomy.

(** Against any other finite number the allowance is 1e-8 + 1e-5 |t|, up to the relative error 2^-50. *)
Theorem C77_band : forall v t, is_float (Fin t) -> t <> 0%Qc ->
  ((distance v t <= (1 - slack) * allowance t)%Qc -> fl_compare (Fin v) ">=" (Fin t) = Ok true /\ fl_compare (Fin v) "<=" (Fin t) = Ok true) /\
  (((1 + slack) * allowance t < distance v t)%Qc -> fl_compare (Fin v) ">=" (Fin t) = Ok (qlt t v) /\ fl_compare (Fin v) "<=" (Fin t) = Ok (qlt v t)).
Proof.
  intros v t Ht N. unfold fl_compare, fl_entry, fl_comparator. cbn -[fl_isclose qle qlt qeq]. destruct (qeq_spec t 0) as [|_]; [contradiction|]. split; intros H.
  - rewrite (band_in v t Ht H). auto.
  - destruct (fl_isclose (Fin v) (Fin t)) eqn:E; [apply band_out in E; auto; exfalso; qclra|]. cbn [orb].
    assert (D : v <> t). { intros ->. unfold distance in H. replace (t - t)%Qc with 0%Qc in H by ring. rewrite qabs_0 in H. assert (P : (0 <= (1 + slack) * allowance t)%Qc). { apply qmul_nonneg; [discriminate|]. unfold allowance. pose proof (qmul_nonneg (Q2Qc (1 # 100000)) (qabs t) ltac:(discriminate) (qabs_nonneg t)) as Q. set (Y := (Q2Qc (1 # 100000) * qabs t)%Qc) in *. clearbody Y. qclra. } qclra. }
    split; f_equal; [destruct (qle_spec t v), (qlt_spec t v)|destruct (qle_spec v t), (qlt_spec v t)]; auto; exfalso; qclra.
Qed.
Print Assumptions C77_band.

(** Against an infinity the comparison is exact; the ratio test of the simplex method compares with it. *)
Theorem C77_infinite_test : forall v t, t = PInf \/ t = NInf ->
  (fl_compare v "<" t = Ok true <-> below v t) /\ (fl_compare v ">" t = Ok true <-> below t v) /\
  (fl_compare v "<=" t = Ok true <-> at_most v t) /\ (fl_compare v ">=" t = Ok true <-> at_most t v).
Proof.
  intros v t [->| ->]; unfold at_most; destruct v; cbn; repeat split; try discriminate; auto; try tauto; try (intros [H|(H & H')]; first [contradiction|discriminate|congruence]); intros _; right; split; auto; discriminate.
Qed.
Print Assumptions C77_infinite_test.

(** Arrays: the conjunction over the entries; every other operator raises. *)
Theorem C77_array : forall vs op t,
  (In op [">="; ">"; "<="; "<"] -> exists b, fl_compare_array vs op t = Ok b /\ (b = true <-> forall v, In v vs -> fl_compare v op t = Ok true)) /\
  (~ In op [">="; ">"; "<="; "<"] -> fl_compare_array vs op t = Raise ValueError /\ forall v, fl_compare v op t = Raise ValueError).
Proof.
  intros vs op t. split.
  - assert (K : forall b, Ok b = Ok true <-> b = true) by (split; congruence).
    intros [<-|[<-|[<-|[<-|[]]]]]; cbn -[fl_comparator f_le f_lt]; eexists; (split; [reflexivity|]); rewrite forallb_forall; split; intros H v Hv; [apply K|apply (proj1 (K _))|apply K|apply (proj1 (K _))|apply K|apply (proj1 (K _))|apply K|apply (proj1 (K _))]; apply (H v Hv).
  - intros N. unfold fl_compare_array, fl_compare, fl_entry. repeat match goal with |- context [String.eqb op ?s] => destruct (String.eqb_spec op s) as [->|]; [exfalso; apply N; cbn; tauto|] end. split; auto.
Qed.
Print Assumptions C77_array.

(** [is_integer] of a finite double has no rounding error: it is true exactly when an integer lies closer
    than 1e-10, as in exact arithmetic. *)
Theorem C77_is_integer : forall x, is_float (Fin x) ->
  fl_is_integer (Fin x) = Ok (is_integer x) /\ (is_integer x = true <-> near_integer x).
Proof.
  intros x H. destruct (is_integer_fin x H) as (b & E & B). rewrite (near_int_double x (proj1 H)) in B. destruct (is_integer_spec x) as [K|K].
  - split; [|tauto]. rewrite E. f_equal. now apply B.
  - split; [|split; [discriminate|contradiction]]. rewrite E. f_equal. destruct b; auto. exfalso. apply K. now apply B.
Qed.
Print Assumptions C77_is_integer.
(** An infinity raises OverflowError (an ArithmeticError) and nan ValueError. *)
Theorem C77_is_integer_raises_refuted : forall v, (v = PInf \/ v = NInf -> fl_is_integer v = Raise ArithmeticError) /\ (v = NaN -> fl_is_integer v = Raise ValueError).
Proof. intros v. split; [exact (is_integer_inf v)|intros ->; reflexivity]. Qed.
Print Assumptions C77_is_integer_raises_refuted.
(** Arrays: the first entry that is not close to an integer, or not finite, decides. *)
Theorem C77_is_integer_array : forall vs, (forall v, In v vs -> is_float v) ->
  ((forall v, In v vs -> exists x, v = Fin x /\ near_integer x) -> fl_is_integer_array vs = Ok true) /\
  (forall pre v post, vs = pre ++ v :: post -> (forall w, In w pre -> exists x, w = Fin x /\ near_integer x) ->
     (forall x, v = Fin x -> ~ near_integer x -> fl_is_integer_array vs = Ok false) /\
     (v = PInf \/ v = NInf -> fl_is_integer_array vs = Raise ArithmeticError) /\ (v = NaN -> fl_is_integer_array vs = Raise ValueError)).
Proof.
  intros vs Hf.
  assert (T : forall v, In v vs -> (exists x, v = Fin x /\ near_integer x) -> fl_is_integer v = Ok true).
  { intros v Hv (x & -> & N). destruct (C77_is_integer x (Hf _ Hv)) as (-> & K). f_equal. now apply K. }
  split.
  - intros H. clear Hf. induction vs as [|v vs IH]; [reflexivity|]. cbn [fl_is_integer_array]. rewrite (T v) by (try apply H; now left). cbn [bind negb]. apply IH; intros; [apply T|apply H]; auto; now right.
  - intros pre v post E Hpre. assert (P : fl_is_integer_array vs = fl_is_integer_array (v :: post)).
    { subst vs. clear Hf. induction pre as [|w pre IH]; [reflexivity|]. cbn [app fl_is_integer_array]. rewrite (T w) by (try apply Hpre; now left). cbn [bind negb]. apply IH; intros; [apply T|apply Hpre]; auto; now right. }
    rewrite P. cbn [fl_is_integer_array]. split; [|split].
    + intros x -> N. assert (F : is_float (Fin x)) by (apply Hf; subst vs; apply in_or_app; right; now left). destruct (C77_is_integer x F) as (-> & K). destruct (is_integer x); [exfalso; apply N; now apply K|reflexivity].
    + intros H. now rewrite (is_integer_inf v H).
    + intros ->. reflexivity.
Qed.
Print Assumptions C77_is_integer_array.

(** The hypotheses are met: 0.1 + 0.2 and 0.3 differ as doubles and compare as equal; 0.3 is a float;
    an overflowing difference; integers up to the largest one; nan in an array. *)
Definition lit (q : Q) : fnum := to_float (Q2Qc q).
Example C77_example :
  f_lt (lit (3 # 10)) (f_add (lit (1 # 10)) (lit (2 # 10))) = true /\
  fl_compare (f_add (lit (1 # 10)) (lit (2 # 10))) "<=" (lit (3 # 10)) = Ok true /\
  fl_compare (f_add (lit (1 # 10)) (lit (2 # 10))) ">" (lit (3 # 10)) = Ok false /\
  f_sub (Fin (- max_double)%Qc) (Fin max_double) = NInf /\
  fl_compare (Fin (- max_double)%Qc) "<" (Fin max_double) = Ok true /\
  fl_is_integer (Fin max_double) = Ok true /\ fl_is_integer (lit (1 # 3)) = Ok false /\
  fl_is_integer_array [Fin 1; lit (1 # 3); NaN] = Ok false /\ fl_is_integer_array [Fin 1; NaN; lit (1 # 3)] = Raise ValueError /\
  fl_compare_array [Fin 1; NaN] ">=" (Fin 0) = Ok false /\ fl_compare_array [Fin 1; NaN] "<" (Fin 0) = Ok false /\
  fl_compare (lit (7 # 2)) "<" PInf = Ok true.
Proof. repeat split; vm_compute; reflexivity. Qed.
Example C77_example_float : is_float (Fin (rnd (Q2Qc (3 # 10)))) /\ rnd (Q2Qc (3 # 10)) <> 0%Qc /\ is_float (Fin max_double) /\ at_most (lit (1 # 3)) PInf.
Proof.
  split; [split; [apply rnd_rounds|split; vm_compute; discriminate]|]. split; [intros E; apply (f_equal (fun z => qeq z 0)) in E; vm_compute in E; discriminate|].
  split; [split; [apply double_max|split; vm_compute; discriminate]|]. left. assert (E : lit (1 # 3) = Fin (rnd (Q2Qc (1 # 3)))) by (apply small_float; vm_compute; discriminate). rewrite E. exact I.
Qed.
