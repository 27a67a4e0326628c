(** * Dynamical decoupling sequences: construction and the simple builders *)

From Verif Require Export L_Quat L_Trig L_DrivenControl Spec_DDS.
From Coq Require Import Lia.
Import ListNotations.
Open Scope string_scope.
Open Scope list_scope.
Open Scope R_scope.

(** ** The constructor *)

Definition valid_sequence (T : R) (ts r a d : list R) : Prop :=
  0 < T /\ (forall t, In t ts -> 0 <= t <= T) /\
  List.length r = List.length ts /\ List.length a = List.length ts /\
  List.length d = List.length ts.

Lemma offsets_check T ts :
  forallb (fun t => leb 0 t && leb t T) ts = true <-> (forall t, In t ts -> 0 <= t <= T).
Proof.
  rewrite forallb_forall; split; intros H t I; specialize (H t I).
  - apply andb_prop in H; destruct H as [A B]; apply leb_true in A, B; lra.
  - apply andb_true_intro; split; apply leb_true; lra.
Qed.

Lemma DDS_ok T ts r a d name :
  valid_sequence T ts r a d ->
  DynamicDecouplingSequence T ts r a d name = Ok (MkDDS T ts r a d name).
Proof.
  intros [A [B [C [D E]]]]; unfold DynamicDecouplingSequence.
  rewrite check_true by (apply ltb_true; auto); cbn [bind].
  rewrite check_true by (apply offsets_check; auto); cbn [bind].
  rewrite check_true by (apply Nat.eqb_eq; auto); cbn [bind].
  rewrite check_true by (apply Nat.eqb_eq; auto); cbn [bind].
  rewrite check_true by (apply Nat.eqb_eq; auto); cbn [bind]; reflexivity.
Qed.

Lemma DDS_raises T ts r a d name :
  ~ valid_sequence T ts r a d -> argument_error (DynamicDecouplingSequence T ts r a d name).
Proof.
  intros H; unfold DynamicDecouplingSequence, argument_error.
  destruct (ltb 0 T) eqn:A;
    [rewrite check_true by auto; cbn [bind]|rewrite check_false by auto; do 3 eexists; reflexivity].
  destruct (forallb (fun t => leb 0 t && leb t T) ts) eqn:B;
    [rewrite check_true by auto; cbn [bind]|rewrite check_false by auto; do 3 eexists; reflexivity].
  destruct (Nat.eqb (List.length r) (List.length ts)) eqn:C;
    [rewrite check_true by auto; cbn [bind]|rewrite check_false by auto; do 3 eexists; reflexivity].
  destruct (Nat.eqb (List.length a) (List.length ts)) eqn:D;
    [rewrite check_true by auto; cbn [bind]|rewrite check_false by auto; do 3 eexists; reflexivity].
  destruct (Nat.eqb (List.length d) (List.length ts)) eqn:E;
    [rewrite check_true by auto; cbn [bind]|rewrite check_false by auto; do 3 eexists; reflexivity].
  exfalso; apply H; apply ltb_true in A; apply Nat.eqb_eq in C, D, E.
  split; auto; split; [apply offsets_check|]; auto.
Qed.

(** C31 *)
Theorem sequence_construction T ts r a d name :
  ((exists s, DynamicDecouplingSequence T ts r a d name = Ok s) <->
   (0 < T /\ (forall t, In t ts -> 0 <= t <= T) /\
    List.length r = List.length ts /\ List.length a = List.length ts /\
    List.length d = List.length ts)) /\
  (forall s, DynamicDecouplingSequence T ts r a d name = Ok s ->
     seq_duration s = T /\ offsets s = ts /\ rabi_rotations s = r /\
     seq_azimuthal_angles s = a /\ detuning_rotations s = d /\ seq_name s = name) /\
  ((forall s, DynamicDecouplingSequence T ts r a d name <> Ok s) ->
   argument_error (DynamicDecouplingSequence T ts r a d name)).
Proof.
  assert (K : valid_sequence T ts r a d \/ ~ valid_sequence T ts r a d).
  { unfold valid_sequence.
    destruct (Rlt_dec 0 T), (forallb (fun t => leb 0 t && leb t T) ts) eqn:B,
      (Nat.eq_dec (List.length r) (List.length ts)), (Nat.eq_dec (List.length a) (List.length ts)),
      (Nat.eq_dec (List.length d) (List.length ts)); try tauto;
      try (left; split; [auto|split; [apply offsets_check; auto|auto]]; fail);
      right; intros [_ [X _]]; apply offsets_check in X; congruence. }
  split; [split|split].
  - intros [s E]; destruct K as [K|K]; auto.
    destruct (DDS_raises T ts r a d name K) as [m [x [y F]]]; congruence.
  - intros V; eexists; apply DDS_ok; auto.
  - intros s E; destruct K as [K|K].
    + rewrite DDS_ok in E by auto; injection E as <-; cbn; auto 10.
    + destruct (DDS_raises T ts r a d name K) as [m [x [y F]]]; congruence.
  - intros N; apply DDS_raises; intros K'; apply (N (MkDDS T ts r a d name)), DDS_ok; auto.
Qed.

Definition well_formed (s : dds) : Prop :=
  valid_sequence (seq_duration s) (offsets s) (rabi_rotations s) (seq_azimuthal_angles s)
    (detuning_rotations s).

Lemma constructible_well_formed s : constructible_sequence s <-> well_formed s.
Proof.
  split.
  - intros [T [ts [r [a [d [name E]]]]]].
    destruct (sequence_construction T ts r a d name) as [[X _] [Y _]].
    unfold well_formed; destruct (Y s E) as [-> [-> [-> [-> [-> _]]]]]; apply X; eauto.
  - intros V; destruct s as [T ts r a d name]; exists T, ts, r, a, d, name; apply DDS_ok; exact V.
Qed.

(** every sequence is [sequence_of] its events *)
Lemma sequence_events s :
  constructible_sequence s -> exists l, s = sequence_of (seq_duration s) (seq_name s) l.
Proof.
  intros H; apply constructible_well_formed in H.
  destruct s as [T ts r a d name]; destruct H as [_ [_ [A [B C]]]]; cbn in *.
  assert (X : exists l, ts = map e_time l /\ r = map e_rabi l /\ a = map e_phi l /\ d = map e_det l).
  { revert r a d A B C; induction ts as [|t ts IH]; intros [|x r] [|y a] [|z d] A B C; try discriminate.
    - exists []; auto.
    - destruct (IH r a d) as [l [-> [-> [-> ->]]]]; auto; exists (Event t x y z :: l); auto. }
  destruct X as [l [-> [-> [-> ->]]]]; exists l; reflexivity.
Qed.

(** C32 *)
Lemma dds_export_events T name l :
  dds_export (sequence_of T name l) =
  (map (fun e => (e_rabi e * cos (e_phi e), e_rabi e * sin (e_phi e), e_time e)) l,
   map (fun e => (e_det e, e_time e)) l).
Proof.
  unfold dds_export, sequence_of; cbn [rabi_rotations seq_azimuthal_angles offsets detuning_rotations].
  f_equal; induction l as [|e l IH]; cbn [map combine]; auto; rewrite IH; reflexivity.
Qed.

Lemma polar_unique r1 p1 r2 p2 :
  0 <= r1 -> 0 <= r2 -> r1 * cos p1 = r2 * cos p2 -> r1 * sin p1 = r2 * sin p2 ->
  r1 = r2 /\ (0 < r1 -> cos p1 = cos p2 /\ sin p1 = sin p2).
Proof.
  intros A B C S.
  assert (E : r1 * r1 = r2 * r2).
  { transitivity ((r1 * cos p1) * (r1 * cos p1) + (r1 * sin p1) * (r1 * sin p1)).
    - transitivity (r1 * r1 * ((sin p1)² + (cos p1)²)); [rewrite sin2_cos2; ring|unfold Rsqr; ring].
    - rewrite C, S; transitivity (r2 * r2 * ((sin p2)² + (cos p2)²)); [unfold Rsqr; ring|rewrite sin2_cos2; ring]. }
  assert (r1 = r2) by nra. subst r2; split; auto; intros P; split; nra.
Qed.

Theorem sequence_export T name l :
  dds_export (sequence_of T name l) =
  (map (fun e => (e_rabi e * cos (e_phi e), e_rabi e * sin (e_phi e), e_time e)) l,
   map (fun e => (e_det e, e_time e)) l) /\
  (forall T' name' l', (forall e, In e l -> 0 <= e_rabi e) -> (forall e, In e l' -> 0 <= e_rabi e) ->
     dds_export (sequence_of T name l) = dds_export (sequence_of T' name' l') ->
     Forall2 (fun e e' => e_time e = e_time e' /\ e_rabi e = e_rabi e' /\ e_det e = e_det e' /\
       (0 < e_rabi e -> cos (e_phi e) = cos (e_phi e') /\ sin (e_phi e) = sin (e_phi e'))) l l').
Proof.
  split; [apply dds_export_events|].
  intros T' name' l' P P'; rewrite !dds_export_events; intros E; injection E as E1 E2.
  revert l' P' E1 E2; induction l as [|e l IH]; intros [|e' l'] P' E1 E2; try discriminate; constructor.
  - cbn [map] in E1, E2; injection E1 as A B C _; injection E2 as D _ _.
    destruct (polar_unique (e_rabi e) (e_phi e) (e_rabi e') (e_phi e')) as [X Y]; auto;
      [apply P; left; auto|apply P'; left; auto].
  - cbn [map] in E1, E2; injection E1 as _ _ _ E1; injection E2 as _ _ E2.
    apply IH; auto; intros; [apply P|apply P']; right; auto.
Qed.

(** ** Pulses of the predefined sequences *)

Lemma far_from x y : / 100000000 + / 100000 * Rabs y < Rabs (x - y) -> np_isclose x y = false.
Proof. intros H; unfold np_isclose, np_isclose_tol; apply leb_false; auto. Qed.

Lemma isclose_PI_0 : np_isclose PI 0 = false.
Proof. apply far_from; generalize PI_bounds; intros; rewrite Rabs_R0, Rabs_right; lra. Qed.
Lemma isclose_0_PI : np_isclose 0 PI = false.
Proof. apply far_from; generalize PI_bounds; intros; rewrite (Rabs_right PI), Rabs_left; lra. Qed.
Lemma isclose_PI2_0 : np_isclose (PI / 2) 0 = false.
Proof. apply far_from; generalize PI_bounds; intros; rewrite Rabs_R0, Rabs_right; lra. Qed.
Lemma isclose_0_PI2 : np_isclose 0 (PI / 2) = false.
Proof. apply far_from; generalize PI_bounds; intros; rewrite (Rabs_right (PI / 2)), Rabs_left; lra. Qed.

Definition arrays_of (l : list (axis * R)) : arrays :=
  let e := map pi_pulse l in MkArrays (map e_time e) (map e_rabi e) (map e_phi e) (map e_det e).

Definition count (a : axis) (l : list (axis * R)) : nat :=
  List.length (filter (fun p => axis_eqb (fst p) a) l).

Lemma count_pulses_arrays l :
  count_pulses PI 0 0 (arrays_of l) = count AX l /\
  count_pulses PI (PI / 2) 0 (arrays_of l) = count AY l /\
  count_pulses 0 0 PI (arrays_of l) = count AZ l.
Proof.
  unfold count_pulses, count, arrays_of; cbn [a_rabi a_azimuthal a_detuning].
  induction l as [|[a t] l [IH1 [IH2 IH3]]]; [auto|].
  destruct a; cbn [map pi_pulse e_rabi e_phi e_det combine filter fst axis_eqb];
    rewrite ?isclose_refl, ?isclose_PI_0, ?isclose_0_PI, ?isclose_PI2_0, ?isclose_0_PI2;
    cbn [andb List.length]; rewrite ?IH1, ?IH2, ?IH3; auto.
Qed.

Lemma count_total l : List.length l = (count AX l + count AY l + count AZ l)%nat.
Proof.
  unfold count; induction l as [|[a t] l IH]; auto.
  destruct a; cbn [filter fst axis_eqb List.length]; lia.
Qed.
Lemma count_not_y l : List.length (filter not_y l) = (count AX l + count AZ l)%nat.
Proof.
  unfold count; induction l as [|[a t] l IH]; auto.
  destruct a; cbn [filter fst axis_eqb not_y List.length]; lia.
Qed.

Lemma parity_same x y z :
  let p := Nat.eqb ((x + y) mod 2) 0 in let q := Nat.eqb ((y + z) mod 2) 0 in
  (p && q) || (negb p && negb q) = Nat.even (x + z).
Proof.
  assert (E : forall n, Nat.eqb (n mod 2) 0 = Nat.even n).
  { intros n; destruct (Nat.Even_or_Odd n) as [[k ->]|[k ->]].
    - rewrite Nat.mul_comm, Nat.mod_mul by lia; rewrite Nat.mul_comm, Nat.even_mul; reflexivity.
    - rewrite Nat.add_comm, Nat.mul_comm, Nat.mod_add by lia.
      rewrite Nat.even_add, Nat.mul_comm, Nat.even_mul; reflexivity. }
  cbv zeta; rewrite !E, !Nat.even_add; destruct (Nat.even x), (Nat.even y), (Nat.even z); reflexivity.
Qed.

Lemma add_pre_post_arrays T l :
  add_pre_post_rotations T (arrays_of l) =
  (let e := with_pre_post true T l in
   Ok (MkArrays (map e_time e) (map e_rabi e) (map e_phi e) (map e_det e))).
Proof.
  unfold add_pre_post_rotations; cbv zeta.
  destruct (count_pulses_arrays l) as [-> [-> ->]].
  rewrite check_true.
  2:{ apply Nat.eqb_eq; unfold arrays_of; cbn [a_offsets]; rewrite !map_length; apply count_total. }
  cbn [bind]; rewrite parity_same, <- count_not_y.
  unfold with_pre_post, closing_angle, arrays_of, np_insert_ends; cbn [a_offsets a_rabi a_azimuthal a_detuning].
  cbn [map e_time e_rabi e_phi e_det]; rewrite !map_app; cbn [map e_time e_rabi e_phi e_det]; reflexivity.
Qed.

Lemma finish_ok T l pre name :
  0 < T -> (forall p, In p l -> 0 <= snd p <= T) ->
  finish T (arrays_of l) pre name = Ok (sequence_of T name (with_pre_post pre T l)).
Proof.
  intros HT H; unfold finish.
  assert (M : forall e, In e (map pi_pulse l) -> 0 <= e_time e <= T).
  { intros e I; apply in_map_iff in I; destruct I as [[a t] [<- I]]; apply H in I; destruct a; exact I. }
  destruct pre.
  - rewrite add_pre_post_arrays; cbn [bind a_offsets a_rabi a_azimuthal a_detuning].
    rewrite DDS_ok; [reflexivity|].
    unfold valid_sequence; rewrite !map_length; split; auto; split; auto.
    intros t I; apply in_map_iff in I; destruct I as [e [<- I]].
    cbn [with_pre_post] in I; destruct I as [<-|I]; [cbn; lra|].
    apply in_app_or in I; destruct I as [I|[<-|[]]]; [auto|cbn; lra].
  - cbn [bind arrays_of a_offsets a_rabi a_azimuthal a_detuning].
    rewrite DDS_ok; [reflexivity|].
    unfold valid_sequence; rewrite !map_length; split; auto; split; auto.
    intros t I; apply in_map_iff in I; destruct I as [e [<- I]]; auto.
Qed.

Lemma map_const_repeat {A B} (f : A -> B) k l : (forall x, In x l -> f x = k) -> map f l = repeat k (List.length l).
Proof.
  induction l; simpl; intros H; [auto|rewrite IHl, (H a); auto].
Qed.

Lemma uniform_arrays_of (a : axis) ts :
  uniform_arrays ts (e_rabi (pi_pulse (a, 0))) (e_phi (pi_pulse (a, 0))) (e_det (pi_pulse (a, 0))) =
  arrays_of (map (fun t => (a, t)) ts).
Proof.
  unfold uniform_arrays, arrays_of, np_full; rewrite !map_map; f_equal.
  - rewrite <- (map_id ts) at 1; apply map_ext; intros; destruct a; reflexivity.
  - symmetry; apply map_const_repeat; intros; destruct a; reflexivity.
  - symmetry; apply map_const_repeat; intros; destruct a; reflexivity.
  - symmetry; apply map_const_repeat; intros; destruct a; reflexivity.
Qed.

Lemma uniform_finish (a : axis) T ts pre name :
  0 < T -> (forall t, In t ts -> 0 <= t <= T) ->
  finish T (uniform_arrays ts (e_rabi (pi_pulse (a, 0))) (e_phi (pi_pulse (a, 0))) (e_det (pi_pulse (a, 0)))) pre name =
  Ok (sequence_of T name (with_pre_post pre T (map (fun t => (a, t)) ts))).
Proof.
  intros HT H; rewrite uniform_arrays_of; apply finish_ok; auto.
  intros p I; apply in_map_iff in I; destruct I as [t [<- I]]; cbn; auto.
Qed.

Lemma check_duration_ok T : 0 < T -> check_duration T = Ok tt.
Proof. intros; apply check_true, ltb_true; auto. Qed.
Lemma check_duration_bad T : ~ 0 < T -> argument_error (check_duration T).
Proof. intros H; unfold check_duration; rewrite check_false; [do 3 eexists; reflexivity|apply ltb_false; lra]. Qed.

Lemma int_count_truncates x n : truncates_to x n -> int_count x = n.
Proof. apply py_int_nat. Qed.

(** builders with a duration and a count *)
Definition count_inputs (T x : R) : Prop := 0 < T /\ 1 <= x.

Lemma count_builder T x (f : nat -> result dds) n :
  0 < T -> truncates_to x n -> (1 <= n)%nat ->
  (do* check_duration T in do* check_offset_count x in f (int_count x)) = f n.
Proof.
  intros HT HX HN; rewrite check_duration_ok by auto; cbn [bind].
  unfold check_offset_count; rewrite check_true.
  - cbn [bind]; rewrite (int_count_truncates x n HX); auto.
  - apply leb_true; destruct HX as [A _]; apply le_INR in HN; simpl in HN; lra.
Qed.
Lemma count_builder_bad T x (f : nat -> result dds) :
  ~ (0 < T /\ 1 <= x) ->
  argument_error (do* check_duration T in do* check_offset_count x in f (int_count x)).
Proof.
  intros H; destruct (Rlt_dec 0 T).
  - rewrite check_duration_ok by auto; cbn [bind]; unfold check_offset_count; rewrite check_false.
    + do 3 eexists; reflexivity.
    + apply leb_false; lra.
  - destruct (check_duration_bad T n) as [s [a [b ->]]]; do 3 eexists; reflexivity.
Qed.

(** ** C33 *)

Theorem ramsey_timing T pre name :
  (0 < T -> new_ramsey_sequence T pre name = Ok (sequence_of T name (with_pre_post pre T []))) /\
  (~ 0 < T -> argument_error (new_ramsey_sequence T pre name)).
Proof.
  split; intros H; unfold new_ramsey_sequence.
  - rewrite check_duration_ok by auto; cbn [bind]; destruct pre.
    + cbn [map]; replace (T * 0) with 0 by ring; replace (T * 1) with T by ring.
      rewrite DDS_ok; [reflexivity|].
      unfold valid_sequence, np_zeros, np_full; cbn; split; auto; split; auto; intros t [<-|[<-|[]]]; lra.
    + rewrite DDS_ok; [reflexivity|]; unfold valid_sequence; cbn; split; auto; split; auto; intros t [].
  - destruct (check_duration_bad T H) as [s [a [b ->]]]; do 3 eexists; reflexivity.
Qed.

Theorem spin_echo_timing T pre name :
  (0 < T -> new_spin_echo_sequence T pre name =
            Ok (sequence_of T name (with_pre_post pre T [(AX, T / 2)]))) /\
  (~ 0 < T -> argument_error (new_spin_echo_sequence T pre name)).
Proof.
  split; intros H; unfold new_spin_echo_sequence.
  - rewrite check_duration_ok by auto; cbn [bind].
    apply (uniform_finish AX T [T / 2]); auto; intros t [<-|[]]; lra.
  - destruct (check_duration_bad T H) as [s [a [b ->]]]; do 3 eexists; reflexivity.
Qed.

(** ** C34 *)

Definition cpmg_times (T : R) (n : nat) : list R :=
  map (fun i => T / INR n * (INR i - 1 / 2)) (seq 1 n).

Lemma seq_1_range {A} (f g : nat -> A) n :
  (forall i, f i = g (S i)) -> map f (range 0 n) = map g (seq 1 n).
Proof. intros H; unfold range; rewrite <- seq_shift, map_map; apply map_ext; auto. Qed.

Lemma cpmg_model T n : (1 <= n)%nat -> carr_purcell_meiboom_gill_offsets T n = cpmg_times T n.
Proof.
  intros H; unfold carr_purcell_meiboom_gill_offsets, cpmg_times; cbv zeta; apply seq_1_range.
  intros i; rewrite S_INR; field; apply not_0_INR; lia.
Qed.

Lemma cpmg_within T n t : 0 < T -> In t (cpmg_times T n) -> 0 < t < T.
Proof.
  intros HT H; apply in_map_iff in H; destruct H as [i [<- I]]; apply in_seq in I.
  assert (A : 1 <= INR i) by (apply (le_INR 1); lia).
  assert (B : INR i <= INR n) by (apply le_INR; lia).
  assert (Q : T / INR n * INR n = T) by (field; lra).
  assert (0 < T / INR n) by (apply Rdiv_lt_0_compat; lra). nra.
Qed.

Theorem carr_purcell_timing T x n pre name :
  0 < T -> truncates_to x n -> (1 <= n)%nat ->
  new_carr_purcell_sequence T x pre name = Ok (sequence_of T name (with_pre_post pre T
    (map (fun i => (AX, T / INR n * (INR i - 1 / 2))) (seq 1 n)))).
Proof.
  intros HT HX HN; unfold new_carr_purcell_sequence.
  rewrite (count_builder T x (fun k => finish T (uniform_arrays (carr_purcell_meiboom_gill_offsets T k) PI 0 0) pre name) n)
    by auto.
  rewrite cpmg_model by auto; rewrite (uniform_finish AX); auto.
  - unfold cpmg_times; rewrite map_map; reflexivity.
  - intros t I; apply cpmg_within in I; auto; lra.
Qed.

Theorem cpmg_timing T x n pre name :
  0 < T -> truncates_to x n -> (1 <= n)%nat ->
  new_cpmg_sequence T x pre name = Ok (sequence_of T name (with_pre_post pre T
    (map (fun i => (AY, T / INR n * (INR i - 1 / 2))) (seq 1 n)))).
Proof.
  intros HT HX HN; unfold new_cpmg_sequence.
  rewrite (count_builder T x (fun k => finish T (uniform_arrays (carr_purcell_meiboom_gill_offsets T k) PI (PI / 2) 0) pre name) n)
    by auto.
  rewrite cpmg_model by auto; rewrite (uniform_finish AY); auto.
  - unfold cpmg_times; rewrite map_map; reflexivity.
  - intros t I; apply cpmg_within in I; auto; lra.
Qed.

(** ** C35 *)

Definition uhrig_times (T : R) (n : nat) : list R := map (uhrig_time T n) (seq 1 n).

Lemma uhrig_model T n : uhrig_single_axis_offsets T n = uhrig_times T n.
Proof.
  unfold uhrig_single_axis_offsets, uhrig_times, range; cbv zeta; apply map_ext; intros k.
  unfold uhrig_time; do 3 f_equal; field; generalize (pos_INR n); lra.
Qed.

Lemma uhrig_angle n i : (i <= n + 1)%nat -> 0 <= INR i * PI / (2 * (INR n + 1)) <= PI / 2.
Proof.
  intros H; apply le_INR in H; rewrite plus_INR in H; simpl in H.
  assert (N := pos_INR n); assert (I := pos_INR i); assert (P := PI_RGT_0).
  replace (INR i * PI / (2 * (INR n + 1))) with (INR i / (INR n + 1) * (PI / 2)) by (field; lra).
  assert (0 <= INR i / (INR n + 1)) by (apply Rle_mult_inv_pos; lra).
  assert (INR i / (INR n + 1) <= 1).
  { apply (Rmult_le_reg_r (INR n + 1)); [lra|]. unfold Rdiv; rewrite Rmult_assoc, Rinv_l; lra. }
  nra.
Qed.

Lemma uhrig_increasing T n i j :
  0 < T -> (i < j)%nat -> (j <= n + 1)%nat -> uhrig_time T n i < uhrig_time T n j.
Proof.
  intros HT H HJ; unfold uhrig_time; apply Rmult_lt_compat_l; auto.
  assert (A := uhrig_angle n i ltac:(lia)); assert (B := uhrig_angle n j HJ).
  assert (N := pos_INR n); assert (P := PI_RGT_0).
  assert (L : INR i * PI / (2 * (INR n + 1)) < INR j * PI / (2 * (INR n + 1))).
  { apply lt_INR in H; unfold Rdiv; apply Rmult_lt_compat_r; [apply Rinv_0_lt_compat; lra|].
    apply Rmult_lt_compat_r; auto. }
  assert (S : sin (INR i * PI / (2 * (INR n + 1))) < sin (INR j * PI / (2 * (INR n + 1))))
    by (apply sin_increasing_1; lra).
  assert (S0 : 0 <= sin (INR i * PI / (2 * (INR n + 1)))) by (apply sin_ge_0; lra).
  nra.
Qed.
Lemma uhrig_time_0 T n : uhrig_time T n 0 = 0.
Proof. unfold uhrig_time; cbn [INR]; replace (0 * PI / (2 * (INR n + 1))) with 0 by (field; generalize (pos_INR n); lra).
  rewrite sin_0; ring. Qed.
Lemma uhrig_time_end T n : uhrig_time T n (n + 1) = T.
Proof.
  unfold uhrig_time; rewrite plus_INR; cbn [INR].
  replace ((INR n + 1) * PI / (2 * (INR n + 1))) with (PI / 2) by (field; generalize (pos_INR n); lra).
  rewrite sin_PI2; ring.
Qed.
Lemma uhrig_within T n i : 0 < T -> (1 <= i <= n)%nat -> 0 < uhrig_time T n i < T.
Proof.
  intros HT H; rewrite <- (uhrig_time_0 T n) at 1; rewrite <- (uhrig_time_end T n) at 4.
  split; apply uhrig_increasing; auto; lia.
Qed.

Theorem uhrig_timing T x n pre name :
  0 < T -> truncates_to x n -> (1 <= n)%nat ->
  new_uhrig_sequence T x pre name = Ok (sequence_of T name (with_pre_post pre T
    (map (fun i => (AY, T * sin (INR i * PI / (2 * (INR n + 1))) ^ 2)) (seq 1 n)))).
Proof.
  intros HT HX HN; unfold new_uhrig_sequence.
  rewrite (count_builder T x (fun k => finish T (uniform_arrays (uhrig_single_axis_offsets T k) PI (PI / 2) 0) pre name) n)
    by auto.
  rewrite uhrig_model; rewrite (uniform_finish AY); auto.
  - unfold uhrig_times; rewrite map_map; reflexivity.
  - intros t I; apply in_map_iff in I; destruct I as [i [<- I]]; apply in_seq in I.
    generalize (uhrig_within T n i HT); intros W; specialize (W ltac:(lia)); lra.
Qed.

(** ** C36 *)

Theorem periodic_timing T x n pre name :
  0 < T -> truncates_to x n -> (1 <= n)%nat ->
  new_periodic_sequence T x pre name = Ok (sequence_of T name (with_pre_post pre T
    (map (fun i => (AX, INR i * T / (INR n + 1))) (seq 1 n)))).
Proof.
  intros HT HX HN; unfold new_periodic_sequence.
  rewrite (count_builder T x (fun k => finish T (uniform_arrays (periodic_offsets T k) PI 0 0) pre name) n)
    by auto.
  assert (N := pos_INR n).
  assert (E : periodic_offsets T n = map (fun i => INR i * T / (INR n + 1)) (seq 1 n)).
  { unfold periodic_offsets, range; cbv zeta; apply map_ext; intros k; field; lra. }
  rewrite E, (uniform_finish AX); auto.
  - rewrite map_map; reflexivity.
  - intros t I; apply in_map_iff in I; destruct I as [i [<- I]]; apply in_seq in I.
    assert (A : 1 <= INR i) by (apply (le_INR 1); lia).
    assert (B : INR i <= INR n) by (apply le_INR; lia).
    assert (Q : INR i * T / (INR n + 1) * (INR n + 1) = INR i * T) by (field; lra).
    split; [apply Rle_mult_inv_pos; nra|nra].
Qed.

Theorem count_rejections T x pre name :
  ~ (0 < T /\ 1 <= x) ->
  argument_error (new_carr_purcell_sequence T x pre name) /\
  argument_error (new_cpmg_sequence T x pre name) /\
  argument_error (new_uhrig_sequence T x pre name) /\
  argument_error (new_periodic_sequence T x pre name).
Proof.
  intros H; split; [|split; [|split]].
  - apply (count_builder_bad T x (fun k => finish T (uniform_arrays (carr_purcell_meiboom_gill_offsets T k) PI 0 0) pre name) H).
  - apply (count_builder_bad T x (fun k => finish T (uniform_arrays (carr_purcell_meiboom_gill_offsets T k) PI (PI / 2) 0) pre name) H).
  - apply (count_builder_bad T x (fun k => finish T (uniform_arrays (uhrig_single_axis_offsets T k) PI (PI / 2) 0) pre name) H).
  - apply (count_builder_bad T x (fun k => finish T (uniform_arrays (periodic_offsets T k) PI 0 0) pre name) H).
Qed.
