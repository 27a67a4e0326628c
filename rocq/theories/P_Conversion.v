(** * Properties of the conversion of sequences to driven controls *)

From Verif Require Import L_ConvertThms.
Import ListNotations.
Open Scope string_scope.
Open Scope list_scope.
Open Scope R_scope.

(** The sequence used in the examples: one rotation by 2 about the x axis in
    the middle of a unit interval, at Rabi rate at most 4 *)
Definition one_pulse : dds := sequence_of 1 None [Event (1 / 2) 2 0 0].
Lemma one_pulse_converts : constructible_sequence one_pulse /\
  exists c, convert_dds_to_driven_control one_pulse 4 1 0 None = Ok c /\ constructible c.
Proof.
  assert (S0 := small_pos).
  destruct (middle_pulse 1 None 2 0 0 4 1 None) as [A [_ [c E]]]; try lra.
  split; auto; exists c; split; auto.
  apply (proj1 (proj2 (conversion_acceptance _ _ _ _ _ _ None A)) c E).
Qed.
Lemma one_pulse_segments : exists c segs,
  convert_dds_to_driven_control one_pulse 4 1 0 None = Ok c /\ describes segs c.
Proof.
  destruct one_pulse_converts as [A [c [E K]]]; exists c.
  destruct (conversion_result _ _ _ _ _ _ _ _ A E) as [_ [_ [_ [D _]]]]; eauto.
Qed.

(** C46, partial.  Full statement: duration c = T always.  Missing: windows that overlap by less than the tolerance 1e-8, where it is false, see the next theorem; here the exact error *)
Theorem C46_duration_partial :
  forall T n0 l maxr maxd mn name c,
  constructible_sequence (sequence_of T n0 l) ->
  convert_dds_to_driven_control (sequence_of T n0 l) maxr maxd mn name = Ok c ->
  let o := overlap (idle_times maxr maxd mn T l) in
  ((forall g, In g (idle_times maxr maxd mn T l) -> 0 <= g) -> duration c = T) /\
  (11 / 10 / 10 ^ 8 <= mn -> duration c = T) /\
  (/ 10 ^ 8 < T -> duration c = T + o) /\
  T <= duration c <= T + INR (List.length l + 1) / 10 ^ 8.
Proof. exact conversion_duration. Qed.
Print Assumptions C46_duration_partial.

(** C46 is false: pulses that overlap by 1e-9 give a control that is longer than the sequence *)
Theorem C46_duration_refuted :
  exists s c,
  constructible_sequence s /\ convert_dds_to_driven_control s 1 1 0 None = Ok c /\ duration c <> seq_duration s.
Proof. exact conversion_duration_refuted. Qed.
Print Assumptions C46_duration_refuted.

Example C46_case : exists c, convert_dds_to_driven_control one_pulse 4 1 (1 / 8) None = Ok c /\ duration c = 1.
Proof.
  assert (S0 := small_pos); destruct one_pulse_converts as [A _].
  assert (C : convertible 4 1 (1 / 8) 1 [Event (1 / 2) 2 0 0]).
  { assert (W : pulse_width 4 1 (1 / 8) (Event (1 / 2) 2 0 0) = 1 / 2).
    { unfold pulse_width; cbn [e_rabi]; rewrite Rabs_pos_eq by lra.
      destruct (Rle_dec 2 (/ 10 ^ 8)); [lra|]; rewrite Rmax_left; lra. }
    assert (W0 : forall t, pulse_width 4 1 (1 / 8) (idle t) = 0).
    { intros t; unfold pulse_width, idle; cbn [e_rabi e_det]; rewrite Rabs_R0; destruct (Rle_dec 0 (/ 10 ^ 8)); lra. }
    unfold convertible; repeat split; try lra; try (intros e [<-|[]]; cbn; lra).
    intros g G; left; unfold idle_times, with_ends in G; cbn [e_time last] in G.
    destruct (Req_EM_T (1 / 2) 0); [lra|]; destruct (Req_EM_T (1 / 2) 1); [lra|].
    cbn [app map] in G; rewrite W, !W0 in G; unfold window, centre, idle in G; cbn [e_time gaps In] in G.
    destruct (Req_EM_T 0 0); [|lra]; destruct (Req_EM_T (1 / 2) 0); [lra|]; destruct (Req_EM_T (1 / 2) 1); [lra|].
    destruct (Req_EM_T 1 0); [lra|]; destruct (Req_EM_T 1 1); [|lra].
    destruct G as [<-|[<-|[]]]; lra. }
  destruct (proj1 (proj1 (conversion_acceptance _ _ _ _ _ _ None A)) C) as [c E]; exists c; split; auto.
  destruct (conversion_duration _ _ _ _ _ _ _ _ A E) as [_ [D _]]; apply D; lra.
Qed.

(** C47: rates within the limits, never both, and every segment lasts *)
Theorem C47_rates :
  forall T n0 l maxr maxd mn name c segs,
  constructible_sequence (sequence_of T n0 l) ->
  convert_dds_to_driven_control (sequence_of T n0 l) maxr maxd mn name = Ok c -> describes segs c ->
  forall g, In g segs ->
    0 <= g_rabi g <= maxr /\ Rabs (g_det g) <= maxd /\ (g_rabi g = 0 \/ g_det g = 0) /\ 0 < g_dur g.
Proof. exact conversion_rates. Qed.
Print Assumptions C47_rates.

Example C47_case : exists c segs, convert_dds_to_driven_control one_pulse 4 1 0 None = Ok c /\ describes segs c /\
  forall g, In g segs -> g_rabi g <= 4.
Proof.
  destruct one_pulse_segments as [c [segs [E D]]]; exists c, segs; split; [exact E|]; split; [exact D|].
  intros g I; apply (conversion_rates _ _ _ _ _ _ _ _ _ (proj1 one_pulse_converts) E D g I).
Qed.

(** C48: one active segment per non-negligible pulse, in order, with the same rotation *)
Theorem C48_pulses :
  forall T n0 l maxr maxd mn name c segs,
  constructible_sequence (sequence_of T n0 l) -> / 10 ^ 8 < T ->
  convert_dds_to_driven_control (sequence_of T n0 l) maxr maxd mn name = Ok c -> describes segs c ->
  Forall2 performs (filter effective l) (filter active segs).
Proof. exact conversion_pulses. Qed.
Print Assumptions C48_pulses.

Example C48_case : exists c segs g, convert_dds_to_driven_control one_pulse 4 1 0 None = Ok c /\ describes segs c /\
  filter active segs = [g] /\ g_rabi g * g_dur g = 2.
Proof.
  assert (S0 := small_pos); destruct one_pulse_segments as [c [segs [E D]]].
  assert (P := conversion_pulses _ _ _ _ _ _ _ _ _ (proj1 one_pulse_converts) ltac:(lra) E D).
  cbn [filter] in P; unfold effective in P; cbn [e_rabi] in P; rewrite Rabs_pos_eq in P by lra.
  destruct (Rle_dec 2 (/ 10 ^ 8)); [lra|].
  inversion P as [|x g a b Q F X1 X2]; inversion F; subst.
  exists c, segs, g; split; [exact E|]; split; [exact D|]; split; auto.
  destruct Q as [[_ [Q _]]|[Q _]]; cbn [e_rabi] in Q; auto.
  unfold negligible in Q; rewrite Rabs_pos_eq in Q by lra; lra.
Qed.

(** C49, partial.  Full statement: every pulse exactly at its centre.  Missing: windows that overlap by less than the tolerance, where it is false, see the next theorem; here with the exact bound on the delay *)
Theorem C49_timing_partial :
  forall T n0 l maxr maxd mn name c segs,
  constructible_sequence (sequence_of T n0 l) -> / 10 ^ 8 < T ->
  convert_dds_to_driven_control (sequence_of T n0 l) maxr maxd mn name = Ok c -> describes segs c ->
  let o := overlap (idle_times maxr maxd mn T l) in
  0 <= o <= INR (List.length l + 1) / 10 ^ 8 /\
  ((forall g, In g (idle_times maxr maxd mn T l) -> 0 <= g) -> o = 0) /\
  (11 / 10 / 10 ^ 8 <= mn -> o = 0) /\
  Forall2 (fun e p =>
      performs e (snd p) /\ g_dur (snd p) = pulse_width maxr maxd mn e /\
      let m := centre T (g_dur (snd p)) (e_time e) in m <= fst p <= m + o)
    (filter effective l) (filter (fun p => active (snd p)) (midpoints 0 segs)).
Proof. exact conversion_timing. Qed.
Print Assumptions C49_timing_partial.

(** C49 is false: a pulse 1e-9 later than its centre *)
Theorem C49_timing_refuted :
  exists s c segs,
  constructible_sequence s /\ convert_dds_to_driven_control s 1 1 0 None = Ok c /\ describes segs c /\
  offsets s = [0; 1] /\ seq_duration s = 1 /\
  segs = [Seg 1 0 0 (1 / 2 + / 10 ^ 9); Seg 1 0 0 (1 / 2)] /\
  map fst (midpoints 0 segs) = [centre 1 (1 / 2 + / 10 ^ 9) 0; centre 1 (1 / 2) 1 + / 10 ^ 9].
Proof. exact conversion_timing_refuted. Qed.
Print Assumptions C49_timing_refuted.

Example C49_case : exists c segs g, convert_dds_to_driven_control one_pulse 4 1 0 None = Ok c /\ describes segs c /\
  filter (fun p => active (snd p)) (midpoints 0 segs) = [(1 / 2, g)] /\ g_dur g = 1 / 2.
Proof.
  assert (S0 := small_pos); destruct one_pulse_segments as [c [segs [E D]]].
  destruct (conversion_timing _ _ _ _ _ _ _ _ _ (proj1 one_pulse_converts) ltac:(lra) E D) as [_ [O [_ P]]].
  assert (W : pulse_width 4 1 0 (Event (1 / 2) 2 0 0) = 1 / 2).
  { unfold pulse_width; cbn [e_rabi]; rewrite Rabs_pos_eq by lra.
    destruct (Rle_dec 2 (/ 10 ^ 8)); [lra|]; rewrite Rmax_left; lra. }
  assert (W0 : forall t, pulse_width 4 1 0 (idle t) = 0).
  { intros t; unfold pulse_width, idle; cbn [e_rabi e_det]; rewrite Rabs_R0; destruct (Rle_dec 0 (/ 10 ^ 8)); lra. }
  rewrite O in P.
  - cbn [filter] in P; unfold effective in P; cbn [e_rabi] in P; rewrite Rabs_pos_eq in P by lra.
    destruct (Rle_dec 2 (/ 10 ^ 8)); [lra|].
    inversion P as [|x p a b Q F X1 X2]; inversion F; subst; destruct p as [m g]; cbn [fst snd e_time] in Q.
    destruct Q as [_ [Q1 Q2]]; rewrite W in Q1.
    exists c, segs, g; split; [exact E|]; split; [exact D|]; split; auto.
    unfold centre in Q2; destruct (Req_EM_T (1 / 2) 0); [lra|]; destruct (Req_EM_T (1 / 2) 1); [lra|].
    assert (Q3 : m = 1 / 2) by lra; rewrite <- X2, Q3; reflexivity.
  - intros g G; unfold idle_times, with_ends in G; cbn [e_time last] in G.
    destruct (Req_EM_T (1 / 2) 0); [lra|]; destruct (Req_EM_T (1 / 2) 1); [lra|].
    cbn [app map] in G; rewrite W, !W0 in G; unfold window, centre, idle in G; cbn [e_time gaps In] in G.
    destruct (Req_EM_T 0 0); [|lra]; destruct (Req_EM_T (1 / 2) 0); [lra|]; destruct (Req_EM_T (1 / 2) 1); [lra|].
    destruct (Req_EM_T 1 0); [lra|]; destruct (Req_EM_T 1 1); [|lra].
    destruct G as [<-|[<-|[]]]; lra.
Qed.

(** C50: segments are long enough, pulses exactly so *)
Theorem C50_minimum :
  forall T n0 l maxr maxd mn name c segs,
  constructible_sequence (sequence_of T n0 l) ->
  convert_dds_to_driven_control (sequence_of T n0 l) maxr maxd mn name = Ok c -> describes segs c ->
  forall g, In g segs -> long_enough mn (g_dur g) /\ (active g = true -> mn <= g_dur g).
Proof. exact conversion_minimum. Qed.
Print Assumptions C50_minimum.

Example C50_case : exists c segs, convert_dds_to_driven_control one_pulse 4 1 (1 / 8) None = Ok c /\ describes segs c /\
  forall g, In g segs -> active g = true -> 1 / 8 <= g_dur g.
Proof.
  destruct C46_case as [c [E _]]; destruct one_pulse_converts as [A _].
  destruct (conversion_result _ _ _ _ _ _ _ _ A E) as [_ [_ [_ [D _]]]].
  exists c; eexists; split; auto; split; [exact D|].
  intros g I; apply (conversion_minimum _ _ _ _ _ _ _ _ _ A E D g I).
Qed.

(** C51: the conversion succeeds exactly for convertible sequences, else ArgumentsValueError; the result is a valid control *)
Theorem C51_acceptance :
  forall T n0 l maxr maxd mn name,
  constructible_sequence (sequence_of T n0 l) ->
  let r := convert_dds_to_driven_control (sequence_of T n0 l) maxr maxd mn name in
  (convertible maxr maxd mn T l <-> exists c, r = Ok c) /\
  (forall c, r = Ok c -> dc_name c = name /\ constructible c) /\
  (~ convertible maxr maxd mn T l -> argument_error r).
Proof. exact conversion_acceptance. Qed.
Print Assumptions C51_acceptance.

Example C51_case : argument_error (convert_dds_to_driven_control one_pulse 1 1 0 None).
Proof.
  assert (S0 := small_pos).
  apply (conversion_acceptance _ _ _ _ _ _ _ (proj1 one_pulse_converts)).
  intros [_ [_ [_ [_ [_ [_ G]]]]]].
  assert (W : pulse_width 1 1 0 (Event (1 / 2) 2 0 0) = 2).
  { unfold pulse_width; cbn [e_rabi]; rewrite Rabs_pos_eq by lra.
    destruct (Rle_dec 2 (/ 10 ^ 8)); [lra|]; rewrite Rmax_left; lra. }
  assert (W0 : forall t, pulse_width 1 1 0 (idle t) = 0).
  { intros t; unfold pulse_width, idle; cbn [e_rabi e_det]; rewrite Rabs_R0; destruct (Rle_dec 0 (/ 10 ^ 8)); lra. }
  unfold idle_times, with_ends in G; cbn [e_time last] in G.
  destruct (Req_EM_T (1 / 2) 0); [lra|]; destruct (Req_EM_T (1 / 2) 1); [lra|].
  cbn [app map] in G; rewrite W, !W0 in G; unfold window, centre, idle in G; cbn [e_time gaps In] in G.
  destruct (Req_EM_T 0 0); [|lra]; destruct (Req_EM_T (1 / 2) 0); [lra|]; destruct (Req_EM_T (1 / 2) 1); [lra|].
  specialize (G _ (or_introl eq_refl)); destruct G as [G|G]; [lra|].
  unfold near in G; rewrite Rabs_R0, Rabs_left in G by lra; lra.
Qed.

(** C52: without noise the control performs the product of the pulses of the sequence *)
Theorem C52_net_operation :
  forall T n0 l maxr maxd mn name c segs,
  constructible_sequence (sequence_of T n0 l) -> / 10 ^ 8 < T -> (forall e, In e l -> clean e) ->
  convert_dds_to_driven_control (sequence_of T n0 l) maxr maxd mn name = Ok c -> describes segs c ->
  evolution segs = pulse_product l.
Proof. exact conversion_net. Qed.
Print Assumptions C52_net_operation.

Example C52_case : exists c segs, convert_dds_to_driven_control one_pulse 4 1 0 None = Ok c /\ describes segs c /\
  evolution segs = pulse_product [Event (1 / 2) 2 0 0].
Proof.
  assert (S0 := small_pos); destruct one_pulse_segments as [c [segs [E D]]]; exists c, segs; split; [exact E|]; split; [exact D|].
  apply (conversion_net _ _ _ _ _ _ _ _ _ (proj1 one_pulse_converts) ltac:(lra)) with (2 := E); auto.
  intros e [<-|[]]; left; cbn; split; auto; right; unfold negligible; rewrite Rabs_pos_eq; lra.
Qed.

(** C53, partial.  Full statement: for every non-zero detuning rotation.  Missing: negative ones, for which it is false, see the next theorems *)
Theorem C53_simultaneous_partial :
  forall T n0 l maxr maxd mn name,
  constructible_sequence (sequence_of T n0 l) ->
  (exists e, In e l /\ 0 < e_rabi e /\ 0 < e_det e) ->
  argument_error (convert_dds_to_driven_control (sequence_of T n0 l) maxr maxd mn name).
Proof. exact conversion_simultaneous. Qed.
Print Assumptions C53_simultaneous_partial.

(** C53 is false: a negative detuning rotation in a pulse with a Rabi rotation is accepted and dropped *)
Theorem C53_simultaneous_refuted :
  forall T n0 r phi d maxr maxd name,
  / 10 ^ 8 < T -> / 10 ^ 8 < r -> d < 0 -> 0 < maxr -> 0 < maxd -> r / maxr <= T ->
  let s := sequence_of T n0 [Event (T / 2) r phi d] in
  constructible_sequence s /\
  exists c segs, convert_dds_to_driven_control s maxr maxd 0 name = Ok c /\ describes segs c /\
    evolution segs = rotation r phi.
Proof. exact conversion_simultaneous_refuted. Qed.
Print Assumptions C53_simultaneous_refuted.

(** C53: what happens to detuning rotations of pulses with a Rabi rotation *)
Theorem C53_ignores_detuning :
  forall T n0 l maxr maxd mn name c,
  constructible_sequence (sequence_of T n0 l) ->
  convert_dds_to_driven_control (sequence_of T n0 l) maxr maxd mn name = Ok c ->
  convert_dds_to_driven_control (sequence_of T n0 (map rabi_only l)) maxr maxd mn name = Ok c.
Proof. exact conversion_ignores_detuning. Qed.
Print Assumptions C53_ignores_detuning.

Example C53_case : argument_error (convert_dds_to_driven_control (sequence_of 1 None [Event (1 / 2) 2 0 1]) 4 1 0 None).
Proof.
  apply conversion_simultaneous.
  - apply constructible_well_formed; split; [cbn [sequence_of seq_duration]; lra|split; [|repeat split]].
    intros t [<-|[]]; cbn [e_time sequence_of seq_duration]; lra.
  - eexists; split; [left; reflexivity|]; cbn; lra.
Qed.
Example C53_case_dropped : exists c segs,
  convert_dds_to_driven_control (sequence_of 1 None [Event (1 / 2) 2 0 (-1)]) 4 1 0 None = Ok c /\
  describes segs c /\ evolution segs = rotation 2 0.
Proof.
  assert (S0 := small_pos).
  apply (conversion_simultaneous_refuted 1 None 2 0 (-1) 4 1 None); lra.
Qed.

(** C54, partial.  Full statement: for every T > 0.  Missing: T <= 1e-8, for which it is false, see the next theorem *)
Theorem C54_keeps_pulses_partial :
  forall T n0 l maxr maxd mn name c segs,
  constructible_sequence (sequence_of T n0 l) -> / 10 ^ 8 < T ->
  convert_dds_to_driven_control (sequence_of T n0 l) maxr maxd mn name = Ok c -> describes segs c ->
  (exists e, In e l /\ effective e = true) -> exists g, In g segs /\ active g = true.
Proof. exact conversion_keeps_pulses. Qed.
Print Assumptions C54_keeps_pulses_partial.

(** C54 is false: every pulse in the middle of a sequence of at most 1e-8 is dropped, and the control is idle *)
Theorem C54_keeps_pulses_refuted :
  forall T n0 r phi maxr maxd name,
  0 < T <= / 10 ^ 8 -> / 10 ^ 8 < r -> 0 < maxr -> 0 < maxd -> r / maxr <= T ->
  let s := sequence_of T n0 [Event (T / 2) r phi 0] in
  constructible_sequence s /\
  exists c, convert_dds_to_driven_control s maxr maxd 0 name = Ok c /\ describes [Seg 0 0 0 T] c.
Proof. exact conversion_keeps_pulses_refuted. Qed.
Print Assumptions C54_keeps_pulses_refuted.

Example C54_case : exists c,
  convert_dds_to_driven_control (sequence_of (/ 10 ^ 9) None [Event (/ 10 ^ 9 / 2) 2 0 0]) (4 * 10 ^ 9) 1 0 None = Ok c /\
  describes [Seg 0 0 0 (/ 10 ^ 9)] c.
Proof.
  assert (S0 := small_pos).
  apply (conversion_keeps_pulses_refuted (/ 10 ^ 9) None 2 0 (4 * 10 ^ 9) 1 None); try lra.
Qed.

(** C55: exporting a sequence is exporting its conversion *)
Theorem C55_file_export :
  forall d s f fmt ty coords maxr maxd,
  (forall c, convert_dds_to_driven_control s maxr maxd 0 (seq_name s) = Ok c ->
     dds_export_to_file d s f fmt ty coords maxr maxd = export_to_file d c f fmt ty coords) /\
  (forall x, convert_dds_to_driven_control s maxr maxd 0 (seq_name s) = Raise x ->
     dds_export_to_file d s f fmt ty coords maxr maxd = (d, Some x)).
Proof. exact sequence_file_export. Qed.
Print Assumptions C55_file_export.

(** C10 for sequences: only the target changes, and nothing on failure *)
Theorem C10_sequence_frame :
  forall d s f fmt ty coords maxr maxd d' e,
  constructible_sequence s ->
  dds_export_to_file d s f fmt ty coords maxr maxd = (d', e) ->
  same_except f d d' /\ (e <> None -> d' = d) /\ (e = None -> d' f <> None).
Proof. exact sequence_export_frame. Qed.
Print Assumptions C10_sequence_frame.

Example C55_case d : exists c, convert_dds_to_driven_control one_pulse 4 1 0 None = Ok c /\
  dds_export_to_file d one_pulse "f" "Q-CTRL expanded" "CSV" "cartesian" 4 1 = export_to_file d c "f" "Q-CTRL expanded" "CSV" "cartesian".
Proof.
  destruct one_pulse_converts as [_ [c [E _]]]; exists c; split; auto.
  apply (sequence_file_export d one_pulse); auto.
Qed.
Example C10_sequence_case d : dds_export_to_file d one_pulse "f" "Q-CTRL expanded" "CSV" "cartesian" 0 1 =
  (d, snd (dds_export_to_file d one_pulse "f" "Q-CTRL expanded" "CSV" "cartesian" 0 1)).
Proof.
  destruct (dds_export_to_file d one_pulse "f" "Q-CTRL expanded" "CSV" "cartesian" 0 1) as [d' e] eqn:E; cbn [snd].
  destruct (conversion_acceptance _ _ _ 0 1 0 None (proj1 one_pulse_converts)) as [_ [_ A]].
  destruct (sequence_export_frame _ _ _ _ _ _ _ _ _ _ (proj1 one_pulse_converts) E) as [_ [F _]].
  f_equal; apply F; intros ->; unfold dds_export_to_file in E.
  destruct A as [f [y [z X]]]; [intros [C _]; lra|].
  change (seq_name one_pulse) with (@None string) in E; fold one_pulse in X.
  rewrite X in E; discriminate.
Qed.

