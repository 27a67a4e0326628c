(** * Properties of the conversion in floating point *)

From Coq Require Import ZArith Lia.
From Flocq Require Import Core.
From Verif Require Import L_FloatLimits.
Import ListNotations.
Open Scope string_scope.
Open Scope list_scope.
Open Scope R_scope.

(** C73: the conversion in binary64 arithmetic yields the segments of the exact conversion up to rounding *)
Theorem C73_float_conversion :
  forall T n0 l maxr maxd mn name,
  constructible_sequence (sequence_of T n0 l) -> laboratory_duration T ->
  (forall e, In e l -> definite (e_rabi e) /\ definite (e_det e)) ->
  convertible maxr maxd mn T l -> resolved maxr maxd mn T l ->
  exists c c0 segs segs0,
    fl_convert binary64 (sequence_of T n0 l) maxr maxd mn name = Ok c /\
    convert_dds_to_driven_control (sequence_of T n0 l) maxr maxd mn name = Ok c0 /\
    describes segs c /\ describes segs0 c0 /\ dc_name c = name /\ dc_name c0 = name /\
    Forall2 (rounded_segment T) segs segs0.
Proof. exact float_conversion. Qed.
Print Assumptions C73_float_conversion.

(** C73: without rounding the conversion in floating point is the exact one *)
Theorem C73_unrounded :
  forall s maxr maxd mn name,
  fl_convert (fun x => x) s maxr maxd mn name = convert_dds_to_driven_control s maxr maxd mn name.
Proof. exact fl_convert_unrounded. Qed.
Print Assumptions C73_unrounded.

(** C73: rounding changes the evolution of the control, with any noise, by a bounded amount *)
Theorem C73_float_evolution :
  forall T n0 l maxr maxd mn name c segs eps delta,
  constructible_sequence (sequence_of T n0 l) -> laboratory_duration T ->
  (forall e, In e l -> definite (e_rabi e) /\ definite (e_det e)) ->
  convertible maxr maxd mn T l -> resolved maxr maxd mn T l ->
  fl_convert binary64 (sequence_of T n0 l) maxr maxd mn name = Ok c -> describes segs c ->
  exists c0 segs0, convert_dds_to_driven_control (sequence_of T n0 l) maxr maxd mn name = Ok c0 /\ describes segs0 c0 /\
    close_to (rounding_cost eps delta T l) (noisy_evolution eps delta segs) (noisy_evolution eps delta segs0).
Proof. exact float_evolution_exact. Qed.
Print Assumptions C73_float_evolution.

(** a pi pulse in the middle of 1 time unit; its duration pi/8 is not a binary64 number *)
Definition middle_pulse : list event := [Event (1 / 2) PI 0 0].
Lemma middle_facts :
  constructible_sequence (sequence_of 1 None middle_pulse) /\ laboratory_duration 1 /\
  (forall e, In e middle_pulse -> definite (e_rabi e) /\ definite (e_det e)) /\
  convertible 8 8 0 1 middle_pulse /\ resolved 8 8 0 1 middle_pulse /\
  (forall e, In e middle_pulse -> pulse_width 8 8 0 e = PI / 8 /\ effective e = true).
Proof.
  assert (P := PI2_3_2); assert (P4 := PI_4); assert (S8 : / 10 ^ 8 = / 100000000) by (f_equal; ring).
  assert (P40 : 2 ^ 40 = 1099511627776) by ring.
  assert (EF : effective (Event (1 / 2) PI 0 0) = true).
  { unfold effective; cbn [e_rabi]; rewrite Rabs_pos_eq, S8 by lra; destruct (Rle_dec PI (/ 100000000)); [lra|auto]. }
  assert (W : pulse_width 8 8 0 (Event (1 / 2) PI 0 0) = PI / 8).
  { unfold pulse_width; cbn [e_rabi]; rewrite Rabs_pos_eq, S8 by lra; destruct (Rle_dec PI (/ 100000000)); [lra|]; apply Rmax_left; lra. }
  assert (Z : forall t, pulse_width 8 8 0 (idle t) = 0).
  { intros t; unfold pulse_width, idle; cbn [e_rabi e_det]; rewrite Rabs_R0, S8; destruct (Rle_dec 0 (/ 100000000)); [auto|lra]. }
  assert (G : forall g, In g (idle_times 8 8 0 1 middle_pulse) -> / 4 <= g).
  { unfold idle_times, with_ends, middle_pulse; cbn [last e_time idle app].
    destruct (Req_EM_T (1 / 2) 0); [lra|]; destruct (Req_EM_T (1 / 2) 1); [lra|].
    cbn [app map]; rewrite !Z, W; unfold window, centre; cbn [e_time idle].
    destruct (Req_EM_T 0 0); [|lra]; destruct (Req_EM_T (1 / 2) 0); [lra|]; destruct (Req_EM_T (1 / 2) 1); [lra|].
    destruct (Req_EM_T 1 0); [lra|]; destruct (Req_EM_T 1 1); [|lra].
    cbn [gaps fst snd]; intros g [<-|[<-|[]]]; lra. }
  split; [|split; [|split; [|split; [|split]]]].
  - apply constructible_well_formed; unfold well_formed, valid_sequence; cbn; split; [lra|split; [|auto]]; intros t [<-|[]]; lra.
  - unfold laboratory_duration, Rdiv; rewrite S8; replace (2 ^ 20) with 1048576 by ring; lra.
  - intros e [<-|[]]; cbn [e_rabi e_det]; split; [right; unfold Rdiv; rewrite S8, Rabs_pos_eq; lra|left; auto].
  - repeat split; try lra; try (intros e [<-|[]]; cbn [e_rabi e_det]; lra).
    intros g I; apply G in I; left; lra.
  - split; [intros e [<-|[]] _; rewrite W, P40; lra|intros g I; apply G in I; rewrite P40; lra].
  - intros e [<-|[]]; auto.
Qed.

Example C73_case : exists c segs g, fl_convert binary64 (sequence_of 1 None middle_pulse) 8 8 0 None = Ok c /\
  describes segs c /\ filter active segs = [g] /\ Rabs (g_rabi g * g_dur g - PI) <= PI / 2 ^ 53 /\
  forall eps delta, exists c0 segs0, convert_dds_to_driven_control (sequence_of 1 None middle_pulse) 8 8 0 None = Ok c0 /\
    describes segs0 c0 /\
    close_to ((1 + Rabs eps) * PI / 2 ^ 54 + Rabs delta * 3 / 2 ^ 48) (noisy_evolution eps delta segs) (noisy_evolution eps delta segs0).
Proof.
  destruct middle_facts as [CS [HL [DF [C [RS WE]]]]]; assert (P := PI_RGT_0).
  destruct (float_conversion 1 None middle_pulse 8 8 0 None CS HL DF C RS) as [c [c0 [segs [segs0 [E [E0 [D [D0 _]]]]]]]].
  assert (Q := float_pulses 1 None middle_pulse 8 8 0 None c segs CS HL DF C RS E D).
  destruct (WE (Event (1 / 2) PI 0 0) (or_introl eq_refl)) as [_ EF].
  unfold middle_pulse in Q; cbn [filter] in Q; rewrite EF in Q.
  inversion Q as [|x g a b PR F X1 X2]; inversion F; subst.
  exists c, segs, g; split; [exact E|split; [exact D|split; [auto|split]]].
  - destruct PR as [[_ [H _]]|[H _]]; [exact H|exfalso].
    unfold negligible in H; cbn [e_rabi] in H; rewrite Rabs_pos_eq in H by lra; assert (P' := PI2_3_2); assert (S8 : / 10 ^ 8 = / 100000000) by (f_equal; ring); lra.
  - intros eps delta.
    destruct (float_evolution_exact 1 None middle_pulse 8 8 0 None c segs eps delta CS HL DF C RS E D) as [c1 [segs1 [E1 [D1 K]]]].
    exists c1, segs1; split; [exact E1|split; [exact D1|]]; eapply close_mono; [|exact K].
    unfold rounding_cost, middle_pulse; cbn [map total e_rabi e_det List.length INR]; rewrite Rabs_R0.
    assert (T1 : Rabs (1 + eps) * (PI + 0) + (0 + 0) <= (1 + Rabs eps) * PI).
    { rewrite !Rplus_0_r; apply Rmult_le_compat_r; [lra|]; eapply Rle_trans; [apply Rabs_triang|rewrite Rabs_R1; lra]. }
    apply Rplus_le_compat; [unfold Rdiv; apply Rmult_le_compat_r; [left; apply inv_pow_pos|exact T1]|right; field].
Qed.

(** C74, partial.  Full statement: in binary64 arithmetic the rates of a converted sequence do not exceed the maximum rates.  Missing: the excess is only bounded by the relative resolution of the shortest pulse, which is unavoidable, see the next theorem *)
Theorem C74_float_rates_partial :
  forall T n0 l maxr maxd mn name c segs v,
  constructible_sequence (sequence_of T n0 l) -> laboratory_duration T ->
  (forall e, In e l -> definite (e_rabi e) /\ definite (e_det e)) ->
  convertible maxr maxd mn T l -> resolved maxr maxd mn T l ->
  fl_convert binary64 (sequence_of T n0 l) maxr maxd mn name = Ok c -> describes segs c ->
  0 < v -> (forall e, In e l -> effective e = true -> v <= pulse_width maxr maxd mn e) ->
  forall g, In g segs ->
    0 <= g_rabi g <= maxr * (1 + T / v / 2 ^ 48) /\ Rabs (g_det g) <= maxd * (1 + T / v / 2 ^ 48).
Proof. exact float_rates. Qed.
Print Assumptions C74_float_rates_partial.

(** C74 is false: the rate exceeds the maximum by half for a pulse that is as short as the resolution of its time *)
Theorem C74_float_rates_refuted :
  ~ forall T n0 l maxr maxd mn name c segs,
    constructible_sequence (sequence_of T n0 l) -> laboratory_duration T ->
    fl_convert binary64 (sequence_of T n0 l) maxr maxd mn name = Ok c -> describes segs c ->
    forall g, In g segs -> g_rabi g < 15 / 10 * maxr.
Proof.
  intros H; destruct float_rate_exceeded as [c [g [segs [CS [HL [E [D [I R]]]]]]]].
  assert (K := H 4 None [steep] (2 ^ 53) 1 0 None c segs CS HL E D g I); rewrite R in K; lra.
Qed.
Print Assumptions C74_float_rates_refuted.

Example C74_case : exists c segs, fl_convert binary64 (sequence_of 1 None middle_pulse) 8 8 0 None = Ok c /\
  describes segs c /\ forall g, In g segs -> g_rabi g <= 8 + / 2 ^ 43.
Proof.
  destruct middle_facts as [CS [HL [DF [C [RS WE]]]]]; assert (P := PI2_3_2).
  destruct (float_conversion 1 None middle_pulse 8 8 0 None CS HL DF C RS) as [c [c0 [segs [segs0 [E [E0 [D [D0 _]]]]]]]].
  exists c, segs; split; [exact E|split; [exact D|]]; intros g I.
  destruct (float_rates 1 None middle_pulse 8 8 0 None c segs (/ 4) CS HL DF C RS E D ltac:(lra)) with (g := g) as [[_ B] _]; auto.
  - intros e J _; rewrite (proj1 (WE e J)); lra.
  - eapply Rle_trans; [exact B|]; right; field.
Qed.

(** C75, partial.  Full statement: in binary64 arithmetic every pulse of a sequence is performed by the converted control.  Missing: pulses or idle times below 2^-40 of the duration; below the resolution of floats it is false, see the next theorem *)
Theorem C75_float_pulses_partial :
  forall T n0 l maxr maxd mn name c segs,
  constructible_sequence (sequence_of T n0 l) -> laboratory_duration T ->
  (forall e, In e l -> definite (e_rabi e) /\ definite (e_det e)) ->
  convertible maxr maxd mn T l -> resolved maxr maxd mn T l ->
  fl_convert binary64 (sequence_of T n0 l) maxr maxd mn name = Ok c -> describes segs c ->
  Forall2 performs_rounded (filter effective l) (filter active segs).
Proof. exact float_pulses. Qed.
Print Assumptions C75_float_pulses_partial.

(** C75 is false: in every sequence, pulses that are fast enough are all lost, and the control is idle *)
Theorem C75_float_pulses_refuted :
  forall maxr maxd T, laboratory_duration T -> binary64_format T -> 0 < maxr -> 0 < maxd ->
  forall n0 l name,
  (forall e, In e l -> absorbed maxr maxd e /\ e_time e <= T /\ 0 <= e_rabi e /\ ~ (0 < e_rabi e /\ 0 < e_det e)) ->
  strictly_increasing (map e_time l) ->
  exists c segs, fl_convert binary64 (sequence_of T n0 l) maxr maxd 0 name = Ok c /\ describes segs c /\
    forall g, In g segs -> g_rabi g = 0 /\ g_det g = 0.
Proof. exact float_vanishing. Qed.
Print Assumptions C75_float_pulses_refuted.

(** a pi pulse at 2 with a maximum Rabi rate of 10^18 *)
Example C75_case : exists c segs, fl_convert binary64 (sequence_of 4 None [Event 2 PI 0 0]) (10 ^ 18) 1 0 None = Ok c /\
  describes segs c /\ forall g, In g segs -> g_rabi g = 0 /\ g_det g = 0.
Proof.
  assert (P := PI_4); assert (P0 := PI_RGT_0).
  apply float_vanishing.
  - unfold laboratory_duration; replace (10 ^ 8) with 100000000 by ring; replace (2 ^ 20) with 1048576 by ring; lra.
  - replace 4 with (IZR 4 * bpow radix2 0) by (cbn [bpow]; ring); apply format_pow; lia.
  - apply pow_lt; lra.
  - lra.
  - intros e [<-|[]]; unfold absorbed; cbn [e_time e_rabi e_det]; rewrite Rabs_R0; split; [|lra].
    split; [|split; [|split]].
    + replace 2 with (IZR 2 * bpow radix2 0) by (cbn [bpow]; ring); apply format_pow; lia.
    + assert (Q := inv_pow_le 0 100 ltac:(lia)); rewrite pow_O, Rinv_1 in Q; lra.
    + replace (10 ^ 18) with 1000000000000000000 by ring; replace (2 ^ 56) with 72057594037927936 by ring; lra.
    + unfold Rdiv; rewrite Rmult_0_l; apply Rmult_le_pos; [lra|left; apply inv_pow_pos].
  - cbn; auto.
Qed.

(** C76: a predefined sequence that is built and converted in binary64 arithmetic performs the evolution of the exact ideal sequence, up to its finite pulses, the noise and rounding *)
Theorem C76_float_pipeline :
  forall fsin fsquare, accurate_sine fsin -> accurate_square fsquare ->
  forall r T pre name maxr maxd mn name',
  binary64_format T -> laboratory_duration T -> valid_request r -> moderate r -> separated r true ->
  pipeline_rates r T maxr maxd mn ->
  exists s c segs l0,
    fl_build_sequence binary64 fsin fsquare float_pi r T pre name = Ok s /\
    fl_convert binary64 (stored_angles s) maxr maxd mn name' = Ok c /\ describes segs c /\
    build_sequence r T pre name = Ok (sequence_of T name l0) /\
    forall eps delta,
      close_to (pipeline_error eps delta T (longest_pulse maxr maxd mn) (accuracy r) (INR (List.length l0)))
        (noisy_evolution eps delta segs) (dephased_evolution (fun t => delta * t) T l0).
Proof. exact float_pipeline. Qed.
Print Assumptions C76_float_pipeline.

(** C76: if the exact sequence cancels a constant detuning, the control performs the product of the pulses *)
Theorem C76_float_decoupling :
  forall fsin fsquare, accurate_sine fsin -> accurate_square fsquare ->
  forall r T pre name maxr maxd mn name',
  binary64_format T -> laboratory_duration T -> valid_request r -> moderate r -> separated r true ->
  pipeline_rates r T maxr maxd mn ->
  (forall s0, build_sequence r T pre name = Ok s0 -> refocuses s0) ->
  exists s c segs l0,
    fl_build_sequence binary64 fsin fsquare float_pi r T pre name = Ok s /\
    fl_convert binary64 (stored_angles s) maxr maxd mn name' = Ok c /\ describes segs c /\
    build_sequence r T pre name = Ok (sequence_of T name l0) /\
    forall eps delta,
      close_to (pipeline_error eps delta T (longest_pulse maxr maxd mn) (accuracy r) (INR (List.length l0)))
        (noisy_evolution eps delta segs) (pulse_product l0).
Proof. exact float_decoupling. Qed.
Print Assumptions C76_float_decoupling.

(** C76: a rounded sequence with [np.pi] for pi consists of binary64 numbers *)
Theorem C76_stored_format :
  forall fsin fsquare, accurate_sine fsin -> accurate_square fsquare ->
  forall r T pre name s, ordinary_duration T -> valid_request r -> moderate r ->
  fl_build_sequence binary64 fsin fsquare float_pi r T pre name = Ok s ->
  let s' := stored_angles s in
  forall x, x = seq_duration s' \/ In x (offsets s') \/ In x (rabi_rotations s') \/ In x (seq_azimuthal_angles s') \/ In x (detuning_rotations s') ->
  binary64_format x.
Proof. exact stored_format. Qed.
Print Assumptions C76_stored_format.

(** the converted sequence *)
Theorem C76_sequence_float_pulses :
  forall T n0 l maxr maxd mn name c segs eps delta,
  constructible_sequence (sequence_of T n0 l) -> laboratory_duration T ->
  (forall e, In e l -> clean e /\ definite (e_rabi e) /\ definite (e_det e)) ->
  convertible maxr maxd mn T l -> resolved maxr maxd mn T l ->
  fl_convert binary64 (sequence_of T n0 l) maxr maxd mn name = Ok c -> describes segs c ->
  close_to (Rabs delta * total (map (pulse_width maxr maxd mn) l) + Rabs eps * total (map e_rabi l) / 2 + rounding_cost eps delta T l)
    (noisy_evolution eps delta segs) (dephased_evolution (fun t => delta * t) T l).
Proof. exact float_finite_pulses. Qed.
Print Assumptions C76_sequence_float_pulses.

(** four CPMG pulses in 1 time unit, maximum rates 100 *)
Example C76_case : exists s c segs l0,
  fl_build_sequence binary64 (fun x => binary64 (sin x)) (fun x => binary64 (x ^ 2)) float_pi (CPMG 4) 1 false None = Ok s /\
  fl_convert binary64 (stored_angles s) 100 100 0 None = Ok c /\ describes segs c /\
  build_sequence (CPMG 4) 1 false None = Ok (sequence_of 1 None l0) /\
  forall eps delta, close_to (Rabs delta * (13 / 100) + Rabs eps * 7 + / 10 ^ 14) (noisy_evolution eps delta segs) (pulse_product l0).
Proof.
  assert (P := PI_4); assert (P' := PI2_3_2); assert (B := float_pi_bound).
  assert (S16 : 10 ^ 16 = 10000000000000000) by ring; assert (S14 : / 10 ^ 14 = / 100000000000000) by (f_equal; ring).
  assert (PB : PI <= 31416 / 10000) by (rewrite S16 in B; unfold float_pi in B; lra).
  assert (T1 : 0 < 1) by lra; assert (TR : truncates_to 4 4) by (unfold truncates_to; simpl; lra); assert (L4 : (1 <= 4)%nat) by lia.
  assert (LP : longest_pulse 100 100 0 = PI / 100) by (unfold longest_pulse; rewrite (Rmax_left (PI / 100) (PI / 100)), Rmax_left; lra).
  assert (P40 : 2 ^ 40 = 1099511627776) by ring.
  destruct (float_decoupling _ _ rounded_sine rounded_square (CPMG 4) 1 false None 100 100 0 None) as [s [c [segs [l0 [A [C [D [E Q]]]]]]]].
  - replace 1 with (IZR 1 * bpow radix2 0) by (cbn [bpow]; ring); apply format_pow; lia.
  - apply middle_facts.
  - cbn; lra.
  - cbn; lra.
  - exact I.
  - unfold pipeline_rates; rewrite LP; cbn [spacing accuracy]; rewrite P40; lra.
  - intros s0 E; destruct (refocusing 1 4 4 false None T1 TR L4) as [_ [_ [[s' [A' RF]] _]]]; change (new_cpmg_sequence 1 4 false None = Ok s0) in E; rewrite E in A'; injection A' as <-; exact RF.
  - exists s, c, segs, l0; repeat (split; [assumption|]); intros eps delta; eapply close_mono; [|apply Q].
    assert (LN : INR (List.length l0) = 4).
    { cbn [build_sequence] in E; rewrite (cpmg_timing 1 4 4 false None T1 TR L4) in E; unfold sequence_of in E; injection E as E.
      replace (List.length l0) with 4%nat by (rewrite <- (map_length e_time l0), <- E; reflexivity); simpl; lra. }
    rewrite LN, LP; unfold pipeline_error; cbn [accuracy]; rewrite S14, S16.
    assert (E0 := Rabs_pos eps); assert (D0 := Rabs_pos delta).
    assert (P54 : 2 ^ 54 = 18014398509481984) by ring; assert (P48 : 2 ^ 48 = 281474976710656) by ring; rewrite P54, P48.
    assert (D1 : Rabs delta * PI <= Rabs delta * (31416 / 10000)) by (apply Rmult_le_compat_l; auto).
    assert (E1 : Rabs eps * PI <= Rabs eps * (31416 / 10000)) by (apply Rmult_le_compat_l; auto).
    lra.
Qed.

