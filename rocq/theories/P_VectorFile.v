(** * From the request to the file under noise along every direction: C114 *)

From Verif Require Import L_NoiseExact L_Remainder L_VectorControl.
From Verif Require Import L_FloatLimits L_FloatFiles L_VectorFile.
From Coq Require Import ZArith Lia.
From Flocq Require Import Core.
Import ListNotations.
Set Bullet Behavior "Strict Subproofs".
Open Scope string_scope.
Open Scope list_scope.
Open Scope R_scope.

(** C114: a sequence built, converted and exported in binary64 arithmetic: the numbers a reader finds in the file evolve a qubit as the pulses of the exact sequence do under the same noise *)
Theorem C114_pulses :
  forall fsin fsquare, accurate_sine fsin -> accurate_square fsquare ->
  forall hsin hcos r T pre name maxr maxd mn name' d f,
  binary64_format T -> laboratory_duration T -> valid_request r -> moderate r -> separated r true ->
  pipeline_rates r T maxr maxd mn -> drives r pre ->
  exists s c l0 l',
    fl_build_sequence binary64 fsin fsquare float_pi r T pre name = Ok s /\
    fl_convert binary64 (stored_angles s) maxr maxd mn name' = Ok c /\
    file_holds f (fl_export_to_file binary64 hsin hcos d c f "Q-CTRL expanded" "JSON" "cylindrical") l' name' /\
    build_sequence r T pre name = Ok (sequence_of T name l0) /\
    forall eps x y z E M V X,
      (forall t, continuous x t) -> (forall t, continuous y t) -> (forall t, continuous z t) ->
      (forall t, 0 <= t -> Rabs (eps t) <= E) -> 0 <= M -> (forall t, 0 <= t -> x t ^ 2 + y t ^ 2 + z t ^ 2 <= M ^ 2) ->
      vector_control eps x y z 0 l' V -> vector_sequence x y z 0 T l0 X ->
      close_to (vector_file_error E M T (longest_pulse maxr maxd mn) (accuracy r) (INR (List.length l0))) V X.
Proof. exact vector_sequence_file. Qed.
Print Assumptions C114_pulses.

(** C114: the file suppresses the noise along every axis to the order of the requested sequence *)
Theorem C114_request :
  forall fsin fsquare, accurate_sine fsin -> accurate_square fsquare ->
  forall hsin hcos r T pre name maxr maxd mn name' d f nx ny nz,
  binary64_format T -> laboratory_duration T -> valid_request r -> moderate r -> separated r true ->
  pipeline_rates r T maxr maxd mn -> drives r pre -> vector_orders r nx ny nz ->
  exists s c l0 l',
    fl_build_sequence binary64 fsin fsquare float_pi r T pre name = Ok s /\
    fl_convert binary64 (stored_angles s) maxr maxd mn name' = Ok c /\
    file_holds f (fl_export_to_file binary64 hsin hcos d c f "Q-CTRL expanded" "JSON" "cylindrical") l' name' /\
    build_sequence r T pre name = Ok (sequence_of T name l0) /\
    forall eps x y z E M Kx Ky Kz V,
      smooth_detuning x nx Kx T -> smooth_detuning y ny Ky T -> smooth_detuning z nz Kz T ->
      (forall t, 0 <= t -> Rabs (eps t) <= E) -> 0 <= M -> (forall t, 0 <= t -> x t ^ 2 + y t ^ 2 + z t ^ 2 <= M ^ 2) ->
      vector_control eps x y z 0 l' V ->
      close_to (vector_file_error E M T (longest_pulse maxr maxd mn) (accuracy r) (INR (List.length l0)) +
                ((M * T) ^ 2 / 8 + (residue nx Kx T + residue ny Ky T + residue nz Kz T))) V (pulse_product l0).
Proof. exact vector_request_file. Qed.
Print Assumptions C114_request.

(** C114: the same for the export of the sequence itself *)
Theorem C114_export :
  forall fsin fsquare, accurate_sine fsin -> accurate_square fsquare ->
  forall hsin hcos r T pre name maxr maxd d f nx ny nz,
  binary64_format T -> laboratory_duration T -> valid_request r -> moderate r -> separated r true ->
  pipeline_rates r T maxr maxd 0 -> drives r pre -> vector_orders r nx ny nz ->
  exists s l0 l',
    fl_build_sequence binary64 fsin fsquare float_pi r T pre name = Ok s /\
    file_holds f (fl_dds_export_to_file binary64 hsin hcos d (stored_angles s) f "Q-CTRL expanded" "JSON" "cylindrical" maxr maxd) l' name /\
    build_sequence r T pre name = Ok (sequence_of T name l0) /\
    forall eps x y z E M Kx Ky Kz V,
      smooth_detuning x nx Kx T -> smooth_detuning y ny Ky T -> smooth_detuning z nz Kz T ->
      (forall t, 0 <= t -> Rabs (eps t) <= E) -> 0 <= M -> (forall t, 0 <= t -> x t ^ 2 + y t ^ 2 + z t ^ 2 <= M ^ 2) ->
      vector_control eps x y z 0 l' V ->
      close_to (vector_file_error E M T (longest_pulse maxr maxd 0) (accuracy r) (INR (List.length l0)) +
                ((M * T) ^ 2 / 8 + (residue nx Kx T + residue ny Ky T + residue nz Kz T))) V (pulse_product l0).
Proof.
  intros fsin fsquare Hs Hq hsin hcos r T pre name maxr maxd d f nx ny nz FT HL V M X PR DR VO.
  destruct (vector_request_file fsin fsquare Hs Hq hsin hcos r T pre name maxr maxd 0 name d f nx ny nz FT HL V M X PR DR VO)
    as [s [c [l0 [l' [A [B [F [E Q]]]]]]]].
  exists s, l0, l'; split; [auto|split; [|auto]].
  destruct F as [d' [file [F1 F2]]]; exists d', file; split; auto; unfold fl_dds_export_to_file.
  assert (NM : seq_name (stored_angles s) = name).
  { destruct (float_pipeline_pulses fsin fsquare Hs Hq r T pre name maxr maxd 0 name FT HL V M X PR)
      as [s1 [c1 [segs1 [l1 [l [A1 [_ [_ [_ [[ES _] _]]]]]]]]]]; rewrite A in A1; injection A1 as <-; rewrite ES; reflexivity. }
  rewrite NM, B; exact F1.
Qed.
Print Assumptions C114_export.

(** four pulses in one second, with noise along X and Z and an amplitude that is wrong by one in a thousand *)
Example C114_case : forall d, exists s l0 l' V,
  fl_build_sequence binary64 (fun x => binary64 (sin x)) (fun x => binary64 (x ^ 2)) float_pi (CPMG 4) 1 false (Some "cpmg") = Ok s /\
  file_holds "a.json" (fl_dds_export_to_file binary64 (fun x => binary64 (sin x)) (fun x => binary64 (cos x)) d (stored_angles s) "a.json" "Q-CTRL expanded" "JSON" "cylindrical" 100 100) l' (Some "cpmg") /\
  build_sequence (CPMG 4) 1 false (Some "cpmg") = Ok (sequence_of 1 (Some "cpmg") l0) /\ List.length l0 = 4%nat /\
  vector_control (fun _ => / 1000) (fun _ => / 1000) (fun _ => 0) (fun _ => / 1000) 0 l' V /\
  close_to (7 / 1000) V (pulse_product l0).
Proof.
  intros d; assert (P := PI_4); assert (P' := PI2_3_2); assert (B := float_pi_bound).
  assert (S16 : 10 ^ 16 = 10000000000000000) by ring; rewrite S16 in B.
  assert (PB : PI <= 31416 / 10000) by (unfold float_pi in B; lra).
  assert (T1 : 0 < 1) by lra; assert (TR : truncates_to 4 4) by (unfold truncates_to; simpl; lra); assert (L4 : (1 <= 4)%nat) by lia.
  assert (LP : longest_pulse 100 100 0 = PI / 100) by (unfold longest_pulse; rewrite (Rmax_left (PI / 100) (PI / 100)), Rmax_left; lra).
  assert (P40 : 2 ^ 40 = 1099511627776) by ring.
  destruct (C114_export _ _ rounded_sine rounded_square (fun x => binary64 (sin x)) (fun x => binary64 (cos x)) (CPMG 4) 1 false (Some "cpmg") 100 100 d "a.json" 2 0 2)
    as [s [l0 [l' [A [F [E Q]]]]]].
  - replace 1 with (IZR 1 * bpow radix2 0) by (cbn [bpow]; ring); apply format_pow; lia.
  - unfold laboratory_duration; replace (10 ^ 8) with 100000000 by ring; assert (1 <= 2 ^ 20) by (apply pow_R1_Rle; lra); lra.
  - cbn; lra.
  - cbn; lra.
  - exact I.
  - unfold pipeline_rates; rewrite LP; cbn [spacing accuracy]; rewrite P40; lra.
  - left; discriminate.
  - split; [exists 4%nat; split; [exact TR|reflexivity]|auto].
  - assert (LN : List.length l0 = 4%nat).
    { cbn [build_sequence] in E; rewrite (cpmg_timing 1 4 4 false (Some "cpmg") T1 TR L4) in E; unfold sequence_of in E; injection E as E.
      rewrite <- (map_length e_time l0), <- E; reflexivity. }
    destruct (vector_control_exists (fun _ => / 1000) (fun _ => / 1000) (fun _ => 0) (fun _ => / 1000) l') with (t0 := 0) as [V N];
      try (intros; apply continuous_const).
    exists s, l0, l', V; repeat (split; [assumption|]).
    assert (Z0 : smooth_detuning (fun _ => 0) 0 0 1).
    { split; [intros; apply continuous_const|]; intros t _; split; [intros k _; apply ex_derive_n_const|cbn; rewrite Rabs_R0; lra]. }
    assert (Cl := Q (fun _ => / 1000) (fun _ => / 1000) (fun _ => 0) (fun _ => / 1000) (/ 1000) (/ 500) 0 0 0 V
      (constant_smooth (/ 1000) 2 1 ltac:(lia)) Z0 (constant_smooth (/ 1000) 2 1 ltac:(lia))
      ltac:(intros t _; rewrite Rabs_pos_eq; lra) ltac:(lra) ltac:(intros t _; lra) N).
    eapply close_mono; [|exact Cl].
    assert (LI : INR (List.length l0) = 4) by (rewrite LN; simpl; lra).
    rewrite LI, LP; unfold vector_file_error, residue; cbn [accuracy]; rewrite S16.
    assert (P50 : 2 ^ 50 = 1125899906842624) by ring; assert (P48 : 2 ^ 48 = 281474976710656) by ring; assert (P52 : 2 ^ 52 = 4503599627370496) by ring; rewrite P50, P48, P52.
    cbn [pow fact INR]; lra.
Qed.
