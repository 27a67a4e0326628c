(** * C93: from the request to the file, in binary64 arithmetic *)

From Coq Require Import ZArith Lia.
From Flocq Require Import Core.
From Verif Require Import L_FloatLimits L_FloatFiles.
Import ListNotations.
Open Scope string_scope.
Open Scope list_scope.
Open Scope R_scope.
Set Bullet Behavior "Strict Subproofs".

(** C93: a sequence built, converted and exported in binary64 arithmetic is written without error, and the numbers a reader finds in the file evolve a qubit as the pulses of the exact sequence do, up to the stated error *)
Theorem C93_sequence_file :
  forall fsin fsquare, accurate_sine fsin -> accurate_square fsquare ->
  forall hsin hcos r T pre name maxr maxd mn name' d f,
  binary64_format T -> laboratory_duration T -> valid_request r -> moderate r -> separated r true ->
  pipeline_rates r T maxr maxd mn -> drives r pre ->
  exists s c segs l0 l',
    fl_build_sequence binary64 fsin fsquare float_pi r T pre name = Ok s /\
    fl_convert binary64 (stored_angles s) maxr maxd mn name' = Ok c /\ describes segs c /\
    (forall g, In g segs -> moderate_segment g) /\
    file_holds f (fl_export_to_file binary64 hsin hcos d c f "Q-CTRL expanded" "JSON" "cylindrical") l' name' /\
    build_sequence r T pre name = Ok (sequence_of T name l0) /\
    forall eps delta,
      close_to (pipeline_error eps delta T (longest_pulse maxr maxd mn) (accuracy r) (INR (List.length l0)) + file_error eps (INR (List.length l0)))
        (noisy_evolution eps delta l') (dephased_evolution (fun t => delta * t) T l0).
Proof. exact float_sequence_file. Qed.
Print Assumptions C93_sequence_file.

(** the export of the sequence itself, in the presence of a constant detuning and an amplitude error: the file refocuses *)
Theorem C93_sequence_export :
  forall fsin fsquare, accurate_sine fsin -> accurate_square fsquare ->
  forall hsin hcos r T pre name maxr maxd d f,
  binary64_format T -> laboratory_duration T -> valid_request r -> moderate r -> separated r true ->
  pipeline_rates r T maxr maxd 0 -> drives r pre ->
  exists s l0 l',
    fl_build_sequence binary64 fsin fsquare float_pi r T pre name = Ok s /\
    file_holds f (fl_dds_export_to_file binary64 hsin hcos d (stored_angles s) f "Q-CTRL expanded" "JSON" "cylindrical" maxr maxd) l' name /\
    build_sequence r T pre name = Ok (sequence_of T name l0) /\
    (forall eps delta,
      close_to (pipeline_error eps delta T (longest_pulse maxr maxd 0) (accuracy r) (INR (List.length l0)) + file_error eps (INR (List.length l0)))
        (noisy_evolution eps delta l') (dephased_evolution (fun t => delta * t) T l0)) /\
    (refocuses (sequence_of T name l0) -> forall eps delta,
      close_to (pipeline_error eps delta T (longest_pulse maxr maxd 0) (accuracy r) (INR (List.length l0)) + file_error eps (INR (List.length l0)))
        (noisy_evolution eps delta l') (pulse_product l0)).
Proof.
  intros fsin fsquare Hs Hq hsin hcos r T pre name maxr maxd d f FT HL V M X PR DR.
  destruct (float_sequence_export fsin fsquare Hs Hq hsin hcos r T pre name maxr maxd d f FT HL V M X PR DR) as [s [l0 [l' [A [F [E Q]]]]]].
  exists s, l0, l'; repeat (split; [assumption|]); intros RF eps delta.
  rewrite <- (RF l0 eq_refl delta); apply Q.
Qed.
Print Assumptions C93_sequence_export.

(** a composite pulse built and exported *)
Theorem C93_scheme_file :
  forall fsin fcos facos fasin hsin hcos s th w phi name d f,
  accurate_trigonometry fsin fcos facos fasin -> ordinary_inputs s th w phi ->
  exists c l', fl_build binary64 fsin fcos facos fasin float_pi s th w phi name = Ok c /\
    file_holds f (fl_export_to_file binary64 hsin hcos d c f "Q-CTRL expanded" "JSON" "cylindrical") l' name /\
    (forall l0, design s th w phi l0 -> forall eps delta,
      close_to (float_cost s th w eps delta (List.length l0) + scheme_file_error eps (List.length l0))
        (noisy_evolution eps delta l') (noisy_evolution eps delta l0)) /\
    (exact_scheme s -> close_to (2 * rotation_accuracy th) (evolution l') (rotation th phi)).
Proof.
  intros fsin fcos facos fasin hsin hcos s th w phi name d f HT O.
  destruct (float_scheme_file fsin fcos facos fasin hsin hcos s th w phi name d f HT O) as [c [l' [E [F Q]]]].
  exists c, l'; repeat (split; [assumption|]); intros X.
  destruct (float_rotation_file fsin fcos facos fasin hsin hcos s th w phi name d f HT O X) as [c2 [l2 [E2 [F2 Q2]]]].
  rewrite E in E2; injection E2 as <-; rewrite (file_holds_unique _ _ _ _ _ _ F F2); exact Q2.
Qed.
Print Assumptions C93_scheme_file.

(** every number of a converted sequence and of a composite pulse is a binary64 number *)
Theorem C93_numbers :
  (forall s maxr maxd mn name c, binary64_format (seq_duration s) -> (forall x, In x (seq_azimuthal_angles s) -> binary64_format x) ->
     fl_convert binary64 s maxr maxd mn name = Ok c -> stored_numbers c) /\
  (forall fsin fcos facos fasin s th w phi name c, binary64_format w -> binary64_format phi ->
     fl_build binary64 fsin fcos facos fasin float_pi s th w phi name = Ok c -> stored_numbers c).
Proof. split; [exact converted_numbers|exact scheme_numbers]. Qed.
Print Assumptions C93_numbers.

(** without rounding the export is that of M_DDS.v *)
Theorem C93_unrounded :
  forall d s f fmt ty coords maxr maxd,
  fl_dds_export_to_file (fun x => x) sin cos d s f fmt ty coords maxr maxd = dds_export_to_file d s f fmt ty coords maxr maxd.
Proof.
  intros; unfold fl_dds_export_to_file, dds_export_to_file; rewrite fl_convert_unrounded.
  destruct (convert_dds_to_driven_control _ _ _ _ _); [apply export_unrounded|reflexivity].
Qed.
Print Assumptions C93_unrounded.

(** four CPMG pulses in 1 time unit, maximum rates 100, read back from the file *)
Example C93_case : forall d, exists s l0 l',
  fl_build_sequence binary64 (fun x => binary64 (sin x)) (fun x => binary64 (x ^ 2)) float_pi (CPMG 4) 1 false (Some "cpmg") = Ok s /\
  file_holds "a.json" (fl_dds_export_to_file binary64 (fun x => binary64 (sin x)) (fun x => binary64 (cos x)) d (stored_angles s) "a.json" "Q-CTRL expanded" "JSON" "cylindrical" 100 100) l' (Some "cpmg") /\
  build_sequence (CPMG 4) 1 false (Some "cpmg") = Ok (sequence_of 1 (Some "cpmg") l0) /\ List.length l0 = 4%nat /\
  forall eps delta, close_to (Rabs delta * (13 / 100) + Rabs eps * 7 + / 10 ^ 14) (noisy_evolution eps delta l') (pulse_product l0).
Proof.
  intros d; assert (P := PI_4); assert (P' := PI2_3_2); assert (B := float_pi_bound).
  assert (S16 : 10 ^ 16 = 10000000000000000) by ring; assert (S14 : / 10 ^ 14 = / 100000000000000) by (f_equal; ring).
  assert (PB : PI <= 31416 / 10000) by (rewrite S16 in B; unfold float_pi in B; lra).
  assert (T1 : 0 < 1) by lra; assert (TR : truncates_to 4 4) by (unfold truncates_to; simpl; lra); assert (L4 : (1 <= 4)%nat) by lia.
  assert (LP : longest_pulse 100 100 0 = PI / 100) by (unfold longest_pulse; rewrite (Rmax_left (PI / 100) (PI / 100)), Rmax_left; lra).
  assert (P40 : 2 ^ 40 = 1099511627776) by ring.
  destruct (C93_sequence_export _ _ rounded_sine rounded_square (fun x => binary64 (sin x)) (fun x => binary64 (cos x)) (CPMG 4) 1 false (Some "cpmg") 100 100 d "a.json")
    as [s [l0 [l' [A [F [E [_ Q]]]]]]].
  - replace 1 with (IZR 1 * bpow radix2 0) by (cbn [bpow]; ring); apply format_pow; lia.
  - unfold laboratory_duration; replace (10 ^ 8) with 100000000 by ring; assert (1 <= 2 ^ 20) by (apply pow_R1_Rle; lra); lra.
  - cbn; lra.
  - cbn; lra.
  - exact I.
  - unfold pipeline_rates; rewrite LP; cbn [spacing accuracy]; rewrite P40; lra.
  - left; discriminate.
  - assert (LN : List.length l0 = 4%nat).
    { cbn [build_sequence] in E; rewrite (cpmg_timing 1 4 4 false (Some "cpmg") T1 TR L4) in E; unfold sequence_of in E; injection E as E.
      rewrite <- (map_length e_time l0), <- E; reflexivity. }
    exists s, l0, l'; repeat (split; [assumption|]); intros eps delta; eapply close_mono; [|apply Q].
    + assert (LI : INR (List.length l0) = 4) by (rewrite LN; simpl; lra).
      rewrite LI, LP; unfold pipeline_error, file_error; cbn [accuracy]; rewrite S14, S16.
      assert (E0 := Rabs_pos eps); assert (D0 := Rabs_pos delta).
      assert (P54 : 2 ^ 54 = 18014398509481984) by ring; assert (P48 : 2 ^ 48 = 281474976710656) by ring; assert (P53 : 2 ^ 53 = 9007199254740992) by ring; rewrite P54, P48, P53.
      assert (D1 : Rabs delta * PI <= Rabs delta * (31416 / 10000)) by (apply Rmult_le_compat_l; auto).
      assert (E1 : Rabs eps * PI <= Rabs eps * (31416 / 10000)) by (apply Rmult_le_compat_l; auto).
      lra.
    + destruct (refocusing 1 4 4 false (Some "cpmg") T1 TR L4) as [_ [_ [[s' [A' RF]] _]]]; change (new_cpmg_sequence 1 4 false (Some "cpmg") = Ok (sequence_of 1 (Some "cpmg") l0)) in E; rewrite E in A'; injection A' as <-; exact RF.
Qed.
