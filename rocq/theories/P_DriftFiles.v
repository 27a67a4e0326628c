(** * C115: composite pulses from the request to the experiment with drifting errors *)

From Verif Require Import L_DriveExists.
From Verif Require Import L_DriftFiles L_NoisyFiles L_Drift L_DriveControl L_RemainderControl L_Remainder L_Predefined L_Symmetry Spec_Remainder Spec_Drive.
From Verif Require Import L_FirstOrderFamilies L_FinitePulse L_PreConvert L_Requests L_FirstOrder L_FloatPipeline L_FloatFiles.
From Coq Require Import Lia.
Import ListNotations.
Set Bullet Behavior "Strict Subproofs".
Open Scope string_scope.
Open Scope list_scope.
Open Scope R_scope.

(** C115: every composite pulse built and exported in binary64 arithmetic, read back from the file and driven with errors that stay within [E] and [M] of the constants [e] and [d], is the designed pulse under [e] and [d] up to rounding and the deviation; its duration is the documented one up to rounding *)
Theorem C115_pulses :
  forall fsin fcos facos fasin hsin hcos s th w phi name dir f,
  accurate_trigonometry fsin fcos facos fasin -> ordinary_inputs s th w phi ->
  exists c l' T, fl_build binary64 fsin fcos facos fasin float_pi s th w phi name = Ok c /\
    file_holds f (fl_export_to_file binary64 hsin hcos dir c f "Q-CTRL expanded" "JSON" "cylindrical") l' name /\
    scheme_duration s th w T /\ Rabs (total (map g_dur l') - T) <= / 2 ^ 42 / w /\
    forall l0, design s th w phi l0 ->
    forall eps beta e d E M V, -1 < e ->
      bounded_by (fun t => eps t - e) E 0 (total (map g_dur l')) -> bounded_by (fun t => beta t - d) M 0 (total (map g_dur l')) ->
      noisy_control eps beta 0 l' V ->
      close_to ((E * w + M) * (T + / 2 ^ 42 / w) / 2 + (float_cost s th w e d (List.length l0) + scheme_file_error e (List.length l0)))
        V (noisy_evolution e d l0).
Proof. exact drifting_scheme_file. Qed.
Print Assumptions C115_pulses.

(** C115: the pulses that are exact without errors perform the requested rotation up to rounding, the deviation, and the order at which the scheme leaves the constant part *)
Theorem C115_rotation :
  forall fsin fcos facos fasin hsin hcos s th w phi name dir f,
  accurate_trigonometry fsin fcos facos fasin -> ordinary_inputs s th w phi -> exact_scheme s ->
  exists c l' T, fl_build binary64 fsin fcos facos fasin float_pi s th w phi name = Ok c /\
    file_holds f (fl_export_to_file binary64 hsin hcos dir c f "Q-CTRL expanded" "JSON" "cylindrical") l' name /\
    scheme_duration s th w T /\ Rabs (total (map g_dur l') - T) <= / 2 ^ 42 / w /\
    forall eps beta e d E M V, -1 < e <= 1 ->
      bounded_by (fun t => eps t - e) E 0 (total (map g_dur l')) -> bounded_by (fun t => beta t - d) M 0 (total (map g_dur l')) ->
      noisy_control eps beta 0 l' V ->
      close_to ((E * w + M) * (T + / 2 ^ 42 / w) / 2 + ((3 + Rabs d / w) * rotation_accuracy th + (Rabs e * w + Rabs d) * T / 2)) V (rotation th phi) /\
      (d = 0 -> close_to ((E * w + M) * (T + / 2 ^ 42 / w) / 2 +
          (3 * rotation_accuracy th + (Rabs e * (w * T) / 2) ^ S (amplitude_order s) / INR (fact (S (amplitude_order s))))) V (rotation th phi)) /\
      (detuning_cancels s th -> e = 0 \/ (1 <= amplitude_order s)%nat ->
       close_to ((E * w + M) * (T + / 2 ^ 42 / w) / 2 + ((3 + Rabs d / w) * rotation_accuracy th + ((Rabs e * w + Rabs d) * T) ^ 2 / 8)) V (rotation th phi)).
Proof. exact drifting_file. Qed.
Print Assumptions C115_rotation.

Lemma ordinary_half_turn s : exact_scheme s -> ordinary_inputs s float_pi 1 0.
Proof.
  intros X; destruct ordinary_61 as [A [B [_ [_ [D [E _]]]]]]; repeat split; auto; try apply B.
  - apply format_1.
  - rewrite <- Rinv_1; apply Rinv_le_contravar; [lra|apply pow_R1_Rle; lra].
  - apply pow_R1_Rle; lra.
  - destruct s; auto; contradiction.
Qed.

(** BB1 for the float next to pi whose amplitude error grows from one percent by 1/100000 per unit of time *)
Example C115_case : forall dir, exists c l' V,
  fl_build binary64 (fun x => binary64 (sin x)) (fun x => binary64 (cos x)) (fun x => binary64 (acos x)) (fun x => binary64 (asin x))
    float_pi BB1 float_pi 1 0 (Some "bb1") = Ok c /\
  file_holds "bb1.json" (fl_export_to_file binary64 (fun x => binary64 (sin x)) (fun x => binary64 (cos x)) dir c "bb1.json" "Q-CTRL expanded" "JSON" "cylindrical") l' (Some "bb1") /\
  noisy_control (fun t => 1 / 100 + t / 100000) (fun _ => 0) 0 l' V /\ close_to (3 / 1000) V (rotation float_pi 0).
Proof.
  intros dir.
  destruct (C115_rotation _ _ _ _ (fun x => binary64 (sin x)) (fun x => binary64 (cos x)) BB1 float_pi 1 0 (Some "bb1") dir "bb1.json"
    rounded_trigonometry (ordinary_half_turn BB1 I) I) as [c [l' [T [B [F [SD [TT Q]]]]]]].
  destruct (control_exists (fun t => 1 / 100 + t / 100000) (fun _ => 0) l') with (t0 := 0) as [V N].
  { intros t; apply @ex_derive_continuous; auto_derive; auto. }
  { intros t; apply continuous_const. }
  exists c, l', V; split; [exact B|split; [exact F|split; [exact N|]]].
  assert (P := PI_bounds); assert (FPB := float_pi_bound); replace (10 ^ 16) with 10000000000000000 in FPB by ring.
  cbn [scheme_duration] in SD; assert (TB : 0 <= T <= 16) by (rewrite SD; lra).
  assert (P42 : 2 ^ 42 = 4398046511104) by ring; rewrite P42 in *; apply Rabs_le_between in TT.
  assert (BE : bounded_by (fun t => 1 / 100 + t / 100000 - 1 / 100) (1 / 5000) 0 (total (map g_dur l'))) by (intros t B0; rewrite Rabs_right; lra).
  assert (BM : bounded_by (fun t => 0 - 0) 0 0 (total (map g_dur l'))) by (intros t B0; rewrite Rminus_0_r, Rabs_R0; lra).
  assert (Z := proj1 (proj2 (Q _ _ (1 / 100) 0 (1 / 5000) 0 V ltac:(lra) BE BM N)) eq_refl); eapply close_to_weaken; [|exact Z].
  assert (A : rotation_accuracy float_pi = / 2 ^ 40) by (unfold rotation_accuracy; destruct (Rle_dec _ _); [reflexivity|lra]).
  rewrite A, (Rabs_right (1 / 100)) by lra; cbn [amplitude_order]; replace (2 ^ 40) with 1099511627776 by ring; replace (INR (fact 3)) with 6 by (cbn; ring).
  set (x := 1 / 100 * (1 * T) / 2); assert (X : 0 <= x <= 8 / 100) by (unfold x; lra).
  assert (x ^ 3 <= (8 / 100) ^ 3) by (apply pow_incr; lra); lra.
Qed.
