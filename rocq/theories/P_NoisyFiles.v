(** * C108: composite pulses from the request to the experiment with errors *)

From Verif Require Import L_NoisyFiles L_RemainderControl L_Remainder L_Predefined L_Symmetry Spec_Remainder.
From Verif Require Import L_FloatFiles.
From Coq Require Import Lia.
Import ListNotations.
Set Bullet Behavior "Strict Subproofs".
Open Scope string_scope.
Open Scope list_scope.
Open Scope R_scope.

(** C108: a composite pulse built and exported in binary64 arithmetic, read back from the file and driven with an amplitude error [e] and a detuning [d], performs the requested rotation up to rounding and the order at which the scheme leaves the errors *)
Theorem C108_noisy_file :
  forall fsin fcos facos fasin hsin hcos s th w phi name dir f,
  accurate_trigonometry fsin fcos facos fasin -> ordinary_inputs s th w phi -> exact_scheme s ->
  exists c l' T, fl_build binary64 fsin fcos facos fasin float_pi s th w phi name = Ok c /\
    file_holds f (fl_export_to_file binary64 hsin hcos dir c f "Q-CTRL expanded" "JSON" "cylindrical") l' name /\
    scheme_duration s th w T /\
    forall e d, -1 < e <= 1 ->
      close_to ((3 + Rabs d / w) * rotation_accuracy th + (Rabs e * w + Rabs d) * T / 2) (noisy_evolution e d l') (rotation th phi) /\
      (d = 0 -> close_to (3 * rotation_accuracy th + (Rabs e * (w * T) / 2) ^ S (amplitude_order s) / INR (fact (S (amplitude_order s))))
         (noisy_evolution e d l') (rotation th phi)) /\
      (detuning_cancels s th -> e = 0 \/ (1 <= amplitude_order s)%nat ->
       close_to ((3 + Rabs d / w) * rotation_accuracy th + ((Rabs e * w + Rabs d) * T) ^ 2 / 8) (noisy_evolution e d l') (rotation th phi)).
Proof. exact noisy_file. Qed.
Print Assumptions C108_noisy_file.

Lemma ordinary_pi s : exact_scheme s -> ordinary_inputs s float_pi 1 0.
Proof.
  intros X; destruct ordinary_61 as [A [B [_ [_ [D [E _]]]]]]; repeat split; auto; try apply B.
  - apply format_1.
  - rewrite <- Rinv_1; apply Rinv_le_contravar; [lra|apply pow_R1_Rle; lra].
  - apply pow_R1_Rle; lra.
  - destruct s; auto; contradiction.
Qed.

(** BB1 for the float next to pi, all Rabi rates up to one percent off *)
Example C108_case : forall dir, exists c l',
  fl_build binary64 (fun x => binary64 (sin x)) (fun x => binary64 (cos x)) (fun x => binary64 (acos x)) (fun x => binary64 (asin x))
    float_pi BB1 float_pi 1 0 (Some "bb1") = Ok c /\
  file_holds "bb1.json" (fl_export_to_file binary64 (fun x => binary64 (sin x)) (fun x => binary64 (cos x)) dir c "bb1.json" "Q-CTRL expanded" "JSON" "cylindrical") l' (Some "bb1") /\
  forall e, Rabs e <= 1 / 100 -> close_to (1 / 1000) (noisy_evolution e 0 l') (rotation float_pi 0).
Proof.
  intros dir.
  destruct (C108_noisy_file _ _ _ _ (fun x => binary64 (sin x)) (fun x => binary64 (cos x)) BB1 float_pi 1 0 (Some "bb1") dir "bb1.json"
    rounded_trigonometry (ordinary_pi BB1 I) I) as [c [l' [T [B [F [SD Q]]]]]].
  exists c, l'; split; [exact B|split; [exact F|]]; intros e E.
  assert (P := PI_bounds); assert (FPB := float_pi_bound); replace (10 ^ 16) with 10000000000000000 in FPB by ring.
  assert (E' : -1 < e <= 1) by (apply Rabs_le_between in E; lra).
  destruct (Q e 0 E') as [_ [Z _]]; specialize (Z eq_refl); eapply close_to_weaken; [|exact Z].
  assert (A : rotation_accuracy float_pi = / 2 ^ 40) by (unfold rotation_accuracy; destruct (Rle_dec _ _); [reflexivity|lra]).
  rewrite A; cbn [amplitude_order]; cbn [scheme_duration] in SD.
  replace (2 ^ 40) with 1099511627776 by ring; replace (INR (fact 3)) with 6 by (cbn; ring); set (x := Rabs e * (1 * T) / 2).
  assert (EP := Rabs_pos e); assert (TB : 0 <= T <= 16) by (rewrite SD; lra).
  assert (X : 0 <= x <= 8 / 100).
  { assert (0 <= Rabs e * T) by (apply Rmult_le_pos; lra); assert (Rabs e * T <= 1 / 100 * 16) by (apply Rmult_le_compat; lra); unfold x; lra. }
  assert (x ^ 3 <= (8 / 100) ^ 3) by (apply pow_incr; lra); lra.
Qed.
