(** * Composite pulses from the request to an experiment with drifting errors *)

From Verif Require Import L_Drift L_DriveControl L_NoisyFiles L_RemainderControl L_Remainder L_Predefined L_Symmetry Spec_Remainder Spec_Drive.
From Verif Require Import L_FirstOrderFamilies L_FinitePulse L_PreConvert L_Requests L_FirstOrder L_FloatPipeline L_FloatFiles.
From Coq Require Import Lia.
Import ListNotations.
Set Bullet Behavior "Strict Subproofs".
Open Scope list_scope.
Open Scope R_scope.

Lemma design_length s th w phi l0 : design s th w phi l0 -> INR (List.length l0) <= 9.
Proof.
  intros DS; replace 9 with (INR 9) by (cbn; ring); apply le_INR; destruct s; cbn [design] in DS;
    repeat match goal with H : exists _, _ |- _ => destruct H end; repeat match goal with H : _ /\ _ |- _ => destruct H end;
    subst l0; cbn; lia.
Qed.

Lemma drifting_scheme fsin fcos facos fasin hsin hcos s th w phi name dir f c0 ls :
  accurate_trigonometry fsin fcos facos fasin -> ordinary_inputs s th w phi ->
  build s th w phi name = Ok c0 -> describes ls c0 -> design s th w phi ls ->
  exists c l', fl_build binary64 fsin fcos facos fasin float_pi s th w phi name = Ok c /\
    file_holds f (fl_export_to_file binary64 hsin hcos dir c f FILE_FORMAT_QCTRL FILE_TYPE_JSON CYLINDRICAL) l' name /\
    Rabs (total (map g_dur l') - duration c0) <= / 2 ^ 42 / w /\
    forall l0, design s th w phi l0 ->
    forall eps beta e d E M V, -1 < e ->
      bounded_by (fun t => eps t - e) E 0 (total (map g_dur l')) -> bounded_by (fun t => beta t - d) M 0 (total (map g_dur l')) ->
      noisy_control eps beta 0 l' V ->
      close_to ((E * w + M) * (duration c0 + / 2 ^ 42 / w) / 2 + (float_cost s th w e d (List.length l0) + scheme_file_error e (List.length l0)))
        V (noisy_evolution e d l0).
Proof.
  intros HT O E0 D0 DS; destruct (scheme_file_segments fsin fcos facos fasin hsin hcos s th w phi name dir f HT O) as [c [l' [E [F [NN Q]]]]].
  rename ls into l0.
  assert (K0 := build_constructible _ _ _ _ _ _ E0); destruct (rates_and_duration _ _ _ _ _ _ _ E0 D0) as [MX _].
  assert (W : 0 < w) by (destruct O as [_ [_ [_ [[O _] _]]]]; eapply Rlt_le_trans; [|exact O]; apply Rinv_0_lt_compat, pow_lt; lra).
  destruct (control_segments c0 l0 K0 D0) as [_ [_ [_ DU]]].
  assert (TD : total (map g_dur l0) = duration c0).
  { rewrite <- DU; clear; induction l0 as [|g l IH]; [reflexivity|]; cbn [time_total fold_right map total]; fold (time_total l); rewrite IH; reflexivity. }
  assert (DL := design_length s th w phi l0 DS); destruct (Q l0 DS) as [Q1 [Q2 _]]; assert (IP := pos_INR (List.length l0)).
  assert (RE : rotation_error = / 70368744177664) by (unfold rotation_error; f_equal; ring).
  assert (P42 : 2 ^ 42 = 4398046511104) by ring; assert (P48 : 2 ^ 48 = 281474976710656) by ring.
  assert (TT : Rabs (total (map g_dur l') - duration c0) <= / 2 ^ 42 / w).
  { rewrite <- TD; eapply Rle_trans; [exact Q1|]; unfold Rdiv; rewrite <- Rmult_assoc; apply Rmult_le_compat_r; [left; apply Rinv_0_lt_compat; auto|].
    rewrite RE, P42; apply Rle_trans with (9 * / 70368744177664); [apply Rmult_le_compat_r; lra|lra]. }
  exists c, l'; split; [auto|split; [auto|split; [exact TT|]]].
  intros l1 H1 eps beta e d Eb M V L BE BM N.
  assert (P0 : 0 <= total (map g_dur l')) by (apply total_nonneg; intros x I; destruct (NN x I); lra).
  assert (EP : 0 <= Eb) by (eapply Rle_trans; [apply Rabs_pos|apply (BE 0)]; lra).
  assert (MP : 0 <= M) by (eapply Rle_trans; [apply Rabs_pos|apply (BM 0)]; lra).
  eapply close_to_weaken; [|eapply L_FloatPipeline.close_trans; [eapply (segments_drift l' eps beta e d Eb M V)|apply (Q l1 H1)]];
    [|intros g I; destruct (NN g I); lra|exact L|exact BE|exact BM|exact N].
  apply Rplus_le_compat_r; destruct (turned_bound c0 l0 w K0 D0 MX) as [_ TB].
  assert (T1 : turned l' <= w * (duration c0 + / 2 ^ 42 / w)).
  { unfold turned in *; apply Rabs_le_between in Q2; rewrite P48, RE in Q2; replace (w * (duration c0 + / 2 ^ 42 / w)) with (w * duration c0 + / 2 ^ 42) by (rewrite P42; field; lra).
    rewrite P42; assert (INR (List.length l0) * (/ 70368744177664 + / 281474976710656) <= 9 * (/ 70368744177664 + / 281474976710656)) by (apply Rmult_le_compat_r; lra).
    lra. }
  apply Rabs_le_between in TT.
  assert (Eb * turned l' <= Eb * (w * (duration c0 + / 2 ^ 42 / w))) by (apply Rmult_le_compat_l; auto).
  assert (M * total (map g_dur l') <= M * (duration c0 + / 2 ^ 42 / w)) by (apply Rmult_le_compat_l; lra).
  lra.
Qed.

Theorem drifting_scheme_file fsin fcos facos fasin hsin hcos s th w phi name dir f :
  accurate_trigonometry fsin fcos facos fasin -> ordinary_inputs s th w phi ->
  exists c l' T, fl_build binary64 fsin fcos facos fasin float_pi s th w phi name = Ok c /\
    file_holds f (fl_export_to_file binary64 hsin hcos dir c f FILE_FORMAT_QCTRL FILE_TYPE_JSON CYLINDRICAL) l' name /\
    scheme_duration s th w T /\ Rabs (total (map g_dur l') - T) <= / 2 ^ 42 / w /\
    forall l0, design s th w phi l0 ->
    forall eps beta e d E M V, -1 < e ->
      bounded_by (fun t => eps t - e) E 0 (total (map g_dur l')) -> bounded_by (fun t => beta t - d) M 0 (total (map g_dur l')) ->
      noisy_control eps beta 0 l' V ->
      close_to ((E * w + M) * (T + / 2 ^ 42 / w) / 2 + (float_cost s th w e d (List.length l0) + scheme_file_error e (List.length l0)))
        V (noisy_evolution e d l0).
Proof.
  intros HT O; destruct (build_accepts s th w phi name (ordinary_accepts s th w phi O)) as [c0 [l0 [E0 [D0 [DS _]]]]].
  destruct (drifting_scheme fsin fcos facos fasin hsin hcos s th w phi name dir f c0 l0 HT O E0 D0 DS) as [c [l' [E [F [TT Q]]]]].
  destruct (rates_and_duration _ _ _ _ _ _ _ E0 D0) as [_ [_ [_ SD]]].
  exists c, l', (duration c0); repeat (split; [assumption|]); exact Q.
Qed.

Theorem drifting_file fsin fcos facos fasin hsin hcos s th w phi name dir f :
  accurate_trigonometry fsin fcos facos fasin -> ordinary_inputs s th w phi -> exact_scheme s ->
  exists c l' T, fl_build binary64 fsin fcos facos fasin float_pi s th w phi name = Ok c /\
    file_holds f (fl_export_to_file binary64 hsin hcos dir c f FILE_FORMAT_QCTRL FILE_TYPE_JSON CYLINDRICAL) l' name /\
    scheme_duration s th w T /\ Rabs (total (map g_dur l') - T) <= / 2 ^ 42 / w /\
    forall eps beta e d E M V, -1 < e <= 1 ->
      bounded_by (fun t => eps t - e) E 0 (total (map g_dur l')) -> bounded_by (fun t => beta t - d) M 0 (total (map g_dur l')) ->
      noisy_control eps beta 0 l' V ->
      close_to ((E * w + M) * (T + / 2 ^ 42 / w) / 2 + ((3 + Rabs d / w) * rotation_accuracy th + (Rabs e * w + Rabs d) * T / 2)) V (rotation th phi) /\
      (d = 0 -> close_to ((E * w + M) * (T + / 2 ^ 42 / w) / 2 +
          (3 * rotation_accuracy th + (Rabs e * (w * T) / 2) ^ S (amplitude_order s) / INR (fact (S (amplitude_order s))))) V (rotation th phi)) /\
      (detuning_cancels s th -> e = 0 \/ (1 <= amplitude_order s)%nat ->
       close_to ((E * w + M) * (T + / 2 ^ 42 / w) / 2 + ((3 + Rabs d / w) * rotation_accuracy th + ((Rabs e * w + Rabs d) * T) ^ 2 / 8)) V (rotation th phi)).
Proof.
  intros HT O X; destruct (build_accepts s th w phi name (ordinary_accepts s th w phi O)) as [c0 [l0 [E0 [D0 [DS _]]]]].
  destruct (drifting_scheme fsin fcos facos fasin hsin hcos s th w phi name dir f c0 l0 HT O E0 D0 DS) as [c [l' [E [F [TT Q]]]]].
  assert (K0 := build_constructible _ _ _ _ _ _ E0); destruct (rates_and_duration _ _ _ _ _ _ _ E0 D0) as [MX [G [_ SD0]]].
  assert (W : 0 < w) by (destruct O as [_ [_ [_ [[O _] _]]]]; eapply Rlt_le_trans; [|exact O]; apply Rinv_0_lt_compat, pow_lt; lra).
  exists c, l', (duration c0); split; [auto|split; [auto|split; [auto|split; [auto|]]]].
  intros eps beta e d Eb M V EB BE BM N.
  assert (AE : Rabs e <= 1) by (apply Rabs_le; lra).
  assert (C := noisy_cost s th w phi l0 e d O X DS W AE); rewrite <- (exact_evolution _ _ _ _ _ _ _ X E0 D0).
  assert (Y : forall b, close_to b (noisy_evolution e d l0) (evolution l0) ->
    close_to ((Eb * w + M) * (duration c0 + / 2 ^ 42 / w) / 2 + ((3 + Rabs d / w) * rotation_accuracy th + b)) V (evolution l0)).
  { intros b B; eapply close_to_weaken; [|eapply L_FloatPipeline.close_trans; [apply (Q l0 DS eps beta e d Eb M V (proj1 EB) BE BM N)|exact B]]; lra. }
  destruct (scheme_distance _ _ _ _ _ _ _ E0 D0) as [S1 [S2 S3]].
  split; [|split].
  - apply Y; destruct (control_distance c0 l0 e d K0 D0) as [S0 _]; eapply close_to_weaken; [|exact S0].
    destruct (turned_bound c0 l0 w K0 D0 MX) as [_ TB]; assert (Rabs e * turned l0 <= Rabs e * (w * duration c0)) by (apply Rmult_le_compat_l; [apply Rabs_pos|auto]).
    lra.
  - intros ->; eapply close_to_weaken; [|exact (Y _ (S1 e (proj1 EB)))]; rewrite Rabs_R0; replace (0 / w) with 0 by (unfold Rdiv; ring); rewrite Rplus_0_r; apply Rle_refl.
  - intros DC [->|AO]; apply Y; [|apply S3; auto].
    eapply close_to_weaken; [|apply (S2 DC d)]; rewrite Rabs_R0, Rmult_0_l, Rplus_0_l, !Rpow_mult_distr, pow2_abs; lra.
Qed.
