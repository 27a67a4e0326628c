(** * Errors that stay near a constant *)

From Verif Require Import L_DriveControl L_RemainderControl L_Remainder L_Predefined L_Symmetry Spec_Remainder Spec_Drive.
From Verif Require Import L_FirstOrderFamilies L_FinitePulse L_PreConvert L_Requests L_FirstOrder L_FloatPipeline.
From Coq Require Import Lia.
Import ListNotations.
Set Bullet Behavior "Strict Subproofs".
Open Scope list_scope.
Open Scope R_scope.

Definition with_errors (e d : R) (g : seg) : seg := Seg ((1 + e) * g_rabi g) (g_phi g) (g_det g + d) (g_dur g).

Lemma with_errors_evolution e d l : evolution (map (with_errors e d) l) = noisy_evolution e d l.
Proof.
  unfold evolution; rewrite !noisy_evolution_qmat; f_equal; induction l as [|g l IH]; [reflexivity|].
  cbn [map qevolution]; rewrite IH; f_equal; unfold qnoisy, with_errors; cbn [g_rabi g_phi g_det g_dur]; f_equal; ring.
Qed.

Lemma with_errors_driven eps beta e d g t0 t1 V : 1 + e <> 0 -> driven eps beta g t0 t1 V ->
  driven (fun t => (eps t - e) / (1 + e)) (fun t => beta t - d) (with_errors e d g) t0 t1 V.
Proof.
  intros N [U [U0 [D U1]]]; exists U; split; [auto|split; [|auto]]; intros t; specialize (D t); cbn [with_errors g_rabi g_phi g_det].
  replace ((1 + (eps t - e) / (1 + e)) * ((1 + e) * g_rabi g) * cos (g_phi g)) with ((1 + eps t) * g_rabi g * cos (g_phi g)) by (field; auto).
  replace ((1 + (eps t - e) / (1 + e)) * ((1 + e) * g_rabi g) * sin (g_phi g)) with ((1 + eps t) * g_rabi g * sin (g_phi g)) by (field; auto).
  replace (g_det g + d + (beta t - d)) with (g_det g + beta t) by ring; exact D.
Qed.
Lemma with_errors_control eps beta e d l : 1 + e <> 0 -> forall t0 V, noisy_control eps beta t0 l V ->
  noisy_control (fun t => (eps t - e) / (1 + e)) (fun t => beta t - d) t0 (map (with_errors e d) l) V.
Proof.
  intros N; induction l as [|g l IH]; intros t0 V H; cbn [noisy_control map] in *; auto.
  destruct H as [V1 [V2 [H1 [H2 H3]]]]; exists V1, V2; cbn [with_errors g_dur]; split; [apply with_errors_driven; auto|split; auto].
Qed.

Lemma segments_drift l eps beta e d E M V : (forall g, In g l -> 0 <= g_rabi g /\ 0 <= g_dur g) -> -1 < e ->
  bounded_by (fun t => eps t - e) E 0 (total (map g_dur l)) -> bounded_by (fun t => beta t - d) M 0 (total (map g_dur l)) ->
  noisy_control eps beta 0 l V -> close_to ((E * turned l + M * total (map g_dur l)) / 2) V (noisy_evolution e d l).
Proof.
  intros P L BE BM N.
  assert (DM : map g_dur (map (with_errors e d) l) = map g_dur l) by (rewrite map_map; apply map_ext; reflexivity).
  assert (TM : total (map (fun g => g_rabi g * g_dur g) (map (with_errors e d) l)) = (1 + e) * turned l).
  { unfold turned; clear; induction l as [|g l IH]; cbn [map total]; [ring|]; rewrite IH; cbn [with_errors g_rabi g_dur]; ring. }
  rewrite <- with_errors_evolution.
  assert (H := control_near (fun t => (eps t - e) / (1 + e)) (fun t => beta t - d) (E / (1 + e)) M (map (with_errors e d) l)).
  assert (X : close_to ((M * total (map g_dur l) + E / (1 + e) * ((1 + e) * turned l)) / 2) V (evolution (map (with_errors e d) l))).
  { rewrite <- TM, <- DM; apply H with (t0 := 0).
    - intros g G; apply in_map_iff in G; destruct G as [g0 [<- G]]; destruct (P g0 G) as [A B]; cbn [with_errors g_rabi g_dur]; split; [apply Rmult_le_pos; lra|lra].
    - rewrite DM, Rplus_0_l; intros t T; unfold Rdiv; rewrite Rabs_mult, (Rabs_right (/ (1 + e))) by (left; apply Rinv_0_lt_compat; lra).
      apply Rmult_le_compat_r; [left; apply Rinv_0_lt_compat; lra|apply BE; auto].
    - rewrite DM, Rplus_0_l; exact BM.
    - apply with_errors_control; [lra|auto]. }
  replace ((E * turned l + M * total (map g_dur l)) / 2) with ((M * total (map g_dur l) + E / (1 + e) * ((1 + e) * turned l)) / 2) by (field; lra); exact X.
Qed.

Theorem control_drift c l eps beta e d E M V : constructible c -> describes l c -> -1 < e ->
  bounded_by (fun t => eps t - e) E 0 (duration c) -> bounded_by (fun t => beta t - d) M 0 (duration c) ->
  noisy_control eps beta 0 l V -> close_to ((E * turned l + M * duration c) / 2) V (noisy_evolution e d l).
Proof.
  intros K D L BE BM N; destruct (control_segments c l K D) as [_ [P [_ DU]]].
  assert (TD : total (map g_dur l) = duration c).
  { rewrite <- DU; clear; induction l as [|g l IH]; [reflexivity|]; cbn [time_total fold_right map total]; fold (time_total l); rewrite IH; reflexivity. }
  rewrite <- TD in *; apply (segments_drift l eps beta e d E M V); auto; intros g I; destruct (P g I); lra.
Qed.

Theorem scheme_drift s th w phi name c l eps beta e d E M V : build s th w phi name = Ok c -> describes l c -> -1 < e -> 0 <= E ->
  bounded_by (fun t => eps t - e) E 0 (duration c) -> bounded_by (fun t => beta t - d) M 0 (duration c) ->
  noisy_control eps beta 0 l V ->
  (d = 0 -> close_to ((E * w + M) * duration c / 2 + (Rabs e * (w * duration c) / 2) ^ S (amplitude_order s) / INR (fact (S (amplitude_order s)))) V (evolution l)) /\
  (detuning_cancels s th -> e = 0 \/ (1 <= amplitude_order s)%nat ->
   close_to ((E * w + M) * duration c / 2 + ((Rabs e * w + Rabs d) * duration c) ^ 2 / 8) V (evolution l)).
Proof.
  intros B D L E0 BE BM N; assert (K := build_constructible _ _ _ _ _ _ B); destruct (rates_and_duration _ _ _ _ _ _ _ B D) as [MX _].
  assert (C := control_drift c l eps beta e d E M V K D L BE BM N); destruct (turned_bound c l w K D MX) as [_ TB].
  assert (Y : forall b, close_to b (noisy_evolution e d l) (evolution l) -> close_to ((E * w + M) * duration c / 2 + b) V (evolution l)).
  { intros b H; eapply close_to_weaken; [|eapply close_trans; [exact C|exact H]].
    assert (E * turned l <= E * (w * duration c)) by (apply Rmult_le_compat_l; auto); lra. }
  destruct (scheme_distance _ _ _ _ _ _ _ B D) as [S1 [S2 S3]]; split.
  - intros ->; apply Y, S1; auto.
  - intros DC [->|AO]; apply Y; [|apply S3; auto].
    eapply close_to_weaken; [|apply (S2 DC d)]; rewrite Rabs_R0, Rmult_0_l, Rplus_0_l, !Rpow_mult_distr, pow2_abs; lra.
Qed.

Theorem sequence_drift r T n0 s maxr maxd mn name c segs eps beta e d E M V : / 10 ^ 8 < T ->
  build_sequence r T false n0 = Ok s ->
  convert_dds_to_driven_control s maxr maxd mn name = Ok c -> describes segs c -> duration c = T ->
  balanced_detuning r -> balanced_amplitude r -> -1 < e ->
  bounded_by (fun t => eps t - e) E 0 T -> bounded_by (fun t => beta t - d) M 0 T ->
  noisy_control eps beta 0 segs V ->
  close_to ((E * turned segs + M * T) / 2 + (Rabs e * turned segs + Rabs d * T) ^ 2 / 8) V (evolution segs).
Proof.
  intros HT B C D DU BD BA L BE BM N; eapply close_trans; [|eapply sequence_distance; eauto].
  rewrite <- DU in *; apply (control_drift c segs eps beta e d E M V); auto; eapply convert_constructible; eauto.
Qed.
