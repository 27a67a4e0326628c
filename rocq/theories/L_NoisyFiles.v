(** * Composite pulses from the request to the noisy experiment *)

From Verif Require Import L_RemainderControl L_Remainder L_Predefined L_Symmetry Spec_Remainder.
From Verif Require Import L_FloatFiles.
From Coq Require Import Lia.
Import ListNotations.
Set Bullet Behavior "Strict Subproofs".
Open Scope list_scope.
Open Scope R_scope.

Lemma exact_length s th w phi l0 : exact_scheme s -> design s th w phi l0 -> INR (List.length l0) <= 6.
Proof.
  intros X DS; replace 6 with (INR 6) by (cbn; ring); apply le_INR; destruct s; try contradiction; cbn [design] in DS;
    repeat match goal with H : exists _, _ |- _ => destruct H end; repeat match goal with H : _ /\ _ |- _ => destruct H end;
    subst l0; cbn; lia.
Qed.
Lemma exact_evolution s th w phi name c l : exact_scheme s -> build s th w phi name = Ok c -> describes l c -> evolution l = rotation th phi.
Proof.
  intros X E D; destruct s; try contradiction; cbn [build] in E.
  - apply (primitive_spec _ _ _ _ _ _ E D).
  - apply (bb1_spec _ _ _ _ _ _ E D).
  - apply (sk1_spec _ _ _ _ _ _ E D).
  - apply (corpse_spec _ _ _ _ _ _ E D).
  - apply (corpse_in_bb1_spec _ _ _ _ _ _ E D).
  - apply (corpse_in_sk1_spec _ _ _ _ _ _ E D).
Qed.

Lemma accuracy_low th : / 2 ^ 40 <= rotation_accuracy th.
Proof. unfold rotation_accuracy; destruct (Rle_dec _ _); [lra|apply Rinv_le_contravar; lra]. Qed.

Lemma axis_error_nonneg s th : 0 <= axis_error s th.
Proof.
  assert (P : forall n, 0 <= / 2 ^ n) by (intros; left; apply Rinv_0_lt_compat, pow_lt; lra).
  destruct s; cbn [axis_error]; try destruct (Rle_dec _ _); auto; lra.
Qed.

Lemma noisy_cost s th w phi l0 e d : ordinary_inputs s th w phi -> exact_scheme s -> design s th w phi l0 -> 0 < w -> Rabs e <= 1 ->
  float_cost s th w e d (List.length l0) + scheme_file_error e (List.length l0) <= (3 + Rabs d / w) * rotation_accuracy th.
Proof.
  intros O X DS W E.
  assert (B := float_cost_small s th w phi l0 O DS X); assert (N := exact_length s th w phi l0 X DS); assert (N0 := pos_INR (List.length l0)).
  assert (A := accuracy_low th); assert (RE : 0 < rotation_error) by (unfold rotation_error; apply Rinv_0_lt_compat, pow_lt; lra).
  assert (AE : 0 <= axis_error s th) by (apply axis_error_nonneg).
  assert (H1 : Rabs (1 + e) <= 2) by (apply Rabs_le_between in E; apply Rabs_le; lra).
  assert (D0 : 0 <= Rabs d / w) by (apply Rmult_le_pos; [apply Rabs_pos|left; apply Rinv_0_lt_compat; auto]).
  set (k := rotation_error + 14 * axis_error s th) in *.
  assert (K : INR (List.length l0) * k / 2 <= rotation_accuracy th).
  { eapply Rle_trans; [|exact B]; unfold float_cost; fold k; rewrite Rplus_0_r, Rabs_R1, Rabs_R0; unfold Rdiv; rewrite Rmult_0_l, Rmult_0_l, Rplus_0_r, Rmult_1_l; lra. }
  assert (C : float_cost s th w e d (List.length l0) <= (2 + Rabs d / w) * (INR (List.length l0) * k / 2)).
  { unfold float_cost; fold k; apply Rle_trans with (INR (List.length l0) * (2 * k + Rabs d / w * k) / 2); [|right; lra].
    apply Rmult_le_compat_r; [lra|]; apply Rmult_le_compat_l; auto; apply Rplus_le_compat; [apply Rmult_le_compat_r; unfold k; lra|].
    apply Rmult_le_compat_l; auto; unfold k; lra. }
  assert (C' : (2 + Rabs d / w) * (INR (List.length l0) * k / 2) <= (2 + Rabs d / w) * rotation_accuracy th) by (apply Rmult_le_compat_l; lra).
  assert (F : scheme_file_error e (List.length l0) <= rotation_accuracy th); [|lra].
  unfold scheme_file_error; assert (P := Rabs_pos (1 + e)).
  assert (Rabs (1 + e) * INR (List.length l0) <= 2 * 6) by (apply Rmult_le_compat; lra).
  replace (2 ^ 40) with 1099511627776 in A by ring; replace (2 ^ 50) with 1125899906842624 by ring; lra.
Qed.

Theorem noisy_file fsin fcos facos fasin hsin hcos s th w phi name dir f :
  accurate_trigonometry fsin fcos facos fasin -> ordinary_inputs s th w phi -> exact_scheme s ->
  exists c l' T, fl_build binary64 fsin fcos facos fasin float_pi s th w phi name = Ok c /\
    file_holds f (fl_export_to_file binary64 hsin hcos dir c f FILE_FORMAT_QCTRL FILE_TYPE_JSON CYLINDRICAL) l' name /\
    scheme_duration s th w T /\
    forall e d, -1 < e <= 1 ->
      close_to ((3 + Rabs d / w) * rotation_accuracy th + (Rabs e * w + Rabs d) * T / 2) (noisy_evolution e d l') (rotation th phi) /\
      (d = 0 -> close_to (3 * rotation_accuracy th + (Rabs e * (w * T) / 2) ^ S (amplitude_order s) / INR (fact (S (amplitude_order s))))
         (noisy_evolution e d l') (rotation th phi)) /\
      (detuning_cancels s th -> e = 0 \/ (1 <= amplitude_order s)%nat ->
       close_to ((3 + Rabs d / w) * rotation_accuracy th + ((Rabs e * w + Rabs d) * T) ^ 2 / 8) (noisy_evolution e d l') (rotation th phi)).
Proof.
  intros HT O X; destruct (float_scheme_file fsin fcos facos fasin hsin hcos s th w phi name dir f HT O) as [c [l' [E [F Q]]]].
  destruct (build_accepts s th w phi name (ordinary_accepts s th w phi O)) as [c0 [l0 [E0 [D0 [DS _]]]]].
  assert (K0 := build_constructible _ _ _ _ _ _ E0); destruct (rates_and_duration _ _ _ _ _ _ _ E0 D0) as [M [G [_ SD]]].
  exists c, l', (duration c0); split; [auto|split; [auto|split; [auto|]]].
  intros e d EB; assert (W : 0 < w) by (destruct O as [_ [_ [_ [[O _] _]]]]; eapply Rlt_le_trans; [|exact O]; apply Rinv_0_lt_compat, pow_lt; lra).
  assert (AE : Rabs e <= 1) by (apply Rabs_le; lra).
  assert (C := noisy_cost s th w phi l0 e d O X DS W AE); rewrite <- (exact_evolution _ _ _ _ _ _ _ X E0 D0).
  assert (Y : forall b, close_to b (noisy_evolution e d l0) (evolution l0) -> close_to ((3 + Rabs d / w) * rotation_accuracy th + b) (noisy_evolution e d l') (evolution l0)).
  { intros b B; eapply close_to_weaken; [|eapply L_FloatPipeline.close_trans; [apply (Q l0 DS e d)|exact B]]; lra. }
  destruct (scheme_distance _ _ _ _ _ _ _ E0 D0) as [S1 [S2 S3]].
  split; [|split].
  - apply Y; destruct (control_distance c0 l0 e d K0 D0) as [S0 _]; eapply close_to_weaken; [|exact S0].
    destruct (turned_bound c0 l0 w K0 D0 M) as [_ TB]; assert (Rabs e * turned l0 <= Rabs e * (w * duration c0)) by (apply Rmult_le_compat_l; [apply Rabs_pos|auto]).
    lra.
  - intros ->; assert (Z := Y _ (S1 e (proj1 EB))); rewrite Rabs_R0 in Z; unfold Rdiv in Z; rewrite Rmult_0_l, Rplus_0_r in Z; exact Z.
  - intros DC [->|AO]; apply Y; [|apply S3; auto].
    eapply close_to_weaken; [|apply (S2 DC d)]; rewrite Rabs_R0, Rmult_0_l, Rplus_0_l, !Rpow_mult_distr, pow2_abs; lra.
Qed.
