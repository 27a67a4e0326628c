(** * C116: any control, and the Gaussian controls from the request, to the experiment with drifting errors *)

From Verif Require Import L_DriveExists.
From Verif Require Import L_DriftFiles L_Drift L_DriveControl L_RemainderControl L_Remainder Spec_Remainder Spec_Drive L_ExtendedDriven.
From Verif Require Import L_Text L_QuatNorm L_FloatExport L_FloatFiles L_Gaussian L_FloatControls L_FloatGaussian L_GaussianFiles.
From Coq Require Import Lia.
Import ListNotations.
Set Bullet Behavior "Strict Subproofs".
Open Scope string_scope.
Open Scope list_scope.
Open Scope R_scope.

(** C116: the JSON file of any control of finite binary64 numbers, read back and driven with errors that stay within [E] and [M] of the constants [e] and [d], is the control under [e] and [d] up to the deviation and the division by the maximum rate *)
Theorem C116_control :
  forall hsin hcos dir c l m f,
  constructible c -> describes l c -> is_maximum m (map g_rabi l) -> 0 < m -> (forall g, In g l -> finite_segment g) ->
  exists l', file_holds f (fl_export_to_file binary64 hsin hcos dir c f "Q-CTRL expanded" "JSON" "cylindrical") l' (dc_name c) /\
    map g_dur l' = map g_dur l /\
    forall eps beta e d E M V, -1 < e ->
      bounded_by (fun t => eps t - e) E 0 (total (map g_dur l)) -> bounded_by (fun t => beta t - d) M 0 (total (map g_dur l)) ->
      noisy_control eps beta 0 l' V ->
      close_to ((E * (turned l * (1 + / 2 ^ 53) + m * total (map g_dur l) * / 2 ^ 1075) + M * total (map g_dur l)) / 2 + file_cost e m l)
        V (noisy_evolution e d l).
Proof. exact drifting_control_file. Qed.
Print Assumptions C116_control.

(** C116: the file of the Gaussian control at zero frequency makes [k] whole turns, the largest number available, up to rounding and the errors *)
Theorem C116_zero_frequency :
  forall fsin fexp_ hsin hcos omega m T c dir file,
  accurate_exp fexp_ -> gaussian_floats omega m T ->
  fl_new_modulated_gaussian_control binary64 fsin fexp_ float_pi omega m T 0 = Ok c ->
  exists n peak k l', nearly_ceiling (T / m) n /\ is_maximum peak (samples (envelope T) T n) /\ (1 <= k)%nat /\
    (k = 1%nat \/ 2 * PI * INR k <= available_rotation omega T n peak * (1 + / 2 ^ 43)) /\
    available_rotation omega T n peak < 2 * PI * INR (S k) * (1 + / 2 ^ 43) /\
    file_holds file (fl_export_to_file binary64 hsin hcos dir c file "Q-CTRL expanded" "JSON" "cylindrical") l' None /\
    List.length l' = n /\ Rabs (total (map g_dur l') - T) <= T / 2 ^ 53 /\
    forall eps beta E M V,
      bounded_by eps E 0 (total (map g_dur l')) -> bounded_by beta M 0 (total (map g_dur l')) ->
      noisy_control eps beta 0 l' V ->
      close_to (PI * INR k / 2 ^ 45 + (E * (2 * PI * INR k) * (1 + / 2 ^ 45) + M * T * (1 + / 2 ^ 53)) / 2) V (mscale (RtoC ((-1) ^ k)) mone).
Proof. exact gaussian_zero_file. Qed.
Print Assumptions C116_zero_frequency.

(** C116: the file of the Gaussian control at a non-zero frequency leaves the qubit in place whatever the constant error [e] of the Rabi rate, when the largest sample is not of the size of the rounding errors *)
Theorem C116_modulated :
  forall fsin fexp_ hsin hcos omega m T f c dir file,
  accurate_exp fexp_ -> accurate_sine fsin -> gaussian_floats omega m T ->
  / 2 ^ 200 <= Rabs f -> Rabs f * T <= 2 ^ 12 ->
  fl_new_modulated_gaussian_control binary64 fsin fexp_ float_pi omega m T f = Ok c ->
  exists n, nearly_ceiling (T / m) n /\
    forall peak, is_maximum peak (samples (signal f T) T n) -> 4 * sample_error f T <= peak ->
    exists l', file_holds file (fl_export_to_file binary64 hsin hcos dir c file "Q-CTRL expanded" "JSON" "cylindrical") l' None /\
      List.length l' = n /\ Rabs (total (map g_dur l') - T) <= T / 2 ^ 53 /\
      forall eps beta e E M V, -1 < e ->
        bounded_by (fun t => eps t - e) E 0 (total (map g_dur l')) -> bounded_by beta M 0 (total (map g_dur l')) ->
        noisy_control eps beta 0 l' V ->
        close_to (3 * (1 + e) * omega * T * (sample_error f T / peak) + (E * omega * T + M * T * (1 + / 2 ^ 53) / 2)) V mone.
Proof. exact gaussian_modulated_file. Qed.
Print Assumptions C116_modulated.

(** four segments of a quarter *)
Lemma four_floats : gaussian_floats 100 (1 / 4) 1.
Proof.
  destruct noise_floats as [A [_ [B [C [D [E F]]]]]]; split; [auto|].
  assert (I := L_Float.inv_pow_le 2 200 ltac:(lia)); replace (/ 2 ^ 2) with (/ 4) in I by (f_equal; lra).
  split; [replace (1 / 4) with (IZR 1 * / 2 ^ 2) by (cbn [pow]; lra); apply dyadic; [reflexivity|lia]|].
  split; [auto|]; split; [auto|]; split; [lra|]; split; [auto|lra].
Qed.
Lemma four_count n : nearly_ceiling (1 / (1 / 4)) n -> n = 4%nat.
Proof. intros H; apply exactly_ceiling; [cbn; lra|]; replace (INR 4) with (1 / (1 / 4)) by (cbn; field); auto. Qed.

(** frequency 1, all Rabi rates off by one percent and by 1/100000 more per unit of time *)
Example C116_case : forall dir, exists c l' V,
  fl_new_modulated_gaussian_control binary64 (fun x => binary64 (sin x)) (fun x => binary64 (exp x)) float_pi 100 (1 / 4) 1 1 = Ok c /\
  file_holds "g.json" (fl_export_to_file binary64 (fun x => binary64 (sin x)) (fun x => binary64 (cos x)) dir c "g.json" "Q-CTRL expanded" "JSON" "cylindrical") l' None /\
  List.length l' = 4%nat /\ noisy_control (fun t => 1 / 100 + t / 100000) (fun _ => 0) 0 l' V /\ close_to (3 / 1000) V mone.
Proof.
  intros dir; assert (S : sample_error 1 1 = 9 / 2 ^ 47) by (unfold sample_error; rewrite Rabs_R1; lra).
  assert (V : / 10 <= signal 1 1 (midpoint 1 4 2)).
  { unfold signal, envelope, midpoint; cbn [INR]; replace (1 + 1 + 1 + 1) with 4 by ring; replace (1 + 1) with 2 by ring.
    replace ((2 + 1 / 2) * (1 / 4)) with (5 / 8) by field.
    replace (2 * PI * 1 * (5 / 8 - 1 / 2)) with (PI / 4) by field; rewrite sin_PI4.
    replace (- 50 * (5 / 8 / 1 - 1 / 2) ^ 2) with (- (25 / 32)) by field.
    assert (E1 : exp (- (1)) <= exp (- (25 / 32))) by (left; apply exp_increasing; lra).
    rewrite (exp_Ropp 1) in E1; assert (X3 := exp_le_3); assert (P1 := exp_pos 1).
    assert (E3 : / 3 <= / exp 1) by (apply Rinv_le_contravar; lra).
    assert (Q : / 2 <= 1 / sqrt 2).
    { unfold Rdiv; rewrite Rmult_1_l; apply Rinv_le_contravar; [apply sqrt_lt_R0; lra|].
      replace 2 with (sqrt (2 * 2)) at 2 by (apply sqrt_square; lra); apply sqrt_le_1_alt; lra. }
    nra. }
  assert (F0 : / 2 ^ 200 <= Rabs 1) by (rewrite Rabs_R1, <- Rinv_1; apply (L_Float.inv_pow_le 0 200); lia).
  assert (F1 : Rabs 1 * 1 <= 2 ^ 12) by (rewrite Rabs_R1; lra).
  assert (X : exists c, fl_new_modulated_gaussian_control binary64 (fun x => binary64 (sin x)) (fun x => binary64 (exp x)) float_pi 100 (1 / 4) 1 1 = Ok c).
  { destruct (float_gaussian_accepts _ _ 100 (1 / 4) 1 1 rounded_exp_accurate rounded_sine_accurate four_floats) as [_ [_ A]].
    destruct (A ltac:(lra) noise_reaches) as [n [C K]]; assert (N := four_count n C); rewrite N in K; apply K; right.
    split; [exact F0|]; split; [exact F1|]; exists 2%nat; split; [lia|]; apply Rle_trans with (2 := Rle_abs _); rewrite S; lra. }
  destruct X as [c B].
  destruct (C116_modulated _ _ (fun x => binary64 (sin x)) (fun x => binary64 (cos x)) 100 (1 / 4) 1 1 c dir "g.json" rounded_exp_accurate rounded_sine_accurate four_floats F0 F1 B)
    as [n [C K]]; assert (N := four_count n C); subst n.
  destruct (maximum_exists (samples (signal 1 1) 1 4) ltac:(discriminate)) as [peak PK].
  assert (P1 : / 10 <= peak) by (eapply Rle_trans; [exact V|]; apply PK; apply in_samples; exists 2%nat; split; [lia|reflexivity]).
  destruct (K peak PK ltac:(rewrite S; lra)) as [l' [F [LN [TT Q]]]].
  destruct (control_exists (fun t => 1 / 100 + t / 100000) (fun _ => 0) l') with (t0 := 0) as [U N].
  { intros t; apply @ex_derive_continuous; auto_derive; auto. }
  { intros t; apply continuous_const. }
  exists c, l', U; split; [exact B|split; [exact F|split; [exact LN|split; [exact N|]]]].
  apply Rabs_le_between in TT.
  assert (BE : bounded_by (fun t => 1 / 100 + t / 100000 - 1 / 100) (1 / 50000) 0 (total (map g_dur l'))) by (intros t B0; rewrite Rabs_right; lra).
  assert (BM : bounded_by (fun t => 0) 0 0 (total (map g_dur l'))) by (intros t B0; rewrite Rabs_R0; lra).
  eapply close_to_weaken; [|exact (Q _ _ (1 / 100) (1 / 50000) 0 U ltac:(lra) BE BM N)].
  assert (R1 : sample_error 1 1 / peak <= 90 / 2 ^ 47).
  { rewrite S; apply (Rmult_le_reg_r peak); [lra|]; replace (9 / 2 ^ 47 / peak * peak) with (9 / 2 ^ 47) by (field; lra); lra. }
  lra.
Qed.
