(** * Gaussian controls from the request to the file *)

From Verif Require Import L_DriftFiles L_Drift L_DriveControl L_RemainderControl L_Remainder Spec_Remainder Spec_Drive L_ExtendedDriven.
From Verif Require Import L_Text L_QuatNorm L_FloatExport L_FloatFiles L_Gaussian L_FloatControls L_FloatGaussian.
From Coq Require Import Lia.
Import ListNotations.
Set Bullet Behavior "Strict Subproofs".
Open Scope string_scope.
Open Scope list_scope.
Open Scope R_scope.

(** ** Any control *)

Lemma reread_rate m r : 0 < m -> 0 <= r -> 0 <= m * binary64 (r / m) <= r * (1 + / 2 ^ 53) + m * / 2 ^ 1075.
Proof.
  intros M R0; split.
  - apply Rmult_le_pos; [lra|]; rewrite <- (L_Float.rnd_format 0) by apply L_Float.format_0; apply L_Float.rnd_mono.
    apply Rmult_le_pos; [auto|left; apply Rinv_0_lt_compat; auto].
  - destruct (ratio_restored r m M R0) as [A _]; rewrite (Rabs_pos_eq r) in A by auto; apply Rabs_le_between in A; unfold Rdiv in A |- *; lra.
Qed.

Lemma reread_turned m l : 0 < m -> (forall g, In g l -> 0 <= g_rabi g /\ 0 <= g_dur g) ->
  total (map (fun g => g_rabi g * g_dur g) (map (reread_segment m) l)) <=
    total (map (fun g => g_rabi g * g_dur g) l) * (1 + / 2 ^ 53) + m * total (map g_dur l) * / 2 ^ 1075.
Proof.
  intros M; generalize (fun r => reread_rate m r M); generalize (/ 2 ^ 53), (/ 2 ^ 1075); intros a b RR.
  induction l as [|g l IH]; intros P; cbn [map total]; [lra|]; specialize (IH (fun x I => P x (or_intror I))).
  destruct (P g (or_introl eq_refl)) as [P1 P2]; destruct (RR _ P1) as [_ B]; cbn [reread_segment g_rabi g_dur].
  assert (m * binary64 (g_rabi g / m) * g_dur g <= (g_rabi g * (1 + a) + m * b) * g_dur g) by (apply Rmult_le_compat_r; auto); lra.
Qed.

Theorem drifting_control_file hsin hcos dir c l m f :
  constructible c -> describes l c -> is_maximum m (map g_rabi l) -> 0 < m -> (forall g, In g l -> finite_segment g) ->
  exists l', file_holds f (fl_export_to_file binary64 hsin hcos dir c f FILE_FORMAT_QCTRL FILE_TYPE_JSON CYLINDRICAL) l' (dc_name c) /\
    map g_dur l' = map g_dur l /\
    forall eps beta e d E M V, -1 < e ->
      bounded_by (fun t => eps t - e) E 0 (total (map g_dur l)) -> bounded_by (fun t => beta t - d) M 0 (total (map g_dur l)) ->
      noisy_control eps beta 0 l' V ->
      close_to ((E * (turned l * (1 + / 2 ^ 53) + m * total (map g_dur l) * / 2 ^ 1075) + M * total (map g_dur l)) / 2 + file_cost e m l)
        V (noisy_evolution e d l).
Proof.
  intros K D X P FS; exists (map (reread_segment m) l).
  assert (SB := fun g => segment_bounds c l m K D X g).
  assert (DU : map g_dur (map (reread_segment m) l) = map g_dur l) by (rewrite map_map; apply map_ext; reflexivity).
  split; [|split; [exact DU|]].
  - do 2 eexists; split; [apply (fl_json_written binary64 hsin hcos false dir c l m f D X)|].
    split; [unfold fs_write; rewrite String.eqb_refl; reflexivity|].
    assert (W := fun x => cylindrical_printable hsin hcos c l m K D X P FS x).
    destruct (json_text_of_control (json_floatstr binary64) (float_repr binary64) read_float _ (fun x I => proj1 (written_number _ x W I))) as [_ [Z Y]].
    split; [exact Z|]; unfold exported_text; rewrite (Y (fun x I => proj2 (written_number _ x W I))); apply cylindrical_read; auto.
  - intros eps beta e d E M V L BE BM N; rewrite <- DU in BE, BM.
    assert (NN : forall g, In g (map (reread_segment m) l) -> 0 <= g_rabi g /\ 0 <= g_dur g).
    { intros g' I'; apply in_map_iff in I'; destruct I' as [g [<- I]]; destruct (SB g I) as [A B]; cbn [reread_segment g_rabi g_dur].
      split; [apply reread_rate; lra|lra]. }
    assert (EP : 0 <= E).
    { eapply Rle_trans; [apply Rabs_pos|apply (BE 0)]; split; [lra|]; apply L_FloatPipeline.total_nonneg; intros g I; apply NN; auto. }
    eapply close_to_weaken; [|eapply L_FloatPipeline.close_trans; [exact (segments_drift _ eps beta e d E M V NN L BE BM N)|]].
    2:{ rewrite !noisy_evolution_qmat; apply qnear_close, (reread_evolution c l m K D X P), incl_refl. }
    rewrite DU; apply Rplus_le_compat_r.
    assert (T1 := reread_turned m l P (fun g I => conj (proj1 (proj2 (SB g I))) (Rlt_le _ _ (proj1 (SB g I))))); unfold turned in *.
    assert (Y := Rmult_le_compat_l E _ _ EP T1); lra.
Qed.

(** ** The numbers of a Gaussian control *)

Lemma gaussian_rounded fs fe omega T f dt ms segments x :
  fl_gaussian_segments binary64 fs fe float_pi omega T f dt ms = Ok segments -> In (Fin x) segments -> binary64_format x.
Proof.
  assert (FR : forall y, binary64_format (binary64 y)) by (intros; apply L_Float.format_rnd).
  unfold fl_gaussian_segments; destruct (neqb f 0); cbv zeta; destruct (np_amax _) as [a|]; cbn [bind]; try discriminate;
    intros E; injection E as <-; intros I; apply in_map_iff in I; destruct I as [v [E _]].
  - unfold fl_xdiv in E; destruct (xdiv _ _); try discriminate; injection E as <-; apply FR.
  - injection E as <-; apply FR.
Qed.

Lemma gaussian_stored fs fe omega m T f c :
  fl_new_modulated_gaussian_control binary64 fs fe float_pi omega m T f = Ok c -> stored_numbers c /\ constructible c /\ dc_name c = None.
Proof.
  unfold fl_new_modulated_gaussian_control.
  repeat match goal with |- bind (check_arguments ?b ?s ?x ?e) _ = _ -> _ =>
    destruct b; [rewrite (check_true true s x e eq_refl); cbn [bind]|discriminate] end.
  cbv zeta; destruct (fl_gaussian_segments _ _ _ _ _ _ _ _ _) as [segments|] eqn:S; cbn [bind]; [|discriminate].
  destruct (all_finite segments) as [segs|] eqn:A; [|discriminate]; apply all_finite_some in A; intros E; split; [|split].
  - assert (FS : forall x, In x segs -> binary64_format x).
    { intros x I; eapply gaussian_rounded; [exact S|]; rewrite A; apply in_map; auto. }
    apply DrivenControl_fields in E; subst c; intros x; cbn [rabi_rates azimuthal_angles detunings durations].
    intros [I|[I|[I|I]]].
    + apply in_map_iff in I; destruct I as [v [<- I]]; apply Flocq.Core.Generic_fmt.generic_format_abs, FS; auto.
    + apply in_map_iff in I; destruct I as [v [<- I]]; destruct (leb 0 v); [apply L_Float.format_0|apply format_pi].
    + unfold np_zeros in I; apply repeat_spec in I; subst x; apply L_Float.format_0.
    + apply repeat_spec in I; subst x; apply L_Float.format_rnd.
  - do 5 eexists; exact E.
  - apply DrivenControl_fields in E; subst c; reflexivity.
Qed.

Lemma signed_finite c dt vs B : stored_numbers c -> describes (map (float_signed_seg dt) vs) c -> Rabs dt < 2 ^ 1024 -> B < 2 ^ 1024 ->
  (forall v, In v vs -> Rabs v <= B) -> forall g, In g (map (float_signed_seg dt) vs) -> finite_segment g.
Proof.
  intros SN [D1 [D2 [D3 D4]]] DT BB VB g I.
  assert (BP : 8 <= 2 ^ 1024) by (replace 8 with (2 ^ 3) by ring; apply Rle_pow; [lra|lia]).
  assert (FPB := float_pi_bound); assert (P := PI_bounds); replace (10 ^ 16) with 10000000000000000 in FPB by ring.
  assert (F1 : binary64_format (g_rabi g)) by (apply SN; left; rewrite D1; apply in_map; auto).
  assert (F2 : binary64_format (g_phi g)) by (apply SN; right; left; rewrite D2; apply in_map; auto).
  assert (F3 : binary64_format (g_det g)) by (apply SN; right; right; left; rewrite D3; apply in_map; auto).
  assert (F4 : binary64_format (g_dur g)) by (apply SN; right; right; right; rewrite D4; apply in_map; auto).
  apply in_map_iff in I; destruct I as [v [<- I]]; specialize (VB v I); unfold finite_segment, finite_binary64; revert BP BB DT; generalize (2 ^ 1024); intros X BP BB DT.
  repeat split; auto; cbn [float_signed_seg g_rabi g_phi g_det g_dur].
  - rewrite Rabs_Rabsolu; lra.
  - destruct (Rle_dec 0 v); [rewrite Rabs_R0; lra|apply Rabs_def1; lra].
  - rewrite Rabs_R0; lra.
Qed.

Lemma signed_durations dt vs : total (map g_dur (map (float_signed_seg dt) vs)) = INR (List.length vs) * dt.
Proof. induction vs as [|v vs IH]; cbn [map total List.length]; [cbn; ring|rewrite IH, S_INR; cbn [float_signed_seg g_dur]; ring]. Qed.
Lemma signed_turned dt vs : turned (map (float_signed_seg dt) vs) = total (map Rabs vs) * dt.
Proof. unfold turned; induction vs as [|v vs IH]; cbn [map total]; [ring|rewrite IH; cbn [float_signed_seg g_rabi g_dur]; ring]. Qed.

Lemma step_total omega m T n : gaussian_floats omega m T -> m < T -> 2 <= INR n <= 2 ^ 40 ->
  0 < binary64 (T / INR n) /\ Rabs (INR n * binary64 (T / INR n) - T) <= T / 2 ^ 53.
Proof.
  intros G L N; destruct (inputs_range _ _ _ G L) as [HT _]; split; [apply step_pos; auto; apply HT|].
  assert (A := step_acc T n (proj1 HT) N); unfold L_Float.acc in A.
  replace (INR n * binary64 (T / INR n) - T) with (INR n * (binary64 (T / INR n) - T / INR n)) by (field; lra).
  rewrite Rabs_mult, (Rabs_pos_eq (INR n)) by lra.
  apply Rle_trans with (INR n * (1 * L_Float.eps * (T / INR n))); [apply Rmult_le_compat_l; [lra|exact A]|].
  right; unfold L_Float.eps; field; lra.
Qed.

Lemma total_abs_le b vs : (forall v, In v vs -> Rabs v <= b) -> total (map Rabs vs) <= INR (List.length vs) * b.
Proof.
  induction vs as [|v vs IH]; intros H; cbn [map total List.length]; [cbn; lra|rewrite S_INR].
  specialize (IH (fun x I => H x (or_intror I))); assert (Rabs v <= b) by (apply H; left; auto); lra.
Qed.

Theorem gaussian_modulated_file fsin fexp_ hsin hcos omega m T f c dir file :
  accurate_exp fexp_ -> accurate_sine fsin -> gaussian_floats omega m T ->
  / 2 ^ 200 <= Rabs f -> Rabs f * T <= 2 ^ 12 ->
  fl_new_modulated_gaussian_control binary64 fsin fexp_ float_pi omega m T f = Ok c ->
  exists n, nearly_ceiling (T / m) n /\
    forall peak, is_maximum peak (samples (signal f T) T n) -> 4 * sample_error f T <= peak ->
    exists l', file_holds file (fl_export_to_file binary64 hsin hcos dir c file FILE_FORMAT_QCTRL FILE_TYPE_JSON CYLINDRICAL) l' None /\
      List.length l' = n /\ Rabs (total (map g_dur l') - T) <= T / 2 ^ 53 /\
      forall eps beta e E M V, -1 < e ->
        bounded_by (fun t => eps t - e) E 0 (total (map g_dur l')) -> bounded_by beta M 0 (total (map g_dur l')) ->
        noisy_control eps beta 0 l' V ->
        close_to (3 * (1 + e) * omega * T * (sample_error f T / peak) + (E * omega * T + M * T * (1 + / 2 ^ 53) / 2)) V mone.
Proof.
  intros AE AS G HF HG H; assert (FR := float_gaussian_closed _ _ _ _ _ _ _ H).
  assert (L : m < T) by apply FR; destruct (inputs_range _ _ _ G L) as [HT HW].
  destruct (float_count _ _ _ G L) as [n [EN [C [N2 N]]]]; exists n; split; [auto|].
  intros peak PK B; destruct (float_modulated_built fsin fexp_ omega m T f n peak AE AS G HF HG FR EN PK B) as [vs [c' [E [D [LV F]]]]].
  rewrite H in E; injection E as <-.
  destruct (gaussian_stored _ _ _ _ _ _ _ H) as [SN [K NM]].
  destruct (float_gaussian_counted fsin fexp_ omega m T f c _ AE AS G HF HG H D) as [n' [C' [_ [_ CL]]]].
  rewrite EN in C'; subst n'.
  destruct (CL peak PK B) as [_ [_ [_ [_ CLOSE]]]]; clear CL.
  assert (EP := error_pos T f HT); assert (ES0 := L_Float.eps_pos); assert (P0 : 0 < peak) by lra.
  assert (T0 : 0 < T) by (assert (Z := L_Float.inv_pow_pos 200); lra); assert (W0 : 0 < omega) by (assert (Z := L_Float.inv_pow_pos 200); lra).
  destruct (step_total omega m T n G L N) as [D0 DT]; set (dt := binary64 (T / INR n)) in *; set (l := map (float_signed_seg dt) vs) in *.
  assert (VB : forall v, In v vs -> Rabs v <= 1.7 * omega) by (intros v V; destruct (Forall2_left _ _ _ _ F V) as [y [_ [_ A]]]; exact A).
  assert (DN : total (map g_dur l) = INR n * dt) by (unfold l; rewrite signed_durations, LV; reflexivity).
  assert (NDT : INR n * dt <= 1.001 * T).
  { apply Rabs_le_between in DT; assert (T / 2 ^ 53 <= T / 1024) by (unfold Rdiv; apply Rmult_le_compat_l; [lra|apply Rinv_le_contravar; lra]); lra. }
  assert (DTT : dt <= T) by (assert (2 * dt <= INR n * dt) by (apply Rmult_le_compat_r; lra); lra).
  assert (TW : turned l <= 1.7 * omega * (INR n * dt)).
  { unfold l; rewrite signed_turned; assert (Z := total_abs_le _ vs VB); rewrite LV in Z; apply Rmult_le_compat_r with (r := dt) in Z; lra. }
  assert (B9 : 2 ^ 202 < 2 ^ 1024) by (apply Rlt_pow; [lra|lia]); assert (B8 : 2 ^ 202 = 4 * 2 ^ 200) by (change 202%nat with (2 + 200)%nat; rewrite pow_add; ring).
  assert (FS : forall g, In g l -> finite_segment g).
  { apply (signed_finite c dt vs (1.7 * omega) SN D); [rewrite Rabs_pos_eq by lra; lra|lra|exact VB]. }
  assert (EX : exists v, In v vs /\ omega / 4 <= v).
  { destruct PK as [PI_ _]; destruct (Forall2_right _ _ _ _ F PI_) as [v [V [A _]]]; exists v; split; auto.
    assert (Q : sample_error f T / peak <= / 4) by (apply (Rmult_le_reg_r peak); auto; unfold Rdiv; rewrite Rmult_assoc, Rinv_l by lra; lra).
    replace (omega * peak / peak) with omega in A by (field; lra); apply Rabs_le_between in A.
    assert (omega * (2.7 * (sample_error f T / peak)) <= omega * (2.7 * / 4)) by (apply Rmult_le_compat_l; lra); lra. }
  destruct EX as [v0 [V0 V1]].
  assert (NE : map g_rabi l <> []) by (unfold l; rewrite map_map; destruct vs; [destruct V0|discriminate]).
  destruct (maximum_exists _ NE) as [mx MX].
  assert (MB : 0 < mx <= 1.7 * omega).
  { destruct MX as [M1 M2]; split.
    - apply Rlt_le_trans with (Rabs v0); [rewrite Rabs_pos_eq; lra|]; apply M2; unfold l; rewrite map_map; apply (in_map (fun v => Rabs v) _ _ V0).
    - unfold l in M1; rewrite map_map in M1; apply in_map_iff in M1; destruct M1 as [v [<- I]]; apply VB; auto. }
  destruct (drifting_control_file hsin hcos dir c l mx file K D MX (proj1 MB) FS) as [l' [FH [DU Q]]].
  exists l'; rewrite NM in FH; split; [exact FH|].
  assert (DT' : total (map g_dur l') = INR n * dt) by (rewrite DU; exact DN).
  split; [rewrite <- (map_length g_dur l'), DU, map_length; unfold l; rewrite map_length; exact LV|].
  split; [rewrite DT'; exact DT|]; rewrite DT', DN in *; intros eps beta e E M V EB BE BM N'.
  assert (BM' : bounded_by (fun t => beta t - 0) M 0 (INR n * dt)) by (intros t I; rewrite Rminus_0_r; apply BM; auto).
  assert (ND0 : 0 <= INR n * dt) by (apply Rmult_le_pos; lra).
  assert (E0 : 0 <= E) by (eapply Rle_trans; [apply Rabs_pos|apply (BE 0)]; lra).
  assert (M0 : 0 <= M) by (eapply Rle_trans; [apply Rabs_pos|apply (BM 0)]; lra).
  eapply close_to_weaken; [|eapply L_FloatPipeline.close_trans; [apply (Q eps beta e 0 E M V EB BE BM' N')|apply (CLOSE e EB)]].
  assert (P1 : peak <= 1).
  { destruct (proj1 (in_samples (signal f T) T n peak) (proj1 PK)) as [i [I ->]].
    assert (Z := proj2 (modulated_error fsin fexp_ T n f AE AS HT N HF HG i I)); apply Rabs_le_between in Z; lra. }
  assert (ES : 0 < L_Float.eps <= / 1024) by (unfold L_Float.eps; lra).
  assert (QQ : 512 * L_Float.eps <= sample_error f T / peak).
  { apply (Rmult_le_reg_r peak); auto; replace (sample_error f T / peak * peak) with (sample_error f T) by (field; lra); nra. }
  set (q := sample_error f T / peak) in *; clearbody q.
  assert (S75 : 0 < / 2 ^ 1075 <= L_Float.eps).
  { split; [apply L_Float.inv_pow_pos|]; replace L_Float.eps with (/ 2 ^ 53) by (unfold L_Float.eps; field); apply L_Float.inv_pow_le; lia. }
  assert (S76 : / 2 ^ 1076 <= L_Float.eps).
  { replace L_Float.eps with (/ 2 ^ 53) by (unfold L_Float.eps; field); apply L_Float.inv_pow_le; lia. }
  unfold file_cost; fold (turned l); rewrite DN, (Rabs_pos_eq (1 + e)) by lra.
  replace (turned l / 2 ^ 54) with (turned l * (L_Float.eps / 2)) by (unfold L_Float.eps; field).
  replace (/ 2 ^ 53) with L_Float.eps by (unfold L_Float.eps; field).
  unfold Rdiv at 3; revert S75 S76; generalize (/ 2 ^ 1075), (/ 2 ^ 1076); intros a b S75 S76.
  set (D' := INR n * dt) in *; set (U := omega * T).
  assert (U0 : 0 < U) by (apply Rmult_lt_0_compat; auto).
  assert (OD : omega * D' <= 1.001 * U) by (unfold U; assert (omega * D' <= omega * (1.001 * T)) by (apply Rmult_le_compat_l; lra); lra).
  assert (MD : 0 <= mx * D' <= 1.702 * U).
  { split; [apply Rmult_le_pos; lra|]; assert (mx * D' <= 1.7 * omega * D') by (apply Rmult_le_compat_r; lra); lra. }
  assert (TL : 0 <= turned l <= 1.702 * U).
  { split; [|lra]; unfold turned; apply L_FloatPipeline.total_nonneg; intros g I; apply in_map_iff in I; destruct I as [v [<- I]].
    cbn [float_signed_seg g_rabi g_dur]; apply Rmult_le_pos; [apply Rabs_pos|lra]. }
  assert (Y1 : mx * D' * a <= 1.702 * U * / 1024) by (apply Rmult_le_compat; lra).
  assert (Y2 : turned l * (1 + L_Float.eps) <= 1.702 * U * (1 + / 1024)) by (apply Rmult_le_compat; lra).
  assert (Y3 : E * (turned l * (1 + L_Float.eps) + mx * D' * a) <= E * (2 * U)) by (apply Rmult_le_compat_l; lra).
  assert (Y4 : M * D' <= M * T * (1 + L_Float.eps)).
  { apply Rabs_le_between in DT; assert (M * D' <= M * (T + T / 2 ^ 53)) by (apply Rmult_le_compat_l; lra); unfold L_Float.eps; lra. }
  assert (Y5 : mx * D' * b <= 1.702 * U * L_Float.eps).
  { apply Rle_trans with (mx * D' * L_Float.eps); [apply Rmult_le_compat_l; lra|apply Rmult_le_compat_r; lra]. }
  assert (Y6 : turned l * (L_Float.eps / 2) <= 1.702 * U * (L_Float.eps / 2)) by (apply Rmult_le_compat_r; lra).
  assert (Y7 : U * (512 * L_Float.eps) <= U * q) by (apply Rmult_le_compat_l; lra).
  assert (Y8 : 0 <= U * L_Float.eps) by (apply Rmult_le_pos; lra).
  assert (Y9 : (1 + e) * (turned l * (L_Float.eps / 2) + mx * D' * b) <= (1 + e) * (U * q)) by (apply Rmult_le_compat_l; lra).
  replace (3 * (1 + e) * omega * T * q) with (2 * (1 + e) * omega * T * q + (1 + e) * (U * q)) by (unfold U; ring).
  replace (E * omega * T) with (E * U) by (unfold U; ring); lra.
Qed.

(** ** Zero frequency *)

Lemma in_total {A} (f : A -> R) x l : (forall y, In y l -> 0 <= f y) -> In x l -> f x <= total (map f l).
Proof.
  induction l as [|y l IH]; intros P; [intros []|]; assert (N := L_FloatPipeline.total_nonneg f l (fun z I => P z (or_intror I))).
  assert (Y := P y (or_introl eq_refl)); cbn [map total]; intros [<-|I]; [lra|]; specialize (IH (fun z J => P z (or_intror J)) I); lra.
Qed.
Lemma total_repeat x n : total (repeat x n) = INR n * x.
Proof. induction n as [|n IH]; cbn [repeat total]; [cbn; ring|rewrite IH, S_INR; ring]. Qed.

Lemma available_le omega T n peak : 0 < omega -> 0 < T -> 2 <= INR n -> is_maximum peak (samples (envelope T) T n) ->
  available_rotation omega T n peak <= omega * T.
Proof.
  intros W0 T0 N [P1 P2]; unfold available_rotation.
  assert (PP : 0 < peak) by (apply in_samples in P1; destruct P1 as [i [_ ->]]; apply exp_pos).
  assert (TL : total (samples (envelope T) T n) <= INR n * peak).
  { unfold samples in *; rewrite <- (seq_length n 0) at 2; revert P2; generalize (seq 0 n); induction l as [|i l IH]; intros P2; cbn [map total List.length]; [cbn; lra|].
    rewrite S_INR; specialize (IH (fun x I => P2 x (or_intror I))); specialize (P2 _ (or_introl eq_refl)); lra. }
  apply Rle_trans with (omega * (T / INR n) * INR n); [|right; field; lra].
  apply Rmult_le_compat_l; [apply Rmult_le_pos; [lra|]; left; apply Rdiv_lt_0_compat; lra|].
  apply (Rmult_le_reg_r peak); auto; unfold Rdiv; rewrite Rmult_assoc, Rinv_l by lra; lra.
Qed.

Theorem gaussian_zero_file fsin fexp_ hsin hcos omega m T c dir file :
  accurate_exp fexp_ -> gaussian_floats omega m T ->
  fl_new_modulated_gaussian_control binary64 fsin fexp_ float_pi omega m T 0 = Ok c ->
  exists n peak k l', nearly_ceiling (T / m) n /\ is_maximum peak (samples (envelope T) T n) /\ (1 <= k)%nat /\
    (k = 1%nat \/ 2 * PI * INR k <= available_rotation omega T n peak * (1 + / 2 ^ 43)) /\
    available_rotation omega T n peak < 2 * PI * INR (S k) * (1 + / 2 ^ 43) /\
    file_holds file (fl_export_to_file binary64 hsin hcos dir c file FILE_FORMAT_QCTRL FILE_TYPE_JSON CYLINDRICAL) l' None /\
    List.length l' = n /\ Rabs (total (map g_dur l') - T) <= T / 2 ^ 53 /\
    forall eps beta E M V,
      bounded_by eps E 0 (total (map g_dur l')) -> bounded_by beta M 0 (total (map g_dur l')) ->
      noisy_control eps beta 0 l' V ->
      close_to (PI * INR k / 2 ^ 45 + (E * (2 * PI * INR k) * (1 + / 2 ^ 45) + M * T * (1 + / 2 ^ 53)) / 2) V (mscale (RtoC ((-1) ^ k)) mone).
Proof.
  intros AE G H; assert (FR := float_gaussian_closed _ _ _ _ _ _ _ H).
  assert (L : m < T) by apply FR; destruct (inputs_range _ _ _ G L) as [HT HW].
  destruct (gaussian_stored _ _ _ _ _ _ _ H) as [SN [K NM]].
  destruct (L_DrivenControl.constructible_segments c K) as [l [D _]].
  destruct (float_gaussian_zero fsin fexp_ omega m T c l AE G H D) as [n [peak [k [C [N2 [PK [K1 [DUR [ANG [DET [LEN [RT [KL [KH [TT CL]]]]]]]]]]]]]]].
  assert (T0 : 0 < T) by (assert (Z := L_Float.inv_pow_pos 200); lra); assert (W0 : 0 < omega) by (assert (Z := L_Float.inv_pow_pos 200); lra).
  assert (N : 2 <= INR n <= 2 ^ 40).
  { split; [replace 2 with (INR 2) by (cbn; ring); apply le_INR; auto|].
    destruct G as [_ [_ [_ [_ [M1 [_ TM]]]]]]; assert (M0 : 0 < m) by (assert (Z := L_Float.inv_pow_pos 200); lra).
    assert (T / m <= 2 ^ 39) by (apply (Rmult_le_reg_r m); auto; unfold Rdiv; rewrite Rmult_assoc, Rinv_l by lra; lra).
    destruct C as [C _]; replace (2 ^ 40) with 1099511627776 by ring; replace (2 ^ 39) with 549755813888 in * by ring; lra. }
  destruct (step_total omega m T n G L N) as [D0 DT]; set (dt := binary64 (T / INR n)) in *.
  assert (D' := D); destruct D' as [D1 [D2 [D3 D4]]].
  assert (DN : total (map g_dur l) = INR n * dt) by (rewrite <- D4, DUR; apply total_repeat).
  assert (GD : forall g, In g l -> g_dur g = dt) by (intros g I; apply (in_map g_dur) in I; rewrite <- D4, DUR in I; apply repeat_spec in I; auto).
  assert (GR : forall g, In g l -> 0 < g_rabi g).
  { intros g I; apply (in_map g_rabi) in I; rewrite <- D1 in I; apply In_nth_error in I; destruct I as [i I]; apply (RT i _ I). }
  set (W := 2 * PI * INR k) in *; assert (P := PI_bounds).
  assert (KI : 1 <= INR k) by (replace 1 with (INR 1) by reflexivity; apply le_INR; auto).
  assert (W6 : 6 <= W) by (unfold W; apply Rle_trans with (2 * PI * 1); [lra|apply Rmult_le_compat_l; lra]).
  assert (ES : 0 < L_Float.eps <= / 1024) by (unfold L_Float.eps; lra).
  assert (TW : 0 <= turned l <= W * (1 + 128 * L_Float.eps)).
  { unfold turned; apply Rabs_le_between in TT; replace (W / 2 ^ 46) with (W * (128 * L_Float.eps)) in TT by (unfold L_Float.eps; field).
    split; [|lra]; apply L_FloatPipeline.total_nonneg; intros g I; apply Rmult_le_pos; [left; auto|rewrite GD by auto; lra]. }
  assert (AV := available_le omega T n peak W0 T0 (proj1 N) PK).
  assert (WT : 0 < omega * T <= 2 ^ 400).
  { split; [apply Rmult_lt_0_compat; auto|]; change 400%nat with (200 + 200)%nat; rewrite pow_add; apply Rmult_le_compat; lra. }
  assert (P4 : 8 <= 2 ^ 400) by (replace 8 with (2 ^ 3) by ring; apply Rle_pow; [lra|lia]).
  assert (WB : W <= 2 * 2 ^ 400).
  { destruct KL as [->|KL]; [unfold W; cbn [INR]; lra|]; eapply Rle_trans; [exact KL|].
    assert (I43 : 0 < / 2 ^ 43 <= 1) by (split; [apply L_Float.inv_pow_pos|rewrite <- Rinv_1; apply Rinv_le_contravar; [lra|apply pow_R1_Rle; lra]]).
    apply Rle_trans with (omega * T * (1 + / 2 ^ 43)); [apply Rmult_le_compat_r; lra|].
    apply Rle_trans with (omega * T * 2); [apply Rmult_le_compat_l; lra|lra]. }
  assert (NDT : T / 2 <= INR n * dt <= 1.001 * T).
  { apply Rabs_le_between in DT; assert (T / 2 ^ 53 <= T / 1024) by (unfold Rdiv; apply Rmult_le_compat_l; [lra|apply Rinv_le_contravar; lra]); lra. }
  assert (DTT : dt <= T) by (assert (2 * dt <= INR n * dt) by (apply Rmult_le_compat_r; lra); lra).
  assert (DL : / 2 ^ 241 <= dt).
  { apply (Rmult_le_reg_l (2 ^ 40)); [apply pow_lt; lra|]; apply Rle_trans with (/ 2 ^ 200 / 2).
    - right; replace (2 ^ 241) with (2 ^ 40 * (2 * 2 ^ 200)) by (change 241%nat with (40 + (1 + 200))%nat; rewrite !pow_add; ring).
      field; split; apply pow_nonzero; lra.
    - apply Rle_trans with (INR n * dt); [lra|apply Rmult_le_compat_r; lra]. }
  assert (RD : forall g, In g l -> g_rabi g * dt <= turned l).
  { intros g I; rewrite <- (GD g I); apply (in_total (fun g => g_rabi g * g_dur g)); auto; intros h J; apply Rmult_le_pos; [left; auto|rewrite GD by auto; lra]. }
  assert (RB : forall g, In g l -> g_rabi g <= 2 ^ 643).
  { intros g I; specialize (RD g I); assert (GP := GR g I); apply (Rmult_le_reg_r (/ 2 ^ 241)); [apply L_Float.inv_pow_pos|].
    apply Rle_trans with (g_rabi g * dt); [apply Rmult_le_compat_l; lra|]; apply Rle_trans with (2 ^ 402).
    - change 402%nat with (2 + 400)%nat; rewrite pow_add; assert (W * (128 * L_Float.eps) <= W * 1) by (apply Rmult_le_compat_l; unfold L_Float.eps; lra); lra.
    - right; change 643%nat with (402 + 241)%nat; rewrite pow_add; field; apply pow_nonzero; lra. }
  assert (B9 : 2 ^ 202 < 2 ^ 1024) by (apply Rlt_pow; [lra|lia]); assert (B8 : 2 ^ 202 = 4 * 2 ^ 200) by (change 202%nat with (2 + 200)%nat; rewrite pow_add; ring).
  assert (B7 : 2 ^ 643 < 2 ^ 1024) by (apply Rlt_pow; [lra|lia]).
  assert (FPB := float_pi_bound); replace (10 ^ 16) with 10000000000000000 in FPB by ring.
  assert (FS : forall g, In g l -> finite_segment g).
  { intros g I.
    assert (A0 : g_phi g = 0) by (apply (in_map g_phi) in I; rewrite <- D2, ANG in I; apply repeat_spec in I; auto).
    assert (A1 : g_det g = 0) by (apply (in_map g_det) in I; rewrite <- D3, DET in I; apply repeat_spec in I; auto).
    assert (F1 : binary64_format (g_rabi g)) by (apply SN; left; rewrite D1; apply in_map; auto).
    assert (F4 : binary64_format (g_dur g)) by (apply SN; right; right; right; rewrite D4; apply in_map; auto).
    assert (R1 := RB g I); assert (R2 := GR g I); rewrite (GD g I) in F4.
    unfold finite_segment, finite_binary64; rewrite A0, A1, (GD g I), Rabs_R0, (Rabs_pos_eq (g_rabi g)), (Rabs_pos_eq dt) by lra.
    assert (0 < 2 ^ 1024) by (apply pow_lt; lra); repeat split; auto; try apply L_Float.format_0; lra. }
  assert (NE : map g_rabi l <> []) by (rewrite <- D1; destruct (rabi_rates c); [cbn in LEN; lia|discriminate]).
  destruct (maximum_exists _ NE) as [mx MX].
  assert (MB : 0 < mx /\ mx * dt <= turned l).
  { destruct MX as [M1 _]; apply in_map_iff in M1; destruct M1 as [g [<- I]]; split; auto. }
  destruct (drifting_control_file hsin hcos dir c l mx file K D MX (proj1 MB) FS) as [l' [FH [DU Q]]].
  exists n, peak, k, l'; rewrite NM in FH; do 6 (split; [assumption|]).
  assert (DT' : total (map g_dur l') = INR n * dt) by (rewrite DU; exact DN).
  split; [rewrite <- (map_length g_dur l'), DU, <- D4, DUR; apply repeat_length|].
  split; [rewrite DT'; exact DT|]; rewrite DT', DN in *; intros eps beta E M V BE BM N'.
  assert (BE' : bounded_by (fun t => eps t - 0) E 0 (INR n * dt)) by (intros t I; rewrite Rminus_0_r; apply BE; auto).
  assert (BM' : bounded_by (fun t => beta t - 0) M 0 (INR n * dt)) by (intros t I; rewrite Rminus_0_r; apply BM; auto).
  assert (E0 : 0 <= E) by (eapply Rle_trans; [apply Rabs_pos|apply (BE 0)]; lra).
  assert (M0 : 0 <= M) by (eapply Rle_trans; [apply Rabs_pos|apply (BM 0)]; lra).
  eapply close_to_weaken; [|eapply L_FloatPipeline.close_trans; [apply (Q eps beta 0 0 E M V ltac:(lra) BE' BM' N')|exact CL]].
  assert (S75 : 0 < 2 ^ 40 * / 2 ^ 1075 <= L_Float.eps).
  { split; [apply Rmult_lt_0_compat; [apply pow_lt; lra|apply L_Float.inv_pow_pos]|].
    replace L_Float.eps with (/ 2 ^ 53) by (unfold L_Float.eps; field); apply Rle_trans with (/ 2 ^ 1035); [right|apply L_Float.inv_pow_le; lia].
    change 1075%nat with (40 + 1035)%nat; rewrite pow_add; field; split; apply pow_nonzero; lra. }
  assert (S76 : 0 < 2 ^ 40 * / 2 ^ 1076 <= L_Float.eps).
  { split; [apply Rmult_lt_0_compat; [apply pow_lt; lra|apply L_Float.inv_pow_pos]|].
    replace L_Float.eps with (/ 2 ^ 53) by (unfold L_Float.eps; field); apply Rle_trans with (/ 2 ^ 1036); [right|apply L_Float.inv_pow_le; lia].
    change 1076%nat with (40 + 1036)%nat; rewrite pow_add; field; split; apply pow_nonzero; lra. }
  assert (MD : 0 <= mx * (INR n * dt) <= 2 ^ 40 * turned l).
  { split; [apply Rmult_le_pos; lra|]; replace (mx * (INR n * dt)) with (INR n * (mx * dt)) by ring; apply Rmult_le_compat; try lra; apply Rmult_le_pos; lra. }
  unfold file_cost; fold (turned l); rewrite DN, Rplus_0_r, Rabs_R1, Rmult_1_l.
  replace (turned l / 2 ^ 54) with (turned l * (L_Float.eps / 2)) by (unfold L_Float.eps; field).
  replace (1 + / 2 ^ 45) with (1 + 256 * L_Float.eps) by (unfold L_Float.eps; field).
  replace (1 + / 2 ^ 53) with (1 + L_Float.eps) by (unfold L_Float.eps; field).
  assert (PK1 : PI * INR k / 2 ^ 46 = W * (64 * L_Float.eps)) by (unfold W, L_Float.eps; field); rewrite PK1.
  assert (PK2 : PI * INR k / 2 ^ 45 = W * (128 * L_Float.eps)) by (unfold W, L_Float.eps; field); rewrite PK2.
  assert (Z0 : 0 < / 2 ^ 1075) by apply L_Float.inv_pow_pos; assert (Z1 : 0 < / 2 ^ 1076) by apply L_Float.inv_pow_pos.
  unfold Rdiv at 3; revert S75 S76 MD Z0 Z1; generalize (/ 2 ^ 1075), (/ 2 ^ 1076), (2 ^ 40); intros a b z S75 S76 MD Z0 Z1.
  set (D5 := INR n * dt) in *; set (t := turned l) in *; clearbody t; set (ep := L_Float.eps) in *.
  assert (X1 : mx * D5 * a <= t * ep).
  { apply Rle_trans with (z * t * a); [apply Rmult_le_compat_r; lra|]; replace (z * t * a) with (t * (z * a)) by ring; apply Rmult_le_compat_l; lra. }
  assert (X2 : mx * D5 * b <= t * ep).
  { apply Rle_trans with (z * t * b); [apply Rmult_le_compat_r; lra|]; replace (z * t * b) with (t * (z * b)) by ring; apply Rmult_le_compat_l; lra. }
  assert (X3 : t * ep <= 2 * W * ep).
  { apply Rmult_le_compat_r; [lra|]; assert (W * (128 * ep) <= W * 1) by (apply Rmult_le_compat_l; lra); lra. }
  assert (X4 : 0 <= W * ep) by (apply Rmult_le_pos; lra).
  assert (X5 : E * (t * (1 + ep) + mx * D5 * a) <= E * (W * (1 + 256 * ep))) by (apply Rmult_le_compat_l; lra).
  assert (X6 : M * D5 <= M * T * (1 + ep)).
  { apply Rabs_le_between in DT; assert (M * D5 <= M * (T + T / 2 ^ 53)) by (apply Rmult_le_compat_l; lra); unfold ep, L_Float.eps; lra. }
  change (2 * PI * INR k) with W; lra.
Qed.
