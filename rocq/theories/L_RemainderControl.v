(** * Distances of noisy evolutions, for the controls a user can build *)

From Verif Require Import L_Remainder L_Predefined L_Symmetry Spec_Remainder.
From Verif Require Import L_FirstOrderFamilies L_FinitePulse L_PreConvert L_Requests L_FirstOrder L_ConvertProps.
From Coq Require Import Lia.
Import ListNotations.
Set Bullet Behavior "Strict Subproofs".
Open Scope list_scope.
Open Scope R_scope.

Lemma close_to_weaken a b U V : a <= b -> close_to a U V -> close_to b U V.
Proof. intros L [H1 [H2 [H3 [H4 [H5 [H6 [H7 H8]]]]]]]; repeat split; lra. Qed.

Lemma control_segments c l : constructible c -> describes l c ->
  Forall (fun g => 0 <= g_dur g) l /\ (forall g, In g l -> 0 < g_dur g /\ 0 <= g_rabi g) /\ turn_total l = turned l /\ time_total l = duration c.
Proof.
  intros K D; destruct (constructible_segments c K) as [l' [D' [U P]]]; rewrite <- (U l D) in *.
  assert (F : Forall (fun g => 0 < g_dur g /\ 0 <= g_rabi g) l) by (apply Forall_forall; exact P).
  split; [|split; [exact P|split]].
  - eapply Forall_impl; [|exact F]; cbv beta; intros g [G _]; lra.
  - clear - F; induction F as [|g l [G R] _ IH]; [reflexivity|]; unfold turned in *; cbn [turn_total fold_right map total]; fold (turn_total l).
    rewrite IH, Rabs_right by lra; reflexivity.
  - destruct D as [_ [_ [_ E]]]; unfold duration; rewrite np_sum_total, E; clear.
    induction l as [|g l IH]; [reflexivity|]; cbn [time_total fold_right map total]; fold (time_total l); rewrite IH; reflexivity.
Qed.

Theorem control_distance c l e d : constructible c -> describes l c ->
  close_to ((Rabs e * turned l + Rabs d * duration c) / 2) (noisy_evolution e d l) (evolution l) /\
  (amplitude_robust 1 l -> dephasing_robust 1 l ->
   close_to ((Rabs e * turned l + Rabs d * duration c) ^ 2 / 8) (noisy_evolution e d l) (evolution l)).
Proof. intros K D; destruct (control_segments c l K D) as [P [_ [<- <-]]]; apply joint_distance; auto. Qed.

Theorem control_distance_single c l : constructible c -> describes l c ->
  (amplitude_robust 1 l -> forall e, close_to ((e * turned l) ^ 2 / 8) (noisy_evolution e 0 l) (evolution l)) /\
  (dephasing_robust 1 l -> forall d, close_to ((d * duration c) ^ 2 / 8) (noisy_evolution 0 d l) (evolution l)).
Proof.
  intros K D; destruct (control_segments c l K D) as [P [_ [<- <-]]]; split; intros H x; [apply amplitude_distance|apply detuning_distance]; auto.
Qed.

Theorem turned_bound c l w : constructible c -> describes l c -> maximum_rabi_rate c = Ok w -> 0 <= turned l <= w * duration c.
Proof.
  intros K D M; destruct (control_segments c l K D) as [_ [P [_ <-]]].
  assert (MX : forall g, In g l -> g_rabi g <= w).
  { intros g G; apply amax_is_maximum in M; destruct M as [_ M]; apply M; destruct D as [-> _]; apply in_map; auto. }
  clear - P MX; induction l as [|g l IH]; unfold turned in *; cbn [time_total fold_right map total]; [lra|]; fold (time_total l).
  destruct IH as [L U]; [intros; apply P; right; auto|intros; apply MX; right; auto|].
  destruct (P g (or_introl eq_refl)) as [G R]; assert (Q := MX g (or_introl eq_refl)).
  assert (0 <= g_rabi g * g_dur g) by (apply Rmult_le_pos; lra); assert (g_rabi g * g_dur g <= w * g_dur g) by (apply Rmult_le_compat_r; lra); lra.
Qed.

Lemma convert_constructible s maxr maxd mn name c : convert_dds_to_driven_control s maxr maxd mn name = Ok c -> constructible c.
Proof.
  unfold convert_dds_to_driven_control; cbv zeta.
  repeat match goal with |- bind (check_arguments ?b ?s ?a ?e) _ = _ -> _ =>
    destruct b; [change (check_arguments true s a e) with (Ok tt); cbn [bind]|discriminate] end.
  unfold control_of_segments; intros E.
  match type of E with (if ?b then _ else _) = _ => destruct b end; do 5 eexists; exact E.
Qed.

Theorem sequence_distance r T n0 s maxr maxd mn name c segs e d : / 10 ^ 8 < T ->
  build_sequence r T false n0 = Ok s ->
  convert_dds_to_driven_control s maxr maxd mn name = Ok c -> describes segs c -> duration c = T ->
  balanced_detuning r -> balanced_amplitude r ->
  close_to ((Rabs e * turned segs + Rabs d * T) ^ 2 / 8) (noisy_evolution e d segs) (evolution segs).
Proof.
  intros HT B C D DU BD BA.
  assert (K : constructible c) by (eapply convert_constructible; eauto).
  assert (X : (dephasing_robust 1 segs <-> balanced_detuning r) /\ (amplitude_robust 1 segs <-> balanced_amplitude r)) by (eapply request_first_order; eauto).
  destruct X as [RD RA].
  rewrite <- DU; apply control_distance; auto; [apply RA|apply RD]; auto.
Qed.

Theorem resonant_control_distance c l k e : constructible c -> describes l c -> (forall g, In g l -> g_det g = 0) ->
  amplitude_robust k l -> -1 < e ->
  close_to ((Rabs e * turned l / 2) ^ S k / INR (fact (S k))) (noisy_evolution e 0 l) (evolution l).
Proof.
  intros K D Z A E; destruct (control_segments c l K D) as [P [PS [<- _]]]; apply resonant_distance; auto.
  apply Forall_forall; intros g G; split; [apply PS|apply Z]; auto.
Qed.

Theorem scheme_distance s th w phi name c l : build s th w phi name = Ok c -> describes l c ->
  (forall e, -1 < e ->
   close_to ((Rabs e * (w * duration c) / 2) ^ S (amplitude_order s) / INR (fact (S (amplitude_order s))))
     (noisy_evolution e 0 l) (evolution l)) /\
  (detuning_cancels s th -> forall d, close_to ((d * duration c) ^ 2 / 8) (noisy_evolution 0 d l) (evolution l)) /\
  (detuning_cancels s th -> (1 <= amplitude_order s)%nat -> forall e d,
   close_to (((Rabs e * w + Rabs d) * duration c) ^ 2 / 8) (noisy_evolution e d l) (evolution l)).
Proof.
  intros B D; assert (K := build_constructible _ _ _ _ _ _ B); destruct (rates_and_duration _ _ _ _ _ _ _ B D) as [M [G _]].
  assert (T := turned_bound c l w K D M); assert (A := scheme_amplitude_order _ _ _ _ _ _ _ B D); assert (Q := scheme_detuning_order _ _ _ _ _ _ _ B D).
  split; [|split].
  - intros e E; eapply close_to_weaken; [|apply (resonant_control_distance c l (amplitude_order s) e K D); auto].
    + apply Rmult_le_compat_r; [left; apply Rinv_0_lt_compat, INR_fact_lt_0|].
      assert (P := Rabs_pos e); assert (0 <= Rabs e * turned l) by (apply Rmult_le_pos; lra).
      assert (Rabs e * turned l <= Rabs e * (w * duration c)) by (apply Rmult_le_compat_l; lra).
      apply pow_incr; lra.
    + intros g I; apply G; auto.
    + apply A; left; lia.
  - intros C d; apply (control_distance_single c l K D); apply Q; auto.
  - intros C O e d; eapply close_to_weaken; [|apply (control_distance c l e d K D); [apply A; left; lia|apply Q; auto]].
    assert (P := Rabs_pos e); assert (0 <= Rabs e * turned l) by (apply Rmult_le_pos; lra).
    assert (Rabs e * turned l <= Rabs e * (w * duration c)) by (apply Rmult_le_compat_l; lra).
    assert (P' := Rabs_pos d); assert (0 <= duration c).
    { destruct (control_segments c l K D) as [F [_ [_ <-]]]; clear - F; induction F; cbn [time_total fold_right]; [lra|]; unfold time_total in *; lra. }
    assert (0 <= Rabs d * duration c) by (apply Rmult_le_pos; lra).
    apply Rmult_le_compat_r; [lra|]; apply pow_incr; split; [lra|]; lra.
Qed.
