(** * Theorems: C120, first-order response of a control to noise *)

From Verif Require Import L_FastNoise L_Composite L_Symmetry.
From Verif Require Import L_DriveExists L_DriveControl L_RemainderControl L_Remainder Spec_Remainder Spec_Drive Spec_Response.
From Verif Require Import L_FirstOrderFamilies L_FinitePulse L_PreConvert L_Requests L_FirstOrder L_Response L_ResponseThms.
From Coq Require Import Lia.
Import ListNotations.
Set Bullet Behavior "Strict Subproofs".
Open Scope string_scope.
Open Scope list_scope.
Open Scope R_scope.

Lemma segments_of c l : constructible c -> describes l c -> (forall g, In g l -> 0 <= g_rabi g /\ 0 <= g_dur g) /\ total (map g_dur l) = duration c.
Proof.
  intros K D; destruct (control_segments c l K D) as [_ [P [_ DU]]]; split; [intros g I; destruct (P g I); lra|].
  rewrite <- DU; clear; induction l as [|g l IH]; [reflexivity|]; cbn [time_total fold_right map total]; fold (time_total l); rewrite IH; reflexivity.
Qed.

(** C120: for continuous errors the response of a control is defined and unique *)
Theorem C120_response :
  forall eps beta l t0, (forall t, continuous eps t) -> (forall t, continuous beta t) ->
  exists W, response eps beta t0 l W /\ forall W', response eps beta t0 l W' -> W' = W.
Proof.
  intros eps beta l t0 CE CB; destruct (response_exists eps beta l CE CB t0) as [W R].
  exists W; split; auto; intros W' R'; eapply response_unique; eauto.
Qed.
Print Assumptions C120_response.

(** C120: it gives the evolution under errors bounded by E and M up to their square, and is the generator of a rotation of bounded angle *)
Theorem C120_first_order :
  forall c l eps beta E M V W, constructible c -> describes l c ->
  bounded_by eps E 0 (duration c) -> bounded_by beta M 0 (duration c) ->
  noisy_control eps beta 0 l V -> response eps beta 0 l W ->
  close_to ((M * duration c + E * turned l) ^ 2 / 8) V (mmul (evolution l) (madd mone W)) /\
  exists x y z, W = mscale (0, -1) (hamiltonian x y z) /\ x ^ 2 + y ^ 2 + z ^ 2 <= (M * duration c + E * turned l) ^ 2.
Proof.
  intros c l eps beta E M V W K D BE BM N RS; destruct (segments_of c l K D) as [P TD]; rewrite <- TD in *.
  apply (first_order eps beta E M l 0 V W); auto; rewrite Rplus_0_l; auto.
Qed.
Print Assumptions C120_first_order.

(** C120: noise without a response changes the evolution only in second order *)
Theorem C120_cancelled :
  forall c l eps beta E M V, constructible c -> describes l c ->
  bounded_by eps E 0 (duration c) -> bounded_by beta M 0 (duration c) ->
  noisy_control eps beta 0 l V -> response eps beta 0 l mzero ->
  close_to ((M * duration c + E * turned l) ^ 2 / 8) V (evolution l).
Proof.
  intros c l eps beta E M V K D BE BM N RS; destruct (C120_first_order c l eps beta E M V mzero K D BE BM N RS) as [H _].
  replace (mmul (evolution l) (madd mone mzero)) with (evolution l) in H; auto.
  replace (madd mone mzero) with mone by (m_real; ring); rewrite mmul_1_r; auto.
Qed.
Print Assumptions C120_cancelled.

(** C120: it is linear in the errors *)
Theorem C120_linear :
  forall a b e1 b1 e2 b2 l t0 W1 W2, response e1 b1 t0 l W1 -> response e2 b2 t0 l W2 ->
  response (fun t => a * e1 t + b * e2 t) (fun t => a * b1 t + b * b2 t) t0 l (madd (mscale (RtoC a) W1) (mscale (RtoC b) W2)).
Proof. intros; apply response_linear; auto. Qed.
Print Assumptions C120_linear.

(** C120: it is the derivative of the evolution with respect to the strength of the noise *)
Theorem C120_derivative :
  forall c l eps beta E M V W, constructible c -> describes l c ->
  bounded_by eps E 0 (duration c) -> bounded_by beta M 0 (duration c) ->
  (forall s, noisy_control (fun t => s * eps t) (fun t => s * beta t) 0 l (V s)) -> response eps beta 0 l W ->
  m_derive V 0 (mmul (evolution l) W).
Proof.
  intros c l eps beta E M V W K D BE BM N RS; destruct (segments_of c l K D) as [P TD]; rewrite <- TD in *.
  apply (change_derivative eps beta E M l 0 V W); auto; rewrite Rplus_0_l; auto.
Qed.
Print Assumptions C120_derivative.

(** C120: a control cancels a constant detuning, or a constant error of the Rabi rate, to first order if and only if its response to it is zero *)
Theorem C120_constant :
  forall c l W, constructible c -> describes l c ->
  (response (fun _ => 0) (fun _ => 1) 0 l W -> dephasing_robust 1 l <-> W = mzero) /\
  (response (fun _ => 1) (fun _ => 0) 0 l W -> amplitude_robust 1 l <-> W = mzero).
Proof. intros c l W K D; destruct (segments_of c l K D) as [P _]; apply constant_criterion; auto. Qed.
Print Assumptions C120_constant.

(** C120: more generally, a control cancels any noise to first order in its strength if and only if its response to it is zero *)
Theorem C120_noise :
  forall c l eps beta E M V W, constructible c -> describes l c ->
  bounded_by eps E 0 (duration c) -> bounded_by beta M 0 (duration c) ->
  (forall s, noisy_control (fun t => s * eps t) (fun t => s * beta t) 0 l (V s)) -> response eps beta 0 l W ->
  flat 1 V <-> W = mzero.
Proof.
  intros c l eps beta E M V W K D BE BM N RS; destruct (segments_of c l K D) as [P TD]; rewrite <- TD in *.
  apply (noise_criterion eps beta E M l V W); auto.
Qed.
Print Assumptions C120_noise.

(** C120: the response of two parts played one after the other is the sum of the first and of the second seen through the evolution of the first; two parts that cancel a noise cancel it together *)
Theorem C120_parts :
  forall eps beta t0 l1 l2,
  (forall W, response eps beta t0 (l1 ++ l2) W <->
   exists W1 W2, response eps beta t0 l1 W1 /\ response eps beta (t0 + total (map g_dur l1)) l2 W2 /\
     W = madd W1 (mmul (madj (evolution l1)) (mmul W2 (evolution l1)))) /\
  (response eps beta t0 l1 mzero -> response eps beta (t0 + total (map g_dur l1)) l2 mzero -> response eps beta t0 (l1 ++ l2) mzero).
Proof.
  intros eps beta t0 l1 l2; split; [intros W; apply response_app|].
  intros H1 H2; apply response_app; exists mzero, mzero; split; [exact H1|split; [exact H2|]].
  rewrite frame_0, madd_0_m; reflexivity.
Qed.
Print Assumptions C120_parts.

(** a detuning of one percent of the drive that oscillates three times as fast as a pi pulse turns has no response: *)
Lemma third_harmonic b : response (fun _ => 0) (fun t => b * cos (3 * t)) 0 [Seg 1 0 0 PI] mzero.
Proof.
  cbn [response g_dur].
  set (w := fun t => Q4 0 0 (b / 2 * ((1 - cos (4 * t)) / 8 + (cos (2 * t) - 1) / 4)) (b / 2 * (sin (4 * t) / 8 + sin (2 * t) / 4))).
  exists (qmat (w (0 + PI))), mzero; split; [|split; [reflexivity|]].
  - apply response_quat; exists w; split; [|reflexivity]; split.
    + unfold w; rewrite !Rmult_0_r, cos_0, sin_0; apply q_eq; cbn; field.
    + intros t; assert (Q : qafter (Seg 1 0 0 PI) (t - 0) = Q4 (cos (t / 2)) (sin (t / 2)) 0 0).
      { unfold qafter; cbn [g_rabi g_phi g_det]; unfold qseg; rewrite sqrt_planar by lra.
        rewrite Rminus_0_r, cos_0, sin_0; apply q_eq; cbn [qa qb qc qd]; rewrite ?Rmult_1_l; unfold Rdiv; try ring.
        rewrite Rinv_1; ring. }
      rewrite Q; destruct (double_angle t) as [C1 S1].
      assert (C2 : cos (2 * t) = 1 - 2 * sin t * sin t) by apply cos_2a_sin.
      assert (S2 : sin (2 * t) = 2 * sin t * cos t) by apply sin_2a.
      assert (C3 : cos (3 * t) = cos (2 * t) * cos t - sin (2 * t) * sin t) by (rewrite <- cos_plus; f_equal; ring).
      assert (C4 : cos (4 * t) = 1 - 2 * sin (2 * t) * sin (2 * t)) by (replace (4 * t) with (2 * (2 * t)) by ring; apply cos_2a_sin).
      assert (S4 : sin (4 * t) = 2 * sin (2 * t) * cos (2 * t)) by (replace (4 * t) with (2 * (2 * t)) by ring; apply sin_2a).
      assert (SC := sin2_cos2 t); unfold Rsqr in SC.
      assert (SH := sin2_cos2 (t / 2)); unfold Rsqr in SH.
      split; [|split; [|split]]; cbn [w qham qconj qmul qa qb qc qd g_rabi g_phi].
      * auto_derive; auto; match goal with |- ?x = ?y => change (@eq R x y) end; field.
      * auto_derive; auto; match goal with |- ?x = ?y => change (@eq R x y) end; field.
      * auto_derive; auto; rewrite S4, S2, C3, C2; set (h := b * _).
        transitivity (h / 2 * sin t); [|rewrite S1; field].
        assert (CC : cos t * cos t = 1 - sin t * sin t) by lra; unfold h; rewrite ?S2, ?C2; field [CC].
      * auto_derive; auto; rewrite C4, C3, C2; set (h := b * _).
        transitivity (h / 2 * cos t); [|rewrite C1; field].
        assert (CC : cos t * cos t = 1 - sin t * sin t) by lra; unfold h; rewrite ?S2, ?C2; field [CC].
  - assert (W0 : w (0 + PI) = qzero).
    { unfold w; replace (4 * (0 + PI)) with (0 + 2 * INR 2 * PI) by (simpl INR; ring); replace (2 * (0 + PI)) with (0 + 2 * INR 1 * PI) by (simpl INR; ring).
      rewrite !cos_period, !sin_period, cos_0, sin_0; apply q_eq; cbn [qzero qa qb qc qd]; field. }
    rewrite W0, <- mzero_qmat; generalize (madj (segment_after (Seg 1 0 0 PI) PI)) (segment_after (Seg 1 0 0 PI) PI).
    intros A U; destruct A as [[] [] [] []], U as [[] [] [] []]; m_real; ring.
Qed.
Example C120_case : exists c l V, build Primitive PI 1 0 None = Ok c /\ describes l c /\
  noisy_control (fun _ => 0) (fun t => 1 / 100 * cos (3 * t)) 0 l V /\
  response (fun _ => 0) (fun t => 1 / 100 * cos (3 * t)) 0 l mzero /\ close_to (2 / 10000) V (evolution l).
Proof.
  assert (P := PI_pos); assert (P4 := PI_4); destruct (demo_build Primitive) as [c [l [B [D _]]]].
  destruct (build_inv _ _ _ _ _ _ _ B D) as [_ EL]; cbn [design] in EL.
  destruct (control_exists (fun _ => 0) (fun t => 1 / 100 * cos (3 * t)) l) with (t0 := 0) as [V N].
  { intros t; apply continuous_const. }
  { intros t; apply @ex_derive_continuous; auto_derive; auto. }
  exists c, l, V; split; [exact B|split; [exact D|split; [exact N|]]].
  assert (R : response (fun _ => 0) (fun t => 1 / 100 * cos (3 * t)) 0 l mzero).
  { rewrite EL; unfold pulses; cbn [map fst snd]; replace (PI / 1) with PI by field; apply third_harmonic. }
  split; [exact R|].
  assert (K := build_constructible _ _ _ _ _ _ B); destruct (segments_of c l K D) as [_ TD].
  assert (DU : duration c = PI) by (rewrite <- TD, EL; unfold pulses; cbn [map fst snd total g_dur]; field).
  assert (BE : bounded_by (fun _ => 0) 0 0 (duration c)) by (intros t T; rewrite Rabs_R0; lra).
  assert (BM : bounded_by (fun t => 1 / 100 * cos (3 * t)) (1 / 100) 0 (duration c)).
  { intros t T; assert (Q := COS_bound (3 * t)); apply Rabs_le; lra. }
  eapply close_to_weaken; [|exact (C120_cancelled c l _ _ 0 (1 / 100) V K D BE BM N R)].
  rewrite DU, Rmult_0_l, Rplus_0_r; assert (X : 0 <= 1 / 100 * PI <= 4 / 100) by lra.
  assert ((1 / 100 * PI) ^ 2 <= (4 / 100) ^ 2) by (apply pow_incr; lra); lra.
Qed.
