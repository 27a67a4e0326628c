(** * Detuning noise whose accumulated phase stays small *)

From Verif Require Import L_Drift L_DriveControl L_RemainderControl L_Remainder L_Predefined L_Symmetry Spec_Remainder Spec_Drive.
From Verif Require Import L_FirstOrderFamilies L_FinitePulse L_PreConvert L_Requests L_FirstOrder L_FloatPipeline.
From Coq Require Import Lia.
Import ListNotations.
Set Bullet Behavior "Strict Subproofs".
Open Scope list_scope.
Open Scope R_scope.

(** ** The frame that follows the accumulated phase *)

Lemma qz_chain (B : R -> R) t b : is_derive B t b -> qderive (fun t => qz (B t)) t (qmul (qham 0 0 b) (qz (B t))).
Proof.
  intros D; split; [|split; [|split]]; unfold qz, qham; cbn [qa qb qc qd qmul].
  - eapply is_derive_eq; [apply (is_derive_comp (fun x => cos (x / 2)) B t (- sin (B t / 2) / 2) b); [auto_derive; auto; unfold Rdiv; ring|exact D]|].
    unfold scal; simpl; unfold mult; simpl; field.
  - eapply is_derive_eq; [apply (is_derive_const (V:=R_NormedModule))|]; unfold zero; simpl; field.
  - eapply is_derive_eq; [apply (is_derive_const (V:=R_NormedModule))|]; unfold zero; simpl; field.
  - eapply is_derive_eq; [apply (is_derive_comp (fun x => sin (x / 2)) B t (cos (B t / 2) / 2) b); [auto_derive; auto; unfold Rdiv; ring|exact D]|].
    unfold scal; simpl; unfold mult; simpl; field.
Qed.

Lemma qz_inverse a : qmul (qz (- a)) (qz a) = qone.
Proof. rewrite qz_add, Rplus_opp_l; apply L_Toggle.qz_0. Qed.

Lemma double_angle a : cos a = cos (a / 2) * cos (a / 2) - sin (a / 2) * sin (a / 2) /\ sin a = 2 * sin (a / 2) * cos (a / 2).
Proof. assert (E : a = 2 * (a / 2)) by field; split; rewrite E at 1; [apply cos_2a|apply sin_2a]. Qed.

Lemma follow x y z beta B t0 q : qsolves x y (fun t => z t + beta t) t0 q -> (forall t, is_derive B t (beta t)) ->
  qsolves (fun t => x t * cos (B t) + y t * sin (B t)) (fun t => y t * cos (B t) - x t * sin (B t)) z t0
    (fun t => qmul (qz (- B t)) (qmul (q t) (qz (B t0)))).
Proof.
  intros [S D] DB; split.
  - rewrite S, qmul_1_l; apply qz_inverse.
  - intros t.
    assert (DN : is_derive (fun t => - B t) t (- beta t)) by (apply (is_derive_opp B t (beta t)); auto).
    assert (DC : qderive (fun _ : R => qz (B t0)) t qzero) by apply qderive_const.
    eapply qderive_eq; [apply (qderive_mul _ _ _ _ _ (qz_chain _ _ _ DN) (qderive_mul _ _ _ _ _ (D t) DC))|].
    cbv beta; destruct (double_angle (B t)) as [-> ->]; assert (SC := sin2_cos2 (B t / 2)); unfold Rsqr in SC.
    unfold qz at 1 3 5; rewrite Ropp_div, cos_neg, sin_neg; set (u := qz (B t0)); set (p := q t); clearbody u p.
    set (cc := cos (B t / 2)) in *; set (ss := sin (B t / 2)) in *; clearbody cc ss.
    set (r := qmul p u).
    replace (qadd (qmul (qmul (qham (x t) (y t) (z t + beta t)) p) u) (qmul p qzero)) with (qmul (qham (x t) (y t) (z t + beta t)) r)
      by (unfold r; apply q_eq; unfold qham, qzero; cbn [qa qb qc qd qmul qadd]; ring).
    clearbody r.
    apply q_eq; unfold qham; cbn [qa qb qc qd qmul qadd];
      set (r1 := qa r); set (r2 := qb r); set (r3 := qc r); set (r4 := qd r).
    all: assert (CC : cc * cc = 1 - ss * ss) by lra; field [CC].
Qed.

Lemma sine_below u : Rabs (sin u) <= Rabs u.
Proof.
  assert (K : forall v, 0 < v -> Rabs (sin v) <= v).
  { intros v V; assert (L := sin_lt_x v V); assert (S := SIN_bound v); assert (P := PI2_1); apply Rabs_le.
    destruct (Rle_dec 1 v); [lra|]; assert (0 <= sin v) by (apply sin_ge_0; lra); lra. }
  destruct (Rtotal_order u 0) as [L|[->|L]].
  - rewrite (Rabs_left u) by auto; rewrite <- (Rabs_Ropp (sin u)), <- sin_neg; apply K; lra.
  - rewrite sin_0; lra.
  - rewrite (Rabs_right u) by lra; auto.
Qed.

Lemma cosine_gap B : 0 <= 2 * (1 - cos B) <= B ^ 2 /\ 2 * (1 - cos B) <= 2 * Rabs B.
Proof.
  destruct (double_angle B) as [-> _]; assert (SC := sin2_cos2 (B / 2)); unfold Rsqr in SC.
  assert (S1 : Rabs (sin (B / 2)) <= Rabs (B / 2)) by apply sine_below.
  assert (S2 : Rabs (sin (B / 2)) <= 1) by (apply Rabs_le; apply SIN_bound).
  assert (E : 2 * (1 - (cos (B / 2) * cos (B / 2) - sin (B / 2) * sin (B / 2))) = 4 * (Rabs (sin (B / 2)) * Rabs (sin (B / 2)))).
  { rewrite <- Rabs_mult, Rabs_right by (apply Rle_ge, Rle_0_sqr); lra. }
  assert (A0 := Rabs_pos (sin (B / 2))); rewrite E.
  assert (HB : Rabs (B / 2) = Rabs B / 2) by (unfold Rdiv; rewrite Rabs_mult, (Rabs_right (/ 2)) by lra; auto).
  rewrite HB in S1; set (s := Rabs (sin (B / 2))) in *; rewrite <- (pow2_abs B); set (a := Rabs B) in *; clearbody s a; nra.
Qed.

Lemma driven_follow eps beta B g t0 w V E b : 0 <= w -> 0 <= g_rabi g -> (forall t, is_derive B t (beta t)) ->
  driven eps beta g t0 (t0 + w) V -> bounded_by eps E t0 (t0 + w) -> bounded_by B b t0 (t0 + w) ->
  exists v, V = qmat (qmul (qz (B (t0 + w))) (qmul v (qz (- B t0)))) /\ unit_quat v /\
    qnear ((E + b) * (g_rabi g * w) / 2) v (qseg (g_rabi g * cos (g_phi g)) (g_rabi g * sin (g_phi g)) (g_det g) w).
Proof.
  intros W R DB D BE BM; apply driven_quat in D; destruct D as [q [S ->]].
  assert (E0 : 0 <= E) by (assert (H := BE t0); eapply Rle_trans; [apply Rabs_pos|apply H; lra]).
  assert (M0 : 0 <= b) by (assert (H := BM t0); eapply Rle_trans; [apply Rabs_pos|apply H; lra]).
  assert (F := follow _ _ (fun _ => g_det g) beta B t0 q S DB).
  exists (qmul (qz (- B (t0 + w))) (qmul (q (t0 + w)) (qz (B t0)))); split; [|split].
  - f_equal; set (p := q (t0 + w)); rewrite <- !qmul_assoc, (qz_add (B t0)), Rplus_opp_r, L_Toggle.qz_0, qmul_1_r.
    rewrite qmul_assoc, qz_add, Rplus_opp_r, L_Toggle.qz_0, qmul_1_l; auto.
  - apply (qsolves_unit _ _ _ _ _ F (t0 + w)).
  - assert (K := constant_solves (g_rabi g * cos (g_phi g)) (g_rabi g * sin (g_phi g)) (g_det g) t0).
    assert (ER : 0 <= (E + b) * g_rabi g) by (apply Rmult_le_pos; lra).
    assert (N := qsolves_near _ _ _ _ _ _ t0 _ _ ((E + b) * g_rabi g) (t0 + w) F K ltac:(lra) ltac:(lra)).
    cbv beta in N; replace (t0 + w - t0) with w in N by ring.
    replace ((E + b) * (g_rabi g * w) / 2) with ((E + b) * g_rabi g * w / 2) by field; apply N.
    intros t I; assert (BE' := BE t I); assert (BM' := BM t I); set (r := g_rabi g) in *; set (ph := g_phi g).
    assert (P2 := sin2_cos2 ph); assert (B2 := sin2_cos2 (B t)); unfold Rsqr in P2, B2.
    destruct (cosine_gap (B t)) as [[G0 G1] G2].
    match goal with |- ?X <= _ => replace X with (r ^ 2 * ((eps t) ^ 2 + (1 + eps t) * (2 * (1 - cos (B t))))) end.
    2: { assert (S1 : sin ph * sin ph = 1 - cos ph * cos ph) by lra; assert (S2 : sin (B t) * sin (B t) = 1 - cos (B t) * cos (B t)) by lra.
         ring [S1 S2]. }
    replace (((E + b) * r) ^ 2) with (r ^ 2 * (E + b) ^ 2) by ring; apply Rmult_le_compat_l; [apply pow2_ge_0|].
    set (h := 2 * (1 - cos (B t))) in *; clearbody h.
    assert (A0 := Rabs_pos (eps t)); assert (A1 := Rabs_pos (B t)).
    assert (X1 : eps t * h <= Rabs (eps t) * (2 * Rabs (B t))).
    { apply Rle_trans with (Rabs (eps t) * h); [apply Rmult_le_compat_r; [auto|apply Rle_abs]|apply Rmult_le_compat_l; auto]. }
    rewrite <- (pow2_abs (eps t)); rewrite <- (pow2_abs (B t)) in G1.
    apply Rle_trans with ((Rabs (eps t) + Rabs (B t)) ^ 2); [nra|apply pow_incr; lra].
Qed.

Lemma control_follow eps beta B E b l : (forall g, In g l -> 0 <= g_rabi g /\ 0 <= g_dur g) -> (forall t, is_derive B t (beta t)) ->
  forall t0 V, bounded_by eps E t0 (t0 + total (map g_dur l)) -> bounded_by B b t0 (t0 + total (map g_dur l)) ->
  noisy_control eps beta t0 l V ->
  exists v, V = qmat (qmul (qz (B (t0 + total (map g_dur l)))) (qmul v (qz (- B t0)))) /\ unit_quat v /\
    qnear ((E + b) * turned l / 2) v (qevolution 0 0 l).
Proof.
  intros P DB; unfold turned; induction l as [|g l IH]; intros t0 V BE BM N; cbn [noisy_control] in N; cbn [map total qevolution].
  - subst V; exists qone; split; [|split; [apply unit_one|]].
    + rewrite qmul_1_l, qz_add, Rplus_0_r, Rplus_opp_r, L_Toggle.qz_0; symmetry; apply qmat_one.
    + replace ((E + b) * 0 / 2) with 0 by field; apply qnear_refl.
  - destruct N as [V1 [V2 [D [N ->]]]]; destruct (P g (or_introl eq_refl)) as [R W].
    cbn [map total] in BE, BM.
    assert (TP : 0 <= total (map g_dur l)).
    { clear - P; induction l as [|h l IH]; cbn [map total]; [lra|].
      assert (0 <= g_dur h) by (apply P; right; left; auto).
      assert (0 <= total (map g_dur l)) by (apply IH; intros k [->|K]; apply P; [left|right; right]; auto); lra. }
    destruct (driven_follow eps beta B g t0 (g_dur g) V1 E b W R DB D) as [v1 [-> [U1 N1]]];
      [intros t I; apply BE; lra|intros t I; apply BM; lra|].
    destruct (IH (fun h H => P h (or_intror H)) (t0 + g_dur g) V2) as [v2 [-> [U2 N2]]]; auto;
      [intros t I; apply BE; lra|intros t I; apply BM; lra|].
    exists (qmul v2 v1); split; [|split; [apply unit_mul; auto|]].
    + rewrite <- qmat_mul; f_equal; rewrite <- !qmul_assoc, Rplus_assoc; do 2 f_equal.
      rewrite qmul_assoc, qz_inverse, qmul_1_l; auto.
    + eapply qnear_mono; [|apply qnear_mul; [| |exact N2|]].
      * apply Req_le; instantiate (1 := (E + b) * (g_rabi g * g_dur g) / 2); field.
      * clear; induction l as [|g l IH]; cbn [qevolution]; [apply unit_one|apply unit_mul; auto; apply unit_qseg].
      * auto.
      * unfold qnoisy; rewrite !Rplus_0_r, !Rmult_1_l; auto.
Qed.

Lemma fast_near eps beta B E b l V : (forall g, In g l -> 0 <= g_rabi g /\ 0 <= g_dur g) -> (forall t, is_derive B t (beta t)) ->
  bounded_by eps E 0 (total (map g_dur l)) -> bounded_by (fun t => B t - B 0) b 0 (total (map g_dur l)) -> 0 <= total (map g_dur l) ->
  noisy_control eps beta 0 l V -> close_to (((E + b) * turned l + b) / 2) V (evolution l).
Proof.
  intros P DB BE BM TP N.
  assert (DB' : forall t, is_derive (fun t => B t - B 0) t (beta t)).
  { intros t; eapply is_derive_eq; [apply (is_derive_minus B (fun _ => B 0) t (beta t) 0 (DB t)); apply (is_derive_const (V:=R_NormedModule))|].
    unfold minus, plus, opp; simpl; ring. }
  destruct (control_follow eps beta (fun t => B t - B 0) E b l P DB' 0 V) as [v [-> [U NV]]]; auto; try (rewrite Rplus_0_l; auto).
  unfold evolution; rewrite noisy_evolution_qmat; apply qnear_close.
  rewrite (Rminus_eq_0 (B 0)), Ropp_0, L_Toggle.qz_0, qmul_1_r.
  set (T := total (map g_dur l)) in *; set (p := B T - B 0).
  assert (Q : qnear (b / 2) (qz p) qone).
  { rewrite <- L_Toggle.qz_0; eapply qnear_mono; [|apply qz_near]; rewrite Rminus_0_r; assert (H := BM T ltac:(lra)); cbv beta in H; fold p in H; lra. }
  rewrite <- (qmul_1_l (qevolution 0 0 l)).
  eapply qnear_mono; [|apply qnear_mul; [apply unit_one|exact U|exact Q|exact NV]]; apply Req_le; field.
Qed.

(** ** About constant errors *)

Theorem fast_about c l eps beta B e d E b V : constructible c -> describes l c -> -1 < e ->
  (forall t, is_derive B t (beta t - d)) ->
  bounded_by (fun t => eps t - e) E 0 (duration c) -> bounded_by (fun t => B t - B 0) b 0 (duration c) ->
  noisy_control eps beta 0 l V ->
  close_to ((E * turned l + b * (1 + (1 + e) * turned l)) / 2) V (noisy_evolution e d l).
Proof.
  intros K D L DB BE BM N; destruct (control_segments c l K D) as [_ [P [_ DU]]].
  assert (TD : total (map g_dur l) = duration c).
  { rewrite <- DU; clear; induction l as [|g l IH]; [reflexivity|]; cbn [time_total fold_right map total]; fold (time_total l); rewrite IH; reflexivity. }
  assert (DM : map g_dur (map (with_errors e d) l) = map g_dur l) by (rewrite map_map; apply map_ext; reflexivity).
  assert (TM : turned (map (with_errors e d) l) = (1 + e) * turned l).
  { unfold turned; clear; induction l as [|g l IH]; cbn [map total]; [ring|]; rewrite IH; cbn [with_errors g_rabi g_dur]; ring. }
  rewrite <- with_errors_evolution.
  assert (X : close_to (((E / (1 + e) + b) * turned (map (with_errors e d) l) + b) / 2) V (evolution (map (with_errors e d) l))).
  { apply (fast_near (fun t => (eps t - e) / (1 + e)) (fun t => beta t - d) B); rewrite ?DM, ?TD; auto.
    - intros g G; apply in_map_iff in G; destruct G as [g0 [<- G]]; destruct (P g0 G) as [A1 A2];
        cbn [with_errors g_rabi g_dur]; split; [apply Rmult_le_pos; lra|lra].
    - intros t T; unfold Rdiv; rewrite Rabs_mult, (Rabs_right (/ (1 + e))) by (left; apply Rinv_0_lt_compat; lra).
      apply Rmult_le_compat_r; [left; apply Rinv_0_lt_compat; lra|apply BE; auto].
    - rewrite <- TD; clear - P; induction l as [|h l IH]; cbn [map total]; [lra|].
      assert (0 <= g_dur h) by (destruct (P h (or_introl eq_refl)); lra).
      assert (0 <= total (map g_dur l)) by (apply IH; intros k Q; apply P; right; auto); lra.
    - apply with_errors_control; [lra|auto]. }
  rewrite TM in X; replace ((E * turned l + b * (1 + (1 + e) * turned l)) / 2) with (((E / (1 + e) + b) * ((1 + e) * turned l) + b) / 2) by (field; lra); exact X.
Qed.

Theorem scheme_fast s th w phi name c l eps beta B e d E b V : build s th w phi name = Ok c -> describes l c -> -1 < e -> 0 <= E -> 0 <= b ->
  (forall t, is_derive B t (beta t - d)) ->
  bounded_by (fun t => eps t - e) E 0 (duration c) -> bounded_by (fun t => B t - B 0) b 0 (duration c) ->
  noisy_control eps beta 0 l V ->
  (d = 0 -> close_to ((E * (w * duration c) + b * (1 + (1 + e) * (w * duration c))) / 2 +
                      (Rabs e * (w * duration c) / 2) ^ S (amplitude_order s) / INR (fact (S (amplitude_order s)))) V (evolution l)) /\
  (detuning_cancels s th -> e = 0 \/ (1 <= amplitude_order s)%nat ->
   close_to ((E * (w * duration c) + b * (1 + (1 + e) * (w * duration c))) / 2 + ((Rabs e * w + Rabs d) * duration c) ^ 2 / 8) V (evolution l)).
Proof.
  intros B0 D L E0 b0 DB BE BM N; assert (K := build_constructible _ _ _ _ _ _ B0); destruct (rates_and_duration _ _ _ _ _ _ _ B0 D) as [MX _].
  assert (C := fast_about c l eps beta B e d E b V K D L DB BE BM N); destruct (turned_bound c l w K D MX) as [_ TB].
  assert (Y : forall x, close_to x (noisy_evolution e d l) (evolution l) ->
    close_to ((E * (w * duration c) + b * (1 + (1 + e) * (w * duration c))) / 2 + x) V (evolution l)).
  { intros x H; eapply close_to_weaken; [|eapply close_trans; [exact C|exact H]].
    assert (E * turned l <= E * (w * duration c)) by (apply Rmult_le_compat_l; auto).
    assert (b * ((1 + e) * turned l) <= b * ((1 + e) * (w * duration c))) by (apply Rmult_le_compat_l; [auto|apply Rmult_le_compat_l; [lra|auto]]); lra. }
  destruct (scheme_distance _ _ _ _ _ _ _ B0 D) as [S1 [S2 S3]]; split.
  - intros ->; apply Y, S1; auto.
  - intros DC [->|AO]; apply Y; [|apply S3; auto].
    eapply close_to_weaken; [|apply (S2 DC d)]; rewrite Rabs_R0, Rmult_0_l, Rplus_0_l, !Rpow_mult_distr, pow2_abs; lra.
Qed.

Theorem sequence_fast r T pre name s maxr maxd mn name' c segs eps beta B E b V :
  / 10 ^ 8 < T -> build_sequence r T pre name = Ok s ->
  convert_dds_to_driven_control s maxr maxd mn name' = Ok c -> describes segs c -> duration c = T ->
  (forall t, is_derive B t (beta t)) -> bounded_by eps E 0 T -> bounded_by (fun t => B t - B 0) b 0 T ->
  noisy_control eps beta 0 segs V ->
  exists l, s = sequence_of T name l /\ close_to ((E * turned segs + b * (1 + turned segs)) / 2) V (pulse_product l).
Proof.
  intros HT B0 C D DU DB BE BM N; destruct (predefined_net _ _ _ _ _ _ _ _ _ _ _ HT B0 C D) as [ps [ES [EV _]]].
  eexists; split; [exact ES|]; rewrite <- EV.
  assert (CC : constructible c) by (eapply convert_constructible; eauto).
  assert (X := fast_about c segs eps beta B 0 0 E b V CC D ltac:(lra)); rewrite Rplus_0_r, Rmult_1_l in X; apply X; auto.
  - intros t; rewrite Rminus_0_r; auto.
  - rewrite DU; intros t H; rewrite Rminus_0_r; auto.
  - rewrite DU; auto.
Qed.
