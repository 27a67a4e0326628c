(** * Gaussian controls under constant amplitude and detuning errors *)

From Verif Require Import L_Noise L_QuatNorm L_FirstOrder.
From Verif Require Export L_Gaussian Spec_GaussianErrors.
From Coq Require Import Lia.
Set Bullet Behavior "Strict Subproofs".
Import ListNotations.
Open Scope list_scope.
Open Scope R_scope.

(** ** Reversal of a drive along the X axis *)

Definition qreverse (q : quat) : quat := Q4 (qa q) (qb q) (- qc q) (qd q).
Definition qflip (q : quat) : quat := Q4 (qa q) (- qb q) (- qc q) (qd q).

Lemma qreverse_mul p q : qreverse (qmul p q) = qmul (qreverse q) (qreverse p).
Proof. apply q_eq; simpl; ring. Qed.
Lemma qflip_mul p q : qflip (qmul p q) = qmul (qflip p) (qflip q).
Proof. apply q_eq; simpl; ring. Qed.

Lemma signed_axis dt v : g_rabi (signed_seg dt v) * cos (g_phi (signed_seg dt v)) = v /\
  g_rabi (signed_seg dt v) * sin (g_phi (signed_seg dt v)) = 0.
Proof.
  unfold signed_seg; cbn [g_rabi g_phi]; destruct (Rle_dec 0 v).
  - rewrite cos_0, sin_0, Rabs_right by lra; split; ring.
  - rewrite cos_PI, sin_PI, Rabs_left by lra; split; ring.
Qed.

Lemma qnoisy_signed e d dt v : qnoisy e d (signed_seg dt v) = qseg ((1 + e) * v) 0 d dt.
Proof.
  destruct (signed_axis dt v) as [A B]; unfold qnoisy; rewrite !Rmult_assoc, A, B, Rmult_0_r.
  unfold signed_seg; cbn [g_det g_dur]; rewrite Rplus_0_l; reflexivity.
Qed.

Lemma qseg_reverse x z dt : qreverse (qseg x 0 z dt) = qseg x 0 z dt.
Proof. apply q_eq; unfold qreverse, qseg; cbn [qa qb qc qd]; unfold Rdiv; ring. Qed.

Lemma qseg_flip x z dt : qflip (qseg x 0 z dt) = qseg (- x) 0 z dt.
Proof.
  unfold qseg; replace ((- x) ^ 2) with (x ^ 2) by ring.
  apply q_eq; unfold qflip; cbn [qa qb qc qd]; unfold Rdiv; ring.
Qed.

Lemma evolution_rev e d dt vs :
  qevolution e d (map (signed_seg dt) (rev vs)) = qreverse (qevolution e d (map (signed_seg dt) vs)).
Proof.
  induction vs as [|v vs IH].
  - apply q_eq; simpl; ring.
  - cbn [rev map qevolution]; rewrite map_app, qevolution_app, IH, qreverse_mul.
    cbn [map qevolution]; rewrite qmul_1_l, qnoisy_signed, qseg_reverse; reflexivity.
Qed.

Lemma evolution_opp e d dt vs :
  qevolution e d (map (signed_seg dt) (map Ropp vs)) = qflip (qevolution e d (map (signed_seg dt) vs)).
Proof.
  induction vs as [|v vs IH].
  - apply q_eq; simpl; ring.
  - cbn [map qevolution]; rewrite IH, qflip_mul, !qnoisy_signed, qseg_flip; f_equal; f_equal; ring.
Qed.

Lemma unit_evolution e d l : unit_quat (qevolution e d l).
Proof.
  induction l as [|g l IH]; cbn [qevolution].
  - unfold unit_quat, qnorm2; simpl; ring.
  - apply unit_mul; auto; apply unit_qseg.
Qed.

(** a unit quaternion is a rotation *)
Lemma unit_rotation q : unit_quat q -> exists angle, cos (angle / 2) = qa q /\
  sin (angle / 2) * sin (angle / 2) = qb q * qb q + qc q * qc q + qd q * qd q.
Proof.
  unfold unit_quat, qnorm2; intros U.
  exists (2 * acos (qa q)); replace (2 * acos (qa q) / 2) with (acos (qa q)) by field.
  assert (C : cos (acos (qa q)) = qa q) by (apply cos_acos; nra).
  split; auto; assert (S := sin2_cos2 (acos (qa q))); unfold Rsqr in S; rewrite C in S; nra.
Qed.

Lemma plane_rotation q : unit_quat q ->
  (qb q = 0 -> exists angle y z, y ^ 2 + z ^ 2 = 1 /\ qmat q = bloch_rotation angle 0 y z) /\
  (qc q = 0 -> exists angle x z, x ^ 2 + z ^ 2 = 1 /\ qmat q = bloch_rotation angle x 0 z).
Proof.
  intros U; destruct (unit_rotation q U) as [an [A S]]; set (s := sin (an / 2)) in *.
  assert (K : forall u v, s * s = u * u + v * v -> exists x y, x ^ 2 + y ^ 2 = 1 /\ u = s * x /\ v = s * y).
  { intros u v E; destruct (Req_dec s 0) as [Z|Z].
    - exists 1, 0; rewrite Z in *; split; [ring|split; nra].
    - exists (u / s), (v / s); split; [|split; field; auto].
      replace ((u / s) ^ 2 + (v / s) ^ 2) with ((u * u + v * v) / (s * s)) by (field; auto).
      rewrite <- E; field; auto. }
  split; intros Z; rewrite Z in S.
  - destruct (K (qc q) (qd q)) as [y [z [N [B C]]]]; [lra|].
    exists an, y, z; split; auto; rewrite bloch_rotation_qmat; f_equal.
    apply q_eq; cbn [qa qb qc qd]; auto; fold s; lra.
  - destruct (K (qb q) (qd q)) as [x [z [N [B C]]]]; [lra|].
    exists an, x, z; split; auto; rewrite bloch_rotation_qmat; f_equal.
    apply q_eq; cbn [qa qb qc qd]; auto; fold s; lra.
Qed.

(** ** The sampled shapes *)

Lemma samples_even g T n :
  (forall t, g (T - t) = g t) -> rev (samples g T n) = samples g T n.
Proof.
  intros H; unfold samples; rewrite <- map_rev, seq_mirror, map_map.
  apply map_ext_in; intros i Hi; apply in_seq in Hi.
  rewrite midpoint_mirror by lia; apply H.
Qed.

Lemma envelope_mirror T t : T <> 0 -> envelope T (T - t) = envelope T t.
Proof.
  intros H; unfold envelope; replace ((T - t) / T - 1 / 2) with (- (t / T - 1 / 2)) by (field; auto).
  f_equal; ring.
Qed.

Theorem gaussian_error_axis omega m T f c l e d :
  new_modulated_gaussian_control omega m T f = Ok c -> describes l c ->
  (f <> 0 -> exists angle y z, y ^ 2 + z ^ 2 = 1 /\ noisy_evolution e d l = bloch_rotation angle 0 y z) /\
  (f = 0 -> exists angle x z, x ^ 2 + z ^ 2 = 1 /\ noisy_evolution e d l = bloch_rotation angle x 0 z).
Proof.
  intros E DL; destruct (gaussian_shape _ _ _ _ _ E) as [V [n [vs [C [N [L [D [F1 F0]]]]]]]].
  assert (l = map (signed_seg (T / INR n)) vs) by (eapply describes_fun; eauto); subst l.
  destruct V as [W [M [LT B]]].
  rewrite noisy_evolution_qmat.
  destruct (plane_rotation _ (unit_evolution e d (map (signed_seg (T / INR n)) vs))) as [P1 P2].
  assert (R := evolution_rev e d (T / INR n) vs).
  split; intros F; [apply P1|apply P2].
  - destruct (F1 F) as [p [P [PK EV]]].
    assert (RV : rev vs = map Ropp vs).
    { rewrite EV, <- map_rev, samples_mirror by (intros; apply signal_mirror; lra).
      rewrite !map_map; apply map_ext; intros; field; lra. }
    rewrite RV, evolution_opp in R; apply (f_equal qb) in R; cbn [qflip qreverse qb] in R; lra.
  - destruct (F0 F) as [p [k [P [PK [K1 [AV [A1 [A2 EV]]]]]]]].
    assert (RV : rev vs = vs).
    { rewrite EV, <- map_rev, samples_even by (intros; apply envelope_mirror; lra); reflexivity. }
    rewrite RV in R; apply (f_equal qc) in R; cbn [qreverse qc] in R; lra.
Qed.

(** ** Amplitude errors *)

Lemma flat_local k f U : (exists r, 0 < r /\ forall t, Rabs t < r -> f t = U) -> flat k f.
Proof.
  intros [r [P H]].
  assert (K : forall h : M2 -> R, flat_entry k (fun t => h (f t))).
  { intros h m M; apply (is_derive_n_ext_loc (fun _ => h U)).
    - exists (mkposreal r P); intros t B; symmetry; f_equal; apply H.
      rewrite <- (Rminus_0_r t); exact B.
    - assert (G : forall j x, is_derive_n (fun _ : R => h U) (S j) x 0).
      { intros j; induction j as [|j IH]; intros x; cbn [is_derive_n].
        - apply (is_derive_const (h U)).
        - apply (is_derive_ext (fun _ => 0)); [intros t; symmetry; apply is_derive_n_unique, IH|].
          apply (is_derive_const 0). }
      destruct m; [lia|apply G]. }
  split; [exact (K (fun A => fst (m00 A)))|]; split; [exact (K (fun A => snd (m00 A)))|].
  split; [exact (K (fun A => fst (m01 A)))|]; split; [exact (K (fun A => snd (m01 A)))|].
  split; [exact (K (fun A => fst (m10 A)))|]; split; [exact (K (fun A => snd (m10 A)))|].
  split; [exact (K (fun A => fst (m11 A)))|exact (K (fun A => snd (m11 A)))].
Qed.

Theorem gaussian_amplitude omega m T f c l :
  new_modulated_gaussian_control omega m T f = Ok c -> describes l c ->
  (f <> 0 -> forall k, amplitude_robust k l) /\
  (f = 0 -> exists k : nat, (1 <= k)%nat /\
     total (map (fun g => g_rabi g * g_dur g) l) = 2 * PI * INR k /\
     (forall e, -1 < e -> noisy_evolution e 0 l = rotation ((1 + e) * (2 * PI * INR k)) 0) /\
     ~ amplitude_robust 1 l).
Proof.
  intros E DL; split; intros F.
  - intros k; apply (flat_local k _ mone); exists 1; split; [lra|]; intros t B.
    apply Rabs_lt_between in B.
    destruct (gaussian_gate _ _ _ _ _ _ E DL) as [G _]; apply (G F); lra.
  - destruct (gaussian_rates _ _ _ _ _ _ E DL) as [_ R0].
    destruct (R0 F) as [n' [p' [k' [_ [_ [K' [TT _]]]]]]].
    destruct (gaussian_shape _ _ _ _ _ E) as [V [n [vs [C [N [L [D [F1 F0]]]]]]]].
    assert (l = map (signed_seg (T / INR n)) vs) by (eapply describes_fun; eauto); subst l.
    destruct V as [W [M [LT B]]].
    destruct (F0 F) as [p [k [P [PK [K1 [AV [A1 [A2 EV]]]]]]]].
    assert (VP0 : forall v, In v vs -> 0 < v).
    { intros v H; rewrite EV in H; apply in_map_iff in H; destruct H as [s [<- H]].
      assert (PP := PI_pos); assert (0 < INR k) by (apply lt_0_INR; lia).
      apply in_samples in H; destruct H as [i [_ ->]]; assert (EP := envelope_pos T (midpoint T n i)).
      apply Rmult_lt_0_compat; [apply Rmult_lt_0_compat; auto; apply Rdiv_lt_0_compat; lra|].
      apply Rdiv_lt_0_compat; auto; apply Rmult_lt_0_compat; lra. }
    assert (X : map (fun g => g_rabi g * g_dur g) (map (signed_seg (T / INR n)) vs) =
                map (fun v => T / INR n * v) vs).
    { rewrite map_map; apply map_ext_in; intros v H; cbn [signed_seg g_rabi g_dur].
      rewrite Rabs_right; [ring|apply Rle_ge, Rlt_le, VP0; auto]. }
    assert (TV := TT); rewrite X, total_map_scale in TV.
    exists k'; split; auto; split; auto.
    assert (Q : forall e, -1 < e -> noisy_evolution e 0 (map (signed_seg (T / INR n)) vs) =
      rotation ((1 + e) * (2 * PI * INR k')) 0).
    { intros e H; rewrite noisy_evolution_qmat, qevolution_signed, TV by auto.
      unfold rotation; rewrite bloch_rotation_qmat; f_equal; apply q_eq; unfold qplanar; simpl; ring. }
    split; auto; intros [_ [_ [_ [A _]]]].
    assert (A' := A 1%nat (conj (le_n _) (le_n _))); cbn [is_derive_n] in A'.
    assert (KP : 0 < INR k') by (apply lt_0_INR; lia); assert (PP := PI_pos).
    destruct (cos_sin_PI_mult k') as [CS SN].
    assert (G : is_derive (fun e => snd (m01 (noisy_evolution e 0 (map (signed_seg (T / INR n)) vs)))) 0
                  (- ((-1) ^ k' * (PI * INR k')))).
    { apply (is_derive_ext_loc (fun e => - sin ((1 + e) * (PI * INR k')))).
      - exists (mkposreal 1 Rlt_0_1); intros t B'.
        assert (B2 : Rabs (t - 0) < 1) by exact B'; rewrite Rminus_0_r in B2; apply Rabs_lt_between in B2.
        rewrite Q by lra; unfold rotation; rewrite bloch_rotation_qmat; unfold qmat; cbn [m01 snd qb].
        rewrite cos_0, Rmult_1_r; f_equal; f_equal; field.
      - auto_derive; auto.
        replace ((1 + 0) * (PI * INR k')) with (INR k' * PI) by ring; rewrite CS; ring. }
    apply is_derive_unique in G; apply is_derive_unique in A'.
    assert (Z0 : - ((-1) ^ k' * (PI * INR k')) = 0) by (rewrite <- G; exact A').
    assert (Z : (-1) ^ k' * (PI * INR k') = 0) by lra.
    apply Rmult_integral in Z; destruct Z as [Z|Z]; [|nra].
    apply (pow_nonzero (-1) k'); auto; lra.
Qed.

(** ** Detunings, to first order *)

Lemma RInt_value (f : R -> R) F a b : a <= b -> (forall t, is_derive F t (f t)) -> (forall t, continuous f t) ->
  @eq R (RInt f a b) (F b - F a).
Proof.
  intros L D C; apply is_RInt_unique.
  apply (is_RInt_derive F f a b); intros; auto.
Qed.

Lemma wave_integrals th v dt : 0 <= dt ->
  turn_integral cos dt th v = cos th * turn_integral cos dt 0 v - sin th * turn_integral sin dt 0 v /\
  turn_integral sin dt th v = sin th * turn_integral cos dt 0 v + cos th * turn_integral sin dt 0 v /\
  (v <> 0 -> turn_integral cos dt 0 v = sin (v * dt) / v /\ turn_integral sin dt 0 v = (1 - cos (v * dt)) / v) /\
  (v = 0 -> turn_integral cos dt 0 v = dt /\ turn_integral sin dt 0 v = 0).
Proof.
  intros P.
  assert (CC : forall a t, continuous (fun t => cos (a + v * t)) t).
  { intros a t; apply (ex_derive_continuous (fun t => cos (a + v * t))); auto_derive; auto. }
  assert (CS : forall a t, continuous (fun t => sin (a + v * t)) t).
  { intros a t; apply (ex_derive_continuous (fun t => sin (a + v * t))); auto_derive; auto. }
  destruct (Req_dec v 0) as [Z|Z].
  - assert (EC : forall a, turn_integral cos dt a v = dt * cos a).
    { intros a; unfold turn_integral; rewrite (RInt_value _ (fun t => t * cos a)); auto; [ring|].
      intros t; rewrite Z, Rmult_0_l, Rplus_0_r; auto_derive; auto; ring. }
    assert (ES : forall a, turn_integral sin dt a v = dt * sin a).
    { intros a; unfold turn_integral; rewrite (RInt_value _ (fun t => t * sin a)); auto; [ring|].
      intros t; rewrite Z, Rmult_0_l, Rplus_0_r; auto_derive; auto; ring. }
    rewrite !EC, !ES, cos_0, sin_0; repeat split; intros; try ring; contradiction.
  - assert (EC : forall a, turn_integral cos dt a v = (sin (a + v * dt) - sin a) / v).
    { intros a; unfold turn_integral; rewrite (RInt_value _ (fun t => sin (a + v * t) / v)); auto; [rewrite Rmult_0_r, Rplus_0_r; field; auto|].
      intros t; auto_derive; auto; field; auto. }
    assert (ES : forall a, turn_integral sin dt a v = (cos a - cos (a + v * dt)) / v).
    { intros a; unfold turn_integral; rewrite (RInt_value _ (fun t => - cos (a + v * t) / v)); auto; [rewrite Rmult_0_r, Rplus_0_r; field; auto|].
      intros t; auto_derive; auto; field; auto. }
    rewrite !EC, !ES, Rplus_0_l, cos_0, sin_0, cos_plus, sin_plus.
    repeat split; intros; try contradiction; field; auto.
Qed.

Lemma path_turn dt vs : 0 <= dt -> forall th,
  path_integral cos dt th vs = cos th * path_integral cos dt 0 vs - sin th * path_integral sin dt 0 vs /\
  path_integral sin dt th vs = sin th * path_integral cos dt 0 vs + cos th * path_integral sin dt 0 vs.
Proof.
  intros P; induction vs as [|v vs IH]; intros th.
  - simpl; split; ring.
  - cbn [path_integral]; destruct (wave_integrals th v dt P) as [A [B _]]; rewrite A, B.
    destruct (IH (th + v * dt)) as [C D]; destruct (IH (0 + v * dt)) as [C0 D0]; rewrite C, D, C0, D0.
    rewrite Rplus_0_l, cos_plus, sin_plus; split; ring.
Qed.

Lemma signed_detuning dt v : 0 <= dt ->
  qderive (fun d => qnoisy 0 d (signed_seg dt v)) 0
    (qmul (qplanar (dt * v / 2) 0)
       (Q4 0 0 (turn_integral sin dt 0 v / 2) (turn_integral cos dt 0 v / 2))).
Proof.
  intros P; destruct (wave_integrals 0 v dt P) as [_ [_ [W1 W0]]]; destruct (Req_dec v 0) as [Z|Z].
  - destruct (W0 Z) as [-> ->].
    apply (qderive_ext (fun d => Q4 (cos (d * dt / 2)) 0 0 (sin (d * dt / 2)))).
    + intros d; rewrite qnoisy_signed, Z; unfold qseg.
      replace (((1 + 0) * 0) ^ 2 + 0 ^ 2 + d ^ 2) with (Rsqr d) by (unfold Rsqr; ring); rewrite sqrt_Rsqr_abs.
      apply q_eq; cbn [qa qb qc qd]; unfold Rdiv; try ring; destruct (Rcase_abs d) as [N|N].
      * rewrite Rabs_left by auto; replace (- d * dt * / 2) with (- (d * dt * / 2)) by ring; rewrite cos_neg; reflexivity.
      * rewrite Rabs_right by auto; reflexivity.
      * rewrite Rabs_left by auto; replace (- d * dt * / 2) with (- (d * dt * / 2)) by ring; rewrite sin_neg; field; lra.
      * rewrite Rabs_right by auto; destruct (Req_dec d 0) as [D|D]; [rewrite D, !Rmult_0_l, sin_0; ring|field; auto].
    + split; [|split; [|split]]; cbn [qmul qplanar qa qb qc qd]; auto_derive; auto;
        rewrite ?Z, ?Rmult_0_r, ?Rmult_0_l; unfold Rdiv; rewrite ?Rmult_0_l, ?sin_0, ?cos_0; field.
  - destruct (W1 Z) as [-> ->]; assert (N := Rabs_pos_lt v Z).
    eapply qderive_eq; [apply qnoisy_detuning; auto|].
    assert (K : sin (Rabs v * dt / 2) / Rabs v = sin (dt * v / 2) / v).
    { destruct (Rcase_abs v) as [Q|Q]; [rewrite Rabs_left by auto|rewrite Rabs_right by auto].
      - replace (- v * dt / 2) with (- (dt * v / 2)) by field; rewrite sin_neg; field; auto.
      - f_equal; f_equal; field. }
    rewrite K; replace (v * dt) with (2 * (dt * v / 2)) by field; set (h := dt * v / 2).
    rewrite sin_2a, cos_2a_sin; assert (SC := cs1 h).
    apply q_eq; unfold qplanar; cbn [qmul qa qb qc qd]; rewrite ?cos_0, ?sin_0; try ring.
    + field; auto.
    + transitivity (sin h / v * (cos h * cos h + sin h * sin h)); [rewrite SC; ring|field; auto].
Qed.

Lemma path_derivative dt vs : 0 <= dt ->
  qderive (fun d => qevolution 0 d (map (signed_seg dt) vs)) 0
    (qmul (qplanar (dt * total vs / 2) 0)
       (Q4 0 0 (path_integral sin dt 0 vs / 2) (path_integral cos dt 0 vs / 2))).
Proof.
  intros P; induction vs as [|v vs IH].
  - cbn [map qevolution total path_integral]; apply (qderive_eq _ _ qzero).
    + split; [|split; [|split]]; cbn [qone qzero qa qb qc qd]; auto_derive; auto.
    + apply q_eq; simpl; field.
  - cbn [map qevolution total path_integral].
    assert (E0 : qevolution 0 0 (map (signed_seg dt) vs) = qplanar (dt * total vs / 2) 0)
      by (rewrite qevolution_signed by lra; f_equal; field).
    assert (E1 : qnoisy 0 0 (signed_seg dt v) = qplanar (dt * v / 2) 0).
    { assert (X := qevolution_signed 0 dt [v] ltac:(lra)); cbn [map qevolution total] in X; rewrite qmul_1_l in X.
      rewrite X; f_equal; field. }
    eapply qderive_eq; [apply qderive_mul; [exact IH|apply signed_detuning; auto]|].
    cbv beta; rewrite E0, E1; replace (dt * (v + total vs) / 2) with (dt * total vs / 2 + dt * v / 2) by field.
    rewrite <- qplanar_add, <- !qmul_assoc.
    destruct (path_turn dt vs P (0 + v * dt)) as [A B]; rewrite A, B.
    replace (0 + v * dt) with (2 * (dt * v / 2)) by field; set (h := dt * v / 2).
    rewrite sin_2a, cos_2a_sin; assert (SC := cs1 h).
    set (g := qplanar (dt * total vs / 2) 0).
    transitivity (qmul g (qadd
      (qmul (Q4 0 0 (path_integral sin dt 0 vs / 2) (path_integral cos dt 0 vs / 2)) (qplanar h 0))
      (qmul (qplanar h 0) (Q4 0 0 (turn_integral sin dt 0 v / 2) (turn_integral cos dt 0 v / 2))))).
    { apply q_eq; cbn [qmul qadd qa qb qc qd]; ring. }
    f_equal; set (S := path_integral sin dt 0 vs); set (C := path_integral cos dt 0 vs).
    set (s := turn_integral sin dt 0 v); set (c := turn_integral cos dt 0 v).
    apply q_eq; unfold qplanar; cbn [qmul qadd qa qb qc qd]; rewrite ?cos_0, ?sin_0.
    + ring.
    + ring.
    + transitivity (cos h * S / 2 + sin h * C / 2 + (cos h * s - sin h * c) / 2); [field|].
      transitivity ((cos h * s - sin h * c) / 2 + (C * (2 * sin h * (cos h * cos h) - sin h * (1 - 2 * sin h * sin h)) + S * (cos h * (1 - 2 * sin h * sin h) + 2 * cos h * (sin h * sin h))) / 2);
        [rewrite SC; field|field].
    + transitivity (cos h * C / 2 - sin h * S / 2 + (cos h * c + sin h * s) / 2); [field|].
      transitivity ((cos h * c + sin h * s) / 2 + (C * (cos h * (1 - 2 * sin h * sin h) + 2 * cos h * (sin h * sin h)) + S * (sin h * (1 - 2 * sin h * sin h) - 2 * sin h * (cos h * cos h))) / 2);
        [rewrite SC; field|field].
Qed.

Lemma path_robust dt vs : 0 <= dt ->
  dephasing_robust 1 (map (signed_seg dt) vs) <-> path_integral cos dt 0 vs = 0 /\ path_integral sin dt 0 vs = 0.
Proof.
  intros P; unfold dephasing_robust.
  assert (U : unit_quat (qplanar (dt * total vs / 2) 0)).
  { assert (X := unit_evolution 0 0 (map (signed_seg dt) vs)); rewrite qevolution_signed in X by lra.
    replace ((1 + 0) * (dt * total vs) / 2) with (dt * total vs / 2) in X by field; exact X. }
  assert (F := flat_iff _ _ _ U (path_derivative dt vs P)).
  assert (E : flat 1 (fun d => noisy_evolution 0 d (map (signed_seg dt) vs)) <->
              flat 1 (fun d => qmat (qevolution 0 d (map (signed_seg dt) vs)))).
  { split; apply flat_ext_loc; exists (mkposreal 1 Rlt_0_1); intros t _; rewrite noisy_evolution_qmat; reflexivity. }
  rewrite E, F; split.
  - intros Z; assert (Z1 := f_equal qc Z); assert (Z2 := f_equal qd Z); cbn [qzero qc qd] in Z1, Z2; lra.
  - intros [-> ->]; apply q_eq; cbn [qzero qa qb qc qd]; field.
Qed.

Theorem gaussian_detuning omega m T f c l :
  new_modulated_gaussian_control omega m T f = Ok c -> describes l c ->
  exists n vs, is_ceiling (T / m) n /\ l = map (signed_seg (T / INR n)) vs /\
  (f <> 0 -> (dephasing_robust 1 l <->
     path_integral cos (T / INR n) 0 vs = 0 /\ path_integral sin (T / INR n) 0 vs = 0)) /\
  (f = 0 -> (dephasing_robust 1 l <-> path_integral cos (T / INR n) 0 vs = 0)).
Proof.
  intros E DL; destruct (gaussian_shape _ _ _ _ _ E) as [V [n [vs [C [N [L [D [F1 F0]]]]]]]].
  assert (l = map (signed_seg (T / INR n)) vs) by (eapply describes_fun; eauto); subst l.
  destruct V as [W [M [LT B]]].
  assert (NP : 0 < INR n) by (apply lt_0_INR; lia).
  assert (DP : 0 <= T / INR n) by (apply Rlt_le, Rdiv_lt_0_compat; lra).
  assert (PR := path_robust (T / INR n) vs DP).
  exists n, vs; split; auto; split; auto; split; intros F; auto.
  rewrite PR; split; [tauto|intros X; split; auto].
  destruct (gaussian_amplitude _ _ _ _ _ _ E DL) as [_ A]; destruct (A F) as [k [K1 [TT _]]].
  destruct (F0 F) as [p [k' [P [PK [K1' [AV [A1 [A2 EV]]]]]]]].
  assert (RV : rev vs = vs).
  { rewrite EV, <- map_rev, samples_even by (intros; apply envelope_mirror; lra); reflexivity. }
  assert (Z : forall d, qc (qevolution 0 d (map (signed_seg (T / INR n)) vs)) = 0).
  { intros d; assert (R := evolution_rev 0 d (T / INR n) vs); rewrite RV in R.
    apply (f_equal qc) in R; cbn [qreverse qc] in R; lra. }
  destruct (path_derivative (T / INR n) vs DP) as [_ [_ [DC _]]].
  assert (DZ : is_derive (fun d => qc (qevolution 0 d (map (signed_seg (T / INR n)) vs))) 0 0).
  { apply (is_derive_ext (fun _ => 0)); [intros d; symmetry; apply Z|apply (is_derive_const 0)]. }
  apply is_derive_unique in DC; apply is_derive_unique in DZ; rewrite DC in DZ.
  assert (TV : T / INR n * total vs = 2 * PI * INR k').
  { rewrite EV; apply total_gaussian_zero; auto. }
  rewrite TV in DZ; destruct (cos_sin_PI_mult k') as [CS SN].
  unfold qplanar in DZ; cbn [qmul qa qb qc qd] in DZ.
  replace (2 * PI * INR k' / 2) with (INR k' * PI) in DZ by field; rewrite CS, SN in DZ.
  assert ((-1) ^ k' <> 0) by (apply pow_nonzero; lra); nra.
Qed.

Lemma two_segments m T n : 0 < m -> m < T <= 2 * m -> is_ceiling (T / m) n -> n = 2%nat.
Proof.
  intros P B C; apply (ceiling_unique (T / m)); auto; unfold is_ceiling; simpl.
  assert (T / m * m = T) by (field; lra); split; nra.
Qed.

Theorem gaussian_two omega m T f c l :
  new_modulated_gaussian_control omega m T f = Ok c -> describes l c -> T <= 2 * m ->
  (f = 0 -> dephasing_robust 1 l) /\
  (f <> 0 -> (dephasing_robust 1 l <-> exists k : Z, omega * T = 4 * PI * IZR k)).
Proof.
  intros E DL T2.
  destruct (gaussian_shape _ _ _ _ _ E) as [V [n [vs [C [N [L [D [F1 F0]]]]]]]].
  assert (l = map (signed_seg (T / INR n)) vs) by (eapply describes_fun; eauto); subst l.
  destruct V as [W [M [LT B]]].
  assert (N2 : n = 2%nat) by (eapply two_segments; eauto); rewrite N2 in *; clear n N2.
  assert (DE : T / INR 2 = T / 2) by (simpl; f_equal; ring). rewrite DE.
  assert (DP : 0 <= T / 2) by lra.
  rewrite (path_robust (T / 2) vs DP).
  split; intros F.
  - destruct (F0 F) as [p [k [P [PK [K1 [AV [A1 [A2 EV]]]]]]]].
    assert (RV : rev vs = vs).
    { rewrite EV, <- map_rev, samples_even by (intros; apply envelope_mirror; lra); reflexivity. }
    assert (TV : T / 2 * total vs = 2 * PI * INR k).
    { rewrite EV, <- DE; apply total_gaussian_zero; auto. }
    destruct vs as [|v [|v' [|]]]; try discriminate L.
    cbn [rev app] in RV; injection RV as RV _; subst v'.
    cbn [total] in TV; assert (KV : v * (T / 2) = INR k * PI) by lra.
    assert (KP : 0 < INR k) by (apply lt_0_INR; lia); assert (PP := PI_pos).
    assert (VZ : v <> 0) by (intros Z; rewrite Z, Rmult_0_l in KV; nra).
    cbn [path_integral].
    destruct (wave_integrals (0 + v * (T / 2)) v (T / 2) DP) as [C1 [S1 [W1 _]]]; rewrite C1, S1.
    destruct (W1 VZ) as [-> ->]; rewrite Rplus_0_l, KV; destruct (cos_sin_PI_mult k) as [CS SN]; rewrite CS, SN.
    assert (SQ : (-1) ^ k * (-1) ^ k = 1) by (rewrite <- Rpow_mult_distr; replace (-1 * -1) with 1 by ring; apply pow1).
    split; [field; auto|].
    transitivity ((1 - (-1) ^ k * (-1) ^ k) / v); [field; auto|rewrite SQ; field; auto].
  - destruct (F1 F) as [p [P [PK EV]]].
    assert (RV : rev vs = map Ropp vs).
    { rewrite EV, <- map_rev, samples_mirror by (intros; apply signal_mirror; lra).
      rewrite !map_map; apply map_ext; intros; field; lra. }
    assert (VM : exists v, In v vs /\ v = omega).
    { destruct PK as [I _]; exists (omega * p / p); split; [rewrite EV; apply (in_map (fun v => omega * v / p)); auto|field; lra]. }
    destruct vs as [|v [|v' [|]]]; try discriminate L.
    cbn [rev app map] in RV; injection RV as RV _; subst v'.
    assert (VO : v = omega \/ v = - omega).
    { destruct VM as [u [[I|[I|[]]] U]]; [left|right]; lra. }
    assert (VZ : v <> 0) by lra.
    cbn [path_integral].
    destruct (wave_integrals (0 + v * (T / 2)) (- v) (T / 2) DP) as [C1 [S1 [W2 _]]]; rewrite C1, S1.
    destruct (wave_integrals 0 v (T / 2) DP) as [_ [_ [W1 _]]].
    destruct (W1 VZ) as [-> ->]; destruct (W2 ltac:(lra)) as [-> ->].
    replace (- v * (T / 2)) with (- (v * (T / 2))) by ring; rewrite cos_neg, sin_neg, Rplus_0_l.
    set (h := v * (T / 2)); assert (SC := cs1 h).
    replace (sin h / v + (cos h * (- sin h / - v) - sin h * ((1 - cos h) / - v) + 0)) with (2 * (sin h / v)) by (field; lra).
    replace ((1 - cos h) / v + (sin h * (- sin h / - v) + cos h * ((1 - cos h) / - v) + 0)) with (2 * ((1 - cos h) / v)).
    2: { transitivity ((1 - 2 * cos h + (cos h * cos h + sin h * sin h)) / v); [rewrite SC; field; auto|field; auto]. }
    assert (CH : cos h = 1 - 2 * sin (h / 2) * sin (h / 2)) by (rewrite <- cos_2a_sin; f_equal; field).
    assert (SH : sin h = 2 * sin (h / 2) * cos (h / 2)) by (rewrite <- sin_2a; f_equal; field).
    transitivity (sin (h / 2) = 0).
    + split.
      * intros [_ X]; assert (Y : 1 - cos h = 0).
        { apply (Rmult_eq_reg_r (/ v)); [|apply Rinv_neq_0_compat; auto]; unfold Rdiv in X; lra. }
        rewrite CH in Y; nra.
      * intros X; rewrite SH, CH, X; split; field; auto.
    + split.
      * intros X; apply sin_eq_0_0 in X; destruct X as [k X]; unfold h in X.
        destruct VO as [VO|VO]; rewrite VO in X; [exists k|exists (- k)%Z; rewrite opp_IZR]; lra.
      * intros [k X]; apply sin_eq_0_1; unfold h.
        destruct VO as [VO|VO]; rewrite VO; [exists k|exists (- k)%Z; rewrite opp_IZR]; lra.
Qed.
