(** * SCROFULOUS, CORPSE in SCROFULOUS and WAMF1 *)

From Verif Require Export L_Composite.
From Coq Require Import Lia.
Import ListNotations.
Open Scope string_scope.
Open Scope list_scope.
Open Scope R_scope.

(** ** Numerical values *)

Lemma fact_values : INR (fact 0) = 1 /\ INR (fact 2) = 2 /\ INR (fact 4) = 24 /\ INR (fact 6) = 720 /\
  INR (fact 8) = 40320.
Proof.
  assert (F6 : INR (fact 6) = 720) by (simpl; ring).
  split; [|split; [|split; [|split; [exact F6|]]]]; [simpl; ring..|].
  rewrite (fact_simpl 7), (fact_simpl 6), !mult_INR, F6; cbn [INR]; ring.
Qed.

Lemma cos_lower x : 0 <= x <= 1 -> 1 - x ^ 2 / 2 + x ^ 4 / 24 - x ^ 6 / 720 <= cos x.
Proof.
  intros H; destruct (pre_cos_bound x 1) as [A _]; try lra.
  unfold cos_approx, cos_term in A; simpl in A; lra.
Qed.
Lemma cos_upper x : 0 <= x <= 1 -> cos x <= 1 - x ^ 2 / 2 + x ^ 4 / 24.
Proof.
  intros H; destruct (pre_cos_bound x 0) as [_ A]; try lra.
  unfold cos_approx, cos_term in A; simpl in A; lra.
Qed.
Lemma cos_upper_8 x : 0 <= x <= 1 ->
  cos x <= 1 - x ^ 2 / 2 + x ^ 4 / 24 - x ^ 6 / 720 + x ^ 8 / 40320.
Proof.
  intros H; destruct (pre_cos_bound x 1) as [_ A]; try lra.
  unfold cos_approx, cos_term in A; cbn [sum_f_R0 Nat.mul Nat.add] in A.
  destruct fact_values as [F0 [F2 [F4 [F6 F8]]]]; rewrite F0, F2, F4, F6, F8 in A; lra.
Qed.

Lemma pow_bounds x a b n : 0 <= a -> a <= x <= b -> a ^ n <= x ^ n <= b ^ n.
Proof. intros A H; split; apply pow_incr; lra. Qed.

(** enclosure of [cos (PI * r)] *)
Lemma cos_enclose r lo hi :
  0 <= r -> PI * r <= 1 ->
  lo <= 1 - (3.14159266 * r) ^ 2 / 2 + (3.14159265 * r) ^ 4 / 24 - (3.14159266 * r) ^ 6 / 720 ->
  1 - (3.14159265 * r) ^ 2 / 2 + (3.14159266 * r) ^ 4 / 24 - (3.14159265 * r) ^ 6 / 720
    + (3.14159266 * r) ^ 8 / 40320 <= hi ->
  lo <= cos (PI * r) <= hi.
Proof.
  intros R0 R1 L H; assert (P := PI_bounds).
  assert (B : 3.14159265 * r <= PI * r <= 3.14159266 * r) by (split; apply Rmult_le_compat_r; lra).
  assert (B0 : 0 <= 3.14159265 * r) by (apply Rmult_le_pos; lra).
  assert (B2 := pow_bounds _ _ _ 2 B0 B); assert (B4 := pow_bounds _ _ _ 4 B0 B);
    assert (B6 := pow_bounds _ _ _ 6 B0 B); assert (B8 := pow_bounds _ _ _ 8 B0 B).
  assert (D1 := cos_lower (PI * r)); assert (D2 := cos_upper_8 (PI * r)).
  split; [eapply Rle_trans; [exact L|]; eapply Rle_trans; [|apply D1]; lra
         |eapply Rle_trans; [apply D2; lra|]; lra].
Qed.

Lemma cos_14 : 0.904826 <= cos (PI * (7 / 50)) <= 0.904828.
Proof. assert (P := PI_bounds); apply cos_enclose; lra. Qed.
Lemma cos_67 : 0.993168 <= cos (PI * (67 / 1800)) <= 0.993172.
Proof. assert (P := PI_bounds); apply cos_enclose; lra. Qed.
Lemma cos_39 : 0.992438304 <= cos (PI * (391695625 / 10 ^ 10)) <= 0.992438308.
Proof. assert (P := PI_bounds); apply cos_enclose; lra. Qed.
Lemma cos_28 : 0.996094761 <= cos (PI * (281403975 / 10 ^ 10)) <= 0.996094766.
Proof. assert (P := PI_bounds); apply cos_enclose; lra. Qed.

(** ** SCROFULOUS *)

Definition scrofulous_pulses (t1 a : R) : list (R * R) := [(t1, 0); (PI, - a); (t1, 0)].

Lemma shift_scrofulous w phi t1 p1 p2 :
  pulses w [(t1, phi + p1); (PI, phi + p2); (t1, phi + p1)] =
  pulses w (map (shift_pulse (phi + p1)) (scrofulous_pulses t1 (p1 - p2))).
Proof.
  unfold scrofulous_pulses, shift_pulse; cbn [map fst snd].
  replace (0 + (phi + p1)) with (phi + p1) by ring.
  replace (- (p1 - p2) + (phi + p1)) with (phi + p2) by ring; reflexivity.
Qed.

Lemma scrofulous_net t1 a :
  qpulses 0 (scrofulous_pulses t1 a) = Q4 (- cos a * sin t1) (cos a * cos t1) (- sin a) 0.
Proof.
  unfold scrofulous_pulses; cbn [qpulses fst snd]; rewrite qmul_1_l, !one_plus_0, qplanar_pi.
  unfold qplanar; rewrite cos_0, sin_0, cos_neg, sin_neg.
  assert (S : sin t1 = 2 * sin (t1 / 2) * cos (t1 / 2))
    by (replace t1 with (2 * (t1 / 2)) at 1 by field; apply sin_2a).
  assert (C : cos t1 = cos (t1 / 2) * cos (t1 / 2) - sin (t1 / 2) * sin (t1 / 2))
    by (replace t1 with (2 * (t1 / 2)) at 1 by field; apply cos_2a).
  assert (E := ss1 (t1 / 2)).
  rewrite S, C; set (c := cos (t1 / 2)) in *; set (s := sin (t1 / 2)) in *; clearbody c s.
  qeval; apply q_eq; cbn [qa qb qc qd].
  - ring.
  - ring.
  - transitivity (- sin a * (c * c + s * s)); [ring|rewrite E; ring].
  - ring.
Qed.

Lemma scrofulous_jet t1 a :
  0 < t1 -> cos a = - PI / (2 * t1) ->
  qderive (fun e => qpulses e (scrofulous_pulses t1 a)) 0 qzero.
Proof.
  intros T C.
  apply (qderive_ext (fun e => qmul (qmul (qplanar ((1 + e) * t1 / 2) 0) (qplanar ((1 + e) * PI / 2) (- a)))
                                    (qplanar ((1 + e) * t1 / 2) 0))).
  { intros t; unfold scrofulous_pulses; cbn [qpulses fst snd]; rewrite qmul_1_l; reflexivity. }
  assert (JA := jet2_1 _ _ _ (planar_jet2 t1 0)); assert (JB := jet2_1 _ _ _ (jet_pi (- a))).
  eapply qderive_eq; [apply (qderive_mul _ _ _ _ _ (qderive_mul _ _ _ _ _ JA JB) JA)|].
  rewrite !one_plus_0, qplanar_pi; unfold planar_1, qplanar, qscale; cbn [qa qb qc qd].
  rewrite cos_0, sin_0, cos_neg, sin_neg.
  assert (K : t1 * cos a = - (PI / 2)) by (rewrite C; field; lra).
  assert (E := ss1 (t1 / 2)).
  set (c := cos (t1 / 2)) in *; set (s := sin (t1 / 2)) in *; set (x := cos a) in *;
    set (y := sin a) in *; clearbody c s x y.
  assert (HP : - (PI / 2) = t1 * x) by lra.
  assert (HP2 : PI / 2 = - (t1 * x)) by lra.
  rewrite HP; unfold Rdiv; qeval; apply q_eq; cbn [qa qb qc qd]; field.
Qed.

Lemma scrofulous_facts th t1 p1 p2 :
  supported th -> scrofulous_angles th t1 p1 p2 ->
  let a := p1 - p2 in
  PI / 2 < t1 <= PI /\ 0 < sin (th / 2) /\
  cos a = - PI / (2 * t1) /\ 0 <= sin a /\ 0 <= sin p1 /\
  sin (th / 2) * cos p1 = cos a * cos t1.
Proof.
  intros S0 [T [P1 [C1 [P2 C2]]]] a.
  assert (B := scrofulous_theta_1_bounds th t1 T); assert (L := sin_half_lower th S0).
  assert (P := PI_pos).
  repeat split; try lra; try (apply sin_ge_0; lra); auto.
  - apply sin_ge_0; unfold a; lra.
  - unfold a; rewrite C1, C2; field; lra.
Qed.

(** the requested rotation, in the frame of the first pulse *)
Lemma scrofulous_target th p1 :
  qplanar (th / 2) (- p1) = Q4 (cos (th / 2)) (sin (th / 2) * cos p1) (- (sin (th / 2) * sin p1)) 0.
Proof. unfold qplanar; rewrite cos_neg, sin_neg; apply q_eq; cbn [qa qb qc qd]; ring. Qed.

Lemma rotation_frame th phi p1 : rotation th phi = qmat (rotz (phi + p1) (qplanar (th / 2) (- p1))).
Proof.
  rewrite rotation_qmat, <- qplanar_rotz; replace (- p1 + (phi + p1)) with phi by ring; reflexivity.
Qed.

Lemma rotz_inv a q : rotz (- a) (rotz a q) = q.
Proof.
  unfold rotz; rewrite cos_neg, sin_neg; assert (E := ss1 a); destruct q as [x y z t].
  apply q_eq; cbn [qa qb qc qd].
  - reflexivity.
  - transitivity (y * (cos a * cos a + sin a * sin a)); [ring|rewrite E; ring].
  - transitivity (z * (cos a * cos a + sin a * sin a)); [ring|rewrite E; ring].
  - reflexivity.
Qed.
Lemma rotz_inj a p q : rotz a p = rotz a q -> p = q.
Proof. intros H; rewrite <- (rotz_inv a p), H; apply rotz_inv. Qed.

(** the tabulated first angle nearly, but not exactly, solves
    [2 theta1 cos(theta/2) = PI sin theta1] *)
Lemma cos_PI8 : cos (PI / 8) * cos (PI / 8) = (1 + 1 / sqrt 2) / 2.
Proof.
  assert (C := cos_2a_cos (PI / 8)); replace (2 * (PI / 8)) with (PI / 4) in C by field.
  rewrite cos_PI4 in C; lra.
Qed.
Lemma inv_sqrt2 : 0.7071067 < 1 / sqrt 2 < 0.7071068.
Proof.
  assert (S : sqrt 2 * sqrt 2 = 2) by (apply sqrt_sqrt; lra).
  assert (S0 : 0 < sqrt 2) by (apply sqrt_lt_R0; lra).
  assert (X : 1 / sqrt 2 * (1 / sqrt 2) = 1 / 2).
  { transitivity (1 / (sqrt 2 * sqrt 2)); [field; lra|rewrite S; reflexivity]. }
  assert (I : 0 < 1 / sqrt 2) by (apply Rdiv_lt_0_compat; lra).
  split; apply Rnot_le_lt; intros H; nra.
Qed.
Lemma cos_PI8_bounds : 0.9238794 < cos (PI / 8) < 0.9238797.
Proof.
  assert (C := cos_PI8); assert (I := inv_sqrt2).
  assert (N : 0 <= cos (PI / 8)) by (assert (P := PI_pos); apply cos_ge_0; lra).
  split; apply Rnot_le_lt; intros H'; nra.
Qed.

Lemma near_half th b : 0 < b <= 4 -> near th b -> Rabs (th / 2 - b / 2) <= / 40000.
Proof.
  intros B H; unfold near in H; rewrite (Rabs_right b) in H by lra.
  replace (th / 2 - b / 2) with ((th - b) / 2) by field.
  unfold Rdiv; rewrite Rabs_mult, (Rabs_right (/ 2)) by lra.
  lra.
Qed.
Lemma near_cos th b : 0 < b <= 4 -> near th b ->
  cos (b / 2) - / 40000 <= cos (th / 2) <= cos (b / 2) + / 40000.
Proof.
  intros B H; assert (N := near_half th b B H); assert (L := cos_lipschitz (th / 2) (b / 2)).
  assert (X : Rabs (cos (th / 2) - cos (b / 2)) <= / 40000) by lra.
  apply Rabs_le_between in X; lra.
Qed.

(** the scalar part of the implemented rotation *)
Lemma scrofulous_scalar th t1 :
  supported th -> scrofulous_table th t1 ->
  let s' := PI * sin t1 / (2 * t1) in
  (near th PI /\ s' = 0) \/
  (~ near th PI /\ near th (PI / 2) /\ 0.00015 <= cos (th / 2) - s' <= 0.00025) \/
  (~ near th PI /\ ~ near th (PI / 2) /\ 0.0004 <= s' - cos (th / 2) <= 0.00052).
Proof.
  assert (P := PI_bounds).
  intros S [[N ->]|[[N1 [N2 ->]]|[N1 [N2 ->]]]]; cbv zeta.
  - left; split; auto; rewrite sin_PI; field; lra.
  - right; left; repeat (split; auto);
      replace (PI * (1152 / 1800)) with (PI / 2 + PI * (7 / 50)) by field;
      rewrite sin_plus, cos_PI2, sin_PI2, Rmult_0_l, Rmult_1_l, Rplus_0_r;
      replace (PI * cos (PI * (7 / 50)) / (2 * (PI / 2 + PI * (7 / 50)))) with
        (cos (PI * (7 / 50)) * (25 / 32)) by (field; lra);
      assert (B := near_cos th (PI / 2) ltac:(lra) N2);
      replace (PI / 2 / 2) with (PI / 4) in B by field; rewrite cos_PI4 in B;
      assert (I := inv_sqrt2); assert (C := cos_14); lra.
  - assert (N3 : near th (PI / 4)) by (destruct S as [S|[S|S]]; tauto).
    right; right; repeat (split; auto);
      replace (PI * (967 / 1800)) with (PI / 2 + PI * (67 / 1800)) by field;
      rewrite sin_plus, cos_PI2, sin_PI2, Rmult_0_l, Rmult_1_l, Rplus_0_r;
      replace (PI * cos (PI * (67 / 1800)) / (2 * (PI / 2 + PI * (67 / 1800)))) with
        (cos (PI * (67 / 1800)) * (900 / 967)) by (field; lra);
      assert (B := near_cos th (PI / 4) ltac:(lra) N3);
      replace (PI / 4 / 2) with (PI / 8) in B by field;
      assert (I := cos_PI8_bounds); assert (C := cos_67); lra.
Qed.

Lemma close_qmat eps p q :
  Rabs (qa p - qa q) <= eps -> Rabs (qb p - qb q) <= eps ->
  Rabs (qc p - qc q) <= eps -> Rabs (qd p - qd q) <= eps ->
  close_to eps (qmat p) (qmat q).
Proof.
  intros A B C D; unfold close_to, qmat; cbn [m00 m01 m10 m11 fst snd].
  assert (X : forall x y, Rabs (- x - - y) = Rabs (x - y)).
  { intros x y; rewrite <- Rabs_Ropp; f_equal; ring. }
  rewrite !X; repeat split; assumption.
Qed.

Lemma close_mono e1 e2 U V : e1 <= e2 -> close_to e1 U V -> close_to e2 U V.
Proof. unfold close_to; intros H C; repeat split; eapply Rle_trans; try apply H; apply C. Qed.

Lemma close_rotz eps a p q :
  qa p = qa q \/ Rabs (qa p - qa q) <= eps -> qb p = qb q -> Rabs (qc p - qc q) <= eps -> qd p = qd q ->
  0 <= eps ->
  close_to eps (qmat (rotz a p)) (qmat (rotz a q)).
Proof.
  intros A B C D E.
  assert (SB := SIN_bound a); assert (CB := COS_bound a).
  assert (M : forall k, -1 <= k <= 1 -> Rabs ((qc p - qc q) * k) <= eps).
  { intros k K; rewrite Rabs_mult.
    assert (Rabs k <= 1) by (apply Rabs_le; auto).
    apply Rle_trans with (Rabs (qc p - qc q) * 1); [|lra].
    apply Rmult_le_compat_l; auto; apply Rabs_pos. }
  apply close_qmat; unfold rotz; cbn [qa qb qc qd].
  - destruct A as [->|A]; auto. replace (qa q - qa q) with 0 by ring; rewrite Rabs_R0; auto.
  - rewrite B. replace (qb q * cos a - qc p * sin a - (qb q * cos a - qc q * sin a))
      with ((qc p - qc q) * - sin a) by ring; apply M; lra.
  - rewrite B. replace (qb q * sin a + qc p * cos a - (qb q * sin a + qc q * cos a))
      with ((qc p - qc q) * cos a) by ring; apply M; lra.
  - rewrite D; replace (qd q - qd q) with 0 by ring; rewrite Rabs_R0; auto.
Qed.

(** implemented and requested rotation in the frame of the first pulse *)
Lemma scrofulous_compare th t1 p1 p2 :
  supported th -> scrofulous_angles th t1 p1 p2 ->
  let a := p1 - p2 in
  let s' := PI * sin t1 / (2 * t1) in
  exists x y y',
    qpulses 0 (scrofulous_pulses t1 a) = Q4 s' x (- y') 0 /\
    qplanar (th / 2) (- p1) = Q4 (cos (th / 2)) x (- y) 0 /\
    x <> 0 /\ 0 <= y /\ 0 <= y' /\
    cos (th / 2) * cos (th / 2) + x * x + y * y = 1 /\ s' * s' + x * x + y' * y' = 1 /\
    y' * y' = 1 - (PI / (2 * t1)) * (PI / (2 * t1)).
Proof.
  intros S A a s'.
  destruct (scrofulous_facts th t1 p1 p2 S A) as [T [SH [C [SA [SP X]]]]]; fold a in C, SA, X.
  assert (P := PI_pos).
  exists (cos a * cos t1), (sin (th / 2) * sin p1), (sin a).
  assert (ES : - cos a * sin t1 = s') by (rewrite C; unfold s'; field; lra).
  assert (E1 := ss1 a); assert (E2 := ss1 t1); assert (E3 := ss1 p1); assert (E4 := ss1 (th / 2)).
  rewrite scrofulous_net, scrofulous_target, ES, X.
  split; [reflexivity|split; [reflexivity|split]].
  { assert (cos t1 < 0) by (apply cos_lt_0; lra).
    assert (cos a < 0).
    { rewrite C; assert (0 < PI / (2 * t1)) by (apply Rdiv_lt_0_compat; lra); lra. }
    assert (0 < - cos a * - cos t1) by (apply Rmult_lt_0_compat; lra); lra. }
  split; [apply Rmult_le_pos; lra|split; [exact SA|]].
  split; [|split].
  - rewrite <- X. transitivity (cos (th / 2) * cos (th / 2) + sin (th / 2) * sin (th / 2) *
      (cos p1 * cos p1 + sin p1 * sin p1)); [ring|rewrite E3, E4; ring].
  - rewrite <- ES. transitivity (cos a * cos a * (sin t1 * sin t1 + cos t1 * cos t1) + sin a * sin a);
      [ring|rewrite E2, E1; ring].
  - rewrite E1, C; field; lra.
Qed.

Lemma phase_rotz a p q :
  phase_equiv (qmat (rotz a p)) (qmat (rotz a q)) -> qb p = qb q -> qb q <> 0 -> p = q.
Proof.
  intros [z [_ H]] B N.
  assert (Q : forall r, qb r = qb (rotz a r) * cos a + qc (rotz a r) * sin a).
  { intros r; unfold rotz; cbn [qb qc]; assert (E := ss1 a).
    transitivity (qb r * (cos a * cos a + sin a * sin a)); [rewrite E; ring|ring]. }
  assert (Q1 := Q p); assert (Q2 := Q q); clear Q.
  apply (rotz_inj a).
  set (p' := rotz a p) in *; set (q' := rotz a q) in *; clearbody p' q'.
  assert (H1 := f_equal m01 H); assert (H2 := f_equal m10 H); cbn [qmat mscale m01 m10] in H1, H2.
  destruct z as [zr zi]; unfold Cmult in H1, H2; cbn [fst snd] in H1, H2.
  injection H1 as A1 A2; injection H2 as A3 A4.
  assert (R1 : qb p' = zr * qb q') by lra.
  assert (R2 : qc p' = zr * qc q') by lra.
  assert (R3 : zi * qb q' = 0) by lra.
  assert (R4 : zi * qc q' = 0) by lra.
  assert (ZR : zr = 1).
  { apply (Rmult_eq_reg_r (qb q)); auto.
    assert (X : zr * qb q = qb p) by (rewrite Q1, Q2, R1, R2; ring); lra. }
  assert (ZI : zi = 0).
  { apply (Rmult_eq_reg_r (qb q)); auto. rewrite Q2.
    transitivity (zi * qb q' * cos a + zi * qc q' * sin a); [ring|rewrite R3, R4; ring]. }
  subst zr zi.
  apply qmat_inj; rewrite H; m_real; ring.
Qed.

Lemma near_refl b : 0 < b -> near b b.
Proof. intros H; unfold near; replace (b - b) with 0 by ring; rewrite Rabs_R0, Rabs_right; lra. Qed.

Theorem scrofulous_spec th w phi name c l :
  new_scrofulous_control th w phi name = Ok c -> describes l c ->
  amplitude_robust 1 l /\
  (th = PI -> evolution l = rotation th phi) /\
  (near th PI -> close_to (1 / 10000) (evolution l) (rotation th phi)) /\
  (near th (PI / 2) -> close_to (1 / 1000) (evolution l) (rotation th phi)) /\
  close_to (3 / 1000) (evolution l) (rotation th phi) /\
  (phase_equiv (evolution l) (rotation th phi) -> th = PI).
Proof.
  intros B D; destruct (build_inv SCROFULOUS _ _ _ _ _ _ B D) as [[W [T S]] X].
  cbn in S; destruct X as [t1 [p1 [p2 [A ->]]]]; rewrite shift_scrofulous.
  assert (PB := PI_bounds).
  destruct (scrofulous_facts th t1 p1 p2 S A) as [T1 [SH [C _]]].
  destruct (scrofulous_compare th t1 p1 p2 S A) as [x [y [y' [E1 [E2 [NX [Y0 [Y1 [N1 [N2 YY]]]]]]]]]].
  rewrite (evolution_pulses w _ (phi + p1) _ W E1), (rotation_frame th phi p1), E2.
  assert (SC := scrofulous_scalar th t1 S (proj1 A)); cbv zeta in SC.
  assert (TB := proj1 A); unfold scrofulous_table in TB.
  set (s' := PI * sin t1 / (2 * t1)) in *.
  assert (DY : (y' - y) * (y' + y) = (cos (th / 2) - s') * (cos (th / 2) + s')) by lra.
  assert (BY : forall lo eps, 0 < lo -> lo <= y' -> Rabs (cos (th / 2) - s') * 2 <= eps * lo -> Rabs (y' - y) <= eps).
  { intros lo eps L Ly He.
    assert (Z : Rabs (y' - y) * lo <= eps * lo).
    { apply Rle_trans with (Rabs (y' - y) * (y' + y)).
      - apply Rmult_le_compat_l; [apply Rabs_pos|lra].
      - rewrite <- (Rabs_right (y' + y)) by lra. rewrite <- Rabs_mult, DY, Rabs_mult.
        eapply Rle_trans; [|exact He]. apply Rmult_le_compat_l; [apply Rabs_pos|].
        apply Rabs_le; assert (s' * s' <= 1) by nra.
        assert (-1 <= s' <= 1) by nra. generalize (COS_bound (th / 2)); lra. }
    apply Rmult_le_reg_r in Z; auto. }
  assert (CL : forall lo eps, 0 < lo <= 1 -> lo * lo <= 1 - PI / (2 * t1) * (PI / (2 * t1)) ->
     Rabs (cos (th / 2) - s') * 2 <= eps * lo ->
     close_to eps (qmat (rotz (phi + p1) (Q4 s' x (- y') 0))) (qmat (rotz (phi + p1) (Q4 (cos (th / 2)) x (- y) 0)))).
  { intros lo eps L1 L2 He.
    assert (E0 : 0 <= eps).
    { assert (0 <= Rabs (cos (th / 2) - s')) by apply Rabs_pos. nra. }
    assert (Ly : lo <= y') by nra.
    apply close_rotz; cbn [qa qb qc qd]; auto.
    - right; rewrite Rabs_minus_sym. 
      assert (0 <= Rabs (cos (th / 2) - s')) by apply Rabs_pos. nra.
    - replace (- y' - - y) with (- (y' - y)) by ring; rewrite Rabs_Ropp.
      apply (BY lo); lra. }
  assert (NP : near th PI -> t1 = PI) by tauto.
  assert (C1 : near th PI -> close_to (1 / 10000) (qmat (rotz (phi + p1) (Q4 s' x (- y') 0))) (qmat (rotz (phi + p1) (Q4 (cos (th / 2)) x (- y) 0)))).
  { intros N; apply (CL (8 / 10)).
    - lra.
    - rewrite (NP N); replace (PI / (2 * PI)) with (1 / 2) by (field; lra); lra.
    - destruct SC as [[_ ->]|[[N' _]|[N' _]]]; [|tauto|tauto].
      rewrite Rminus_0_r. assert (Q := near_cos th PI ltac:(lra) N); rewrite cos_PI2 in Q.
      assert (Rabs (cos (th / 2)) <= / 40000) by (apply Rabs_le; lra). lra. }
  assert (C2 : near th (PI / 2) -> close_to (1 / 1000) (qmat (rotz (phi + p1) (Q4 s' x (- y') 0))) (qmat (rotz (phi + p1) (Q4 (cos (th / 2)) x (- y) 0)))).
  { intros N.
    destruct SC as [[N' _]|[[N' [_ Q]]|[_ [N' _]]]].
    - eapply close_mono; [|apply C1; auto]; lra.
    - assert (E : t1 = PI * (1152 / 1800)) by tauto.
      apply (CL (6 / 10)).
      + lra.
      + rewrite E; replace (PI / (2 * (PI * (1152 / 1800)))) with (25 / 32) by (field; lra); lra.
      + rewrite Rabs_right by lra; lra.
    - tauto. }
  split; [|split; [|split; [exact C1|split; [exact C2|split]]]].
  - apply amplitude_robust_1; auto; apply scrofulous_jet; auto; lra.
  - intros ->; do 3 f_equal.
    + destruct SC as [[_ ->]|[[N _]|[N _]]]; [rewrite cos_PI2; auto| |];
        exfalso; apply N, near_refl; lra.
    + destruct SC as [[_ Z]|[[N _]|[N _]]]; [|exfalso; apply N, near_refl; lra..].
      rewrite Z, cos_PI2 in DY.
      assert (Q : (y' - y) * (y' + y) = 0) by lra.
      apply Rmult_integral in Q; destruct Q; lra.
  - destruct SC as [[N _]|[[_ [N _]]|[N1' [N2' Q]]]].
    + eapply close_mono; [|apply C1; auto]; lra.
    + eapply close_mono; [|apply C2; auto]; lra.
    + assert (E : t1 = PI * (967 / 1800)) by tauto.
      apply (CL (36 / 100)).
      * lra.
      * rewrite E; replace (PI / (2 * (PI * (967 / 1800)))) with (900 / 967) by (field; lra); lra.
      * rewrite Rabs_left by lra; lra.
  - intros H; apply phase_rotz in H; cbn [qb]; auto.
    injection H as HS _.
    destruct SC as [[N Z]|[[_ [_ Q]]|[_ [_ Q]]]]; try lra.
    rewrite Z in HS.
    assert (Q := near_bounds th PI ltac:(lra) N).
    assert (E : th / 2 = PI / 2); [|lra].
    apply cos_inj; try lra. rewrite cos_PI2; auto.
Qed.
