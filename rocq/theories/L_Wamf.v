(** * CORPSE in SCROFULOUS and WAMF1 *)

From Verif Require Export L_Scrofulous.
From Coq Require Import Lia.
Import ListNotations.
Open Scope string_scope.
Open Scope list_scope.
Open Scope R_scope.

Lemma qtilt_shift w a l : qtilt w (map (shift_pulse a) l) = rotz a (qtilt w l).
Proof.
  induction l as [|p l IH].
  - apply q_eq; simpl; ring.
  - cbn [map qtilt shift_pulse fst snd]; rewrite IH, qpulses_shift, qplanar_rotz.
    rewrite <- rotz_mul.
    replace (Q4 0 0 0 (sin (fst p / 2) / w)) with (rotz a (Q4 0 0 0 (sin (fst p / 2) / w))) at 1
      by (apply q_eq; simpl; ring).
    rewrite <- rotz_mul; apply q_eq; unfold qadd, rotz; cbn [qa qb qc qd]; ring.
Qed.

Lemma rotz_zero a : rotz a qzero = qzero.
Proof. apply q_eq; simpl; ring. Qed.

Lemma corpse_acts e th ph k : qpulses e (corpse_pulses th ph k) = qplanar ((1 + e) * th / 2) ph.
Proof.
  rewrite shift_corpse, qpulses_shift, acts_as_corpse, <- qplanar_rotz; f_equal; ring.
Qed.
Lemma corpse_no_tilt w th ph k : corpse_angle th k -> qtilt w (corpse_pulses th ph k) = qzero.
Proof.
  intros K; rewrite shift_corpse, qtilt_shift, corpse_tilt by auto; apply rotz_zero.
Qed.

Definition corpse_scrofulous (t1 a k1 k2 : R) : list (R * R) :=
  corpse_pulses t1 0 k1 ++ corpse_pulses PI (- a) k2 ++ corpse_pulses t1 0 k1.

Lemma corpse_scrofulous_acts e t1 a k1 k2 :
  qpulses e (corpse_scrofulous t1 a k1 k2) = qpulses e (scrofulous_pulses t1 a).
Proof.
  unfold corpse_scrofulous, scrofulous_pulses.
  rewrite !qpulses_app, !corpse_acts; cbn [qpulses fst snd]; rewrite qmul_1_l; reflexivity.
Qed.

Lemma corpse_scrofulous_tilt w t1 a k1 k2 :
  corpse_angle t1 k1 -> corpse_angle PI k2 -> qtilt w (corpse_scrofulous t1 a k1 k2) = qzero.
Proof.
  intros K1 K2; unfold corpse_scrofulous; rewrite !qtilt_app, !corpse_no_tilt by auto.
  rewrite !qmul_zero_l, !qmul_zero_r, !qadd_zero_l, !qmul_zero_l; apply qadd_zero_l.
Qed.

Lemma shift_corpse_at b ph th k :
  corpse_pulses th (b + ph) k = map (shift_pulse b) (corpse_pulses th ph k).
Proof.
  unfold corpse_pulses, shift_pulse; cbn [map fst snd].
  replace (b + ph + PI) with (ph + PI + b) by ring; rewrite (Rplus_comm b ph); reflexivity.
Qed.

Lemma shift_corpse_scrofulous phi t1 p1 p2 k1 k2 :
  corpse_pulses t1 (phi + p1) k1 ++ corpse_pulses PI (phi + p2) k2 ++ corpse_pulses t1 (phi + p1) k1 =
  map (shift_pulse (phi + p1)) (corpse_scrofulous t1 (p1 - p2) k1 k2).
Proof.
  unfold corpse_scrofulous; rewrite !map_app, <- !shift_corpse_at.
  replace (phi + p1 + - (p1 - p2)) with (phi + p2) by ring; rewrite Rplus_0_r; reflexivity.
Qed.

(** the angles are determined by the rotation *)
Lemma scrofulous_unique th t1 p1 p2 t1' p1' p2' :
  scrofulous_angles th t1 p1 p2 -> scrofulous_angles th t1' p1' p2' ->
  t1 = t1' /\ p1 = p1' /\ p2 = p2'.
Proof.
  intros [T [A1 [B1 [C1 D1]]]] [T' [A2 [B2 [C2 D2]]]].
  assert (E : t1 = t1') by (unfold scrofulous_table in *; destruct T as [T|[T|T]], T' as [T'|[T'|T']];
    try tauto; destruct T as [? T], T' as [? T']; try (rewrite T, T'; reflexivity);
    destruct T as [? T], T' as [? T']; rewrite T, T'; reflexivity).
  subst t1'.
  assert (E1 : p1 = p1') by (apply cos_inj; try lra; congruence).
  subst p1'; repeat split; auto.
  assert (E2 : p1 - p2 = p1 - p2') by (apply cos_inj; try lra; congruence).
  lra.
Qed.

Theorem corpse_in_scrofulous_same th w phi name name' c l c' l' :
  new_corpse_in_scrofulous_control th w phi name = Ok c -> describes l c ->
  new_scrofulous_control th w phi name' = Ok c' -> describes l' c' ->
  forall e, -1 < e -> noisy_evolution e 0 l = noisy_evolution e 0 l'.
Proof.
  intros B D B' D' e He.
  destruct (build_inv CORPSE_in_SCROFULOUS _ _ _ _ _ _ B D) as [[W [T S]] X].
  destruct (build_inv SCROFULOUS _ _ _ _ _ _ B' D') as [_ X'].
  destruct X as [t1 [p1 [p2 [k1 [k2 [A [K1 [K2 ->]]]]]]]].
  destruct X' as [t1' [p1' [p2' [A' ->]]]].
  destruct (scrofulous_unique _ _ _ _ _ _ _ A A') as [<- [<- <-]].
  rewrite shift_scrofulous, shift_corpse_scrofulous, !noisy_pulses by lra.
  rewrite corpse_scrofulous_acts; reflexivity.
Qed.

Lemma scrofulous_exists th w phi name c :
  new_corpse_in_scrofulous_control th w phi name = Ok c ->
  exists c' l', new_scrofulous_control th w phi name = Ok c' /\ describes l' c'.
Proof.
  intros B; destruct (accepts_dec CORPSE_in_SCROFULOUS th w) as [A|A].
  - destruct (build_accepts SCROFULOUS th w phi name A) as [c' [l' [B' [D' _]]]]; eauto.
  - destruct (build_rejects CORPSE_in_SCROFULOUS th w phi name A) as [d [args [E _]]].
    cbn [build] in E; rewrite B in E; discriminate.
Qed.

Theorem corpse_in_scrofulous_spec th w phi name c l :
  new_corpse_in_scrofulous_control th w phi name = Ok c -> describes l c ->
  amplitude_robust 1 l /\ dephasing_robust 1 l /\
  (th = PI -> evolution l = rotation th phi) /\
  (near th PI -> close_to (1 / 10000) (evolution l) (rotation th phi)) /\
  (near th (PI / 2) -> close_to (1 / 1000) (evolution l) (rotation th phi)) /\
  close_to (3 / 1000) (evolution l) (rotation th phi) /\
  (phase_equiv (evolution l) (rotation th phi) -> th = PI).
Proof.
  intros B D; destruct (scrofulous_exists _ _ _ _ _ B) as [c' [l' [B' D']]].
  assert (SA := corpse_in_scrofulous_same _ _ _ _ _ _ _ _ _ B D B' D').
  destruct (scrofulous_spec _ _ _ _ _ _ B' D') as [R H].
  assert (E : evolution l = evolution l') by (apply SA; lra).
  rewrite E; split; [|split; [|exact H]].
  - unfold amplitude_robust in *.
    eapply flat_ext_loc; [|exact R].
    eapply filter_imp; [|apply near_zero_pos]; intros e He; simpl in *.
    symmetry; apply SA; lra.
  - destruct (build_inv CORPSE_in_SCROFULOUS _ _ _ _ _ _ B D) as [[W [T S]] X].
    destruct X as [t1 [p1 [p2 [k1 [k2 [A [K1 [K2 ->]]]]]]]].
    rewrite shift_corpse_scrofulous; apply dephasing_pulses; auto.
    apply corpse_scrofulous_tilt; auto.
Qed.

(** ** WAMF1 *)

Lemma inv_sqrt2_tight : 0.70710678118 < 1 / sqrt 2 < 0.70710678119.
Proof.
  assert (S : sqrt 2 * sqrt 2 = 2) by (apply sqrt_sqrt; lra).
  assert (S0 : 0 < sqrt 2) by (apply sqrt_lt_R0; lra).
  assert (X : 1 / sqrt 2 * (1 / sqrt 2) = 1 / 2).
  { transitivity (1 / (sqrt 2 * sqrt 2)); [field; lra|rewrite S; reflexivity]. }
  assert (I : 0 < 1 / sqrt 2) by (apply Rdiv_lt_0_compat; lra).
  set (v := 1 / sqrt 2) in *; clearbody v.
  split; apply Rnot_le_lt; intros H.
  - assert (v * v <= 0.70710678118 * 0.70710678118) by (apply Rmult_le_compat; lra); lra.
  - assert (0.70710678119 * 0.70710678119 <= v * v) by (apply Rmult_le_compat; lra); lra.
Qed.
Lemma sin_PI8_tight : 0.38268343236 < sin (PI / 8) < 0.38268343237.
Proof.
  assert (P := PI_pos); assert (I := inv_sqrt2_tight).
  assert (C := cos_2a_sin (PI / 8)); replace (2 * (PI / 8)) with (PI / 4) in C by field.
  rewrite cos_PI4 in C.
  assert (S0 : 0 <= sin (PI / 8)) by (apply sin_ge_0; lra).
  set (v := sin (PI / 8)) in *; clearbody v.
  split; apply Rnot_le_lt; intros H.
  - assert (v * v <= 0.38268343236 * 0.38268343236) by (apply Rmult_le_compat; lra); lra.
  - assert (0.38268343237 * 0.38268343237 <= v * v) by (apply Rmult_le_compat; lra); lra.
Qed.

Lemma wamf1_nominal th a b : wamf1_table th a b -> exists th0, nominal th th0 /\ 2 * (a + b) = th0 + 2 * PI.
Proof.
  unfold nominal; intros [[N [-> ->]]|[[N1 [N2 [-> ->]]]|[N1 [N2 [-> ->]]]]].
  - exists PI; split; [tauto|field].
  - exists (PI / 2); split; [tauto|field].
  - exists (PI / 4); split; [tauto|field].
Qed.

Definition wamf1_segs (w ph a b : R) : list seg :=
  [Seg w ph 0 (a / w); Seg (w * (b / a)) ph 0 (a / w);
   Seg (w * (b / a)) ph 0 (a / w); Seg w ph 0 (a / w)].

Lemma wamf1_shift w phi a b : wamf1_segs w phi a b = map (shift_seg phi) (wamf1_segs w 0 a b).
Proof. unfold wamf1_segs, shift_seg; cbn; rewrite Rplus_0_l; reflexivity. Qed.

Lemma wamf1_rates w a b : 0 < w -> 0 < b < a -> 0 < w * (b / a).
Proof. intros W B; apply Rmult_lt_0_compat; auto; apply Rdiv_lt_0_compat; lra. Qed.

Lemma wamf1_seg_values w a b :
  0 < w -> 0 < b < a ->
  qnoisy 0 0 (Seg w 0 0 (a / w)) = qplanar (a / 2) 0 /\
  qnoisy 0 0 (Seg (w * (b / a)) 0 0 (a / w)) = qplanar (b / 2) 0.
Proof.
  intros W B; assert (R := wamf1_rates w a b W B).
  rewrite !qnoisy_resonant by lra; split; f_equal; field; lra.
Qed.

Lemma wamf1_net w a b : 0 < w -> 0 < b < a -> qevolution 0 0 (wamf1_segs w 0 a b) = qplanar (a + b) 0.
Proof.
  intros W B; destruct (wamf1_seg_values w a b W B) as [E1 E2].
  unfold wamf1_segs; cbn [qevolution]; rewrite E1, E2, qmul_1_l, !qplanar_add; f_equal; field.
Qed.

(** derivative with respect to the detuning *)
Lemma wamf1_tilt w a b :
  0 < w -> 0 < b < a ->
  qderive (fun d => qevolution 0 d (wamf1_segs w 0 a b)) 0
          (Q4 0 0 0 ((sin (a + b) + (a - b) / b * sin b) / w)).
Proof.
  intros W B; destruct (wamf1_seg_values w a b W B) as [E1 E2].
  assert (R := wamf1_rates w a b W B).
  assert (D1 := qnoisy_detuning w 0 (a / w) W); assert (D2 := qnoisy_detuning (w * (b / a)) 0 (a / w) R).
  replace (w * (a / w) / 2) with (a / 2) in D1 by (field; lra).
  replace (w * (b / a) * (a / w) / 2) with (b / 2) in D2 by (field; lra).
  unfold wamf1_segs; cbn [qevolution].
  assert (D34 := qderive_mul _ _ _ _ _ (qderive_mul _ _ _ _ _ (qderive_const qone 0) D1) D2).
  eapply qderive_eq; [apply (qderive_mul _ _ _ _ _ (qderive_mul _ _ _ _ _ D34 D2) D1)|].
  rewrite E1, E2.
  assert (SB : sin b = 2 * sin (b / 2) * cos (b / 2))
    by (replace b with (2 * (b / 2)) at 1 by field; apply sin_2a).
  assert (SAB : sin (a + b) = 2 * sin (a / 2) * (cos (a / 2) * (1 - 2 * sin (b / 2) * sin (b / 2))
     - sin (a / 2) * (2 * sin (b / 2) * cos (b / 2))) + sin b).
  { replace (a + b) with (2 * (a / 2) + b) at 1 by field.
    replace (1 - 2 * sin (b / 2) * sin (b / 2)) with (cos b)
      by (replace b with (2 * (b / 2)) at 1 by field; apply cos_2a_sin).
    rewrite <- SB, sin_plus, sin_2a, cos_2a_sin; ring. }
  rewrite SAB, SB; unfold qplanar; rewrite cos_0, sin_0.
  assert (EA := cs1 (a / 2)); assert (EB := cs1 (b / 2)).
  set (sa := sin (a / 2)) in *; set (ca := cos (a / 2)) in *; set (sb := sin (b / 2)) in *;
    set (cb := cos (b / 2)) in *; clearbody sa ca sb cb.
  replace (sa / w) with (sa * / w) by reflexivity.
  replace (sb / (w * (b / a))) with (sb * (a / b) * / w) by (field; lra).
  replace ((2 * sa * (ca * (1 - 2 * sb * sb) - sa * (2 * sb * cb)) + 2 * sb * cb + (a - b) / b * (2 * sb * cb)) / w)
    with ((2 * sa * (ca * (1 - 2 * sb * sb) - sa * (2 * sb * cb)) + a / b * (2 * sb * cb)) * / w)
    by (field; lra).
  set (r := a / b); set (v := / w); clearbody r v.
  rewrite !Rmult_1_r, !Rmult_0_r.
  qeval.
  apply q_eq; cbn [qa qb qc qd].
  - ring.
  - ring.
  - ring.
  - ring_simplify.
    replace (cb ^ 2) with (1 - sb * sb) by (rewrite <- EB; ring).
    replace (ca ^ 2) with (1 - sa * sa) by (rewrite <- EA; ring).
    ring.
Qed.

(** residual sensitivity of the tabulated Walsh coefficients *)
Lemma wamf1_residual th a b :
  supported th -> wamf1_table th a b ->
  (near th PI /\ sin (a + b) + (a - b) / b * sin b = 0) \/
  (~ near th PI /\ - (1 / 10 ^ 8) <= sin (a + b) + (a - b) / b * sin b < 0).
Proof.
  assert (P := PI_pos).
  intros S [[N [-> ->]]|[[N1 [N2 [-> ->]]]|[N1 [N2 [-> ->]]]]].
  - left; split; auto.
    replace (PI + PI / 2) with (PI / 2 + PI) by ring; rewrite neg_sin, sin_PI2; field; lra.
  - right; split; auto.
    replace (PI / 4 * (25 / 10 + 65667825 / 10 ^ 8) + PI / 4 * (25 / 10 - 65667825 / 10 ^ 8))
      with (PI / 4 + PI) by field.
    rewrite neg_sin, sin_PI4.
    replace (sin (PI / 4 * (25 / 10 - 65667825 / 10 ^ 8))) with (cos (PI * (391695625 / 10 ^ 10)))
      by (rewrite <- sin_shift; f_equal; field).
    replace ((PI / 4 * (25 / 10 + 65667825 / 10 ^ 8) - PI / 4 * (25 / 10 - 65667825 / 10 ^ 8)) /
      (PI / 4 * (25 / 10 - 65667825 / 10 ^ 8))) with (131335650 / 184332175) by (field; lra).
    assert (I := inv_sqrt2_tight); assert (C := cos_39); lra.
  - right; split; auto.
    replace (PI / 4 * (225 / 100 + 36256159 / 10 ^ 8) + PI / 4 * (225 / 100 - 36256159 / 10 ^ 8))
      with (PI / 8 + PI) by field.
    rewrite neg_sin.
    replace (sin (PI / 4 * (225 / 100 - 36256159 / 10 ^ 8))) with (cos (PI * (281403975 / 10 ^ 10)))
      by (rewrite <- sin_shift; f_equal; field).
    replace ((PI / 4 * (225 / 100 + 36256159 / 10 ^ 8) - PI / 4 * (225 / 100 - 36256159 / 10 ^ 8)) /
      (PI / 4 * (225 / 100 - 36256159 / 10 ^ 8))) with (72512318 / 188743841) by (field; lra).
    assert (I := sin_PI8_tight); assert (C := cos_28); lra.
Qed.

Lemma m_derive_qmat f x d : qderive f x d -> m_derive (fun t => qmat (f t)) x (qmat d).
Proof.
  intros [A [B [C D]]].
  assert (X : forall (g : R -> R) v, is_derive g x v -> is_derive (fun t => - g t) x (- v)).
  { intros g v H; apply (is_derive_opp g x v H). }
  split; [|split; [|split]]; split; cbn [qmat m00 m01 m10 m11 fst snd]; auto.
Qed.

Lemma m_derive_ext f g x d : (forall t, f t = g t) -> m_derive f x d -> m_derive g x d.
Proof.
  intros E [[A1 A2] [[B1 B2] [[C1 C2] [D1 D2]]]].
  split; [|split; [|split]]; split; eapply is_derive_ext; try eassumption;
    intros t; simpl; rewrite E; reflexivity.
Qed.

Lemma wamf1_m_derive w phi a b :
  0 < w -> 0 < b < a ->
  m_derive (fun d => noisy_evolution 0 d (wamf1_segs w phi a b)) 0
           (qmat (Q4 0 0 0 ((sin (a + b) + (a - b) / b * sin b) / w))).
Proof.
  intros W B.
  apply (m_derive_ext (fun d => qmat (qevolution 0 d (wamf1_segs w phi a b)))).
  { intros d; symmetry; apply noisy_evolution_qmat. }
  apply m_derive_qmat; rewrite wamf1_shift.
  eapply qderive_eq; [apply (dephasing_ext _ _ _ (wamf1_tilt w a b W B))|].
  apply q_eq; simpl; ring.
Qed.

Lemma nominal_near th th0 : supported th -> nominal th th0 -> near th th0 /\ 0 < th0 <= PI.
Proof.
  assert (P := PI_pos); unfold nominal, supported.
  intros S [[N ->]|[[N1 [N2 ->]]|[N1 [N2 ->]]]]; split; try lra; tauto.
Qed.

Theorem wamf1_spec th w phi name c l :
  new_wamf1_control th w phi name = Ok c -> describes l c ->
  (forall th0, nominal th th0 -> evolution l = mscale (RtoC (-1)) (rotation th0 phi)) /\
  (th = PI \/ th = PI / 2 \/ th = PI / 4 -> evolution l = mscale (RtoC (-1)) (rotation th phi)) /\
  close_to (1 / 10 ^ 4) (evolution l) (mscale (RtoC (-1)) (rotation th phi)).
Proof.
  intros B D; destruct (build_inv WAMF1 _ _ _ _ _ _ B D) as [[W [T S]] X]; cbn in S.
  destruct X as [a [b [A E]]]; fold (wamf1_segs w phi a b) in E; subst l.
  destruct (wamf1_bounds th a b A) as [B0 B1].
  destruct (wamf1_nominal th a b A) as [th0 [N E]].
  assert (P := PI_bounds).
  assert (Z : forall t, mscale (RtoC (-1)) (rotation t phi) = qmat (rotz phi (qplanar (t / 2 + PI) 0))).
  { intros t; rewrite <- rotation_shift; unfold qplanar, rotz; cbn [qa qb qc qd].
    rewrite neg_cos, neg_sin, cos_0, sin_0; m_real; ring. }
  assert (V : evolution (wamf1_segs w phi a b) = mscale (RtoC (-1)) (rotation th0 phi)).
  { unfold evolution; rewrite Z, noisy_evolution_qmat, wamf1_shift, qevolution_shift, wamf1_net by (auto; lra).
    replace (a + b) with (th0 / 2 + PI) by lra; reflexivity. }
  destruct (nominal_near th th0 S N) as [NN N0].
  split; [|split].
  - intros t Ht; replace t with th0; auto.
    unfold nominal in *; destruct N as [N|[N|N]], Ht as [Ht|[Ht|Ht]]; try tauto;
      destruct N as [? N], Ht as [? Ht]; try (rewrite N, Ht; reflexivity);
      destruct N as [? N], Ht as [? Ht]; rewrite N, Ht; reflexivity.
  - intros H; rewrite V; do 2 f_equal.
    assert (R := fun x y => near_bounds x y).
    unfold nominal in N; destruct N as [[N ->]|[[N1 [N2 ->]]|[N1 [N2 ->]]]].
    + apply R in N; [|lra]; destruct H as [H|[H|H]]; auto; exfalso; lra.
    + apply R in N2; [|lra]; destruct H as [H|[H|H]]; auto; exfalso; lra.
    + apply R in NN; [|lra]; destruct H as [H|[H|H]]; auto; exfalso; lra.
  - rewrite V, !Z.
    assert (NH := near_half th th0 ltac:(lra) NN).
    assert (LC := cos_lipschitz (th0 / 2 + PI) (th / 2 + PI));
      assert (LS := sin_lipschitz (th0 / 2 + PI) (th / 2 + PI)).
    replace (th0 / 2 + PI - (th / 2 + PI)) with (- (th / 2 - th0 / 2)) in LC, LS by ring.
    rewrite Rabs_Ropp in LC, LS.
    rewrite <- !qplanar_rotz; unfold qplanar.
    assert (M : forall k, -1 <= k <= 1 -> Rabs (sin (th0 / 2 + PI) * k - sin (th / 2 + PI) * k) <= 1 / 10 ^ 4).
    { intros k K; rewrite <- Rmult_minus_distr_r, Rabs_mult.
      assert (Rabs k <= 1) by (apply Rabs_le; auto).
      apply Rle_trans with (Rabs (sin (th0 / 2 + PI) - sin (th / 2 + PI)) * 1); [|lra].
      apply Rmult_le_compat_l; auto; apply Rabs_pos. }
    apply close_qmat; cbn [qa qb qc qd].
    + lra.
    + apply M, COS_bound.
    + apply M, SIN_bound.
    + rewrite Rminus_0_r, Rabs_R0; lra.
Qed.

Theorem wamf1_dephasing th w phi name c l :
  new_wamf1_control th w phi name = Ok c -> describes l c ->
  (dephasing_robust 1 l <-> near th PI) /\
  exists D, m_derive (fun d => noisy_evolution 0 d l) 0 D /\ close_to (1 / 10 ^ 8 / w) D mzero.
Proof.
  intros B D; destruct (build_inv WAMF1 _ _ _ _ _ _ B D) as [[W [T S]] X]; cbn in S.
  destruct X as [a [b [A E]]]; fold (wamf1_segs w phi a b) in E; subst l.
  destruct (wamf1_bounds th a b A) as [B0 B1].
  assert (R := wamf1_residual th a b S A).
  assert (MD := wamf1_m_derive w phi a b W (conj B0 B1)).
  assert (IW : 0 < / w) by (apply Rinv_0_lt_compat; auto).
  set (v := sin (a + b) + (a - b) / b * sin b) in *.
  split; [split|].
  - intros F; destruct R as [[N _]|[N V]]; auto; exfalso.
    destruct F as [_ [F _]]; assert (F1 := F 1%nat (conj (le_n 1) (le_n 1))).
    destruct MD as [[_ M] _].
    apply is_derive_unique in M; apply (is_derive_unique (fun t => snd (m00 (noisy_evolution 0 t (wamf1_segs w phi a b))))) in F1.
    rewrite F1 in M; cbn [qmat m00 snd qd] in M.
    assert (v / w <> 0) by (unfold Rdiv; apply Rmult_integral_contrapositive; lra).
    lra.
  - intros N; destruct R as [[_ V]|[N' _]]; [|tauto].
    rewrite wamf1_shift; apply dephasing_robust_1.
    eapply qderive_eq; [apply wamf1_tilt; auto|].
    fold v; rewrite V; apply q_eq; simpl; unfold Rdiv; ring.
  - eexists; split; [exact MD|].
    assert (Q : Rabs (v / w) <= 1 / 10 ^ 8 / w).
    { unfold Rdiv at 1; rewrite Rabs_mult, (Rabs_right (/ w)) by lra.
      unfold Rdiv at 1; apply Rmult_le_compat_r; [lra|].
      apply Rabs_le; destruct R as [[_ ->]|[_ V]]; lra. }
    assert (Z : Rabs 0 <= 1 / 10 ^ 8 / w).
    { rewrite Rabs_R0; eapply Rle_trans; [apply Rabs_pos|exact Q]. }
    replace mzero with (qmat qzero) by (m_real; ring).
    apply close_qmat; cbn [qa qb qc qd qzero]; rewrite Rminus_0_r; auto.
Qed.
