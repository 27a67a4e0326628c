(** * Composite pulses in floating point: the schemes *)

From Coq Require Import Lia.
From Flocq Require Import Core.
From Verif Require Export L_Symmetry L_FloatControlsThms.
Import ListNotations.
Open Scope string_scope.
Open Scope list_scope.
Open Scope R_scope.

(** ** WAMF1 *)

Lemma wamf1_one a b x : 0 <= a <= 2.5 -> Rabs b <= 0.7 -> apx 0.71 x b ->
  0 <= a + b <= 3.2 -> apx 12 (rnd (rnd (float_pi * rnd (rnd a + x)) / 4)) (PI / 4 * (a + b)).
Proof.
  intros A B H2 AB; assert (P := PI_bounds).
  assert (H1 : apx 2.51 (rnd a) a) by (apply (apx_rnd0 2.5); [apply Rabs_range; lra|lra]).
  assert (H3 : apx 6.43 (rnd (rnd a + x)) (a + b)).
  { apply (apx_rnd 3.2 (2.51 + 0.71)); [apply Rabs_range; lra|apply apx_add; auto|lra|lra]. }
  assert (B3 : Rabs (rnd (rnd a + x)) <= 3.21).
  { assert (X := apx_bound 3.2 6.43 (rnd (rnd a + x)) (a + b) ltac:(apply Rabs_range; lra) H3 ltac:(lra)); lra. }
  assert (Q : 0 <= PI * (a + b) <= 10.06).
  { split; [apply Rmult_le_pos; lra|]; apply Rle_trans with (3.1416 * 3.2); [apply Rmult_le_compat; lra|lra]. }
  assert (H4 : apx 36.8 (rnd (float_pi * rnd (rnd a + x))) (PI * (a + b))).
  { apply (apx_rnd 10.06 26.7); [apply Rabs_range; lra| |lra|lra].
    apply (apx_mul 3.1416 3.21 2 6.43); auto; try lra; [apply Rabs_range; lra|exact pi_apx]. }
  replace (PI / 4 * (a + b)) with (/ 4 * (PI * (a + b))) by field.
  apply (apx_rnd 2.6 (36.8 / 4)); [apply Rabs_range; lra| |lra|lra].
  replace (rnd (float_pi * rnd (rnd a + x)) / 4) with (/ 4 * rnd (float_pi * rnd (rnd a + x))) by field.
  apply (apx_weaken (/ 4 * 36.8)); [lra|]; apply apx_scale; auto; lra.
Qed.

Lemma wamf1_apx th a b : decisions th -> wamf1_table th a b ->
  exists a' b', fl_wamf1_thetas rnd float_pi th = (a', b') /\ apx 12 a' a /\ apx 12 b' b /\ 2 <= a <= 3.15 /\ 1.4 <= b <= 1.6.
Proof.
  intros D S; assert (P := PI_bounds); unfold fl_wamf1_thetas.
  unfold wamf1_table in S; replace (10 ^ 8) with 100000000 in S by ring.
  assert (W : forall x y, 0 <= x <= 2.5 -> 0 <= y <= 0.7 -> 0 <= x + y <= 3.2 -> 0 <= x - y <= 3.2 ->
    apx 12 (rnd (rnd (float_pi * rnd (rnd x + rnd y)) / 4)) (PI / 4 * (x + y)) /\
    apx 12 (rnd (rnd (float_pi * rnd (rnd x - rnd y)) / 4)) (PI / 4 * (x - y))).
  { intros x y X Y XY XY'; assert (H : apx 0.71 (rnd y) y) by (apply (apx_rnd0 0.7); [apply Rabs_range; lra|lra]); split.
    - apply wamf1_one; auto; apply Rabs_range; lra.
    - unfold Rminus; apply wamf1_one; auto; [rewrite Rabs_Ropp; apply Rabs_range; lra|apply apx_opp; auto]. }
  destruct D as [C F N|C F N F2 F2' N2|C F N F2 F2' N2 F3].
  - rewrite F; assert (E : a = PI /\ b = PI / 2) by (destruct S as [[_ E]|[[X _]|[X _]]]; [auto|contradiction|contradiction]).
    destruct E as [-> ->]; eexists _, _; split; [reflexivity|]; repeat split; try lra.
    + apply (apx_weaken 2); [lra|exact pi_apx].
    + apply (apx_weaken 10); [lra|exact half_pi_apx].
  - rewrite F, F2'; assert (E : a = PI / 4 * (25 / 10 + 65667825 / 100000000) /\ b = PI / 4 * (25 / 10 - 65667825 / 100000000))
      by (destruct S as [[X _]|[[_ [_ E]]|[_ [X _]]]]; [contradiction|auto|contradiction]).
    destruct E as [-> ->]; eexists _, _; split; [reflexivity|]; destruct (W (25 / 10) (65667825 / 100000000)) as [W1 W2]; repeat split; auto; lra.
  - rewrite F, F2'; assert (E : a = PI / 4 * (225 / 100 + 36256159 / 100000000) /\ b = PI / 4 * (225 / 100 - 36256159 / 100000000))
      by (destruct S as [[X _]|[[_ [X _]]|[_ [_ E]]]]; [contradiction|contradiction|auto]).
    destruct E as [-> ->]; eexists _, _; split; [reflexivity|]; destruct (W (225 / 100) (36256159 / 100000000)) as [W1 W2]; repeat split; auto; lra.
Qed.

(** one rate of WAMF1: [x] is a rotation, [y] the rotation of the first segment *)
Lemma wamf1_segment w x y x0 y0 phi : / 2 ^ 900 <= w <= 2 ^ 900 -> apx 12 x x0 -> apx 12 y y0 -> 2 <= y0 <= 3.15 -> 1.4 <= x0 <= 3.15 ->
  let d := rnd (y / w) in
  near_segment (axis_error WAMF1 phi) rotation_error w (Seg (rnd (x / d)) phi 0 d) (Seg (w * (x0 / y0)) phi 0 (y0 / w)) /\
  0 < d /\ 0 <= rnd (x / d) /\ Rabs (rnd (x / d) - x / d) <= eps * (x / d).
Proof.
  intros W A B Y X d; assert (E := eps_pos).
  assert (W0 : 0 < w) by (apply Rlt_le_trans with (/ 2 ^ 900); [apply Rinv_0_lt_compat, pow_lt; lra|lra]).
  assert (Y' : 1.99 <= y <= 3.16) by (apply apx_between in B; unfold eps in B; lra).
  assert (X' : 1.39 <= x <= 3.16) by (apply apx_between in A; unfold eps in A; lra).
  destruct (quotient_relative w y y0 W (apx_weaken 12 75 _ _ ltac:(lra) B)) as [D0 D1]; [rewrite inv23; lra|].
  fold d in D0, D1.
  assert (E1 : eps <= / 1000000) by (unfold eps; lra).
  assert (YW : 0 < y / w) by (apply Rdiv_lt_0_compat; lra).
  assert (D2 : d <= 1.01 * (y / w)).
  { apply Rabs_le_between in D1; assert (eps * (y / w) <= / 1000000 * (y / w)) by (apply Rmult_le_compat_r; lra); lra. }
  assert (T : tiny <= x / d).
  { apply Rle_trans with (/ 2 ^ 2 * / 2 ^ 900); [rewrite <- inv_pow_add; unfold tiny; apply inv_pow_le; lia|].
    apply Rle_trans with (/ 2 ^ 2 * w); [apply Rmult_le_compat_l; lra|].
    apply (Rmult_le_reg_r d); auto; replace (x / d * d) with x by (field; lra).
    apply Rle_trans with (/ 2 ^ 2 * w * (1.01 * (y / w))); [apply Rmult_le_compat_l; lra|].
    replace (/ 2 ^ 2 * w * (1.01 * (y / w))) with (1.01 / 4 * y) by (field; lra); lra. }
  assert (R := acc_rnd (x / d) T); unfold acc in R; rewrite Rmult_1_l in R.
  assert (XD : 0 < x / d) by (apply Rdiv_lt_0_compat; lra).
  assert (R0 : 0 <= rnd (x / d)).
  { apply Rabs_le_between in R; assert (eps * (x / d) <= / 1000000 * (x / d)) by (apply Rmult_le_compat_r; lra); lra. }
  split; [|repeat split; auto].
  set (q := rnd (x / d)) in *.
  (* durations and rates relative to the ideal ones *)
  assert (WD : Rabs (w * d - y) <= eps * y).
  { replace (w * d - y) with (w * (d - y / w)) by (field; lra); rewrite Rabs_mult, (Rabs_pos_eq w) by lra.
    replace (eps * y) with (w * (eps * (y / w))) by (field; lra); apply Rmult_le_compat_l; lra. }
  assert (QD : Rabs (q * d - x) <= eps * x).
  { replace (q * d - x) with ((q - x / d) * d) by (field; lra); rewrite Rabs_mult, (Rabs_pos_eq d) by lra.
    replace (eps * x) with (eps * (x / d) * d) by (field; lra); apply Rmult_le_compat_r; lra. }
  assert (A' := A); assert (B' := B); unfold apx in A', B'.
  assert (EY : eps * y <= eps * 3.16) by (apply Rmult_le_compat_l; lra).
  assert (EX : eps * x <= eps * 3.16) by (apply Rmult_le_compat_l; lra).
  unfold near_segment; cbn [g_rabi g_phi g_det g_dur]; rewrite rotation_units; repeat split.
  - assert (V : Rabs (q * y0 - w * x0) <= w * x0 * (100 * eps)).
    { (* multiply by w d *)
      assert (D3 : 1.9 <= w * d) by (apply Rabs_le_between in WD; unfold eps in *; lra).
      apply (Rmult_le_reg_r d); auto; rewrite <- (Rabs_pos_eq d) at 1 by lra; rewrite <- Rabs_mult.
      replace ((q * y0 - w * x0) * d) with ((q * d - x) * y0 + (x - x0) * y0 - x0 * (w * d - y) - x0 * (y - y0)) by ring.
      assert (G1 : Rabs ((q * d - x) * y0) <= eps * 3.16 * 3.15).
      { rewrite Rabs_mult, (Rabs_pos_eq y0) by lra; apply Rmult_le_compat; try lra; apply Rabs_pos. }
      assert (G2 : Rabs ((x - x0) * y0) <= 12 * eps * 3.15).
      { rewrite Rabs_mult, (Rabs_pos_eq y0) by lra; apply Rmult_le_compat; try lra; apply Rabs_pos. }
      assert (G3 : Rabs (x0 * (w * d - y)) <= 3.15 * (eps * 3.16)).
      { rewrite Rabs_mult, (Rabs_pos_eq x0) by lra; apply Rmult_le_compat; try lra; apply Rabs_pos. }
      assert (G4 : Rabs (x0 * (y - y0)) <= 3.15 * (12 * eps)).
      { rewrite Rabs_mult, (Rabs_pos_eq x0) by lra; apply Rmult_le_compat; try lra; apply Rabs_pos. }
      assert (G : Rabs ((q * d - x) * y0 + (x - x0) * y0 - x0 * (w * d - y) - x0 * (y - y0)) <= 96 * eps).
      { apply Rabs_le_between in G1; apply Rabs_le_between in G2; apply Rabs_le_between in G3; apply Rabs_le_between in G4; apply Rabs_range; lra. }
      eapply Rle_trans; [exact G|].
      assert (K : 1 <= w * d * x0).
      { apply Rle_trans with (1.9 * 1.4); [lra|]; apply Rmult_le_compat; lra. }
      replace (w * x0 * (100 * eps) * d) with (w * d * x0 * (100 * eps)) by ring.
      apply Rle_trans with (1 * (100 * eps)); [lra|]; apply Rmult_le_compat_r; lra. }
    apply (Rmult_le_reg_r y0); [lra|].
    replace (q * y0 - w * x0) with ((q - w * (x0 / y0)) * y0) in V by (field; lra); rewrite Rabs_mult, (Rabs_pos_eq y0) in V by lra.
    replace (w * (x0 / y0) * (128 * eps) * y0) with (w * x0 * (128 * eps)) by (field; lra).
    eapply Rle_trans; [exact V|]; apply Rmult_le_compat_l; [apply Rmult_le_pos; lra|lra].
  - rewrite Rminus_diag_eq, Rabs_R0 by auto; unfold axis_error; left; apply inv_pow_pos.
  - apply (Rmult_le_reg_l w); auto; rewrite <- (Rabs_pos_eq w) at 1 by lra; rewrite <- Rabs_mult.
    replace (w * (d - y0 / w)) with ((w * d - y) + (y - y0)) by (field; lra).
    replace (w * (128 * eps / w)) with (128 * eps) by (field; lra).
    eapply Rle_trans; [apply Rabs_triang|]; lra.
  - replace (w * (x0 / y0) * (y0 / w)) with x0 by (field; lra).
    replace (q * d - x0) with ((q * d - x) + (x - x0)) by ring; eapply Rle_trans; [apply Rabs_triang|]; lra.
Qed.

(** ** CORPSE rotations are not small *)

Lemma corpse_sizes th k : corpse_angle th k -> 0 < th <= 12.6 ->
  th / 4 <= th / 2 - k \/ 0.7 <= th / 2 - k.
Proof.
  intros C T; assert (P := PI_bounds); assert (KB := corpse_bound th k C).
  destruct (Rle_dec (th / 2) PI) as [L|L]; [left|right; lra].
  destruct C as [B E]; assert (k <= th / 2 / 2); [|lra].
  apply sin_incr_0; try lra; rewrite E; replace (th / 2) with (2 * (th / 2 / 2)) at 1 by field; rewrite sin_2a.
  assert (S := SIN_bound (th / 2 / 2)); assert (CC := COS_bound (th / 2 / 2)).
  assert (0 <= sin (th / 2 / 2)) by (apply sin_ge_0; lra).
  assert (sin (th / 2 / 2) * cos (th / 2 / 2) <= sin (th / 2 / 2) * 1) by (apply Rmult_le_compat_l; lra); lra.
Qed.

Lemma inv20 : / 2 ^ 20 = / 1048576. Proof. f_equal; lra. Qed.

Ltac rows := repeat apply Forall2_cons; try apply Forall2_nil.

Section Schemes.
  Variables (fsin fcos facos fasin : R -> R).
  Hypothesis HF : accurate_trigonometry fsin fcos facos fasin.

  Lemma close_pulse_mono a b p q : a <= b -> close_pulse a p q -> close_pulse b p q.
  Proof. intros H [A [B C]]; repeat split; auto; try apply B; lra. Qed.
  Lemma close_pulses_mono a b l m : a <= b -> Forall2 (close_pulse a) l m -> Forall2 (close_pulse b) l m.
  Proof. intros H F; induction F; constructor; auto; eapply close_pulse_mono; eauto. Qed.

  Lemma pulse_apx a e f x y p q : apx e x y -> e <= 75 -> / 2 ^ 23 <= y <= 13.2 -> apx f p q -> f * eps <= a -> close_pulse a (x, p) (y, q).
  Proof.
    intros A E B F L; repeat split; cbn [fst snd]; try apply B; [apply (apx_weaken e); auto|]; eapply Rle_trans; [exact F|exact L].
  Qed.

  (** CORPSE with azimuthal angles [p], [q], [p] *)
  Lemma corpse_close a e f f' x th k p q p0 : / 2 ^ 20 <= th <= 12.6 -> 0 <= e <= 14 -> apx e x th -> corpse_angle th k ->
    apx f p p0 -> apx f' q (p0 + PI) -> f * eps <= a -> f' * eps <= a ->
    Forall2 (close_pulse a) (combine (fl_corpse_rotations rnd fsin fasin float_pi x) [p; q; p]) (corpse_pulses th p0 k).
  Proof.
    intros T E A C P Q L L'; assert (PB := PI_bounds); assert (T0 := inv_pow_pos 20).
    destruct (corpse_rotations_apx _ _ _ _ HF e x th k ltac:(lra) E A C) as [R1 [R2 R3]].
    assert (KB := corpse_bound th k C); assert (S := corpse_sizes th k C ltac:(lra)).
    assert (T1 := T); rewrite inv20 in T1; rewrite inv20 in T0.
    unfold fl_corpse_rotations, corpse_pulses; cbn [combine].
    rows; eapply pulse_apx; eauto; try lra; rewrite inv23; lra.
  Qed.

  Lemma phase_apx e x y phi : apx e x y -> 0 <= e <= 3900000000 -> Rabs phi <= 8 -> Rabs y <= 9.5 -> apx (e + 17.6) (rnd (phi + x)) (phi + y).
  Proof.
    intros A E B C; apply (apx_rnd 17.5 e); [eapply Rle_trans; [apply Rabs_triang|]; lra| |lra|lra].
    apply (apx_weaken (0 + e)); [lra|]; apply apx_add; [apply apx_refl|auto].
  Qed.
  Lemma phase_minus_apx e x y phi : apx e x y -> 0 <= e <= 3900000000 -> Rabs phi <= 8 -> Rabs y <= 9.5 -> apx (e + 17.6) (rnd (phi - x)) (phi - y).
  Proof. intros; unfold Rminus; apply phase_apx; auto; [apply apx_opp; auto|rewrite Rabs_Ropp; auto]. Qed.
  Lemma phase_pi_apx phi : Rabs phi <= 8 -> apx 14 (rnd (phi + float_pi)) (phi + PI).
  Proof.
    intros B; assert (P := PI_bounds); apply (apx_rnd 11.15 (0 + 2)); [|apply apx_add; [apply apx_refl|exact pi_apx]|lra|lra].
    eapply Rle_trans; [apply Rabs_triang|]; rewrite (Rabs_pos_eq PI) by lra; lra.
  Qed.
  Lemma axis_units_range th : 11 <= axis_units th <= 540000000.
  Proof. unfold axis_units; destruct (Rle_dec _ _); lra. Qed.
  Lemma triple_apx th p p0 : apx (axis_units th) p p0 -> 0 <= p0 <= PI -> apx (3 * axis_units th + 9.5) (rnd (3 * p)) (3 * p0).
  Proof.
    intros A B; assert (P := PI_bounds); assert (U := axis_units_range th).
    apply (apx_rnd 9.45 (3 * axis_units th)); [apply Rabs_range; lra|apply apx_scale; auto; lra|lra|lra].
  Qed.

  Definition wimperis_error (th : R) : R := if Rle_dec th (2 * PI) then / 2 ^ 46 else / 2 ^ 22.
  Lemma wimperis_error_units th : 3 * axis_units th + 9.5 + 17.6 <= 128 * (if Rle_dec th (2 * PI) then 1 else 16777216) /\
    wimperis_error th = 128 * (if Rle_dec th (2 * PI) then 1 else 16777216) * eps.
  Proof.
    unfold wimperis_error, axis_units, eps; destruct (Rle_dec _ _); [replace (2 ^ 46) with 70368744177664 by lra|replace (2 ^ 22) with 4194304 by lra]; split; lra.
  Qed.
  Lemma wimperis_error_above th f : f <= 3 * axis_units th + 27.1 -> f * eps <= wimperis_error th.
  Proof.
    intros H; destruct (wimperis_error_units th) as [A ->]; apply Rmult_le_compat_r; [generalize eps_pos; lra|lra].
  Qed.

  Lemma bb1_tail_close th p p0 phi : apx (axis_units th) p p0 -> 0 <= p0 <= PI -> Rabs phi <= 8 ->
    Forall2 (close_pulse (wimperis_error th))
      [(float_pi, rnd (phi + p)); (rnd (2 * float_pi), rnd (phi + rnd (3 * p))); (float_pi, rnd (phi + p))]
      [(PI, phi + p0); (2 * PI, phi + 3 * p0); (PI, phi + p0)].
  Proof.
    intros A B F; assert (P := PI_bounds); assert (U := axis_units_range th).
    assert (H1 := phase_apx _ _ _ phi A ltac:(lra) F ltac:(apply Rabs_range; lra)).
    assert (H3 := phase_apx _ _ _ phi (triple_apx _ _ _ A B) ltac:(lra) F ltac:(apply Rabs_range; lra)).
    assert (I : / 2 ^ 23 <= 1) by (rewrite inv23; lra).
    rows.
    - apply (pulse_apx _ 2 (axis_units th + 17.6)); auto; [exact pi_apx|lra|lra|]; apply wimperis_error_above; lra.
    - apply (pulse_apx _ 11 (3 * axis_units th + 9.5 + 17.6)); auto; [exact two_pi_apx|lra|lra|]; apply wimperis_error_above; lra.
    - apply (pulse_apx _ 2 (axis_units th + 17.6)); auto; [exact pi_apx|lra|lra|]; apply wimperis_error_above; lra.
  Qed.
  Lemma sk1_tail_close th p p0 phi : apx (axis_units th) p p0 -> 0 <= p0 <= PI -> Rabs phi <= 8 ->
    Forall2 (close_pulse (wimperis_error th))
      [(rnd (2 * float_pi), rnd (phi - p)); (rnd (2 * float_pi), rnd (phi + p))]
      [(2 * PI, phi - p0); (2 * PI, phi + p0)].
  Proof.
    intros A B F; assert (P := PI_bounds); assert (U := axis_units_range th).
    assert (H1 := phase_apx _ _ _ phi A ltac:(lra) F ltac:(apply Rabs_range; lra)).
    assert (H2 := phase_minus_apx _ _ _ phi A ltac:(lra) F ltac:(apply Rabs_range; lra)).
    assert (I : / 2 ^ 23 <= 1) by (rewrite inv23; lra).
    rows; (apply (pulse_apx _ 11 (axis_units th + 17.6)); auto; [exact two_pi_apx|lra|lra|]; apply wimperis_error_above; lra).
  Qed.

  Lemma exact_pulse a th phi : / 2 ^ 20 <= th <= 12.6 -> 0 <= a -> close_pulse a (th, phi) (th, phi).
  Proof.
    intros T A; apply (pulse_apx a 0 0); try apply apx_refl; try lra; rewrite inv20 in T; rewrite inv23; lra.
  Qed.
  Lemma wimperis_error_pos th : 14 * eps <= wimperis_error th.
  Proof. apply wimperis_error_above; assert (U := axis_units_range th); lra. Qed.

  Definition outcome (s : scheme) (th w phi : R) (name : option string) (l0 : list seg) : Prop :=
    exists c l, fl_build rnd fsin fcos facos fasin float_pi s th w phi name = Ok c /\ dc_name c = name /\ describes l c /\
      Forall2 (near_segment (axis_error s th) rotation_error w) l l0 /\
      (forall g, In g l -> 0 < g_dur g) /\ (forall g, In g l0 -> 0 < g_dur g /\ 0 <= g_rabi g * g_dur g <= 14) /\
      (forall g, In g l -> (s <> WAMF1 -> g_rabi g = w) /\ 0 <= g_rabi g <= w * (1 + 3 * eps)).

  Lemma constant_outcome s th w phi name l l0 : / 2 ^ 900 <= w <= 2 ^ 900 -> Forall2 (close_pulse (axis_error s th)) l l0 ->
    fl_build rnd fsin fcos facos fasin float_pi s th w phi name = fl_constant_rate rnd (map fst l) (map snd l) w name ->
    outcome s th w phi name (pulses w l0).
  Proof.
    intros W F E; destruct (fl_constant_rate_ok (axis_error s th) w l l0 name W F) as [c [E' [N [D NS]]]].
    assert (W0 : 0 < w) by (apply Rlt_le_trans with (/ 2 ^ 900); [apply Rinv_0_lt_compat, pow_lt; lra|lra]).
    assert (I : 0 < / 2 ^ 23) by apply inv_pow_pos.
    assert (WE : w <= w * (1 + 3 * eps)).
    { assert (E1 := eps_pos); rewrite <- (Rmult_1_r w) at 1; apply Rmult_le_compat_l; lra. }
    assert (RT : forall g, In g (fl_segments w l) -> g_rabi g = w).
    { intros g G; unfold fl_segments in G; apply in_map_iff in G; destruct G as [p [<- _]]; reflexivity. }
    exists c, (fl_segments w l); rewrite E, E'; repeat split; auto; try apply D; try (rewrite RT by auto; lra).
    - intros g; clear - F W; unfold fl_segments; induction F as [|p p0 l l0 A F IH]; cbn [map]; [intros []|].
      intros [<-|Q]; auto; cbn [g_dur]; destruct (near_pulse _ w p p0 W A); auto.
    - revert H; generalize g; clear - F W0 I; unfold pulses; induction F as [|p p0 l l0 [_ [A _]] F IH]; cbn [map]; [intros g []|].
      intros g [<-|Q]; auto; cbn [g_dur]; apply Rdiv_lt_0_compat; lra.
    - revert H; generalize g; clear - F W0 I; unfold pulses; induction F as [|p p0 l l0 [_ [A _]] F IH]; cbn [map]; [intros g []|].
      intros g [<-|Q]; auto; cbn [g_dur g_rabi]; replace (w * (fst p0 / w)) with (fst p0) by (field; lra); lra.
    - revert H; generalize g; clear - F W0 I; unfold pulses; induction F as [|p p0 l l0 [_ [A _]] F IH]; cbn [map]; [intros g []|].
      intros g [<-|Q]; auto; cbn [g_dur g_rabi]; replace (w * (fst p0 / w)) with (fst p0) by (field; lra); lra.
  Qed.

  Lemma scheme_outcome s th w phi name l0 : ordinary_inputs s th w phi -> design s th w phi l0 -> outcome s th w phi name l0.
  Proof.
    intros [FT [TB [FW [WB [FP [PB TAB]]]]]] D; assert (P := PI_bounds).
    assert (FPB := float_pi_bound); replace (10 ^ 16) with 10000000000000000 in FPB by ring.
    assert (W0 : 0 < w) by (apply Rlt_le_trans with (/ 2 ^ 900); [apply Rinv_0_lt_compat, pow_lt; lra|lra]).
    assert (T0 : 0 < th) by (apply Rlt_le_trans with (/ 2 ^ 20); [apply inv_pow_pos|lra]).
    assert (TT : / 2 ^ 20 <= th <= 12.6) by lra.
    assert (V : validate_rabi_parameters th w = Ok tt) by (apply validate_ok; lra).
    assert (I : / 2 ^ 23 <= 1) by (rewrite inv23; lra).
    assert (E0 := eps_pos).
    assert (W := wimperis_apx _ _ _ _ HF th TB).
    assert (WE := wimperis_error_pos th).
    destruct s; cbn [design] in D.
    - (* Primitive *)
      subst l0; apply (constant_outcome Primitive th w phi name [(th, phi)]); auto.
      + rows; apply exact_pulse; cbn [axis_error]; lra.
      + cbn [fl_build]; unfold fl_primitive; rewrite V; reflexivity.
    - (* BB1 *)
      destruct D as [p0 [WA ->]]; destruct W as [p [EW W]]; specialize (W p0 WA).
      apply (constant_outcome BB1 th w phi name ((th, phi) :: [(float_pi, rnd (phi + p)); (rnd (2 * float_pi), rnd (phi + rnd (3 * p))); (float_pi, rnd (phi + p))])); auto.
      + apply Forall2_cons; [apply exact_pulse; auto; change (0 <= wimperis_error th); lra|].
        apply (bb1_tail_close th); auto; apply WA.
      + cbn [fl_build]; unfold fl_bb1; rewrite V; cbn [bind]; rewrite EW; reflexivity.
    - (* SK1 *)
      destruct D as [p0 [WA ->]]; destruct W as [p [EW W]]; specialize (W p0 WA).
      apply (constant_outcome SK1 th w phi name ((th, phi) :: [(rnd (2 * float_pi), rnd (phi - p)); (rnd (2 * float_pi), rnd (phi + p))])); auto.
      + apply Forall2_cons; [apply exact_pulse; auto; change (0 <= wimperis_error th); lra|].
        apply (sk1_tail_close th); auto; apply WA.
      + cbn [fl_build]; unfold fl_sk1; rewrite V; cbn [bind]; rewrite EW; reflexivity.
    - (* SCROFULOUS *)
      destruct D as [t [p1 [p2 [SA ->]]]]; assert (DE := tabulated_decisions th TAB).
      destruct (scrofulous_apx _ _ _ _ HF th t p1 p2 DE FT ltac:(lra) SA) as [A [A1 A2]].
      destruct (scrofulous_sizes th t DE (proj1 SA)) as [TS _]; destruct SA as [_ [B1 [_ [B2 _]]]].
      set (t' := fl_scrofulous_theta_1 rnd float_pi th) in *; set (q1 := fl_scrofulous_phi_1 rnd fsin fcos facos float_pi t' th) in *.
      set (q2 := fl_scrofulous_phi_2 rnd facos float_pi t' q1) in *.
      apply (constant_outcome SCROFULOUS th w phi name [(t', rnd (phi + q1)); (float_pi, rnd (phi + q2)); (t', rnd (phi + q1))]); auto.
      + assert (H1 := phase_apx _ _ _ phi A1 ltac:(lra) PB ltac:(apply Rabs_range; lra)).
        assert (H2 := phase_apx _ _ _ phi A2 ltac:(lra) PB ltac:(apply Rabs_range; lra)).
        assert (K : 256 * eps <= axis_error SCROFULOUS th) by (cbn [axis_error]; unfold eps; replace (2 ^ 45) with 35184372088832 by lra; lra).
        rows.
        * apply (pulse_apx _ 12 (124 + 17.6)); auto; lra.
        * apply (pulse_apx _ 2 (167 + 17.6)); auto; [exact pi_apx|lra|lra|lra].
        * apply (pulse_apx _ 12 (124 + 17.6)); auto; lra.
      + cbn [fl_build]; unfold fl_scrofulous; rewrite V; cbn [bind]; rewrite (fl_supported th DE); reflexivity.
    - (* CORPSE *)
      destruct D as [k [CA ->]].
      apply (constant_outcome CORPSE th w phi name (combine (fl_corpse_rotations rnd fsin fasin float_pi th) [phi; rnd (phi + float_pi); phi])); auto.
      + assert (K : 16 * eps = axis_error CORPSE th) by (cbn [axis_error]; unfold eps; replace (2 ^ 49) with 562949953421312 by lra; lra).
        apply (corpse_close _ 0 0 14); auto; try lra; try apply apx_refl; apply phase_pi_apx; auto.
      + cbn [fl_build]; unfold fl_corpse; rewrite V; cbn [bind]; rewrite (Rplus_comm (rnd (th / 2))); reflexivity.
    - (* CORPSE in BB1 *)
      destruct D as [p0 [k [WA [CA ->]]]]; destruct W as [p [EW W]]; specialize (W p0 WA).
      apply (constant_outcome CORPSE_in_BB1 th w phi name (combine (fl_corpse_rotations rnd fsin fasin float_pi th) [phi; rnd (phi + float_pi); phi] ++
        [(float_pi, rnd (phi + p)); (rnd (2 * float_pi), rnd (phi + rnd (3 * p))); (float_pi, rnd (phi + p))])); auto.
      + change (axis_error CORPSE_in_BB1 th) with (wimperis_error th); apply Forall2_app.
        * apply (corpse_close _ 0 0 14); auto; try lra; try apply apx_refl; apply phase_pi_apx; auto.
        * apply (bb1_tail_close th); auto; apply WA.
      + cbn [fl_build]; unfold fl_corpse_in_bb1; rewrite V; cbn [bind]; rewrite EW; reflexivity.
    - (* CORPSE in SK1 *)
      destruct D as [p0 [k [WA [CA ->]]]]; destruct W as [p [EW W]]; specialize (W p0 WA).
      apply (constant_outcome CORPSE_in_SK1 th w phi name (combine (fl_corpse_rotations rnd fsin fasin float_pi th) [phi; rnd (phi + float_pi); phi] ++
        [(rnd (2 * float_pi), rnd (phi - p)); (rnd (2 * float_pi), rnd (phi + p))])); auto.
      + change (axis_error CORPSE_in_SK1 th) with (wimperis_error th); apply Forall2_app.
        * apply (corpse_close _ 0 0 14); auto; try lra; try apply apx_refl; apply phase_pi_apx; auto.
        * apply (sk1_tail_close th); auto; apply WA.
      + cbn [fl_build]; unfold fl_corpse_in_sk1; rewrite V; cbn [bind]; rewrite EW; reflexivity.
    - (* CORPSE in SCROFULOUS *)
      destruct D as [t [p1 [p2 [k1 [k2 [SA [C1 [C2 ->]]]]]]]]; assert (DE := tabulated_decisions th TAB).
      destruct (scrofulous_apx _ _ _ _ HF th t p1 p2 DE FT ltac:(lra) SA) as [A [A1 A2]].
      destruct (scrofulous_sizes th t DE (proj1 SA)) as [TS _]; destruct SA as [_ [B1 [_ [B2 _]]]].
      set (t' := fl_scrofulous_theta_1 rnd float_pi th) in *; set (q1 := fl_scrofulous_phi_1 rnd fsin fcos facos float_pi t' th) in *.
      set (q2 := fl_scrofulous_phi_2 rnd facos float_pi t' q1) in *.
      apply (constant_outcome CORPSE_in_SCROFULOUS th w phi name (flat_map (fl_corpse_rows rnd fsin fasin float_pi phi) [(t', q1); (float_pi, q2); (t', q1)])); auto.
      + assert (K : 256 * eps = axis_error CORPSE_in_SCROFULOUS th) by (cbn [axis_error]; unfold eps; replace (2 ^ 45) with 35184372088832 by lra; lra).
        assert (I20 : / 2 ^ 20 <= 1) by (rewrite inv20; lra).
        assert (ROW : forall e f x t0 q p k, 1 <= t0 <= 12.6 -> 0 <= e <= 14 -> apx e x t0 -> corpse_angle t0 k -> apx f q p -> 0 <= f <= 167 -> Rabs p <= 3.15 ->
          Forall2 (close_pulse (axis_error CORPSE_in_SCROFULOUS th)) (fl_corpse_rows rnd fsin fasin float_pi phi (x, q)) (corpse_pulses t0 (phi + p) k)).
        { intros e f x t0 q p k B E AX CA AQ FB PBB; unfold fl_corpse_rows.
          assert (H1 := phase_apx _ _ _ phi AQ ltac:(lra) PB ltac:(lra)); rewrite (Rplus_comm phi q) in H1.
          assert (H2 : apx (f + 2 + 6.4) (rnd (float_pi + q)) (PI + p)).
          { apply (apx_rnd 6.35 (2 + f)); [eapply Rle_trans; [apply Rabs_triang|]; rewrite (Rabs_pos_eq PI) by lra; lra| |lra|lra].
            apply apx_add; auto; exact pi_apx. }
          assert (H3 := phase_apx _ _ _ phi H2 ltac:(lra) PB ltac:(eapply Rle_trans; [apply Rabs_triang|]; rewrite (Rabs_pos_eq PI) by lra; lra)).
          rewrite (Rplus_comm phi (rnd _)) in H3; replace (phi + (PI + p)) with (phi + p + PI) in H3 by ring.
          apply (corpse_close _ e (f + 17.6) (f + 2 + 6.4 + 17.6)); auto; try lra; rewrite <- K; apply Rmult_le_compat_r; lra. }
        cbn [flat_map]; rewrite app_nil_r; apply Forall2_app; [|apply Forall2_app].
        * apply (ROW 12 124); auto; try lra; apply Rabs_range; lra.
        * apply (ROW 2 167); auto; try lra; [exact pi_apx|apply Rabs_range; lra].
        * apply (ROW 12 124); auto; try lra; apply Rabs_range; lra.
      + cbn [fl_build]; unfold fl_corpse_in_scrofulous; rewrite V; cbn [bind]; rewrite (fl_supported th DE); reflexivity.
    - (* WAMF1 *)
      destruct D as [a [b [TA ->]]]; assert (DE := tabulated_decisions th TAB).
      destruct (wamf1_apx th a b DE TA) as [a' [b' [EQ [A [B [BA BB]]]]]].
      destruct (wamf1_segment w a' a' a a phi WB A A ltac:(lra) ltac:(lra)) as [N1 [D1 [R1 R1']]].
      destruct (wamf1_segment w b' a' b a phi WB B A ltac:(lra) ltac:(lra)) as [N2 [_ [R2 R2']]].
      set (d := rnd (a' / w)) in *.
      set (l := [Seg (rnd (a' / d)) phi 0 d; Seg (rnd (b' / d)) phi 0 d; Seg (rnd (b' / d)) phi 0 d; Seg (rnd (a' / d)) phi 0 d]).
      destruct (segments_constructible l name) as [c [E [DC NM]]].
      { intros g [<-|[<-|[<-|[<-|[]]]]]; cbn; lra. }
      exists c, l; repeat split; auto; try apply DC.
      + rewrite <- E; cbn [fl_build]; unfold fl_wamf1; rewrite V; cbn [bind]; rewrite (fl_supported th DE); cbn [bind]; rewrite EQ; reflexivity.
      + replace (w * (a / a)) with w in N1 by (field; lra); unfold l; rows; auto.
      + intros g [<-|[<-|[<-|[<-|[]]]]]; cbn; lra.
      + destruct H as [<-|[<-|[<-|[<-|[]]]]]; cbn [g_dur]; apply Rdiv_lt_0_compat; lra.
      + destruct H as [<-|[<-|[<-|[<-|[]]]]]; cbn [g_dur g_rabi];
          [replace (w * (a / w)) with a by (field; lra)|replace (w * (b / a) * (a / w)) with b by (field; lra)|
           replace (w * (b / a) * (a / w)) with b by (field; lra)|replace (w * (a / w)) with a by (field; lra)]; lra.
      + destruct H as [<-|[<-|[<-|[<-|[]]]]]; cbn [g_dur g_rabi];
          [replace (w * (a / w)) with a by (field; lra)|replace (w * (b / a) * (a / w)) with b by (field; lra)|
           replace (w * (b / a) * (a / w)) with b by (field; lra)|replace (w * (a / w)) with a by (field; lra)]; lra.
      + congruence.
      + destruct H as [<-|[<-|[<-|[<-|[]]]]]; cbn [g_rabi]; auto.
      + assert (A' := A); assert (B' := B); apply apx_between in A'; apply apx_between in B'.
        assert (E1 : eps <= / 1000000) by (unfold eps; lra).
        assert (BA' : b' <= a') by (destruct TA as [[_ [-> ->]]|[[_ [_ [-> ->]]]|[_ [_ [-> ->]]]]]; replace (10 ^ 8) with 100000000 in * by ring; lra).
        destruct (quotient_relative w a' a WB (apx_weaken 12 75 _ _ ltac:(lra) A)) as [_ DW]; [rewrite inv23; lra|]; fold d in DW.
        assert (Q : a' / d <= w * (1 + 1.01 * eps)).
        { apply (Rmult_le_reg_r d); auto; replace (a' / d * d) with a' by (field; lra).
          assert (WD : a' * (1 - eps) <= w * d).
          { apply Rabs_le_between in DW; apply Rle_trans with (w * (a' / w - eps * (a' / w))); [right; field; lra|apply Rmult_le_compat_l; lra]. }
          replace (w * (1 + 1.01 * eps) * d) with (w * d * (1 + 1.01 * eps)) by ring.
          apply Rle_trans with (a' * (1 - eps) * (1 + 1.01 * eps)); [|apply Rmult_le_compat_r; lra].
          rewrite Rmult_assoc; rewrite <- (Rmult_1_r a') at 1; apply Rmult_le_compat_l; [lra|].
          assert (eps * eps <= / 1000000 * eps) by (apply Rmult_le_compat_r; lra); lra. }
        assert (QB : b' / d <= a' / d) by (apply Rmult_le_compat_r; auto; left; apply Rinv_0_lt_compat; auto).
        assert (ND : 0 < b' / d) by (apply Rdiv_lt_0_compat; lra).
        assert (FIN : forall x, x / d <= a' / d -> 0 < x / d -> Rabs (rnd (x / d) - x / d) <= eps * (x / d) -> rnd (x / d) <= w * (1 + 3 * eps)).
        { intros x X X0 RX; apply Rabs_le_between in RX; apply Rle_trans with ((1 + eps) * (x / d)); [lra|].
          apply Rle_trans with ((1 + eps) * (w * (1 + 1.01 * eps))); [apply Rmult_le_compat_l; lra|].
          replace ((1 + eps) * (w * (1 + 1.01 * eps))) with (w * ((1 + eps) * (1 + 1.01 * eps))) by ring.
          apply Rmult_le_compat_l; [lra|]; assert (eps * eps <= / 1000000 * eps) by (apply Rmult_le_compat_r; lra); lra. }
        destruct H as [<-|[<-|[<-|[<-|[]]]]]; cbn [g_rabi]; apply FIN; auto; lra.
  Qed.

  Lemma axis_error_pos s th : 0 <= axis_error s th.
  Proof. destruct s; cbn [axis_error]; try destruct (Rle_dec _ _); try lra; left; apply inv_pow_pos. Qed.

  Lemma ordinary_accepts s th w phi : ordinary_inputs s th w phi -> accepts s th w.
  Proof.
    intros [FT [TB [FW [WB [FP [PB TAB]]]]]].
    assert (FPB := float_pi_bound); replace (10 ^ 16) with 10000000000000000 in FPB by ring.
    assert (W0 : 0 < w) by (apply Rlt_le_trans with (/ 2 ^ 900); [apply Rinv_0_lt_compat, pow_lt; lra|lra]).
    assert (T0 : 0 < th) by (apply Rlt_le_trans with (/ 2 ^ 20); [apply inv_pow_pos|lra]).
    assert (SUP : tabulated th -> supported th).
    { intros [t0 [E H]]; assert (P := PI_bounds); assert (N : near th t0).
      - unfold near; replace (10 ^ 8) with 100000000 by ring; replace (10 ^ 5) with 100000 by ring; replace (10 ^ 6) with 1000000 in H by ring.
        destruct E as [->|[->| ->]]; rewrite (Rabs_pos_eq (PI / _)) || rewrite (Rabs_pos_eq PI); lra.
      - unfold supported; destruct E as [->|[->| ->]]; auto. }
    repeat split; auto; destruct s; auto; lra.
  Qed.

  Theorem float_controls_main s th w phi name : ordinary_inputs s th w phi ->
    exists c l, fl_build rnd fsin fcos facos fasin float_pi s th w phi name = Ok c /\ describes l c /\ dc_name c = name /\
      forall l0, design s th w phi l0 -> Forall2 (near_segment (axis_error s th) rotation_error w) l l0 /\
        forall eps delta, close_to (float_cost s th w eps delta (List.length l0)) (noisy_evolution eps delta l) (noisy_evolution eps delta l0).
  Proof.
    intros H; destruct (build_accepts s th w phi name (ordinary_accepts s th w phi H)) as [c' [l' [_ [_ [D' _]]]]].
    destruct (scheme_outcome s th w phi name l' H D') as [c [l [E [N [DC _]]]]].
    exists c, l; split; [auto|split; [auto|split; [auto|]]]; intros l0 H0.
    destruct (scheme_outcome s th w phi name l0 H H0) as [c2 [l2 [E2 [_ [DC2 [F [P [P0 _]]]]]]]].
    rewrite E in E2; injection E2 as <-; assert (l2 = l) as -> by (eapply describes_unique; eauto); split; auto.
    intros e d; rewrite !noisy_evolution_qmat; apply qnear_close; unfold float_cost.
    assert (W0 : 0 < w) by (destruct H as [_ [_ [_ [WB _]]]]; apply Rlt_le_trans with (/ 2 ^ 900); [apply inv_pow_pos|lra]).
    apply near_evolution; auto; [apply axis_error_pos|rewrite rotation_units; generalize eps_pos; lra].
  Qed.

  (** ** Corollaries *)

  Theorem float_rates_main s th w phi name c l : ordinary_inputs s th w phi ->
    fl_build rnd fsin fcos facos fasin float_pi s th w phi name = Ok c -> describes l c ->
    forall g, In g l -> 0 < g_dur g /\ g_det g = 0 /\ (s <> WAMF1 -> g_rabi g = w) /\ 0 <= g_rabi g <= w * (1 + 3 / 2 ^ 53).
  Proof.
    intros H EC DC; destruct (build_accepts s th w phi name (ordinary_accepts s th w phi H)) as [c' [l' [_ [_ [D' _]]]]].
    destruct (scheme_outcome s th w phi name l' H D') as [c2 [l2 [E2 [N [DC2 [NS [P [_ RT]]]]]]]].
    rewrite EC in E2; injection E2 as <-; assert (l2 = l) as -> by (eapply describes_unique; eauto).
    intros g G; destruct (RT g G) as [R1 R2]; repeat split; auto; try apply R2.
    - clear - NS G; induction NS as [|x y l l' NX NS IH]; [destruct G|destruct G as [<-|G]; [apply NX|auto]].
    - replace (3 / 2 ^ 53) with (3 * eps); [apply R2|]; unfold eps; replace (2 ^ 53) with 9007199254740992 by lra; lra.
  Qed.

  Lemma close_to_mono a b U V : a <= b -> close_to a U V -> close_to b U V.
  Proof. intros H C; unfold close_to in *; repeat split; eapply Rle_trans; try apply C; auto. Qed.

  Lemma float_cost_small s th w phi l0 : ordinary_inputs s th w phi -> design s th w phi l0 ->
    exact_scheme s ->
    float_cost s th w 0 0 (List.length l0) <= rotation_accuracy th.
  Proof.
    intros H D S; assert (N : INR (List.length l0) <= 6 /\ axis_error s th <= wimperis_error th).
    { assert (N6 : forall n, (n <= 6)%nat -> INR n <= 6).
      { intros n L; apply le_INR in L; replace (INR 6) with 6 in L by (cbn; ring); auto. }
      assert (A49 : / 2 ^ 49 <= wimperis_error th).
      { unfold wimperis_error; destruct (Rle_dec _ _); apply inv_pow_le; lia. }
      assert (A0 : 0 < / 2 ^ 49) by apply inv_pow_pos.
      destruct s; try contradiction; cbn [design] in D.
      - subst l0; split; [apply N6; cbn; lia|cbn [axis_error]; lra].
      - destruct D as [p [_ ->]]; split; [apply N6; cbn; lia|apply Rle_refl].
      - destruct D as [p [_ ->]]; split; [apply N6; cbn; lia|apply Rle_refl].
      - destruct D as [p [_ ->]]; split; [apply N6; cbn; lia|cbn [axis_error]; lra].
      - destruct D as [p [k [_ [_ ->]]]]; split; [apply N6; cbn; lia|apply Rle_refl].
      - destruct D as [p [k [_ [_ ->]]]]; split; [apply N6; cbn; lia|apply Rle_refl]. }
    destruct N as [N A]; assert (N0 := pos_INR (List.length l0)); assert (A0 := axis_error_pos s th).
    unfold float_cost; rewrite Rplus_0_r, Rabs_R1, Rabs_R0; unfold Rdiv at 2; rewrite !Rmult_0_l, Rplus_0_r, Rmult_1_l.
    assert (R0 : 0 <= rotation_error) by (unfold rotation_error; left; apply inv_pow_pos).
    assert (M : INR (List.length l0) * (rotation_error + 14 * axis_error s th) <= 6 * (rotation_error + 14 * wimperis_error th)) by (apply Rmult_le_compat; lra).
    apply Rle_trans with (6 * (rotation_error + 14 * wimperis_error th) / 2); [lra|].
    unfold rotation_error, wimperis_error, rotation_accuracy; destruct (Rle_dec th (2 * PI)).
    - replace (2 ^ 46) with 70368744177664 by lra; replace (2 ^ 40) with 1099511627776 by lra; lra.
    - replace (2 ^ 46) with 70368744177664 by lra; replace (2 ^ 22) with 4194304 by lra; replace (2 ^ 16) with 65536 by lra; lra.
  Qed.
End Schemes.

(** ** Without rounding the rounded program is the exact one *)

Lemma fl_isclose_unrounded a b : fl_isclose (fun x => x) a b = np_isclose a b.
Proof. reflexivity. Qed.

Theorem controls_unrounded s th w phi name : fl_build (fun x => x) sin cos acos asin PI s th w phi name = build s th w phi name.
Proof.
  destruct s; try reflexivity; cbn [fl_build build]; unfold fl_wamf1, new_wamf1_control.
  assert (E : fl_wamf1_thetas (fun x => x) PI th = wamf1_thetas th).
  { unfold fl_wamf1_thetas, wamf1_thetas; rewrite (fl_isclose_unrounded th PI), (fl_isclose_unrounded th (5 / 10 * PI)); destruct (np_isclose th PI), (np_isclose th (5 / 10 * PI)); reflexivity. }
  rewrite E; reflexivity.
Qed.

(** ** Correctly rounded functions are accurate *)

Theorem rounded_trigonometry :
  accurate_trigonometry (fun x => binary64 (sin x)) (fun x => binary64 (cos x)) (fun x => binary64 (acos x)) (fun x => binary64 (asin x)).
Proof.
  assert (P := PI_bounds); assert (W : forall z, Rabs z <= 3.15 -> Rabs (binary64 z - z) <= / 2 ^ 50).
  { intros z Z; rewrite eps_50; apply (apx_weaken 3.16); [lra|]; apply (apx_rnd0 3.15); auto; lra. }
  repeat split; intros x _ B; apply W.
  - assert (H := SIN_bound x); apply Rabs_range; lra.
  - assert (H := COS_bound x); apply Rabs_range; lra.
  - assert (H := acos_bound x); apply Rabs_range; lra.
  - assert (H := asin_bound x); apply Rabs_range; lra.
Qed.

(** ** The rate of WAMF1 exceeds the requested one by rounding *)

Lemma rnd_eval (m : Z) (n : nat) x : (n <= 1000)%nat -> 2 ^ 52 * / 2 ^ n <= x < 2 ^ 53 * / 2 ^ n -> Rabs (x * 2 ^ n - IZR m) < / 2 ->
  rnd x = IZR m * / 2 ^ n.
Proof.
  intros N X H; assert (P : 0 < / 2 ^ n) by apply inv_pow_pos.
  assert (MG : mag_val radix2 x (mag radix2 x) = (53 - Z.of_nat n)%Z).
  { apply mag_unique_pos; replace (53 - Z.of_nat n - 1)%Z with (Z.of_nat 52 + - Z.of_nat n)%Z by lia.
    replace (53 - Z.of_nat n)%Z with (Z.of_nat 53 + - Z.of_nat n)%Z by lia.
    rewrite !bpow_plus, !bpow_pow, bpow_inv; exact X. }
  assert (CE : cexp radix2 (FLT_exp (-1074) 53) x = (- Z.of_nat n)%Z).
  { unfold cexp; rewrite MG; unfold FLT_exp; lia. }
  unfold binary64, round; rewrite CE; unfold F2R; cbn [Fnum Fexp]; rewrite bpow_inv; f_equal; f_equal.
  unfold scaled_mantissa; rewrite CE, Z.opp_involutive, bpow_pow; apply Znearest_imp; exact H.
Qed.

Lemma wamf1_rates_61 : rnd (float_pi / 61) = 7422151084095412 * / 2 ^ 57 /\
  rnd (float_pi / (7422151084095412 * / 2 ^ 57)) = 8584986789675009 * / 2 ^ 47.
Proof.
  assert (A : 0 < / 2 ^ 57) by apply inv_pow_pos; unfold float_pi; split; [apply (rnd_eval 7422151084095412 57 _ ltac:(lia))|apply (rnd_eval 8584986789675009 47 _ ltac:(lia))].
  - replace (2 ^ 57) with 144115188075855872 by lra; replace (2 ^ 48) with 281474976710656 by lra; lra.
  - replace (2 ^ 57) with 144115188075855872 by lra; replace (2 ^ 48) with 281474976710656 by lra; apply Rabs_def1; lra.
  - replace (2 ^ 57) with 144115188075855872 by lra; replace (2 ^ 48) with 281474976710656 by lra; replace (2 ^ 47) with 140737488355328 by lra; lra.
  - replace (2 ^ 57) with 144115188075855872 by lra; replace (2 ^ 48) with 281474976710656 by lra; replace (2 ^ 47) with 140737488355328 by lra; apply Rabs_def1; lra.
Qed.

Lemma ordinary_61 : ordinary_inputs WAMF1 float_pi 61 0.
Proof.
  assert (FPB := float_pi_bound); replace (10 ^ 16) with 10000000000000000 in FPB by ring; assert (P := PI_bounds).
  repeat split.
  - exact format_pi.
  - rewrite inv20; lra.
  - lra.
  - apply generic_format_FLT; exists (Float radix2 61 0); cbn; [unfold F2R; cbn; ring|lia|lia].
  - apply Rle_trans with 1; [|lra]; rewrite <- Rinv_1; apply Rinv_le_contravar; [lra|apply pow_R1_Rle; lra].
  - apply Rle_trans with (2 ^ 6); [lra|apply Rle_pow; [lra|lia]].
  - apply format_0.
  - rewrite Rabs_R0; lra.
  - exists PI; split; [auto|]; replace (10 ^ 6) with 1000000 by ring; apply Rabs_range; lra.
Qed.

Theorem wamf1_rate_exceeded fsin fcos facos fasin : exists c l g,
  fl_build binary64 fsin fcos facos fasin float_pi WAMF1 float_pi 61 0 None = Ok c /\ describes l c /\ In g l /\ 61 < g_rabi g.
Proof.
  destruct ordinary_61 as [_ [_ [_ [_ [_ [_ TAB]]]]]]; assert (DE := tabulated_decisions _ TAB).
  destruct wamf1_rates_61 as [R1 R2]; assert (P := PI_bounds).
  assert (FPB := float_pi_bound); replace (10 ^ 16) with 10000000000000000 in FPB by ring.
  set (d := 7422151084095412 * / 2 ^ 57) in *; set (q := 8584986789675009 * / 2 ^ 47) in *.
  assert (Q : 61 < q) by (unfold q; replace (2 ^ 47) with 140737488355328 by lra; lra).
  assert (D : 0 < d) by (unfold d; replace (2 ^ 57) with 144115188075855872 by lra; lra).
  assert (PS : fl_isclose binary64 float_pi float_pi = true).
  { destruct DE as [_ E _|C _ _ _ _ _|C _ _ _ _ _ _]; auto; exfalso; apply Rabs_le_between in C; lra. }
  set (q2 := binary64 (binary64 (float_pi / 2) / d)).
  assert (Q2 : 0 <= q2).
  { unfold q2; rewrite <- rnd_zero; apply rnd_mono, Rmult_le_pos; [|left; apply Rinv_0_lt_compat; auto].
    rewrite <- rnd_zero; apply rnd_mono; lra. }
  set (l := [Seg q 0 0 d; Seg q2 0 0 d; Seg q2 0 0 d; Seg q 0 0 d]).
  destruct (segments_constructible l None) as [c [E [DC _]]].
  { intros g [<-|[<-|[<-|[<-|[]]]]]; cbn; lra. }
  exists c, l, (Seg q 0 0 d); repeat split; try apply DC; [|left; auto|auto].
  rewrite <- E; cbn [fl_build]; unfold fl_wamf1; rewrite validate_ok by lra; cbn [bind]; rewrite (fl_supported _ DE); cbn [bind].
  unfold fl_wamf1_thetas; rewrite PS, R1; fold d; cbn [map]; rewrite R2; reflexivity.
Qed.

(** ** Statements *)

Theorem float_controls fsin fcos facos fasin s th w phi name :
  accurate_trigonometry fsin fcos facos fasin -> ordinary_inputs s th w phi ->
  exists c l, fl_build binary64 fsin fcos facos fasin float_pi s th w phi name = Ok c /\ describes l c /\ dc_name c = name /\
    forall l0, design s th w phi l0 ->
      Forall2 (near_segment (axis_error s th) rotation_error w) l l0 /\
      forall e delta, close_to (float_cost s th w e delta (List.length l0)) (noisy_evolution e delta l) (noisy_evolution e delta l0).
Proof. intros HF H; apply (float_controls_main _ _ _ _ HF); auto. Qed.

Theorem float_rotation fsin fcos facos fasin s th w phi name :
  accurate_trigonometry fsin fcos facos fasin -> ordinary_inputs s th w phi -> exact_scheme s ->
  exists c l, fl_build binary64 fsin fcos facos fasin float_pi s th w phi name = Ok c /\ describes l c /\
    close_to (rotation_accuracy th) (evolution l) (rotation th phi).
Proof.
  intros HF H X; destruct (float_controls_main _ _ _ _ HF s th w phi name H) as [c [l [E [D [_ M]]]]].
  exists c, l; split; [auto|split; [auto|]].
  destruct (build_accepts s th w phi name (ordinary_accepts s th w phi H)) as [c0 [l0 [E0 [D0 [DS _]]]]].
  destruct (M l0 DS) as [_ C]; specialize (C 0 0).
  replace (rotation th phi) with (noisy_evolution 0 0 l0).
  - eapply close_to_mono; [eapply float_cost_small; eauto|exact C].
  - change (evolution l0 = rotation th phi); destruct s; try contradiction; cbn [build] in E0.
    + apply (primitive_spec _ _ _ _ _ _ E0 D0).
    + apply (bb1_spec _ _ _ _ _ _ E0 D0).
    + apply (sk1_spec _ _ _ _ _ _ E0 D0).
    + apply (corpse_spec _ _ _ _ _ _ E0 D0).
    + apply (corpse_in_bb1_spec _ _ _ _ _ _ E0 D0).
    + apply (corpse_in_sk1_spec _ _ _ _ _ _ E0 D0).
Qed.

Theorem float_scheme_rates fsin fcos facos fasin s th w phi name c l :
  accurate_trigonometry fsin fcos facos fasin -> ordinary_inputs s th w phi ->
  fl_build binary64 fsin fcos facos fasin float_pi s th w phi name = Ok c -> describes l c ->
  forall g, In g l ->
    0 < g_dur g /\ g_det g = 0 /\ (s <> WAMF1 -> g_rabi g = w) /\ 0 <= g_rabi g <= w * (1 + 3 / 2 ^ 53).
Proof. intros HF H E D; apply (float_rates_main _ _ _ _ HF s th w phi name c l); auto. Qed.
