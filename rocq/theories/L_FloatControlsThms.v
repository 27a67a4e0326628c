(** * Composite pulses in floating point: every scheme *)

From Coq Require Import Lia.
From Flocq Require Import Core.
From Verif Require Export L_FloatControls.
Import ListNotations.
Open Scope string_scope.
Open Scope list_scope.
Open Scope R_scope.

(** ** The common constructor *)

Definition close_pulse (a : R) (p p0 : R * R) : Prop :=
  apx 75 (fst p) (fst p0) /\ / 2 ^ 23 <= fst p0 <= 13.2 /\ Rabs (snd p - snd p0) <= a.

Lemma inv23 : / 2 ^ 23 = / 8388608. Proof. f_equal; lra. Qed.

Lemma quotient_relative w r r0 : / 2 ^ 900 <= w <= 2 ^ 900 -> apx 75 r r0 -> / 2 ^ 23 <= r0 ->
  0 < rnd (r / w) /\ Rabs (rnd (r / w) - r / w) <= eps * (r / w).
Proof.
  intros W A L; assert (W0 : 0 < w) by (apply Rlt_le_trans with (/ 2 ^ 900); [apply Rinv_0_lt_compat, pow_lt; lra|lra]).
  rewrite inv23 in L; apply apx_between in A; assert (E := eps_pos).
  assert (R1 : / 2 ^ 24 <= r) by (replace (/ 2 ^ 24) with (/ 16777216) by (f_equal; lra); unfold eps in *; lra).
  assert (Q : tiny <= r / w).
  { apply Rle_trans with (/ 2 ^ 24 * / 2 ^ 900).
    - rewrite <- inv_pow_add; unfold tiny; apply inv_pow_le; lia.
    - apply Rmult_le_compat; auto; try (left; apply inv_pow_pos); apply Rinv_le_contravar; lra. }
  assert (H := acc_rnd (r / w) Q); unfold acc in H; rewrite Rmult_1_l in H; split; auto.
  assert (T0 : 0 < tiny) by (unfold tiny; apply inv_pow_pos).
  apply Rabs_le_between in H; assert (eps * (r / w) <= / 2 * (r / w)) by (apply Rmult_le_compat_r; unfold eps; lra); lra.
Qed.

Definition fl_segments (w : R) (l : list (R * R)) : list seg := map (fun p => Seg w (snd p) 0 (rnd (fst p / w))) l.

Lemma rotation_units : rotation_error = 128 * eps.
Proof. unfold rotation_error, eps; replace (2 ^ 46) with 70368744177664 by lra; lra. Qed.

Lemma near_pulse a w p p0 : / 2 ^ 900 <= w <= 2 ^ 900 -> close_pulse a p p0 ->
  near_segment a rotation_error w (Seg w (snd p) 0 (rnd (fst p / w))) (Seg w (snd p0) 0 (fst p0 / w)) /\ 0 < rnd (fst p / w).
Proof.
  intros W [A [[L U] AX]]; destruct (quotient_relative w (fst p) (fst p0) W A L) as [P Q]; split; auto.
  assert (W0 : 0 < w) by (apply Rlt_le_trans with (/ 2 ^ 900); [apply Rinv_0_lt_compat, pow_lt; lra|lra]).
  rewrite inv23 in L; assert (E := eps_pos); assert (A' := A); apply apx_between in A'.
  assert (R0 : 0 <= fst p <= 13.3) by (unfold eps in *; lra).
  set (r := fst p) in *; set (r0 := fst p0) in *; set (d := rnd (r / w)) in *.
  assert (D : Rabs (w * d - r0) <= rotation_error).
  { rewrite rotation_units; replace (w * d - r0) with (w * (d - r / w) + (r - r0)) by (field; lra).
    eapply Rle_trans; [apply Rabs_triang|]; rewrite Rabs_mult, (Rabs_pos_eq w) by lra.
    assert (w * Rabs (d - r / w) <= w * (eps * (r / w))) by (apply Rmult_le_compat_l; lra).
    replace (w * (eps * (r / w))) with (eps * r) in H by (field; lra).
    assert (eps * r <= eps * 13.3) by (apply Rmult_le_compat_l; lra); unfold apx in A; lra. }
  unfold near_segment; cbn [g_rabi g_phi g_det g_dur]; repeat split; auto.
  - rewrite Rminus_diag_eq, Rabs_R0 by auto; apply Rmult_le_pos; [lra|]; rewrite rotation_units; lra.
  - apply (Rmult_le_reg_l w); auto; replace (w * (rotation_error / w)) with rotation_error by (field; lra).
    rewrite <- (Rabs_pos_eq w) at 1 by lra; rewrite <- Rabs_mult; replace (w * (d - r0 / w)) with (w * d - r0) by (field; lra); auto.
  - replace (w * (r0 / w)) with r0 by (field; lra); auto.
Qed.

Lemma fl_constant_rate_ok a w l l0 name : / 2 ^ 900 <= w <= 2 ^ 900 -> Forall2 (close_pulse a) l l0 ->
  exists c, fl_constant_rate rnd (map fst l) (map snd l) w name = Ok c /\ dc_name c = name /\
    describes (fl_segments w l) c /\ Forall2 (near_segment a rotation_error w) (fl_segments w l) (pulses w l0).
Proof.
  intros W F.
  assert (W0 : 0 < w) by (apply Rlt_le_trans with (/ 2 ^ 900); [apply Rinv_0_lt_compat, pow_lt; lra|lra]).
  assert (S : Forall2 (near_segment a rotation_error w) (fl_segments w l) (pulses w l0) /\ forall g, In g (fl_segments w l) -> 0 < g_dur g /\ 0 <= g_rabi g).
  { induction F as [|p p0 l l0 A F [IH1 IH2]]; [split; [constructor|intros g []]|].
    destruct (near_pulse a w p p0 W A) as [N P]; split.
    - constructor; auto.
    - intros g [<-|I]; [cbn; lra|auto]. }
  destruct S as [S1 S2]; destruct (segments_constructible (fl_segments w l) name S2) as [c [E [D NM]]].
  exists c; repeat split; auto; try apply D.
  rewrite <- E; unfold fl_constant_rate, fl_segments; rewrite !map_map, map_length; cbn [g_dur g_rabi g_phi g_det].
  assert (X : forall v : R, map (fun _ : R * R => v) l = repeat v (List.length l)).
  { intros v; clear; induction l; simpl; [|rewrite IHl]; reflexivity. }
  rewrite !X; reflexivity.
Qed.

(** ** Evolution *)

Lemma planar_turn r a b : (r * cos a - r * cos b) ^ 2 + (r * sin a - r * sin b) ^ 2 <= (Rabs r * Rabs (a - b)) ^ 2.
Proof.
  replace ((r * cos a - r * cos b) ^ 2 + (r * sin a - r * sin b) ^ 2) with (r ^ 2 * (2 - 2 * cos (a - b))).
  - rewrite Rpow_mult_distr, !pow2_abs; apply Rmult_le_compat_l; [apply pow2_ge_0|apply versine].
  - rewrite cos_minus; assert (A := sin2_cos2 a); assert (B := sin2_cos2 b); unfold Rsqr in *.
    replace ((r * cos a - r * cos b) ^ 2 + (r * sin a - r * sin b) ^ 2)
      with (r ^ 2 * ((sin a * sin a + cos a * cos a) + (sin b * sin b + cos b * cos b) - 2 * (cos a * cos b + sin a * sin b))) by ring.
    rewrite A, B; ring.
Qed.

Lemma near_segment_evolution a e omega eps delta g g0 : 0 < omega -> 0 <= a -> 0 <= e -> near_segment a e omega g g0 ->
  0 < g_dur g -> 0 < g_dur g0 -> 0 <= g_rabi g0 * g_dur g0 <= 14 ->
  qnear ((Rabs (1 + eps) * (e + 14 * a) + Rabs delta / omega * e) / 2) (qnoisy eps delta g) (qnoisy eps delta g0).
Proof.
  intros W A E [_ [AX [D [D0 [DU AN]]]]] P P0 B; unfold qnoisy; rewrite !qseg_exp, D, D0, !Rplus_0_l by auto.
  set (r := g_rabi g * g_dur g) in *; set (r0 := g_rabi g0 * g_dur g0) in *.
  set (k := 1 + eps); assert (K := Rabs_pos k).
  replace (k * g_rabi g * cos (g_phi g) * g_dur g) with (k * r * cos (g_phi g)) by (unfold r; ring).
  replace (k * g_rabi g * sin (g_phi g) * g_dur g) with (k * r * sin (g_phi g)) by (unfold r; ring).
  replace (k * g_rabi g0 * cos (g_phi g0) * g_dur g0) with (k * r0 * cos (g_phi g0)) by (unfold r0; ring).
  replace (k * g_rabi g0 * sin (g_phi g0) * g_dur g0) with (k * r0 * sin (g_phi g0)) by (unfold r0; ring).
  replace ((Rabs k * (e + 14 * a) + Rabs delta / omega * e) / 2)
    with (Rabs k * e / 2 + (Rabs k * (14 * a) / 2 + Rabs delta / omega * e / 2)) by (field; lra).
  eapply (qnear_trans _ _ _ (qexp (k * r0 * cos (g_phi g)) (k * r0 * sin (g_phi g)) (delta * g_dur g)) _).
  - apply qexp_near; [assert (0 <= Rabs k * e) by (apply Rmult_le_pos; auto); lra|].
    replace (2 * (Rabs k * e / 2)) with (Rabs k * e) by field.
    assert (C := sin2_cos2 (g_phi g)); unfold Rsqr in C.
    replace ((k * r * cos (g_phi g) - k * r0 * cos (g_phi g)) ^ 2 + (k * r * sin (g_phi g) - k * r0 * sin (g_phi g)) ^ 2 +
      (delta * g_dur g - delta * g_dur g) ^ 2)
      with (k ^ 2 * (r - r0) ^ 2 * (sin (g_phi g) * sin (g_phi g) + cos (g_phi g) * cos (g_phi g))) by ring.
    rewrite C, Rmult_1_r, Rpow_mult_distr, pow2_abs; apply Rmult_le_compat_l; [apply pow2_ge_0|].
    rewrite <- (pow2_abs (r - r0)); apply pow_incr; split; auto; apply Rabs_pos.
  - eapply (qnear_trans _ _ _ (qexp (k * r0 * cos (g_phi g0)) (k * r0 * sin (g_phi g0)) (delta * g_dur g)) _).
    + apply qexp_near; [assert (0 <= Rabs k * (14 * a)) by (apply Rmult_le_pos; lra); lra|].
      rewrite (Rminus_diag_eq (delta * g_dur g)) by auto; rewrite pow_i, Rplus_0_r by lia.
      eapply Rle_trans; [apply planar_turn|]; apply pow_incr; split; [apply Rmult_le_pos; apply Rabs_pos|].
      rewrite Rabs_mult, (Rabs_pos_eq r0), Rmult_assoc by lra.
      replace (2 * (Rabs k * (14 * a) / 2)) with (Rabs k * (14 * a)) by field; apply Rmult_le_compat_l; auto.
      apply Rmult_le_compat; auto; try lra; apply Rabs_pos.
    + assert (N : 0 <= Rabs delta / omega * e).
      { apply Rmult_le_pos; auto; apply Rmult_le_pos; [apply Rabs_pos|left; apply Rinv_0_lt_compat; auto]. }
      apply qexp_near; [lra|]; rewrite (Rminus_diag_eq (k * r0 * cos (g_phi g0))), (Rminus_diag_eq (k * r0 * sin (g_phi g0))) by auto.
      rewrite pow_i, !Rplus_0_l by lia; replace (2 * (Rabs delta / omega * e / 2)) with (Rabs delta * (e / omega)) by (field; lra).
      rewrite <- Rmult_minus_distr_l, <- (pow2_abs (delta * _)); apply pow_incr; split; [apply Rabs_pos|].
      rewrite Rabs_mult; apply Rmult_le_compat_l; auto; apply Rabs_pos.
Qed.

Lemma unit_qevolution eps delta l : (forall g, In g l -> 0 < g_dur g) -> unit_quat (qevolution eps delta l).
Proof.
  induction l as [|g l IH]; intros H; cbn [qevolution]; [apply unit_one|].
  apply unit_mul; [apply IH; intros; apply H; right; auto|]; unfold qnoisy; rewrite qseg_exp by (apply H; left; auto); apply unit_qexp.
Qed.

Lemma near_evolution a e omega eps delta l l0 : 0 < omega -> 0 <= a -> 0 <= e -> Forall2 (near_segment a e omega) l l0 ->
  (forall g, In g l -> 0 < g_dur g) -> (forall g, In g l0 -> 0 < g_dur g /\ 0 <= g_rabi g * g_dur g <= 14) ->
  qnear (INR (List.length l0) * (Rabs (1 + eps) * (e + 14 * a) + Rabs delta / omega * e) / 2)
    (qevolution eps delta l) (qevolution eps delta l0).
Proof.
  intros W A E F; induction F as [|g g0 l l0 N F IH]; intros P P0.
  - cbn [List.length qevolution INR]; unfold Rdiv; rewrite !Rmult_0_l; apply qnear_refl.
  - cbn [qevolution]; change (List.length (g0 :: l0)) with (S (List.length l0)); rewrite S_INR.
    set (K := Rabs (1 + eps) * (e + 14 * a) + Rabs delta / omega * e) in *.
    replace ((INR (List.length l0) + 1) * K / 2) with (INR (List.length l0) * K / 2 + K / 2) by field.
    apply qnear_mul.
    + apply unit_qevolution; intros h I; apply P0; right; auto.
    + unfold qnoisy; rewrite qseg_exp by (apply P; left; auto); apply unit_qexp.
    + apply IH; intros; [apply P|apply P0]; right; auto.
    + apply near_segment_evolution; auto; [apply P|apply P0|apply P0]; left; auto.
Qed.

(** ** Numpy's closeness *)

Lemma crude z : Rabs z <= 100 -> Rabs (rnd z - z) <= / 10 ^ 12.
Proof.
  intros H; assert (A := apx_rnd0 100 100.01 z H ltac:(lra)); unfold apx in A; eapply Rle_trans; [exact A|].
  replace (10 ^ 12) with 1000000000000 by ring; unfold eps; lra.
Qed.

Lemma isclose_sides th b b0 : 0 <= th <= 13 -> 0.7 <= b0 <= 3.2 -> apx 10 b b0 ->
  Rabs (Rabs (rnd (th - b)) - Rabs (th - b0)) <= 3 / 10 ^ 12 /\
  Rabs (rnd (rnd (/ 100000000) + rnd (rnd (/ 100000) * Rabs b)) - (/ 100000000 + / 100000 * b0)) <= / 10 ^ 10.
Proof.
  intros T B A; apply apx_between in A; assert (S12 : 10 ^ 12 = 1000000000000) by ring; assert (S10 : 10 ^ 10 = 10000000000) by ring.
  assert (E : 10 * eps <= / 10 ^ 12) by (rewrite S12; unfold eps; lra).
  assert (C := crude); rewrite S12, S10 in *; split.
  - eapply Rle_trans; [apply Rabs_triang_inv2|].
    assert (H := C (th - b) ltac:(apply Rabs_range; lra)); apply Rabs_le_between in H; apply Rabs_range; lra.
  - rewrite (Rabs_pos_eq b) by lra.
    assert (H1 := C (/ 100000000) ltac:(apply Rabs_range; lra)); assert (H2 := C (/ 100000) ltac:(apply Rabs_range; lra)).
    apply Rabs_le_between in H1; apply Rabs_le_between in H2; set (t1 := rnd (/ 100000000)) in *; set (t2 := rnd (/ 100000)) in *.
    assert (P : Rabs (t2 * b - / 100000 * b0) <= / 100000000000).
    { replace (t2 * b - / 100000 * b0) with ((t2 - / 100000) * b + / 100000 * (b - b0)) by ring.
      eapply Rle_trans; [apply Rabs_triang|]; rewrite !Rabs_mult, (Rabs_pos_eq b), (Rabs_pos_eq (/ 100000)) by lra.
      assert (Rabs (t2 - / 100000) <= / 1000000000000) by (apply Rabs_range; lra).
      assert (Rabs (b - b0) <= / 1000000000000) by (apply Rabs_range; lra).
      assert (0 <= Rabs (t2 - / 100000)) by apply Rabs_pos.
      assert (Rabs (t2 - / 100000) * b <= / 1000000000000 * 3.3) by (apply Rmult_le_compat; lra); lra. }
    apply Rabs_le_between in P.
    assert (H3 := C (t2 * b) ltac:(apply Rabs_range; lra)); apply Rabs_le_between in H3; set (t3 := rnd (t2 * b)) in *.
    assert (H4 := C (t1 + t3) ltac:(apply Rabs_range; lra)); apply Rabs_le_between in H4; apply Rabs_range; lra.
Qed.

Lemma isclose_yes th b b0 : 0 <= th <= 13 -> 0.7 <= b0 <= 3.2 -> apx 10 b b0 -> Rabs (th - b0) <= 9 / 10 ^ 6 * b0 ->
  fl_isclose rnd th b = true /\ near th b0.
Proof.
  intros T B A H; destruct (isclose_sides th b b0 T B A) as [S1 S2].
  replace (10 ^ 12) with 1000000000000 in * by ring; replace (10 ^ 10) with 10000000000 in * by ring; replace (10 ^ 6) with 1000000 in * by ring.
  apply Rabs_le_between in S1; apply Rabs_le_between in S2; split.
  - unfold fl_isclose; apply leb_true; lra.
  - unfold near; rewrite (Rabs_pos_eq b0) by lra; replace (10 ^ 8) with 100000000 by ring; replace (10 ^ 5) with 100000 by ring; lra.
Qed.

Lemma isclose_no th b b0 : 0 <= th <= 13 -> 0.7 <= b0 <= 3.2 -> apx 10 b b0 -> 0.1 <= Rabs (th - b0) ->
  fl_isclose rnd th b = false /\ ~ near th b0.
Proof.
  intros T B A H; destruct (isclose_sides th b b0 T B A) as [S1 S2].
  replace (10 ^ 12) with 1000000000000 in * by ring; replace (10 ^ 10) with 10000000000 in * by ring.
  apply Rabs_le_between in S1; apply Rabs_le_between in S2; split.
  - unfold fl_isclose; apply not_true_iff_false; rewrite leb_true; lra.
  - unfold near; rewrite (Rabs_pos_eq b0) by lra; replace (10 ^ 8) with 100000000 by ring; replace (10 ^ 5) with 100000 by ring; lra.
Qed.

Lemma half_pi_apx : apx 10 (rnd (float_pi / 2)) (PI / 2).
Proof.
  assert (P := PI_bounds); apply (apx_rnd 1.6 1); [apply Rabs_range; lra| |lra|lra].
  replace (float_pi / 2) with (/ 2 * float_pi) by field; replace (PI / 2) with (/ 2 * PI) by field.
  apply (apx_weaken (/ 2 * 2)); [lra|]; apply apx_scale; [lra|exact pi_apx].
Qed.
Lemma half_pi_apx' : apx 10 (rnd (5 / 10 * float_pi)) (PI / 2).
Proof. replace (5 / 10 * float_pi) with (float_pi / 2) by field; exact half_pi_apx. Qed.
Lemma quarter_pi_apx : apx 10 (rnd (float_pi / 4)) (PI / 4).
Proof.
  assert (P := PI_bounds); apply (apx_rnd 1.6 1); [apply Rabs_range; lra| |lra|lra].
  replace (float_pi / 4) with (/ 4 * float_pi) by field; replace (PI / 4) with (/ 4 * PI) by field.
  apply (apx_weaken (/ 4 * 2)); [lra|]; apply apx_scale; [lra|exact pi_apx].
Qed.

(** the decisions of the rounded program and of the exact one *)
Inductive decisions (th : R) : Prop :=
| At_pi : Rabs (th - PI) <= / 10000 -> fl_isclose rnd th float_pi = true -> near th PI -> decisions th
| At_half_pi : Rabs (th - PI / 2) <= / 10000 -> fl_isclose rnd th float_pi = false -> ~ near th PI ->
    fl_isclose rnd th (rnd (float_pi / 2)) = true -> fl_isclose rnd th (rnd (5 / 10 * float_pi)) = true -> near th (PI / 2) -> decisions th
| At_quarter_pi : Rabs (th - PI / 4) <= / 10000 -> fl_isclose rnd th float_pi = false -> ~ near th PI ->
    fl_isclose rnd th (rnd (float_pi / 2)) = false -> fl_isclose rnd th (rnd (5 / 10 * float_pi)) = false -> ~ near th (PI / 2) ->
    fl_isclose rnd th (rnd (float_pi / 4)) = true -> decisions th.

Lemma tabulated_decisions th : tabulated th -> decisions th.
Proof.
  intros [t0 [E H]]; assert (P := PI_bounds); assert (H' := H); replace (10 ^ 6) with 1000000 in H' by ring.
  assert (A : apx 10 float_pi PI) by (apply (apx_weaken 2); [lra|exact pi_apx]).
  destruct E as [->|[->| ->]]; apply Rabs_le_between in H'.
  - apply At_pi; [apply Rabs_range; lra| |]; apply (isclose_yes th float_pi PI); auto; lra.
  - assert (T : 0.1 <= Rabs (th - PI)) by (rewrite Rabs_left1; lra).
    apply At_half_pi; [apply Rabs_range; lra| | | | |].
    + apply (isclose_no th float_pi PI); auto; lra.
    + apply (isclose_no th float_pi PI); auto; lra.
    + apply (isclose_yes th _ (PI / 2)); auto; try lra; exact half_pi_apx.
    + apply (isclose_yes th _ (PI / 2)); auto; try lra; exact half_pi_apx'.
    + apply (isclose_yes th (rnd (float_pi / 2)) (PI / 2)); auto; try lra; exact half_pi_apx.
  - assert (T : 0.1 <= Rabs (th - PI)) by (rewrite Rabs_left1; lra).
    assert (T' : 0.1 <= Rabs (th - PI / 2)) by (rewrite Rabs_left1; lra).
    apply At_quarter_pi; [apply Rabs_range; lra| | | | | |].
    + apply (isclose_no th float_pi PI); auto; lra.
    + apply (isclose_no th float_pi PI); auto; lra.
    + apply (isclose_no th _ (PI / 2)); auto; try lra; exact half_pi_apx.
    + apply (isclose_no th _ (PI / 2)); auto; try lra; exact half_pi_apx'.
    + apply (isclose_no th (rnd (float_pi / 2)) (PI / 2)); auto; try lra; exact half_pi_apx.
    + apply (isclose_yes th _ (PI / 4)); auto; try lra; exact quarter_pi_apx.
Qed.

Lemma fl_supported th : decisions th -> fl_check_supported rnd float_pi th = Ok tt.
Proof.
  intros D; unfold fl_check_supported; apply check_true; unfold np_any; cbn [existsb].
  destruct D as [_ -> _|_ _ _ -> _ _|_ _ _ _ _ _ ->]; rewrite ?orb_true_r; auto.
Qed.

(** ** SCROFULOUS *)

Lemma degrees_apx d : 0 <= d <= 180 -> apx 12 (fl_degrees_to_radians rnd float_pi (rnd d)) (PI * (d / 180)).
Proof.
  intros H; assert (P := PI_bounds); unfold fl_degrees_to_radians; rewrite (Rmult_comm PI).
  assert (D0 : apx 180.01 (rnd d) d) by (apply (apx_rnd0 180); [apply Rabs_range|]; lra).
  assert (D1 : apx 1.001 (rnd d / 180) (d / 180)).
  { replace (rnd d / 180) with (/ 180 * rnd d) by field; replace (d / 180) with (/ 180 * d) by field.
    apply (apx_weaken (/ 180 * 180.01)); [lra|]; apply apx_scale; auto; lra. }
  assert (D2 : apx 2.02 (rnd (rnd d / 180)) (d / 180)) by (apply (apx_rnd 1 1.001); auto; [apply Rabs_range| |]; lra).
  apply (apx_rnd 3.15 8.4); [rewrite Rabs_mult, (Rabs_pos_eq PI), Rabs_pos_eq by lra| |lra|lra].
  - assert (d / 180 * PI <= 1 * PI) by (apply Rmult_le_compat_r; lra); lra.
  - apply (apx_mul 1 3.142 2.02 2); auto; try lra; [apply Rabs_range; lra| |exact pi_apx].
    assert (F := apx_bound 3.1416 2 float_pi PI ltac:(apply Rabs_range; lra) pi_apx ltac:(lra)); lra.
Qed.

Lemma cos_near_half_pi t c : Rabs (t - PI / 2) <= c -> Rabs (cos t) <= c.
Proof.
  intros H; eapply Rle_trans; [|exact H]; replace (cos t) with (- (sin (t - PI / 2) - sin 0)).
  - rewrite Rabs_Ropp; eapply Rle_trans; [apply sin_lipschitz|]; rewrite Rminus_0_r; apply Rle_refl.
  - rewrite sin_0, Rminus_0_r, <- cos_shift; replace (PI / 2 - (t - PI / 2)) with (PI - t) by field.
    rewrite Rtrigo_facts.cos_pi_minus; ring.
Qed.

Lemma sin_near x y c : Rabs (x - y) <= c -> sin y - c <= sin x.
Proof. intros H; assert (L := sin_lipschitz x y); apply Rabs_le_between in L; lra. Qed.

(** the quotient of SCROFULOUS and its ingredients *)
Lemma scrofulous_sizes th t : decisions th -> scrofulous_table th t ->
  1.68 <= t <= 3.1416 /\ apx 12 (fl_scrofulous_theta_1 rnd float_pi th) t /\
  0.37 <= sin (th / 2) /\ Rabs (- PI * cos t / 2 / t) <= 0.51 /\ Rabs (- PI * cos t / 2 / t / sin (th / 2)) <= 0.56.
Proof.
  intros D S; assert (P := PI_bounds).
  assert (FIN : forall c m k, 1.68 <= t -> Rabs (cos t) <= c -> 0 <= c -> 3.1416 * c / 2 <= k * t -> 0 < m -> m <= sin (th / 2) -> k <= 0.56 * m ->
    0 <= k -> Rabs (- PI * cos t / 2 / t) <= k /\ Rabs (- PI * cos t / 2 / t / sin (th / 2)) <= 0.56).
  { intros c m k T C C0 K M0 M KM K0.
    assert (A : Rabs (- PI * cos t / 2 / t) <= k).
    { unfold Rdiv; rewrite !Rabs_mult, Rabs_Ropp, (Rabs_pos_eq PI), (Rabs_pos_eq (/ 2)), (Rabs_pos_eq (/ t)) by (try (left; apply Rinv_0_lt_compat); lra).
      apply (Rmult_le_reg_r t); [lra|]; replace (PI * Rabs (cos t) * / 2 * / t * t) with (PI * Rabs (cos t) / 2) by (field; lra).
      assert (PI * Rabs (cos t) <= 3.1416 * c) by (apply Rmult_le_compat; try lra; apply Rabs_pos); lra. }
    split; auto; unfold Rdiv at 1; rewrite Rabs_mult, (Rabs_pos_eq (/ sin (th / 2))) by (left; apply Rinv_0_lt_compat; lra).
    apply (Rmult_le_reg_r (sin (th / 2))); [lra|]; rewrite Rmult_assoc, Rinv_l, Rmult_1_r by lra.
    assert (0.56 * m <= 0.56 * sin (th / 2)) by (apply Rmult_le_compat_l; lra); lra. }
  unfold fl_scrofulous_theta_1.
  destruct D as [C F N|C F N F2 F2' N2|C F N F2 F2' N2 F3].
  - rewrite F; assert (t = PI) as -> by (destruct S as [[_ E]|[[X _]|[X _]]]; [auto|contradiction|contradiction]).
    assert (0.9 <= sin (th / 2)).
    { assert (L := sin_near (th / 2) (PI / 2) 0.1 ltac:(apply Rabs_le_between in C; apply Rabs_range; lra)); rewrite sin_PI2 in L; lra. }
    destruct (FIN 1 0.9 0.5001) as [Q1 Q2]; try lra; [rewrite cos_PI; apply Rabs_range; lra|].
    repeat split; try lra; auto; replace PI with (PI * (180 / 180)) at 1 by field; apply degrees_apx; lra.
  - rewrite F, F2'; assert (t = PI * (1152 / 1800)) as -> by (destruct S as [[X _]|[[_ [_ E]]|[_ [X _]]]]; [contradiction|auto|contradiction]).
    assert (0.69 <= sin (th / 2)).
    { assert (L := sin_near (th / 2) (PI / 4) 0.001 ltac:(apply Rabs_le_between in C; apply Rabs_range; lra)).
      assert (K := sin_ge_cubic (PI / 4) ltac:(lra)).
      assert (X : (PI / 4) ^ 3 <= (0.7855) ^ 3) by (apply pow_incr; lra); lra. }
    destruct (FIN 0.44 0.69 0.345) as [Q1 Q2]; try lra; [apply cos_near_half_pi, Rabs_range; lra|].
    repeat split; try lra; auto; replace (PI * (1152 / 1800)) with (PI * (1152 / 10 / 180)) by field; apply degrees_apx; lra.
  - rewrite F, F2'; assert (t = PI * (967 / 1800)) as -> by (destruct S as [[X _]|[[_ [X _]]|[_ [_ E]]]]; [contradiction|contradiction|auto]).
    assert (0.37 <= sin (th / 2)).
    { assert (L := sin_near (th / 2) (PI / 8) 0.001 ltac:(apply Rabs_le_between in C; apply Rabs_range; lra)).
      assert (K := sin_ge_cubic (PI / 8) ltac:(lra)).
      assert (X : (PI / 8) ^ 3 <= (0.3928) ^ 3) by (apply pow_incr; lra); lra. }
    destruct (FIN 0.118 0.37 0.112) as [Q1 Q2]; try lra; [apply cos_near_half_pi, Rabs_range; lra|].
    repeat split; try lra; auto; replace (PI * (967 / 1800)) with (PI * (967 / 10 / 180)) by field; apply degrees_apx; lra.
Qed.

Section Controls.
  Variables (fsin fcos facos fasin : R -> R).
  Hypothesis HF : accurate_trigonometry fsin fcos facos fasin.

  Lemma format_theta_1 th : binary64_format (fl_scrofulous_theta_1 rnd float_pi th).
  Proof. unfold fl_scrofulous_theta_1, fl_degrees_to_radians; repeat destruct (fl_isclose _ _ _); apply format_rnd. Qed.

  Lemma scrofulous_apx th t p1 p2 : decisions th -> binary64_format th -> 0 <= th <= 12.6 -> scrofulous_angles th t p1 p2 ->
    let t' := fl_scrofulous_theta_1 rnd float_pi th in
    let p1' := fl_scrofulous_phi_1 rnd fsin fcos facos float_pi t' th in
    apx 12 t' t /\ apx 124 p1' p1 /\ apx 167 (fl_scrofulous_phi_2 rnd facos float_pi t' p1') p2.
  Proof.
    intros D F TB [S [B1 [E1 [B2 E2]]]] t' p1'; assert (P := PI_bounds).
    destruct (scrofulous_sizes th t D S) as [T [A [SN [Q1 Q2]]]].
    fold t' in A; assert (T' : Rabs t' <= 3.1417) by (assert (X := apx_bound 3.1416 12 t' t ltac:(apply Rabs_range; lra) A ltac:(lra)); lra).
    assert (T2 : 1.67 <= t') by (apply apx_between in A; unfold eps in A; lra).
    assert (C1 := fcos_apx _ _ _ _ HF 12 t' t (format_theta_1 th) ltac:(lra) A).
    assert (CB := COS_bound t); assert (CT : Rabs (fcos t') <= 1.00001).
    { assert (X := apx_bound 1 (12 + 8) (fcos t') (cos t) ltac:(apply Rabs_range; lra) C1 ltac:(lra)); lra. }
    assert (N1 : apx 68.1 (rnd (- float_pi * fcos t')) (- PI * cos t)).
    { apply (apx_rnd 3.15 64.9); [| |lra|lra].
      - rewrite Rabs_mult, Rabs_Ropp, (Rabs_pos_eq PI) by lra.
        assert (PI * Rabs (cos t) <= PI * 1) by (apply Rmult_le_compat_l; [lra|apply Rabs_range; lra]); lra.
      - apply (apx_mul 3.1416 1.00001 2 (12 + 8)); auto; try lra; [rewrite Rabs_Ropp; apply Rabs_range; lra|apply apx_opp, pi_apx]. }
    assert (X1 : Rabs (- PI * cos t / 2) <= 1.6).
    { unfold Rdiv; rewrite !Rabs_mult, Rabs_Ropp, (Rabs_pos_eq PI), (Rabs_pos_eq (/ 2)) by lra.
      assert (PI * Rabs (cos t) <= PI * 1) by (apply Rmult_le_compat_l; [lra|apply Rabs_range; lra]); lra. }
    assert (N2 : apx 35.7 (rnd (rnd (- float_pi * fcos t') / 2)) (- PI * cos t / 2)).
    { apply (apx_rnd 1.6 (68.1 / 2)); auto; try lra.
      replace (rnd (- float_pi * fcos t') / 2) with (/ 2 * rnd (- float_pi * fcos t')) by field; replace (- PI * cos t / 2) with (/ 2 * (- PI * cos t)) by field.
      apply (apx_weaken (/ 2 * 68.1)); [lra|]; apply apx_scale; auto; lra. }
    assert (N3 : apx 26.7 (rnd (rnd (rnd (- float_pi * fcos t') / 2) / t')) (- PI * cos t / 2 / t)).
    { apply (apx_rnd 0.51 26.1); auto; try lra; apply (apx_div 0.51 1.67 35.7 12); auto; lra. }
    assert (H0 : apx 6.4 (rnd (th / 2)) (th / 2)).
    { apply (apx_weaken (0 / 2 + 6.4)); [lra|]; apply half_apx; [apply Rabs_range; lra|lra|apply apx_refl]. }
    assert (HB : Rabs (rnd (th / 2)) <= 8).
    { assert (X := apx_bound 6.3 6.4 (rnd (th / 2)) (th / 2) ltac:(apply Rabs_range; lra) H0 ltac:(lra)); lra. }
    assert (S1 := fsin_apx _ _ _ _ HF 6.4 _ _ (format_rnd _) HB H0).
    assert (S2 : 0.369 <= fsin (rnd (th / 2))) by (apply apx_between in S1; unfold eps in S1; lra).
    set (y := rnd (rnd (rnd (rnd (- float_pi * fcos t') / 2) / t') / fsin (rnd (th / 2)))).
    assert (E1' : cos p1 = - PI * cos t / 2 / t / sin (th / 2)) by (rewrite E1; field; repeat split; lra).
    assert (N4 : apx 95 y (cos p1)).
    { rewrite E1'; apply (apx_rnd 0.56 94.3); auto; try lra; apply (apx_div 0.56 0.369 26.7 (6.4 + 8)); auto; lra. }
    assert (YB : Rabs y <= 0.57).
    { assert (X := apx_bound 0.56 95 y (cos p1) ltac:(rewrite E1'; auto) N4 ltac:(lra)); lra. }
    assert (A1 : apx 124 p1' p1).
    { unfold p1', fl_scrofulous_phi_1; fold y; apply (apx_weaken (95 / 0.82 + 8)); [lra|].
      apply (facos_apx _ _ _ _ HF 0.57); auto; [apply format_rnd|apply Rabs_le_between in YB; lra|rewrite E1'; lra|lra|lra]. }
    split; [auto|split; [auto|]].
    assert (M1 : apx 2.7 (rnd (- float_pi / 2)) (- PI / 2)).
    { apply (apx_rnd 1.6 1); [apply Rabs_range; lra| |lra|lra].
      replace (- float_pi / 2) with (/ 2 * - float_pi) by field; replace (- PI / 2) with (/ 2 * - PI) by field.
      apply (apx_weaken (/ 2 * 2)); [lra|]; apply apx_scale; [lra|apply apx_opp, pi_apx]. }
    assert (X2 : Rabs (- PI / 2 / t) <= 0.94).
    { unfold Rdiv; rewrite !Rabs_mult, Rabs_Ropp, (Rabs_pos_eq PI), (Rabs_pos_eq (/ 2)), (Rabs_pos_eq (/ t)) by (try (left; apply Rinv_0_lt_compat); lra).
      apply (Rmult_le_reg_r t); [lra|]; replace (PI * / 2 * / t * t) with (PI / 2) by (field; lra); lra. }
    set (z := rnd (rnd (- float_pi / 2) / t')).
    assert (E2' : cos (p1 - p2) = - PI / 2 / t) by (rewrite E2; field; lra).
    assert (M2 : apx 9.4 z (cos (p1 - p2))).
    { rewrite E2'; apply (apx_rnd 0.94 8.4); auto; try lra; apply (apx_div 0.94 1.67 2.7 12); auto; lra. }
    assert (ZB : Rabs z <= 0.95).
    { assert (X := apx_bound 0.94 9.4 z (cos (p1 - p2)) ltac:(rewrite E2'; auto) M2 ltac:(lra)); lra. }
    assert (A2 : apx 39 (facos z) (p1 - p2)).
    { apply (apx_weaken (9.4 / 0.31 + 8)); [lra|].
      apply (facos_apx _ _ _ _ HF 0.95); auto; [apply format_rnd|apply Rabs_le_between in ZB; lra|rewrite E2'; lra|lra|lra]. }
    unfold fl_scrofulous_phi_2; fold z.
    apply (apx_rnd 3.15 (124 + 39)); [apply Rabs_range; lra| |lra|lra].
    replace p2 with (p1 - (p1 - p2)) by ring; apply apx_sub; auto.
  Qed.
End Controls.
