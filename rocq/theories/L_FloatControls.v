(** * The composite pulses in floating point *)

From Coq Require Import Lia.
From Flocq Require Import Core.
From Verif Require Export Spec_FloatControls L_FloatConvert L_Predefined.
Import ListNotations.
Open Scope string_scope.
Open Scope list_scope.
Open Scope R_scope.

Notation rnd := binary64.

(** ** Absolute errors in units of 2^-53 *)

Definition apx (e x y : R) : Prop := Rabs (x - y) <= e * eps.

Lemma apx_between e x y : apx e x y <-> y - e * eps <= x <= y + e * eps.
Proof. unfold apx; rewrite Rabs_le_between; split; intros; lra. Qed.
Lemma apx_refl x : apx 0 x x.
Proof. unfold apx; rewrite Rminus_diag_eq, Rabs_R0 by auto; lra. Qed.
Lemma apx_weaken e f x y : e <= f -> apx e x y -> apx f x y.
Proof. unfold apx; intros H A; eapply Rle_trans; [exact A|]; apply Rmult_le_compat_r; [generalize eps_pos; lra|auto]. Qed.
Lemma apx_add e f x y x' y' : apx e x y -> apx f x' y' -> apx (e + f) (x + x') (y + y').
Proof. rewrite !apx_between; intros; lra. Qed.
Lemma apx_sub e f x y x' y' : apx e x y -> apx f x' y' -> apx (e + f) (x - x') (y - y').
Proof. rewrite !apx_between; intros; lra. Qed.
Lemma apx_opp e x y : apx e x y -> apx e (- x) (- y).
Proof. rewrite !apx_between; intros; lra. Qed.
Lemma apx_scale c e x y : 0 <= c -> apx e x y -> apx (c * e) (c * x) (c * y).
Proof. unfold apx; intros C H; rewrite <- Rmult_minus_distr_l, Rabs_mult, (Rabs_pos_eq c), Rmult_assoc by auto; apply Rmult_le_compat_l; auto. Qed.
Lemma apx_trans e f x y z : apx e x y -> apx f y z -> apx (e + f) x z.
Proof. rewrite !apx_between; intros; lra. Qed.
Lemma apx_sym e x y : apx e x y -> apx e y x.
Proof. rewrite !apx_between; intros; lra. Qed.

Lemma eta_eps : eta <= eps / 1000.
Proof.
  unfold eta; apply Rle_trans with (/ 2 ^ 66); [apply inv_pow_le; lia|].
  unfold eps; replace (/ 2 ^ 66) with (/ 73786976294838206464) by (f_equal; lra); lra.
Qed.

Lemma apx_rnd M e m x y : Rabs y <= M -> apx e x y -> 0 <= e <= 4000000000 -> M + e + / 100 <= m -> apx m (rnd x) y.
Proof.
  intros B A E Q; assert (H := rnd_error x); assert (P := eps_pos); assert (T := eta_eps).
  assert (X : Rabs x <= M + / 10000).
  { replace x with (y + (x - y)) by ring; eapply Rle_trans; [apply Rabs_triang|]; apply Rplus_le_compat; auto.
    eapply Rle_trans; [exact A|]; unfold eps in *; lra. }
  apply (apx_weaken ((M + / 100) + e)); [lra|]; apply (apx_trans _ _ _ x _); [|exact A].
  unfold apx.
  assert (eps * Rabs x <= eps * (M + / 10000)) by (apply Rmult_le_compat_l; lra); lra.
Qed.

(** the same without an error before the rounding *)
Lemma apx_rnd0 M m x : Rabs x <= M -> M + / 100 <= m -> apx m (rnd x) x.
Proof. intros B Q; apply (apx_rnd M 0); auto; [apply apx_refl|lra|lra]. Qed.

Lemma apx_mul M M' e e' m x y x' y' : Rabs y <= M -> Rabs x' <= M' -> 0 <= e -> 0 <= e' ->
  apx e x y -> apx e' x' y' -> e * M' + M * e' <= m -> apx m (x * x') (y * y').
Proof.
  intros B B' E E' A A' Q; apply (apx_weaken (e * M' + M * e')); auto; unfold apx in *; assert (P := eps_pos).
  replace (x * x' - y * y') with ((x - y) * x' + y * (x' - y')) by ring.
  eapply Rle_trans; [apply Rabs_triang|]; rewrite !Rabs_mult.
  assert (Rabs (x - y) * Rabs x' <= e * eps * M') by (apply Rmult_le_compat; auto using Rabs_pos).
  assert (Rabs y * Rabs (x' - y') <= M * (e' * eps)) by (apply Rmult_le_compat; auto using Rabs_pos).
  lra.
Qed.

(** quotient by a number of at least [d], [M] bounding the quotient *)
Lemma apx_div M d e e' m x y x' y' : 0 < d -> d <= x' -> 0 < y' -> Rabs (y / y') <= M -> 0 <= e -> 0 <= e' ->
  apx e x y -> apx e' x' y' -> (e + M * e') / d <= m -> apx m (x / x') (y / y').
Proof.
  intros D X Y B E E' A A' Q; apply (apx_weaken ((e + M * e') / d)); auto; unfold apx in *; assert (P := eps_pos).
  replace (x / x' - y / y') with (((x - y) - y / y' * (x' - y')) / x') by (field; lra).
  unfold Rdiv; rewrite Rabs_mult, (Rabs_pos_eq (/ x')) by (left; apply Rinv_0_lt_compat; lra).
  assert (N : Rabs (x - y - y / y' * (x' - y')) <= (e + M * e') * eps).
  { eapply Rle_trans; [apply Rabs_triang|]; rewrite Rabs_Ropp, Rabs_mult.
    assert (Rabs (y / y') * Rabs (x' - y') <= M * (e' * eps)) by (apply Rmult_le_compat; auto using Rabs_pos); lra. }
  assert (I : / x' <= / d) by (apply Rinv_le_contravar; auto).
  assert (I0 : 0 < / x') by (apply Rinv_0_lt_compat; lra).
  eapply Rle_trans; [apply Rmult_le_compat; [apply Rabs_pos|lra|exact N|exact I]|]; apply Req_le; ring.
Qed.

Lemma apx_bound M e x y : Rabs y <= M -> apx e x y -> 0 <= e <= 4000000000 -> Rabs x <= M + / 1000000.
Proof.
  intros B A E; replace x with (y + (x - y)) by ring; eapply Rle_trans; [apply Rabs_triang|]; apply Rplus_le_compat; auto.
  eapply Rle_trans; [exact A|]; unfold eps in *; lra.
Qed.

(** ** The constants *)

Lemma pi_apx : apx 2 float_pi PI.
Proof. assert (H := float_pi_bound); apply apx_between; unfold eps; lra. Qed.
Lemma format_pi : binary64_format float_pi.
Proof.
  apply generic_format_FLT; exists (Float radix2 884279719003555 (-48)); cbn [Fnum Fexp]; [|vm_compute; reflexivity|vm_compute; discriminate].
  unfold F2R, float_pi; cbn [Fnum Fexp]; change (-48)%Z with (- Z.of_nat 48)%Z; rewrite bpow_inv; reflexivity.
Qed.
Lemma Rabs_range x a : - a <= x <= a -> Rabs x <= a.
Proof. intros; apply Rabs_le; lra. Qed.
Lemma two_pi_apx : apx 11 (rnd (2 * float_pi)) (2 * PI).
Proof.
  assert (P := PI_bounds); apply (apx_rnd 6.5 4); [apply Rabs_range; lra| |lra|lra].
  apply (apx_weaken (2 * 2)); [lra|]; apply apx_scale; [lra|exact pi_apx].
Qed.

(** ** Inverse functions *)

Lemma sin_min p q c : 0 <= p -> q <= PI -> p <= c <= q -> Rmin (sin p) (sin q) <= sin c.
Proof.
  intros P Q C; destruct (Rle_dec c (PI / 2)) as [H|H].
  - eapply Rle_trans; [apply Rmin_l|]; apply sin_incr_1; lra.
  - eapply Rle_trans; [apply Rmin_r|]; apply sin_decr_1; lra.
Qed.

Lemma cos_expands m p q : 0 <= p <= PI -> 0 <= q <= PI -> m <= sin p -> m <= sin q ->
  m * Rabs (p - q) <= Rabs (cos p - cos q).
Proof.
  assert (W : forall p q, 0 <= p -> q <= PI -> p <= q -> m <= sin p -> m <= sin q -> m * (q - p) <= cos p - cos q).
  { intros a b A B L SA SB; destruct (Req_dec a b) as [->|N]; [lra|].
    destruct (MVT_cor2 cos (fun x => - sin x) a b) as [c [E C]]; [lra|intros; apply derivable_pt_lim_cos|].
    assert (M := sin_min a b c A B ltac:(lra)).
    assert (m <= sin c) by (eapply Rle_trans; [|exact M]; apply Rmin_glb; auto).
    assert (m * (b - a) <= sin c * (b - a)) by (apply Rmult_le_compat_r; lra); lra. }
  intros P Q SP SQ; destruct (Rle_dec p q) as [H|H].
  - rewrite (Rabs_minus_sym p q), Rabs_pos_eq by lra; eapply Rle_trans; [|apply Rle_abs]; apply W; lra.
  - rewrite (Rabs_pos_eq (p - q)), (Rabs_minus_sym (cos p)) by lra; eapply Rle_trans; [|apply Rle_abs]; apply W; lra.
Qed.

(** near the ends only the square of the distance is controlled *)
Lemma cos_expands_square p q : 0 <= p <= PI -> 0 <= q <= PI -> (p - q) ^ 2 <= 5 * Rabs (cos p - cos q).
Proof.
  assert (W : forall p q, 0 <= p -> q <= PI -> p <= q -> (p - q) ^ 2 <= 5 * (cos p - cos q)).
  { intros a b A B L; assert (PB := PI_bounds).
    set (s := (a + b) / 2); set (h := (b - a) / 2).
    replace (cos a - cos b) with (2 * (sin s * sin h)).
    2:{ replace a with (s - h) by (unfold s, h; field); replace b with (s + h) by (unfold s, h; field).
        rewrite cos_minus, cos_plus; ring. }
    assert (H0 : 0 <= h <= PI / 2) by (unfold h; lra).
    assert (SH : sin h <= sin s).
    { destruct (Rle_dec s (PI / 2)); [apply sin_incr_1; unfold s, h in *; lra|].
      rewrite <- (sin_PI_x s); apply sin_incr_1; unfold s, h in *; lra. }
    assert (J : 2 / PI * h <= sin h).
    { destruct (Req_dec h 0) as [->|N]; [rewrite sin_0; lra|].
      assert (C := sin_ge_cubic h ltac:(lra)).
      assert (H2 : h ^ 2 <= 2.4675) by (cbn [pow]; nra).
      assert (K : 2 / PI < 0.63663) by (apply (Rmult_lt_reg_r PI); [lra|]; unfold Rdiv; rewrite Rmult_assoc, Rinv_l by lra; lra).
      destruct (Rle_dec (h ^ 2) 2.18) as [S|S].
      - replace (h ^ 3) with (h ^ 2 * h) in C by ring; assert (h ^ 2 * h <= 2.18 * h) by (apply Rmult_le_compat_r; lra).
        assert (2 / PI * h <= 0.63663 * h) by (apply Rmult_le_compat_r; lra); lra.
      - (* near pi/2 use the cosine of the complement *)
        replace (sin h) with (cos (PI / 2 - h)) by apply cos_shift.
        set (g := PI / 2 - h); assert (V := versine g).
        assert (HH : 1.476 < h) by (destruct (Rlt_dec 1.476 h); auto; exfalso; apply S; cbn [pow]; nra).
        assert (G : 0 <= g <= 0.095) by (unfold g; lra).
        replace (2 / PI * h) with (1 - 2 / PI * g) by (unfold g; field; lra).
        assert (g ^ 2 <= 0.095 * g) by (cbn [pow]; nra).
        assert (0.6 * g <= 2 / PI * g).
        { apply Rmult_le_compat_r; [lra|]; apply (Rmult_le_reg_r PI); [lra|]; unfold Rdiv; rewrite Rmult_assoc, Rinv_l by lra; lra. }
        lra. }
    replace ((a - b) ^ 2) with (4 * (h * h)) by (unfold h; field).
    assert (K : 0.6366 <= 2 / PI) by (apply (Rmult_le_reg_r PI); [lra|]; unfold Rdiv; rewrite Rmult_assoc, Rinv_l by lra; lra).
    assert (J' : 0.6366 * h <= sin h) by (eapply Rle_trans; [|exact J]; apply Rmult_le_compat_r; lra).
    assert (sin h * sin h <= sin s * sin h) by (apply Rmult_le_compat_r; auto; lra).
    assert ((0.6366 * h) * (0.6366 * h) <= sin h * sin h) by (apply Rmult_le_compat; lra).
    assert (0 <= h * h) by (apply Rmult_le_pos; lra); lra. }
  intros P Q; destruct (Rle_dec p q) as [H|H].
  - eapply Rle_trans; [apply W; lra|]; apply Rmult_le_compat_l; [lra|apply Rle_abs].
  - replace ((p - q) ^ 2) with ((q - p) ^ 2) by ring; rewrite Rabs_minus_sym.
    eapply Rle_trans; [apply W; lra|]; apply Rmult_le_compat_l; [lra|apply Rle_abs].
Qed.

Lemma sin_from_cos c m p : 0 <= p <= PI -> Rabs (cos p) <= c -> m ^ 2 <= 1 - c ^ 2 -> m <= sin p.
Proof.
  intros P C M; assert (S := sin2_cos2 p); unfold Rsqr in S; assert (S0 : 0 <= sin p) by (apply sin_ge_0; lra).
  assert (cos p * cos p <= c ^ 2).
  { replace (cos p * cos p) with (Rabs (cos p) ^ 2) by (rewrite pow2_abs; ring); apply pow_incr; split; auto; apply Rabs_pos. }
  destruct (Rle_dec m (sin p)) as [|N]; auto; exfalso; nra.
Qed.

(** arccosine, [c] bounding the argument away from 1 *)
Lemma acos_apx c m e x p : 0 <= p <= PI -> -1 <= x <= 1 -> Rabs (cos p) <= c -> Rabs x <= c -> 0 < m -> m ^ 2 <= 1 - c ^ 2 ->
  apx e x (cos p) -> apx (e / m) (acos x) p.
Proof.
  intros P X C C' M0 M A; assert (Q := acos_bound x); assert (E := cos_acos x X).
  assert (H := cos_expands m (acos x) p Q P).
  rewrite E in H; specialize (H ltac:(apply (sin_from_cos c); rewrite ?E; auto) ltac:(apply (sin_from_cos c); auto)).
  unfold apx in *; apply (Rmult_le_reg_l m); auto; replace (m * (e / m * eps)) with (e * eps) by (field; lra); lra.
Qed.

Section Library.
  Variables (fsin fcos facos fasin : R -> R).
  Hypothesis HF : accurate_trigonometry fsin fcos facos fasin.

  Lemma eps_50 : / 2 ^ 50 = 8 * eps.
  Proof. unfold eps; replace (2 ^ 50) with 1125899906842624 by lra; lra. Qed.

  Lemma fsin_apx e x y : binary64_format x -> Rabs x <= 8 -> apx e x y -> apx (e + 8) (fsin x) (sin y).
  Proof.
    intros F B A; apply (apx_weaken (8 + e)); [lra|]; apply (apx_trans _ _ _ (sin x)).
    - unfold apx; rewrite <- eps_50; apply HF; auto.
    - unfold apx in *; eapply Rle_trans; [apply sin_lipschitz|exact A].
  Qed.
  Lemma fcos_apx e x y : binary64_format x -> Rabs x <= 8 -> apx e x y -> apx (e + 8) (fcos x) (cos y).
  Proof.
    intros F B A; apply (apx_weaken (8 + e)); [lra|]; apply (apx_trans _ _ _ (cos x)).
    - unfold apx; rewrite <- eps_50; apply HF; auto.
    - unfold apx in *; rewrite <- !sin_shift; eapply Rle_trans; [apply sin_lipschitz|].
      replace (PI / 2 - x - (PI / 2 - y)) with (- (x - y)) by ring; rewrite Rabs_Ropp; exact A.
  Qed.
  Lemma facos_apx c m e x p : 0 <= p <= PI -> binary64_format x -> -1 <= x <= 1 -> Rabs (cos p) <= c -> Rabs x <= c ->
    0 < m -> m ^ 2 <= 1 - c ^ 2 -> apx e x (cos p) -> apx (e / m + 8) (facos x) p.
  Proof.
    intros P F X C C' M0 M A; apply (apx_weaken (8 + e / m)); [lra|]; apply (apx_trans _ _ _ (acos x)).
    - unfold apx; rewrite <- eps_50; apply HF; auto.
    - apply (acos_apx c); auto.
  Qed.

  (** ** The auxiliary angle of BB1 and SK1 *)

  Lemma format_4pi : binary64_format (4 * float_pi).
  Proof.
    apply generic_format_FLT; exists (Float radix2 884279719003555 (-46)); cbn [Fnum Fexp]; [|vm_compute; reflexivity|vm_compute; discriminate].
    unfold F2R, float_pi; cbn [Fnum Fexp]; change (-46)%Z with (- Z.of_nat 46)%Z; rewrite bpow_inv.
    replace (2 ^ 48) with (4 * 2 ^ 46) by ring; field; apply pow_nonzero; lra.
  Qed.
  Lemma format_1 : binary64_format 1.
  Proof. apply generic_format_FLT; exists (Float radix2 1 0); cbn; [unfold F2R; cbn; ring|lia|lia]. Qed.

  Definition axis_units (th : R) : R := if Rle_dec th (2 * PI) then 11 else 540000000.

  Lemma wimperis_apx th : / 2 ^ 20 <= th <= 4 * float_pi ->
    exists p, fl_wimperis rnd facos float_pi th = Ok p /\
      forall p0, wimperis_angle th p0 -> apx (axis_units th) p p0.
  Proof.
    intros H; assert (P := PI_bounds); assert (FP := float_pi_bound); assert (S16 : 10 ^ 16 = 10000000000000000) by ring; rewrite S16 in FP.
    assert (TP : 0 < th) by (apply Rlt_le_trans with (/ 2 ^ 20); [apply Rinv_0_lt_compat, pow_lt|]; lra).
    unfold fl_wimperis; rewrite (rnd_format (4 * float_pi)) by exact format_4pi.
    replace (- (4) * float_pi) with (- (4 * float_pi)) by ring.
    assert (R4 : rnd (- (4 * float_pi)) = - (4 * float_pi)) by (apply rnd_format, generic_format_opp, format_4pi).
    rewrite R4, check_true by (apply andb_true_intro; split; apply leb_true; lra); cbn [bind].
    eexists; split; [reflexivity|]; intros p0 [B E].
    set (x := - th / (4 * float_pi)).
    assert (X : -1 <= x <= 0).
    { unfold x; split; apply (Rmult_le_reg_r (4 * float_pi)); try lra; unfold Rdiv; rewrite Rmult_assoc, Rinv_l by lra; lra. }
    assert (Y : -1 <= rnd x <= 0).
    { split; [|rewrite <- rnd_zero; apply rnd_mono; lra].
      replace (-1) with (rnd (-1)) at 1 by (apply rnd_format; apply (generic_format_opp _ _ 1), format_1); apply rnd_mono; lra. }
    assert (A0 : -1 <= - th / (4 * PI) <= 0).
    { split; apply (Rmult_le_reg_r (4 * PI)); try lra; unfold Rdiv; rewrite Rmult_assoc, Rinv_l by lra; lra. }
    assert (A : apx 2.1 (rnd x) (cos p0)).
    { rewrite E; apply (apx_rnd 1 1); [apply Rabs_range; lra| |lra|lra].
      apply (apx_div 1 12 0 8); try lra; [apply Rabs_range; lra|apply apx_refl|].
      apply (apx_weaken (4 * 2)); [lra|]; apply apx_scale; [lra|apply pi_apx]. }
    unfold axis_units; destruct (Rle_dec th (2 * PI)) as [L|L].
    - assert (C2 : -1 / 2 <= - th / (4 * PI)).
      { apply (Rmult_le_reg_r (4 * PI)); try lra; replace (- th / (4 * PI) * (4 * PI)) with (- th) by (field; lra); lra. }
      apply (apx_weaken (2.1 / 0.8 + 8)); [lra|].
      apply (facos_apx 0.6); auto; [apply format_rnd|lra|rewrite E; apply Rabs_range; lra| |lra|lra].
      assert (Q := apx_bound (1 / 2) 2.1 (rnd x) (cos p0) ltac:(rewrite E; apply Rabs_range; lra) A ltac:(lra)); lra.
    - apply (apx_weaken (8 + 539000000)); [lra|]; apply (apx_trans _ _ _ (acos (rnd x))).
      + unfold apx; rewrite <- eps_50; apply HF; [apply format_rnd|lra].
      + assert (Q := cos_expands_square (acos (rnd x)) p0 (acos_bound _) B); rewrite cos_acos in Q by lra.
        unfold apx in *; apply Rsqr_incr_0_var; [|unfold eps; lra].
        rewrite <- Rsqr_abs; unfold Rsqr; replace ((acos (rnd x) - p0) * (acos (rnd x) - p0)) with ((acos (rnd x) - p0) ^ 2) by ring.
        eapply Rle_trans; [exact Q|]; apply Rle_trans with (5 * (2.1 * eps)); [lra|]; unfold eps; lra.
  Qed.

  (** ** The auxiliary angle of CORPSE *)

  Lemma half_apx e x th : Rabs th <= 12.6 -> 0 <= e <= 14 -> apx e x th -> apx (e / 2 + 6.4) (rnd (x / 2)) (th / 2).
  Proof.
    intros B E A; apply (apx_rnd 6.3 (e / 2)); [|replace (x / 2) with (/ 2 * x) by field; replace (th / 2) with (/ 2 * th) by field|lra|lra].
    - unfold Rdiv; rewrite Rabs_mult, (Rabs_pos_eq (/ 2)) by lra; lra.
    - apply (apx_weaken (/ 2 * e)); [lra|]; apply apx_scale; auto; lra.
  Qed.

  Lemma corpse_apx e x th k : Rabs th <= 12.6 -> 0 <= e <= 14 -> apx e x th -> corpse_angle th k ->
    apx 22 (fl_corpse_k rnd fsin fasin x) k.
  Proof.
    intros B E A C; assert (P := PI_bounds); assert (KB := corpse_bound th k C); destruct C as [_ C].
    unfold fl_corpse_k; assert (H1 := half_apx e x th B E A).
    assert (B1 : Rabs (rnd (x / 2)) <= 8).
    { assert (B2 : Rabs (th / 2) <= 6.3) by (unfold Rdiv; rewrite Rabs_mult, (Rabs_pos_eq (/ 2)) by lra; lra).
      assert (Q := apx_bound 6.3 _ _ _ B2 H1 ltac:(lra)); lra. }
    assert (H2 := fsin_apx _ _ _ (format_rnd _) B1 H1).
    assert (SB := SIN_bound (th / 2)).
    assert (H3 : apx 11.3 (rnd (fsin (rnd (x / 2)) / 2)) (sin k)).
    { rewrite C; apply (apx_rnd 0.5 ((e / 2 + 6.4 + 8) / 2)); [apply Rabs_range; lra| |lra|lra].
      replace (fsin (rnd (x / 2)) / 2) with (/ 2 * fsin (rnd (x / 2))) by field; replace (sin (th / 2) / 2) with (/ 2 * sin (th / 2)) by field.
      apply (apx_weaken (/ 2 * (e / 2 + 6.4 + 8))); [lra|]; apply apx_scale; auto; lra. }
    set (y := rnd (fsin (rnd (x / 2)) / 2)) in *.
    assert (S2 : Rabs (sin k) <= 0.5) by (rewrite C; apply Rabs_range; lra).
    assert (Y := apx_bound 0.5 _ _ _ S2 H3 ltac:(lra)).
    assert (Y' : -1 <= y <= 1) by (apply Rabs_le_between in Y; lra).
    apply (apx_weaken (8 + 14)); [lra|]; apply (apx_trans _ _ _ (asin y)).
    - unfold apx; rewrite <- eps_50; apply HF; [apply format_rnd|auto].
    - assert (Q : apx (11.3 / 0.82) (acos y) (PI / 2 - k)).
      { apply (acos_apx 0.51); rewrite ?cos_shift; auto; lra. }
      apply (apx_weaken (11.3 / 0.82)); [lra|].
      rewrite acos_asin in Q by auto; apply apx_between in Q; apply apx_between; lra.
  Qed.

  (** the three rotations of CORPSE *)
  Lemma corpse_rotations_apx e x th k : 0 < th <= 12.6 -> 0 <= e <= 14 -> apx e x th -> corpse_angle th k ->
    apx 75 (rnd (rnd (rnd (2 * float_pi) + rnd (x / 2)) - fl_corpse_k rnd fsin fasin x)) (2 * PI + th / 2 - k) /\
    apx 75 (rnd (rnd (2 * float_pi) - rnd (2 * fl_corpse_k rnd fsin fasin x))) (2 * PI - 2 * k) /\
    apx 75 (rnd (rnd (x / 2) - fl_corpse_k rnd fsin fasin x)) (th / 2 - k).
  Proof.
    intros B E A C; assert (P := PI_bounds); assert (KB := corpse_bound th k C).
    assert (B' : Rabs th <= 12.6) by (apply Rabs_range; lra).
    assert (H1 := half_apx e x th B' E A); assert (K := corpse_apx e x th k B' E A C); assert (T := two_pi_apx).
    repeat split.
    - apply (apx_rnd 13.2 (37.5 + 22)); [apply Rabs_range; lra| |lra|lra]; apply apx_sub; [|exact K].
      apply (apx_rnd 12.7 (11 + (e / 2 + 6.4))); [apply Rabs_range; lra|apply apx_add; auto|lra|lra].
    - apply (apx_rnd 7.4 (11 + 45.2)); [apply Rabs_range; lra| |lra|lra]; apply apx_sub; [exact T|].
      apply (apx_rnd 1.1 44); [apply Rabs_range; lra| |lra|lra].
      apply (apx_weaken (2 * 22)); [lra|]; apply apx_scale; [lra|exact K].
    - apply (apx_rnd 6.9 (e / 2 + 6.4 + 22)); [apply Rabs_range; lra|apply apx_sub; auto|lra|lra].
  Qed.
End Library.
