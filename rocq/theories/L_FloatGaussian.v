(** * The modulated Gaussian control in floating point *)

From Coq Require Import Lia.
From Flocq Require Import Core.
From Verif Require Import L_QuatNorm L_Gaussian L_FloatControls L_FloatExport L_FloatProperties.
From Verif Require Export Spec_FloatGaussian.
Import ListNotations.
Set Bullet Behavior "Strict Subproofs".
Open Scope string_scope.
Open Scope list_scope.
Open Scope R_scope.

(** ** Relative errors *)

Lemma sized_tiny x : / 2 ^ 900 <= x -> 2 * tiny <= x.
Proof.
  intros H; rewrite tiny_scale, inv_22; assert (A := inv_pow_pos 100); assert (B := inv_pow_pos 900).
  assert (/ 2 ^ 100 <= 1) by (rewrite <- Rinv_1; apply (inv_pow_le 0 100); lia); nra.
Qed.
Lemma acc_round x : / 2 ^ 900 <= x -> acc 1 (rnd x) x.
Proof. intros H; apply acc_rnd; assert (0 < tiny) by apply inv_pow_pos; apply sized_tiny in H; lra. Qed.
Lemma acc_rounded k m x y : 0 <= k <= 1000000 -> k + 1 + k * eps <= m -> / 2 ^ 900 <= y -> acc k x y -> acc m (rnd x) y.
Proof. intros K M Y A; apply (acc_step k); auto; [assert (P := inv_pow_pos 900); lra|apply sized_tiny; auto]. Qed.

Lemma acc_div j k m x y x' y' : 0 <= y -> 0 < y' -> 0 <= j -> 0 <= k <= 1000000 -> (j + k) * (1 + 2 * k * eps) <= m ->
  acc j x y -> acc k x' y' -> acc m (x / x') (y / y').
Proof.
  intros Y Y' J K M A B; assert (E := eps_pos).
  assert (KE : 0 <= k * eps <= / 1000000000) by (split; [apply Rmult_le_pos; lra|unfold eps; lra]).
  assert (X' : y' * (1 - k * eps) <= x') by (apply acc_abs in B; lra).
  assert (P : 0 < x') by (assert (0 < y' * (1 - k * eps)) by (apply Rmult_lt_0_compat; lra); lra).
  unfold acc in *.
  replace (x / x' - y / y') with (((x - y) * y' - y * (x' - y')) * / (x' * y')) by (field; lra).
  rewrite Rabs_mult, (Rabs_pos_eq (/ _)) by (left; apply Rinv_0_lt_compat, Rmult_lt_0_compat; auto).
  apply (Rmult_le_reg_r (x' * y')); [apply Rmult_lt_0_compat; auto|].
  rewrite Rmult_assoc, Rinv_l, Rmult_1_r by (apply Rgt_not_eq, Rmult_lt_0_compat; auto).
  replace (m * eps * (y / y') * (x' * y')) with (m * eps * y * x') by (field; lra).
  assert (N : Rabs ((x - y) * y' - y * (x' - y')) <= (j + k) * eps * y * y').
  { eapply Rle_trans; [apply Rabs_triang|]; rewrite Rabs_Ropp, !Rabs_mult, (Rabs_pos_eq y), (Rabs_pos_eq y') by lra.
    apply (Rmult_le_compat_r y') in A; [|lra]; apply (Rmult_le_compat_l y) in B; [|lra]; lra. }
  eapply Rle_trans; [exact N|].
  assert (Q : (j + k) * y' <= m * x').
  { apply Rle_trans with ((j + k) * (1 + 2 * k * eps) * (y' * (1 - k * eps))).
    - replace ((j + k) * (1 + 2 * k * eps) * (y' * (1 - k * eps))) with ((j + k) * y' * ((1 + 2 * (k * eps)) * (1 - k * eps))) by ring.
      rewrite <- (Rmult_1_r ((j + k) * y')) at 1; apply Rmult_le_compat_l; [apply Rmult_le_pos; lra|]; nra.
    - apply Rmult_le_compat; [apply Rmult_le_pos; nra|apply Rmult_le_pos; lra|auto|auto]. }
  apply (Rmult_le_compat_l (eps * y)) in Q; [|apply Rmult_le_pos; lra]; lra.
Qed.

Lemma acc_list k xs ys : Forall2 (acc k) xs ys -> acc k (total xs) (total ys).
Proof. induction 1; cbn [total]; [apply acc_intro; lra|apply acc_add; auto]. Qed.

Lemma Forall2_left {A B} (P : A -> B -> Prop) xs ys x : Forall2 P xs ys -> In x xs -> exists y, In y ys /\ P x y.
Proof. induction 1; intros []; [subst; eexists; split; [left|]; eauto|]; destruct IHForall2 as [z [? ?]]; auto; exists z; split; [right|]; auto. Qed.
Lemma Forall2_right {A B} (P : A -> B -> Prop) xs ys y : Forall2 P xs ys -> In y ys -> exists x, In x xs /\ P x y.
Proof. induction 1; intros []; [subst; eexists; split; [left|]; eauto|]; destruct IHForall2 as [z [? ?]]; auto; exists z; split; [right|]; auto. Qed.
Lemma Forall2_maps {A B C} (P : B -> C -> Prop) (f : A -> B) (g : A -> C) l : (forall x, In x l -> P (f x) (g x)) ->
  Forall2 P (map f l) (map g l).
Proof. induction l; intros H; cbn [map]; constructor; auto with datatypes. Qed.

(** maxima of neighbouring lists are neighbours *)
Lemma max_acc k xs ys p q : 0 <= k * eps <= 1 -> Forall2 (acc k) xs ys -> is_maximum p xs -> is_maximum q ys -> acc k p q.
Proof.
  intros K F [PI PM] [QI QM].
  destruct (Forall2_left _ _ _ _ F PI) as [y [Y A]]; destruct (Forall2_right _ _ _ _ F QI) as [x [X B]].
  apply acc_abs in A; apply acc_abs in B; assert (H := PM x X); assert (G := QM y Y); apply acc_intro; nra.
Qed.
Lemma max_near d xs ys p q : Forall2 (fun x y => Rabs (x - y) <= d) xs ys -> is_maximum p xs -> is_maximum q ys -> Rabs (p - q) <= d.
Proof.
  intros F [PI PM] [QI QM].
  destruct (Forall2_left _ _ _ _ F PI) as [y [Y A]]; destruct (Forall2_right _ _ _ _ F QI) as [x [X B]].
  apply Rabs_le_inv in A; apply Rabs_le_inv in B; assert (H := PM x X); assert (G := QM y Y); apply Rabs_le; lra.
Qed.

(** ** The number of segments *)

Lemma small_nat n : INR n <= 2 ^ 50 -> binary64_format (INR n).
Proof.
  intros H; rewrite INR_IZR_INZ in *.
  apply generic_format_FLT; exists (Float radix2 (Z.of_nat n) 0); [unfold F2R; cbn [Fnum Fexp bpow]; ring| |cbn; lia].
  cbn [Fnum]; rewrite Z.abs_eq by lia; apply lt_IZR; eapply Rle_lt_trans; [exact H|].
  change (2 ^ 50)%Z with 1125899906842624%Z; change (radix2 ^ 53)%Z with 9007199254740992%Z; lra.
Qed.

Lemma quotient_above m T : binary64_format m -> binary64_format T -> 0 < m -> m < T -> 1 < rnd (T / m).
Proof.
  intros FM FT M L.
  assert (V : Valid_exp fexp) by (apply FLT_exp_valid; reflexivity).
  assert (S := succ_le_lt radix2 fexp m T FM FT L); rewrite succ_eq_pos in S by lra.
  assert (U := @ulp_FLT_gt radix2 (-1074) 53 eq_refl m); change (- (53))%Z with (-53)%Z in U.
  rewrite bpow_53, Rabs_pos_eq in U by lra.
  assert (Q : 1 + eps < T / m).
  { apply (Rmult_lt_reg_r m); auto; unfold Rdiv; rewrite Rmult_assoc, Rinv_l by lra; lra. }
  assert (F1 : binary64_format 1) by (apply (small_nat 1); cbn [INR]; lra).
  assert (FS : binary64_format (1 + 2 * eps)).
  { apply generic_format_FLT; exists (Float radix2 4503599627370497 (-52)); [|vm_compute; reflexivity|vm_compute; discriminate].
    unfold F2R; cbn [Fnum Fexp]; change (-52)%Z with (- Z.of_nat 52)%Z; rewrite bpow_inv; unfold eps; lra. }
  assert (PR : pred radix2 fexp (1 + 2 * eps) <= 1).
  { assert (PS := pred_succ radix2 fexp 1 F1); rewrite succ_eq_pos in PS by lra.
    assert (X := bpow_53); assert (u : ulp radix2 fexp 1 = 2 * eps).
    { change 1 with (bpow radix2 0) at 1; rewrite ulp_bpow; change (fexp (0 + 1)) with (-52)%Z; change (-52)%Z with (1 + -53)%Z; rewrite bpow_plus, bpow_53; reflexivity. }
    rewrite u in PS; rewrite PS; lra. }
  assert (R := round_N_ge_midp radix2 fexp (fun z => negb (Z.even z)) (1 + 2 * eps) (T / m) FS ltac:(lra)).
  assert (E := eps_pos); unfold binary64; lra.
Qed.

Lemma float_count omega m T : gaussian_floats omega m T -> m < T ->
  exists n, fl_gaussian_count rnd T m = n /\ nearly_ceiling (T / m) n /\ (2 <= n)%nat /\ 2 <= INR n <= 2 ^ 40.
Proof.
  intros [_ [FM [FT [_ [M1 [T1 TM]]]]]] L; assert (M0 : 0 < m) by (assert (H := inv_pow_pos 200); lra).
  assert (Q := quotient_above m T FM FT M0 L); assert (E := eps_pos).
  assert (TQ : T / m <= 2 ^ 39) by (apply (Rmult_le_reg_r m); auto; unfold Rdiv; rewrite Rmult_assoc, Rinv_l by lra; lra).
  assert (T39 : rnd (T / m) <= 2 ^ 39).
  { rewrite <- (rnd_format (2 ^ 39)); [apply rnd_mono; auto|].
    replace (2 ^ 39) with (INR (2 ^ 39)) by (rewrite pow_INR; reflexivity); apply small_nat; rewrite pow_INR; cbn [INR]; apply Rle_pow; [lra|lia]. }
  assert (one : 1 <= T / m) by (apply (Rmult_le_reg_r m); auto; unfold Rdiv; rewrite Rmult_assoc, Rinv_l by lra; lra).
  assert (A : acc 1 (rnd (T / m)) (T / m)).
  { apply acc_round; assert (/ 2 ^ 900 <= 1) by (rewrite <- Rinv_1; apply (inv_pow_le 0 900); lia); lra. }
  apply acc_abs in A.
  destruct (np_ceil_spec (rnd (T / m)) ltac:(lra)) as [[C1 C2] N2]; specialize (N2 Q).
  exists (fl_gaussian_count rnd T m); split; [auto|]; unfold fl_gaussian_count in *; set (n := Z.to_nat (np_ceil (rnd (T / m)))) in *; clearbody n.
  assert (I2 : 2 <= INR n) by (apply (le_INR 2); auto).
  assert (U : INR n <= 2 ^ 40) by (cbn [pow] in *; lra).
  split; [|split; [auto|split; auto]]; split.
  - apply Rnot_le_lt; intros H; assert (G : rnd (T / m) <= INR n - 1); [|lra].
    rewrite <- (rnd_format (INR n - 1)); [apply rnd_mono; auto|].
    replace (INR n - 1) with (INR (n - 1)) by (rewrite minus_INR by lia; reflexivity); apply small_nat.
    rewrite minus_INR by lia; cbn [INR]; assert (2 ^ 40 <= 2 ^ 50) by (apply Rle_pow; [lra|lia]); lra.
  - replace (/ 2 ^ 52) with (2 * eps) by (unfold eps; lra).
    assert (EE : eps <= / 1000000000) by apply eps_small.
    apply (Rmult_le_reg_r (1 - eps)); [lra|].
    apply Rle_trans with (INR n); [lra|].
    rewrite Rmult_assoc; rewrite <- (Rmult_1_r (INR n)) at 1; apply Rmult_le_compat_l; [lra|nra].
Qed.

(** ** The samples of the envelope *)

Lemma inv_pow_200 x k : (k <= 600)%nat -> / 2 ^ 200 <= x -> / 2 ^ 900 <= x * / 2 ^ k.
Proof.
  intros K H; apply Rle_trans with (/ 2 ^ 200 * / 2 ^ k).
  - rewrite <- inv_pow_add; apply inv_pow_le; lia.
  - apply Rmult_le_compat_r; [left; apply inv_pow_pos|auto].
Qed.

Section Envelope.
  Variables (T : R) (n : nat).
  Hypothesis HT : / 2 ^ 200 <= T.
  Hypothesis HN : 2 <= INR n <= 2 ^ 40.

  Lemma T_pos : 0 < T. Proof using HT. assert (H := inv_pow_pos 200); lra. Qed.
  Lemma T_floor : L_FloatProperties.floor T. Proof using HT. right; eapply Rle_trans; [|exact HT]; apply inv_pow_le; lia. Qed.
  Lemma step_size : T * / 2 ^ 40 <= T / INR n.
  Proof using HT HN. assert (P := T_pos); unfold Rdiv; apply Rmult_le_compat_l; [lra|]; apply inv_pow_bound; lra. Qed.
  Lemma step_acc : acc 1 (rnd (T / INR n)) (T / INR n).
  Proof using HT HN. apply acc_round; eapply Rle_trans; [apply (inv_pow_200 T 40); auto; lia|apply step_size]. Qed.
  Lemma step_pos : 0 < rnd (T / INR n).
  Proof using HT HN.
    assert (H := step_size); assert (P := T_pos); assert (Q := inv_pow_pos 40); assert (0 < T * / 2 ^ 40) by (apply Rmult_lt_0_compat; auto).
    assert (A := acc_lower 1 (rnd (T / INR n)) (T / INR n) ltac:(lra) ltac:(unfold eps; lra) step_acc); lra.
  Qed.

  Lemma midpoint_acc i : acc 3.3 (fl_gaussian_midpoint rnd (rnd (T / INR n)) i) (midpoint T n i).
  Proof using HT HN.
    assert (A1 := step_acc); assert (S := step_size); assert (P := T_pos); assert (I := pos_INR i); assert (Q := inv_pow_pos 40).
    assert (B : / 2 ^ 900 <= T * / 2 ^ 42) by (apply inv_pow_200; auto; lia).
    assert (S42 : T * / 2 ^ 42 = T * / 2 ^ 40 * / 4) by (change 42%nat with (40 + 2)%nat; rewrite inv_pow_add, Rmult_assoc; f_equal; f_equal; f_equal; lra).
    unfold fl_gaussian_midpoint, midpoint; set (s := T / INR n) in *.
    assert (P40 : 0 < T * / 2 ^ 40) by (apply Rmult_lt_0_compat; auto).
    assert (A2 : acc 2.1 (rnd (rnd s / 2)) (s / 2)).
    { apply (acc_rounded 1); try num; unfold Rdiv; apply acc_scale_r; auto; lra. }
    assert (A3 : acc 2.1 (rnd (INR i * rnd s)) (INR i * s)).
    { destruct i as [|i].
      - cbn [INR]; rewrite !Rmult_0_l, rnd_zero; apply acc_intro; lra.
      - assert (1 <= INR (Datatypes.S i)) by (rewrite S_INR; assert (Q' := pos_INR i); lra).
        apply (acc_rounded 1); try num; [nra|apply acc_scale; auto]. }
    replace ((INR i + 1 / 2) * s) with (INR i * s + s / 2) by field.
    apply (acc_rounded 2.1); try num; [|apply acc_add; auto].
    assert (0 <= INR i * s) by (apply Rmult_le_pos; lra); lra.
  Qed.

  Lemma midpoint_range i : (i < n)%nat -> 0 <= midpoint T n i <= T.
  Proof using HT HN.
    intros L; assert (P := T_pos); apply lt_INR in L as L'; apply Nat.le_succ_l, le_INR in L; rewrite S_INR in L; assert (I := pos_INR i).
    unfold midpoint; split; [apply Rmult_le_pos; [lra|unfold Rdiv; apply Rmult_le_pos; [lra|left; apply Rinv_0_lt_compat; lra]]|].
    replace ((INR i + 1 / 2) * (T / INR n)) with (T * ((INR i + 1 / 2) / INR n)) by (field; lra).
    rewrite <- (Rmult_1_r T) at 2; apply Rmult_le_compat_l; [lra|].
    apply (Rmult_le_reg_r (INR n)); [lra|]; unfold Rdiv; rewrite Rmult_assoc, Rinv_l by lra; lra.
  Qed.

  Definition place (i : nat) : R := midpoint T n i / T - 1 / 2.
  Lemma place_range i : (i < n)%nat -> - (1 / 2) <= place i <= 1 / 2.
  Proof using HT HN.
    intros L; assert (H := midpoint_range i L); assert (P := T_pos); unfold place.
    assert (0 <= midpoint T n i / T <= 1).
    { split; [apply Rmult_le_pos; [lra|left; apply Rinv_0_lt_compat; auto]|].
      apply (Rmult_le_reg_r T); auto; unfold Rdiv; rewrite Rmult_assoc, Rinv_l by lra; lra. }
    lra.
  Qed.

  (** distance from the centre, in units of the duration *)
  Lemma centre_apx i half : (i < n)%nat -> half = rnd (T / 2) ->
    apx 4.4 (rnd (fl_gaussian_midpoint rnd (rnd (T / INR n)) i - half) / T) (place i).
  Proof using HT HN.
    intros L ->; assert (A := midpoint_acc i); assert (P := T_pos); assert (M := midpoint_range i L); assert (E := eps_pos); assert (ES := eps_small).
    set (t := fl_gaussian_midpoint rnd (rnd (T / INR n)) i) in *; clearbody t; unfold place; set (t0 := midpoint T n i) in *; clearbody t0.
    assert (A' : Rabs (t - t0) <= 3.3 * eps * T).
    { eapply Rle_trans; [exact A|]; apply Rmult_le_compat_l; [apply Rmult_le_pos; lra|lra]. }
    assert (H := errm T (1 / 2) (T / 2) T_floor ltac:(rewrite Rabs_pos_eq; lra)); set (half := rnd (T / 2)) in *; clearbody half.
    apply Rabs_le_inv in A'; apply Rabs_le_inv in H.
    assert (ET : eps * T <= / 1000000000 * T) by (apply Rmult_le_compat_r; lra).
    assert (X : Rabs (t - half) <= (1 / 2 + / 1000) * T) by (apply Rabs_le; lra).
    assert (G := errm T (1 / 2 + / 1000) (t - half) T_floor X); apply Rabs_le_inv in G.
    unfold apx; replace (rnd (t - half) / T - (t0 / T - 1 / 2)) with ((rnd (t - half) - (t0 - T / 2)) * / T) by (field; lra).
    rewrite Rabs_mult, (Rabs_pos_eq (/ T)) by (left; apply Rinv_0_lt_compat; auto).
    apply (Rmult_le_reg_r T); auto; rewrite Rmult_assoc, Rinv_l, Rmult_1_r by lra; apply Rabs_le; lra.
  Qed.

  Lemma tenth_acc : acc 1 (rnd (1 / 10)) (1 / 10).
  Proof. apply acc_round; apply Rle_trans with (/ 2 ^ 4); [apply inv_pow_le; lia|lra]. Qed.
  Lemma width_acc : acc 2.1 (fl_gaussian_width rnd T) (1 / 10 * T).
  Proof using HT HN.
    unfold fl_gaussian_width; assert (P := T_pos); apply (acc_rounded 1); try num.
    apply acc_scale_r; [lra|apply tenth_acc].
  Qed.

  Lemma score_apx i half : (i < n)%nat -> half = rnd (T / 2) ->
    apx 61 (rnd (rnd (fl_gaussian_midpoint rnd (rnd (T / INR n)) i - half) / fl_gaussian_width rnd T)) (10 * place i).
  Proof using HT HN.
    intros L Hh; assert (C := centre_apx i half L Hh); assert (W := width_acc); assert (P := T_pos); assert (U := place_range i L).
    assert (E := eps_pos); assert (ES := eps_small).
    set (d := rnd (_ - half)) in *; clearbody d; set (w := fl_gaussian_width rnd T) in *; clearbody w; set (u := place i) in *; clearbody u.
    apply acc_abs in W.
    assert (WT : 9 / 100 * T <= w) by nra.
    apply (apx_rnd 5 55); [apply Rabs_le; lra| |lra|lra].
    replace (d / w) with (d / T / (w / T)) by (field; lra); replace (10 * u) with (u / (1 / 10)) by field.
    assert (wT : w / T * T = w) by (field; lra).
    apply (apx_div 5 (999 / 10000) 4.4 0.211); try lra.

    - apply (Rmult_le_reg_r T); auto; rewrite wT.
      assert (2.1 * eps * (1 / 10 * T) <= / 10000 * T); [|lra].
      assert (eps * T <= / 1000000000 * T) by (apply Rmult_le_compat_r; lra); lra.
    - apply Rabs_le; lra.
    - apply C.
    - apply apx_between; split; apply (Rmult_le_reg_r T); auto; rewrite wT; lra.
  Qed.

  Lemma exponent_apx i : (i < n)%nat ->
    let y := rnd (- (5 / 10) * rnd (rnd (rnd (fl_gaussian_midpoint rnd (rnd (T / INR n)) i - rnd (5 / 10 * T)) / fl_gaussian_width rnd T) ^ 2)) in
    apx 337 y (- 50 * place i ^ 2) /\ -16 <= y <= 0.
  Proof using HT HN.
    intros L; cbv zeta; assert (Z := score_apx i (rnd (5 / 10 * T)) L ltac:(f_equal; field)); assert (U := place_range i L).
    set (z := rnd (_ / _)) in *; clearbody z; set (u := place i) in *; clearbody u.
    assert (U2 : 0 <= u ^ 2 <= 1 / 4) by nra.
    assert (Zb : Rabs z <= 5 + / 1000000) by (apply (apx_bound 5 61 z (10 * u)); auto; [apply Rabs_le; lra|lra]).
    assert (S : apx 611 (z ^ 2) (100 * u ^ 2)).
    { replace (z ^ 2) with (z * z) by ring; replace (100 * u ^ 2) with (10 * u * (10 * u)) by ring.
      apply (apx_mul 5 (5 + / 1000000) 61 61); auto; try lra; apply Rabs_le; lra. }
    assert (S' : apx 637 (rnd (z ^ 2)) (100 * u ^ 2)) by (apply (apx_rnd 25 611); auto; [apply Rabs_le; lra|lra|lra]).
    assert (N : 0 <= rnd (z ^ 2)) by (apply rnd_nonneg, pow2_ge_0).
    set (q := rnd (z ^ 2)) in *; clearbody q.
    assert (Y : apx 319 (- (5 / 10) * q) (- 50 * u ^ 2)).
    { replace (- (5 / 10) * q) with (- (5 / 10 * q)) by ring; replace (- 50 * u ^ 2) with (- (5 / 10 * (100 * u ^ 2))) by field.
      apply apx_opp, (apx_weaken (5 / 10 * 637)); [lra|]; apply apx_scale; auto; lra. }
    assert (Y' : apx 337 (rnd (- (5 / 10) * q)) (- 50 * u ^ 2)) by (apply (apx_rnd 12.5 319); auto; [apply Rabs_le; lra|lra|lra]).
    split; auto.
    assert (B := apx_bound 12.5 337 (rnd (- (5 / 10) * q)) (- 50 * u ^ 2) ltac:(apply Rabs_le; lra) Y' ltac:(lra)); apply Rabs_le_inv in B; split; [lra|].
    rewrite <- rnd_zero; apply rnd_mono; lra.
  Qed.

  Lemma exp_near k x y : 0 <= k <= 1000000 -> apx k x y -> acc (k + 1) (exp x) (exp y).
  Proof.
    intros K A; apply apx_between in A; assert (E := eps_pos); assert (P := exp_pos y).
    set (d := k * eps) in *; assert (D : 0 <= d <= / 100000) by (unfold d; split; [apply Rmult_le_pos; lra|unfold eps; lra]).
    assert (D2 : d * d <= eps).
    { unfold d; replace (k * eps * (k * eps)) with (k * k * eps * eps) by ring; rewrite <- (Rmult_1_l eps) at 3; apply Rmult_le_compat_r; [lra|].
      assert (k * k <= 1000000 * 1000000) by (apply Rmult_le_compat; lra).
      apply Rle_trans with (1000000 * 1000000 * eps); [apply Rmult_le_compat_r; lra|unfold eps; lra]. }
    assert (X : exp x = exp y * exp (x - y)) by (rewrite <- exp_plus; f_equal; ring).
    assert (L := exp_ineq1_le (x - y)); assert (L' := exp_ineq1_le (- (x - y))).
    assert (I : exp (x - y) * exp (- (x - y)) = 1) by (rewrite <- exp_plus, Rplus_opp_r; apply exp_0).
    assert (P' := exp_pos (x - y)); set (g := exp (x - y)) in *; set (g' := exp (- (x - y))) in *; clearbody g g'.
    assert (G : g * (1 - d) <= 1) by (apply Rle_trans with (g * g'); [apply Rmult_le_compat_l; lra|lra]).
    assert (G2 : g <= 1 + d + 2 * (d * d)) by (apply (Rmult_le_reg_r (1 - d)); [lra|]; apply Rle_trans with 1; [auto|]; nra).
    rewrite X; apply acc_intro; replace ((k + 1) * eps * exp y) with (exp y * (d + eps)) by (unfold d; ring).
    assert (G3 : g <= 1 + d + eps -> g <= 1 + (d + eps)) by lra.
    assert (G4 : g <= 1 + d + eps).
    { assert (d * d <= eps / 2); [|lra]. unfold d; replace (k * eps * (k * eps)) with (k * k * eps * eps) by ring; unfold Rdiv; rewrite (Rmult_comm eps (/ 2)); apply Rmult_le_compat_r; [lra|].
      assert (k * k <= 1000000 * 1000000) by (apply Rmult_le_compat; lra).
      apply Rle_trans with (1000000 * 1000000 * eps); [apply Rmult_le_compat_r; lra|unfold eps; lra]. }
    split; nra.
  Qed.

  Lemma base_acc fe i : accurate_exp fe -> (i < n)%nat ->
    acc 347 (fl_gaussian_base rnd fe T (fl_gaussian_midpoint rnd (rnd (T / INR n)) i)) (envelope T (midpoint T n i)).
  Proof using HT HN.
    intros AE L; destruct (exponent_apx i L) as [Y YR]; unfold fl_gaussian_base.
    set (x := - (5 / 10) * _) in *.
    assert (F : binary64_format (rnd x)) by apply format_rnd; assert (B := AE _ F YR); clearbody x.
    apply exp_near in Y; [|lra]; unfold envelope; fold (place i).
    apply (acc_trans (337 + 1) 8 347 _ (exp (rnd x))); [left; apply exp_pos|lra|lra|num|exact Y|].
    unfold acc; eapply Rle_trans; [exact B|]; unfold Rdiv; rewrite inv_50; lra.
  Qed.

  Lemma exp_nat k : exp (INR k) = exp 1 ^ k.
  Proof. induction k; [apply exp_0|]; rewrite S_INR, exp_plus, IHk; cbn [pow]; ring. Qed.

  Lemma envelope_size i : (i < n)%nat -> / 2 ^ 20 <= envelope T (midpoint T n i) <= 1.
  Proof using HT HN.
    intros L; assert (U := place_range i L); unfold envelope; fold (place i); set (u := place i) in *; clearbody u.
    assert (U2 : 0 <= u ^ 2 <= 1 / 4) by nra.
    split.
    - apply Rle_trans with (exp (- (25 / 2))); [|destruct (Req_dec (- (25 / 2)) (- 50 * u ^ 2)) as [->|N]; [lra|left; apply exp_increasing; lra]].
      rewrite exp_Ropp; apply Rinv_le_contravar; [apply exp_pos|].
      assert (X3 := exp_le_3); assert (P1 := exp_pos 1).
      assert (X : exp (25 / 2) = exp (1 / 2) * exp 1 ^ 12) by (rewrite <- exp_nat, <- exp_plus; f_equal; cbn [INR]; field).
      assert (H2 : exp (1 / 2) * exp (1 / 2) = exp 1) by (rewrite <- exp_plus; f_equal; field).
      assert (PH := exp_pos (1 / 2)); assert (exp (1 / 2) <= 1.74) by nra.
      assert (exp 1 ^ 12 <= 3 ^ 12) by (apply pow_incr; lra).
      rewrite X; apply Rle_trans with (1.74 * 3 ^ 12); [apply Rmult_le_compat; try lra; apply pow_le; lra|lra].
    - rewrite <- exp_0; destruct (Req_dec (- 50 * u ^ 2) 0) as [->|N]; [lra|left; apply exp_increasing; nra].
  Qed.
End Envelope.

(** ** The test of the Rabi rate *)

Lemma big_prod a b x y : / 2 ^ a <= x -> / 2 ^ b <= y -> / 2 ^ (a + b) <= x * y.
Proof. intros X Y; rewrite inv_pow_add; assert (A := inv_pow_pos a); assert (B := inv_pow_pos b); apply Rmult_le_compat; lra. Qed.
Lemma big_900 a x : (a <= 900)%nat -> / 2 ^ a <= x -> / 2 ^ 900 <= x.
Proof. intros A X; assert (H := inv_pow_le a 900 A); lra. Qed.

Lemma format_2pi : binary64_format (2 * float_pi).
Proof.
  apply generic_format_FLT; exists (Float radix2 884279719003555 (-47)); [|vm_compute; reflexivity|vm_compute; discriminate].
  unfold F2R, float_pi; cbn [Fnum Fexp]; change (-47)%Z with (- Z.of_nat 47)%Z; rewrite bpow_inv; lra.
Qed.
Lemma rnd_2pi : rnd (2 * float_pi) = 2 * float_pi.
Proof. apply rnd_format, format_2pi. Qed.
Lemma acc_2pi : acc 1 (2 * float_pi) (2 * PI).
Proof. apply acc_scale; [lra|apply float_pi_acc]. Qed.

Lemma bound_acc T : / 2 ^ 200 <= T <= 2 ^ 200 -> acc 5.5 (fl_gaussian_bound rnd float_pi T) (10 * sqrt (2 * PI) / T).
Proof.
  intros [HT HU]; assert (P := T_pos T HT); assert (PP := PI_bounds); unfold fl_gaussian_bound; rewrite rnd_2pi.
  assert (Q : 2 <= sqrt (2 * PI)) by (replace 2 with (sqrt (2 * 2)) at 1 by (rewrite sqrt_square; lra); apply sqrt_le_1_alt; lra).
  assert (FP := float_pi_bound); assert (ten : 10 ^ 16 = 10000000000000000) by ring; rewrite ten in FP.
  assert (S : acc 1 (sqrt (2 * float_pi)) (sqrt (2 * PI))).
  { assert (A := acc_2pi); unfold acc in *; apply sqrt_close; [lra|lra|num|exact A]. }
  assert (S' : acc 2.1 (rnd (sqrt (2 * float_pi))) (sqrt (2 * PI))).
  { apply (acc_rounded 1); [lra|num| |exact S]; apply (big_900 0); [lia|]; cbn [pow]; lra. }
  replace (10 * sqrt (2 * PI) / T) with (sqrt (2 * PI) / (1 / 10 * T)) by (field; lra).
  assert (big : / 2 ^ 900 <= sqrt (2 * PI) / (1 / 10 * T)).
  { apply (big_900 200); [lia|]; replace (sqrt (2 * PI) / (1 / 10 * T)) with (10 * sqrt (2 * PI) * / T) by (field; lra).
    assert (I := inv_pow_bound 200 T ltac:(lra)); assert (I0 := inv_pow_pos 200).
    rewrite <- (Rmult_1_l (/ 2 ^ 200)); apply Rmult_le_compat; lra. }
  apply (acc_rounded 4.3); [lra|num|exact big|].
  apply (acc_div 2.1 2.1); try num; auto; apply (width_acc T 2 HT); cbn [INR pow]; lra.
Qed.

Lemma bound_reaches omega T : / 2 ^ 200 <= T <= 2 ^ 200 -> 0 < omega ->
  (fl_gaussian_bound rnd float_pi T <= omega -> reaches (- / 2 ^ 50) omega T) /\
  (reaches (/ 2 ^ 50) omega T -> fl_gaussian_bound rnd float_pi T <= omega).
Proof.
  intros HT W; assert (A := bound_acc T HT); assert (P : 0 < T) by (assert (H := inv_pow_pos 200); lra).
  assert (Q : 0 < sqrt (2 * PI)) by (apply sqrt_lt_R0; assert (X := PI_RGT_0); lra).
  assert (X : 10 * sqrt (2 * PI) / T * T = 10 * sqrt (2 * PI)) by (field; lra).
  apply acc_abs in A; unfold reaches; rewrite inv_50; set (b := 10 * sqrt (2 * PI) / T) in *.
  assert (B : 0 < b) by (unfold b; apply Rdiv_lt_0_compat; lra); rewrite <- X; clearbody b; assert (E := eps_pos).
  split; intros H.
  - replace (b * T * (1 + - (8 * eps))) with (b * (1 + - (8 * eps)) * T) by ring; apply Rmult_le_compat_r; nra.
  - replace (b * T * (1 + 8 * eps)) with (b * (1 + 8 * eps) * T) in H by ring; apply Rmult_le_reg_r in H; auto; nra.
Qed.

(** ** The control *)

Definition float_requirements (omega m T : R) : Prop :=
  0 < omega /\ 0 < m /\ m < T /\ fl_gaussian_bound rnd float_pi T <= omega.

Lemma float_gaussian_open fs fe omega m T f : float_requirements omega m T ->
  fl_new_modulated_gaussian_control rnd fs fe float_pi omega m T f =
  let n := fl_gaussian_count rnd T m in
  let dt := rnd (T / INR n) in
  let* segments := fl_gaussian_segments rnd fs fe float_pi omega T f dt (fl_gaussian_midpoints rnd n dt) in
  match all_finite segments with
  | None => Raise (ArgumentsValueError "All rabi rates must be greater than zero." ["rabi_rates"] [])
  | Some segs =>
      DrivenControl (repeat dt n) (Some (map Rabs segs)) (Some (map (fun v => if leb 0 v then 0 else float_pi) segs))
        (Some (np_zeros n)) None
  end.
Proof.
  intros [A [B [C D]]]; unfold fl_new_modulated_gaussian_control.
  rewrite (proj2 (ltb_true 0 omega) A), (proj2 (ltb_true 0 m) B), (proj2 (ltb_true m T) C), (proj2 (leb_true _ omega) D); reflexivity.
Qed.
Lemma float_gaussian_closed fs fe omega m T f c :
  fl_new_modulated_gaussian_control rnd fs fe float_pi omega m T f = Ok c -> float_requirements omega m T.
Proof.
  unfold fl_new_modulated_gaussian_control, float_requirements.
  destruct (ltb 0 omega) eqn:A; [apply ltb_true in A|discriminate].
  destruct (ltb 0 m) eqn:B; [apply ltb_true in B|discriminate].
  destruct (ltb m T) eqn:C; [apply ltb_true in C|discriminate].
  destruct (leb (fl_gaussian_bound rnd float_pi T) omega) eqn:D; [apply leb_true in D|discriminate]; auto.
Qed.
Lemma float_gaussian_rejects fs fe omega m T f : ~ float_requirements omega m T ->
  exists s args ex, fl_new_modulated_gaussian_control rnd fs fe float_pi omega m T f = Raise (ArgumentsValueError s args ex).
Proof.
  unfold fl_new_modulated_gaussian_control, float_requirements; intros H.
  destruct (ltb 0 omega) eqn:A; [apply ltb_true in A|do 3 eexists; reflexivity].
  destruct (ltb 0 m) eqn:B; [apply ltb_true in B|do 3 eexists; reflexivity].
  destruct (ltb m T) eqn:C; [apply ltb_true in C|do 3 eexists; reflexivity].
  destruct (leb (fl_gaussian_bound rnd float_pi T) omega) eqn:D; [apply leb_true in D; exfalso; apply H; auto|do 3 eexists; reflexivity].
Qed.

Lemma float_construct dt (vs : list R) : 0 < dt ->
  exists c, DrivenControl (repeat dt (List.length vs)) (Some (map Rabs vs))
              (Some (map (fun v => if leb 0 v then 0 else float_pi) vs))
              (Some (np_zeros (List.length vs))) None = Ok c /\
            describes (map (float_signed_seg dt) vs) c.
Proof.
  intros D.
  destruct (segments_constructible (map (float_signed_seg dt) vs) None) as [c [E [X _]]].
  - intros g Hg; apply in_map_iff in Hg; destruct Hg as [v [<- _]]; cbn; split; auto; apply Rabs_pos.
  - exists c; split; auto; rewrite <- E, !map_map; cbn [float_signed_seg g_dur g_rabi g_phi g_det].
    assert (C : forall k : R, map (fun _ : R => k) vs = repeat k (List.length vs)).
    { intros k; clear; induction vs; simpl; [|rewrite IHvs]; reflexivity. }
    rewrite !C; f_equal; unfold leb; f_equal; apply map_ext; intros v; destruct (Rle_dec 0 v); reflexivity.
Qed.

(** ** Zero frequency *)

Lemma float_full_rotation x : 0 < x ->
  exists k : nat, (1 <= k)%nat /\
    acc 1 (py_max (rnd (x - py_mod x (2 * float_pi))) (2 * float_pi)) (2 * float_pi * INR k) /\
    (k = 1%nat \/ 2 * float_pi * INR k <= x) /\ x < 2 * float_pi * INR (S k).
Proof.
  intros X; assert (FP := float_pi_bound); assert (P := PI_bounds); assert (ten : 10 ^ 16 = 10000000000000000) by ring; rewrite ten in FP; unfold py_mod.
  assert (F := format_2pi); set (q := 2 * float_pi) in *; assert (Q : 1 <= q) by (unfold q; lra); clearbody q.
  destruct (base_Int_part (x / q)) as [A B].
  set (z := Int_part (x / q)) in *; clearbody z.
  assert (E : x = q * (x / q)) by (field; lra).
  set (r := x / q) in *; clearbody r.
  assert (R0 : 0 < r) by nra.
  replace (x - (x - q * IZR z)) with (q * IZR z) by ring.
  rewrite py_max_Rmax.
  assert (Z0 : (0 <= z)%Z).
  { assert (-1 < z)%Z; [apply lt_IZR; lra|lia]. }
  exists (Nat.max 1 (Z.to_nat z)); split; [lia|].
  destruct (Z_lt_le_dec z 1) as [L|L].
  - assert (z = 0%Z) by lia; subst z; simpl Z.to_nat; simpl Nat.max; cbn [INR].
    rewrite Rmult_0_r, rnd_zero, Rmax_right, Rmult_1_r by lra.
    split; [apply acc_intro; assert (0 <= 1 * eps * q) by (assert (T := eps_pos); nra); lra|split; [auto|]]. nra.
  - assert (M : Nat.max 1 (Z.to_nat z) = Z.to_nat z) by lia; rewrite M, S_INR.
    assert (I : INR (Z.to_nat z) = IZR z) by (rewrite INR_IZR_INZ, Z2Nat.id by lia; auto).
    assert (L' : 1 <= IZR z) by (apply IZR_le; auto).
    rewrite I, Rmax_left.
    + split; [apply acc_round, (big_900 0); [lia|cbn [pow]; nra]|split; [right; nra|nra]].
    + rewrite <- (rnd_format q F) at 1; apply rnd_mono; nra.
Qed.

Lemma amax_maximum l p : np_amax l = Ok p -> is_maximum p l.
Proof. apply amax_is_maximum. Qed.

Lemma total_scale_r c l : total (map (fun x => x * c) l) = total l * c.
Proof. induction l; cbn [map total]; [ring|rewrite IHl; ring]. Qed.
Lemma Forall2_map_both {A B C D} (P : C -> D -> Prop) (Q : A -> B -> Prop) (f : A -> C) (g : B -> D) xs ys :
  (forall x y, In x xs -> In y ys -> Q x y -> P (f x) (g y)) -> Forall2 Q xs ys -> Forall2 P (map f xs) (map g ys).
Proof.
  intros H F; induction F; cbn [map]; constructor; [apply H; auto with datatypes|].
  apply IHF; intros; apply H; auto with datatypes.
Qed.
Lemma forall2_len {A B} (P : A -> B -> Prop) xs ys : Forall2 P xs ys -> List.length xs = List.length ys.
Proof. induction 1; cbn [List.length]; congruence. Qed.
Lemma total_low b l : 0 <= b -> (forall x, In x l -> b <= x) -> l <> [] -> b <= total l.
Proof.
  intros B H N; destruct l as [|x l]; [congruence|]; cbn [total].
  assert (Z : forall l, (forall x, In x l -> b <= x) -> 0 <= total l).
  { clear - B; induction l as [|a l IH]; cbn [total]; intros H; [lra|].
    assert (b <= a) by auto with datatypes; assert (0 <= total l) by auto with datatypes; lra. }
  assert (b <= x) by auto with datatypes; assert (0 <= total l) by (apply Z; auto with datatypes); lra.
Qed.
Lemma total_high b l : (forall x, In x l -> x <= b) -> total l <= INR (List.length l) * b.
Proof.
  induction l as [|a l IH]; intros H; [cbn; lra|]; cbn [total]; change (List.length (a :: l)) with (S (List.length l)); rewrite S_INR.
  assert (a <= b) by auto with datatypes; assert (total l <= INR (List.length l) * b) by auto with datatypes; lra.
Qed.

Section ZeroFrequency.
  Variables (fe : R -> R) (omega T : R) (n : nat).
  Hypothesis AE : accurate_exp fe.
  Hypothesis HT : / 2 ^ 200 <= T <= 2 ^ 200.
  Hypothesis HW : / 2 ^ 200 <= omega <= 2 ^ 200.
  Hypothesis HN : 2 <= INR n <= 2 ^ 40.
  Hypothesis HN2 : (2 <= n)%nat.

  Local Notation dt := (rnd (T / INR n)).
  Definition bases : list R := map (fl_gaussian_base rnd fe T) (fl_gaussian_midpoints rnd n dt).
  Definition exact_bases : list R := samples (envelope T) T n.

  Lemma bases_acc : Forall2 (acc 347) bases exact_bases.
  Proof.
    unfold bases, exact_bases, samples, fl_gaussian_midpoints, range; rewrite map_map; apply Forall2_maps.
    intros i I; apply in_seq in I; apply base_acc; auto; [apply HT|lia].
  Qed.
  Lemma exact_bases_size x : In x exact_bases -> / 2 ^ 20 <= x <= 1.
  Proof.
    unfold exact_bases, samples; intros I; apply in_map_iff in I; destruct I as [i [<- I]]; apply in_seq in I.
    apply envelope_size; auto; [apply HT|lia].
  Qed.
  Lemma exact_bases_length : List.length exact_bases = n.
  Proof. unfold exact_bases, samples; rewrite map_length, seq_length; auto. Qed.
  Lemma exact_bases_some : exact_bases <> [].
  Proof. intros E; assert (L := exact_bases_length); rewrite E in L; cbn in L; lia. Qed.

  Variables (p p0 : R).
  Hypothesis HP : is_maximum p bases.
  Hypothesis HP0 : is_maximum p0 exact_bases.

  Lemma peak_acc : acc 347 p p0.
  Proof. apply (max_acc 347 bases exact_bases); auto; [num|apply bases_acc]. Qed.
  Lemma peak_size : / 2 ^ 20 <= p0 <= 1.
  Proof. apply exact_bases_size, HP0. Qed.

  Definition normals : list R := map (fun b => rnd (b / p)) bases.
  Definition exact_normals : list R := map (fun b => b / p0) exact_bases.

  Lemma exact_normals_size x : In x exact_normals -> / 2 ^ 20 <= x <= 1.
  Proof.
    unfold exact_normals; intros I; apply in_map_iff in I; destruct I as [b [<- I]].
    assert (B := exact_bases_size b I); assert (P := peak_size); assert (M := proj2 HP0 b I); assert (I20 := inv_pow_pos 20).
    split; apply (Rmult_le_reg_r p0); try lra; unfold Rdiv; rewrite Rmult_assoc, Rinv_l by lra; nra.
  Qed.
  Lemma normals_acc : Forall2 (acc 695.3) normals exact_normals.
  Proof.
    unfold normals, exact_normals; apply (Forall2_map_both _ (acc 347)); [|apply bases_acc].
    intros x y _ Y A; assert (B := exact_bases_size y Y); assert (P := peak_size); assert (Q := inv_pow_pos 20).
    apply (acc_rounded 694.1); [lra|num| |].
    - apply (big_900 20); [lia|]; apply exact_normals_size; unfold exact_normals; apply in_map_iff; eauto.
    - apply (acc_div 347 347); try num; auto; apply peak_acc.
  Qed.
  Lemma normals_size x : In x normals -> / 2 ^ 21 <= x <= 2.
  Proof.
    intros I; destruct (Forall2_left _ _ _ _ normals_acc I) as [y [Y A]]; apply exact_normals_size in Y.
    assert (L := acc_lower 695.3 x y ltac:(assert (H := inv_pow_pos 20); lra) ltac:(num) A).
    assert (U := acc_upper 695.3 x y ltac:(assert (H := inv_pow_pos 20); lra) ltac:(num) A).
    replace (/ 2 ^ 21) with (/ 2 ^ 20 / 2) by (change 21%nat with (20 + 1)%nat; rewrite inv_pow_add; unfold Rdiv; f_equal; f_equal; lra); lra.
  Qed.
  Lemma normals_addends : addends normals.
  Proof.
    intros x I; split; [unfold normals in I; apply in_map_iff in I; destruct I as [b [<- _]]; apply format_rnd|].
    apply normals_size in I; assert (H := inv_pow_pos 21); lra.
  Qed.
  Lemma normals_length : List.length normals = n.
  Proof.
    rewrite (forall2_len _ _ _ normals_acc); unfold exact_normals; rewrite map_length; apply exact_bases_length.
  Qed.

  Lemma sum_acc : acc 67 (fl_sum rnd normals) (total normals).
  Proof.
    assert (L : (List.length normals <= 2 ^ 40)%nat).
    { rewrite normals_length; apply INR_le; rewrite pow_INR; replace (INR 2) with 2 by (cbn; lra); lra. }
    assert (S := fl_sum_of 40 normals L normals_addends); apply sum_of_error in S; [|apply Nat.le_trans with (2 ^ 7)%nat; [cbn; lia|apply Nat.pow_le_mono_r; lia]].
    unfold acc; eapply Rle_trans; [exact S|]; apply Req_le; unfold eps; f_equal; replace (INR (26 + 40)) with 66 by (cbn; lra); lra.
  Qed.

  Lemma totals : / 2 ^ 20 <= total exact_normals <= INR n /\ / 2 ^ 21 <= total normals <= 2 * INR n.
  Proof.
    assert (L0 : List.length exact_normals = n) by (unfold exact_normals; rewrite map_length; apply exact_bases_length).
    assert (L := normals_length); assert (I20 := inv_pow_pos 20); assert (I21 := inv_pow_pos 21).
    split; split.
    - apply total_low; [lra|intros; apply exact_normals_size; auto|intros E; rewrite E in L0; cbn in L0; lia].
    - rewrite <- L0; assert (H := total_high 1 exact_normals (fun x I => proj2 (exact_normals_size x I))); lra.
    - apply total_low; [lra|intros; apply normals_size; auto|intros E; rewrite E in L; cbn in L; lia].
    - assert (H := total_high 2 normals (fun x I => proj2 (normals_size x I))); rewrite L in H; lra.
  Qed.

  Definition rotation : R := rnd (rnd (dt * fl_sum rnd normals) * omega).

  Lemma exact_step : / 2 ^ 240 <= T / INR n <= T.
  Proof.
    assert (P := T_pos T (proj1 HT)); split.
    - eapply Rle_trans; [|apply step_size; auto; apply HT]; change 240%nat with (200 + 40)%nat; rewrite inv_pow_add.
      apply Rmult_le_compat_r; [left; apply inv_pow_pos|apply HT].
    - apply (Rmult_le_reg_r (INR n)); [lra|]; unfold Rdiv; rewrite Rmult_assoc, Rinv_l by lra; nra.
  Qed.
  Lemma dt_size : / 2 ^ 241 <= dt.
  Proof.
    assert (S := exact_step); assert (H := inv_pow_pos 240).
    assert (A := acc_lower 1 dt (T / INR n) ltac:(lra) ltac:(num) (step_acc T n (proj1 HT) HN)).
    replace (/ 2 ^ 241) with (/ 2 ^ 240 / 2) by (change 241%nat with (240 + 1)%nat; rewrite inv_pow_add; unfold Rdiv; f_equal; f_equal; lra); lra.
  Qed.

  Lemma rotation_computed : acc 69.3 rotation (dt * total normals * omega) /\ / 2 ^ 500 <= dt * total normals * omega.
  Proof.
    assert (D := dt_size); assert (S := sum_acc); destruct totals as [_ [L _]].
    assert (H241 := inv_pow_pos 241); assert (H200 := inv_pow_pos 200).
    assert (B1 := big_prod _ _ _ _ D L); assert (B2 := big_prod _ _ _ _ B1 (proj1 HW)).
    split; [|eapply Rle_trans; [|exact B2]; apply inv_pow_le; lia].
    unfold rotation; apply (acc_rounded 68.1); [lra|num|refine (big_900 _ _ _ B2); lia|].
    apply acc_scale_r; [lra|]; apply (acc_rounded 67); [lra|num|refine (big_900 _ _ _ B1); lia|].
    apply acc_scale; [lra|exact S].
  Qed.

  Lemma available : available_rotation omega T n p0 = T / INR n * total exact_normals * omega.
  Proof.
    assert (P := peak_size); assert (H := inv_pow_pos 20).
    unfold available_rotation, exact_normals; fold exact_bases.
    change (map (fun b => b / p0) exact_bases) with (map (fun b => b * / p0) exact_bases); rewrite total_scale_r; unfold Rdiv; ring.
  Qed.

  Lemma rotation_exact : acc 766.6 rotation (available_rotation omega T n p0) /\ / 2 ^ 500 <= available_rotation omega T n p0 <= 2 ^ 440.
  Proof.
    rewrite available; assert (D := exact_step); assert (S := sum_acc); destruct totals as [[L U] [L' U']].
    assert (H240 := inv_pow_pos 240); assert (H200 := inv_pow_pos 200); assert (H20 := inv_pow_pos 20); assert (H21 := inv_pow_pos 21).
    assert (B1 := big_prod _ _ _ _ (proj1 D) L); assert (B2 := big_prod _ _ _ _ B1 (proj1 HW)).
    split; [|split; [eapply Rle_trans; [|exact B2]; apply inv_pow_le; lia|]].
    2:{ replace (T / INR n * total exact_normals) with (T * (total exact_normals * / INR n)) by (field; lra).
        assert (Q : 0 <= total exact_normals * / INR n <= 1).
        { split; [apply Rmult_le_pos; [lra|left; apply Rinv_0_lt_compat; lra]|].
          apply (Rmult_le_reg_r (INR n)); [lra|]; rewrite Rmult_assoc, Rinv_l by lra; lra. }
        apply Rle_trans with (2 ^ 200 * 1 * 2 ^ 200).
        - assert (0 < T) by lra; apply Rmult_le_compat; [apply Rmult_le_pos; lra|lra|apply Rmult_le_compat; lra|lra].
        - rewrite Rmult_1_r, <- pow_add; apply Rle_pow; [lra|lia]. }
    assert (S2 : acc 762.5 (fl_sum rnd normals) (total exact_normals)).
    { apply (acc_trans 695.3 67 762.5 _ (total normals)); [lra|lra|lra|num|apply acc_list, normals_acc|exact S]. }
    assert (SP : 0 <= fl_sum rnd normals).
    { assert (A := acc_lower 67 _ (total normals) ltac:(lra) ltac:(num) S); lra. }
    unfold rotation; apply (acc_rounded 765); [lra|num|refine (big_900 _ _ _ B2); lia|].
    apply acc_scale_r; [lra|]; apply (acc_rounded 763.6); [lra|num|refine (big_900 _ _ _ B1); lia|].
    apply (acc_mult 1 762.5); [lra|lra|auto|lra|lra|num|apply step_acc; auto; apply HT|exact S2].
  Qed.

  Lemma rotation_pos : 0 < rotation.
  Proof.
    destruct rotation_computed as [A B]; assert (H := inv_pow_pos 500).
    assert (L := acc_lower 69.3 _ _ ltac:(apply Rlt_le, Rlt_le_trans with (1 := H), B) ltac:(num) A); lra.
  Qed.

  Variables (full : R) (k : nat).
  Hypothesis K1 : (1 <= k)%nat.
  Hypothesis HF : acc 1 full (2 * float_pi * INR k).
  Hypothesis HK1 : k = 1%nat \/ 2 * float_pi * INR k <= rotation.
  Hypothesis HK2 : rotation < 2 * float_pi * INR (S k).

  Lemma full_acc : acc 2.1 full (2 * PI * INR k).
  Proof.
    assert (P := PI_bounds); assert (I := pos_INR k).
    apply (acc_trans 1 1 2.1 _ (2 * float_pi * INR k)); [nra|lra|lra|num| |exact HF].
    apply acc_scale_r; [auto|apply acc_2pi].
  Qed.
  Lemma count_low : k = 1%nat \/ 2 * PI * INR k <= available_rotation omega T n p0 * (1 + / 2 ^ 43).
  Proof.
    destruct HK1 as [?|H]; [left; auto|right].
    destruct rotation_exact as [A [B _]]; apply acc_abs in A.
    assert (P := acc_scale_r (INR k) _ _ _ (pos_INR k) acc_2pi); apply acc_abs in P; assert (PP := PI_bounds); assert (I := pos_INR k).
    assert (0 <= 2 * PI * INR k) by nra; assert (E := eps_pos); assert (ES := eps_small).
    set (x := 2 * PI * INR k) in *; set (y := 2 * float_pi * INR k) in *; set (a := available_rotation omega T n p0) in *; clearbody x y a.
    assert (0 < a) by (assert (Z := inv_pow_pos 500); lra).
    replace (/ 2 ^ 43) with (1024 * eps) by (unfold eps; lra).
    apply (Rmult_le_reg_r (1 - eps)); [lra|]; apply Rle_trans with (a * (1 + 766.6 * eps)); [lra|].
    rewrite Rmult_assoc; apply Rmult_le_compat_l; [lra|]; num.
  Qed.
  Lemma count_high : available_rotation omega T n p0 < 2 * PI * INR (S k) * (1 + / 2 ^ 43).
  Proof.
    destruct rotation_exact as [A [B _]]; apply acc_abs in A.
    assert (P := acc_scale_r (INR (S k)) _ _ _ (pos_INR (S k)) acc_2pi); apply acc_abs in P; assert (PP := PI_bounds); assert (I := lt_0_INR (S k) ltac:(lia)).
    assert (0 < 2 * PI * INR (S k)) by (apply Rmult_lt_0_compat; lra); assert (E := eps_pos); assert (ES := eps_small).
    set (x := 2 * PI * INR (S k)) in *; set (y := 2 * float_pi * INR (S k)) in *; set (a := available_rotation omega T n p0) in *; clearbody x y a.
    replace (/ 2 ^ 43) with (1024 * eps) by (unfold eps; lra).
    apply (Rmult_lt_reg_r (1 - 766.6 * eps)); [num|]; apply Rlt_le_trans with (x * (1 + eps)); [lra|].
    rewrite Rmult_assoc; apply Rmult_le_compat_l; [lra|]; num.
  Qed.

  Definition rate (v : R) : R := rnd (rnd (v * omega) * rnd (full / rotation)).
  Definition rates : list R := map rate normals.

  Lemma turns_size : / 2 ^ 440 <= 2 * PI * INR k / available_rotation omega T n p0.
  Proof.
    destruct rotation_exact as [_ [B C]]; assert (P := PI_bounds); assert (I : 1 <= INR k) by (apply (le_INR 1); auto); assert (Z := inv_pow_pos 500).
    assert (J := inv_pow_bound 440 (available_rotation omega T n p0) ltac:(lra)); assert (H := inv_pow_pos 440).
    unfold Rdiv; rewrite <- (Rmult_1_l (/ 2 ^ 440)); apply Rmult_le_compat; try lra; nra.
  Qed.
  Lemma rates_exact : Forall2 (acc 1470) rates
    (map (fun v => omega * (v / p0) * (2 * PI * INR k / available_rotation omega T n p0)) exact_bases).
  Proof.
    assert (F := normals_acc); unfold exact_normals in F.
    replace (map (fun v => omega * (v / p0) * (2 * PI * INR k / available_rotation omega T n p0)) exact_bases) with
      (map (fun v => v * omega * (2 * PI * INR k / available_rotation omega T n p0)) exact_normals)
      by (unfold exact_normals; rewrite map_map; apply map_ext; intros; ring).
    unfold rates; apply (Forall2_map_both _ (acc 695.3)); [|exact F].
    intros x y _ Y A; apply exact_normals_size in Y.
    destruct rotation_exact as [R [RB RC]]; assert (TS := turns_size); assert (W0 := inv_pow_pos 200); assert (W1 := inv_pow_pos 20); assert (W2 := inv_pow_pos 440); assert (W3 := inv_pow_pos 500).
    assert (B1 := big_prod _ _ _ _ (proj1 Y) (proj1 HW)); assert (B2 := big_prod _ _ _ _ B1 TS).
    assert (Q : acc 769.9 (rnd (full / rotation)) (2 * PI * INR k / available_rotation omega T n p0)).
    { apply (acc_rounded 768.8); [lra|num|refine (big_900 _ _ _ TS); lia|].
      apply (acc_div 2.1 766.6); [|lra|lra|lra|num|apply full_acc|exact R].
      assert (P := PI_bounds); assert (I := pos_INR k); nra. }
    assert (V : acc 696.4 (rnd (x * omega)) (y * omega)).
    { apply (acc_rounded 695.3); [lra|num|refine (big_900 _ _ _ B1); lia|]; apply acc_scale_r; [lra|exact A]. }
    unfold rate; apply (acc_rounded 1467); [lra|num|refine (big_900 _ _ _ B2); lia|].
    apply (acc_mult 696.4 769.9); [nra|lra| |lra|lra|num|exact V|exact Q].
    assert (L := acc_lower 769.9 _ _ ltac:(apply Rlt_le, Rlt_le_trans with (1 := W2), TS) ltac:(num) Q); lra.
  Qed.

  Lemma rates_total : acc 75 (total rates * dt) (2 * PI * INR k).
  Proof.
    destruct rotation_computed as [R RB]; assert (RP := rotation_pos); assert (D := dt_size); destruct totals as [_ [TL TU]].
    assert (P := PI_bounds); assert (I : 1 <= INR k) by (apply (le_INR 1); auto).
    assert (W0 := inv_pow_pos 200); assert (W2 := inv_pow_pos 440); assert (W3 := inv_pow_pos 500); assert (W4 := inv_pow_pos 241); assert (W5 := inv_pow_pos 21).
    set (a := dt * total normals * omega) in *.
    assert (a0 : 0 < a) by lra.
    assert (big : / 2 ^ 2 <= 2 * PI * INR k / a).
    { assert (H : a <= 2 * rotation) by (apply acc_abs in R; assert (69.3 * eps * a <= / 2 * a) by (apply Rmult_le_compat_r; [lra|num]); lra).
      assert (FP := float_pi_bound).
      assert (G : rotation < 2 * PI * INR (S k)) by (eapply Rlt_le_trans; [exact HK2|]; apply Rmult_le_compat_r; [apply pos_INR|lra]).
      rewrite S_INR in G; apply (Rmult_le_reg_r a); auto; unfold Rdiv; rewrite Rmult_assoc, Rinv_l by lra.
      replace (/ 2 ^ 2) with (/ 4) by (f_equal; lra).
      assert (PI * 1 <= PI * INR k) by (apply Rmult_le_compat_l; lra).
      lra. }
    assert (Q : acc 72.5 (rnd (full / rotation)) (2 * PI * INR k / a)).
    { apply (acc_rounded 71.41); [lra|num|apply (big_900 2); auto; lia|].
      apply (acc_div 2.1 69.3); [nra|auto|lra|lra|num|apply full_acc|exact R]. }
    assert (Q0 : 0 <= rnd (full / rotation)).
    { assert (L := acc_lower 72.5 _ (2 * PI * INR k / a) ltac:(apply Rle_trans with (2 := big), Rlt_le, inv_pow_pos) ltac:(num) Q).
      assert (Z := inv_pow_pos 2); lra. }
    assert (F : Forall2 (acc 75) rates (map (fun v => v * (omega * (2 * PI * INR k / a))) normals)).
    { unfold rates; apply Forall2_maps; intros x X; apply normals_size in X; unfold rate.
      assert (B1 := big_prod _ _ _ _ (proj1 X) (proj1 HW)); assert (B2 := big_prod _ _ _ _ B1 big).
      rewrite <- Rmult_assoc; apply (acc_rounded 73.6); [lra|num|refine (big_900 _ _ _ B2); lia|].
      apply (acc_mult 1 72.5); [apply Rmult_le_pos; lra|assert (Z := inv_pow_pos 2); lra|auto|lra|lra|num| |exact Q].
      apply acc_round; refine (big_900 _ _ _ B1); lia. }
    apply acc_list in F; rewrite total_scale_r in F; apply (acc_scale_r dt) in F; [|lra].
    replace (total normals * (omega * (2 * PI * INR k / a)) * dt) with (2 * PI * INR k) in F; auto.
    replace (total normals * (omega * (2 * PI * INR k / a)) * dt) with (a * (2 * PI * INR k / a)) by (unfold a; ring).
    field; lra.
  Qed.

  Lemma rates_pos r : In r rates -> 0 < r.
  Proof.
    intros I; destruct (Forall2_left _ _ _ _ rates_exact I) as [y [Y A]].
    apply in_map_iff in Y; destruct Y as [b [E Y]].
    assert (B := exact_normals_size (b / p0) ltac:(unfold exact_normals; apply in_map_iff; eauto)).
    assert (TS := turns_size); assert (W0 := inv_pow_pos 200); assert (W1 := inv_pow_pos 20); assert (W2 := inv_pow_pos 440).
    assert (Y0 : 0 < y) by (rewrite <- E; apply Rmult_lt_0_compat; [apply Rmult_lt_0_compat|]; lra).
    assert (L := acc_lower 1470 r y ltac:(lra) ltac:(num) A); lra.
  Qed.
End ZeroFrequency.

Lemma planar_near a b phi : qnear (Rabs (a - b)) (qplanar a phi) (qplanar b phi).
Proof.
  split; [apply Rabs_pos|]; rewrite pow2_abs; unfold qnorm2, qsub, qplanar; cbn [qa qb qc qd].
  assert (V := versine (a - b)); rewrite cos_minus in V.
  assert (A := sin2_cos2 a); assert (B := sin2_cos2 b); assert (P := sin2_cos2 phi); unfold Rsqr in *.
  set (ca := cos a) in *; set (sa := sin a) in *; set (cb := cos b) in *; set (sb := sin b) in *; set (cp := cos phi) in *; set (sp := sin phi) in *.
  clearbody ca sa cb sb cp sp.
  replace ((ca - cb) * (ca - cb) + (sa * cp - sb * cp) * (sa * cp - sb * cp) + (sa * sp - sb * sp) * (sa * sp - sb * sp) + (0 - 0) * (0 - 0))
    with ((ca - cb) * (ca - cb) + (sa - sb) * (sa - sb) * (sp * sp + cp * cp)) by ring.
  rewrite P; lra.
Qed.

Lemma whole_turns k : qmat (qplanar (INR k * PI) 0) = mscale (RtoC ((-1) ^ k)) mone.
Proof.
  destruct (cos_sin_PI_mult k) as [CS SN].
  unfold qplanar; rewrite CS, SN; unfold qmat, mscale, mone; cbn [qa qb qc qd m00 m01 m10 m11].
  f_equal; apply injective_projections; simpl; ring.
Qed.

Lemma positive_segments dt vs : (forall v, In v vs -> 0 < v) -> map (float_signed_seg dt) vs = map (signed_seg dt) vs.
Proof.
  intros H; apply map_ext_in; intros v I; specialize (H v I); unfold float_signed_seg, signed_seg.
  destruct (Rle_dec 0 v); [reflexivity|lra].
Qed.

Lemma inputs_range omega m T : gaussian_floats omega m T -> m < T -> / 2 ^ 200 <= T <= 2 ^ 200 /\ / 2 ^ 200 <= omega <= 2 ^ 200.
Proof. intros [_ [_ [_ [W [M [U _]]]]]] L; split; lra. Qed.

Lemma float_zero_built fs fe omega m T : accurate_exp fe -> gaussian_floats omega m T -> float_requirements omega m T ->
  exists n p0 k vs c, fl_gaussian_count rnd T m = n /\ nearly_ceiling (T / m) n /\ (2 <= n)%nat /\ is_maximum p0 (samples (envelope T) T n) /\ (1 <= k)%nat /\
    fl_new_modulated_gaussian_control rnd fs fe float_pi omega m T 0 = Ok c /\
    describes (map (float_signed_seg (rnd (T / INR n))) vs) c /\ 0 < rnd (T / INR n) /\ List.length vs = n /\
    (forall v, In v vs -> 0 < v) /\
    Forall2 (acc 1470) vs
      (map (fun v => omega * (v / p0) * (2 * PI * INR k / available_rotation omega T n p0)) (samples (envelope T) T n)) /\
    acc 75 (total vs * rnd (T / INR n)) (2 * PI * INR k) /\
    (k = 1%nat \/ 2 * PI * INR k <= available_rotation omega T n p0 * (1 + / 2 ^ 43)) /\
    available_rotation omega T n p0 < 2 * PI * INR (S k) * (1 + / 2 ^ 43).
Proof.
  intros AE G FR; assert (L : m < T) by apply FR; destruct (inputs_range _ _ _ G L) as [HT HW].
  destruct (float_count _ _ _ G L) as [n [E [C [N2 N]]]].
  rewrite (float_gaussian_open fs fe omega m T 0 FR); cbv zeta; rewrite E.
  unfold fl_gaussian_segments; rewrite (proj2 (neqb_false 0 0) eq_refl), rnd_2pi.
  fold (bases fe T n); assert (EB := exact_bases_some T n N2).
  assert (LB := forall2_len _ _ _ (bases_acc fe T n AE HT N N2)).
  destruct (np_amax_ok (bases fe T n)) as [p HP].
  { intros Z; rewrite Z in LB; destruct (exact_bases T n); [congruence|discriminate]. }
  destruct (np_amax_ok (exact_bases T n) EB) as [p0 HP0].
  rewrite HP; apply amax_maximum in HP; apply amax_maximum in HP0; cbn [bind].
  fold (normals fe T n p); fold (rotation fe omega T n p).
  assert (RP := rotation_pos fe omega T n AE HT HW N N2 p p0 HP HP0).
  destruct (float_full_rotation _ RP) as [k [K1 [KF [KL KH]]]].
  set (full := py_max _ _) in *; clearbody full.
  replace (map (fun v => Fin (rnd (rnd (v * omega) * rnd (full / rotation fe omega T n p)))) (normals fe T n p)) with
    (map Fin (rates fe omega T n p full)) by (unfold rates, rate; rewrite map_map; reflexivity).
  assert (AF : forall l, all_finite (map Fin l) = Some l) by (induction l; cbn; [auto|rewrite IHl; auto]); rewrite AF.
  assert (D0 := step_pos T n (proj1 HT) N).
  assert (LR : List.length (rates fe omega T n p full) = n).
  { unfold rates; rewrite map_length; apply (normals_length fe T n AE HT N N2 p p0 HP HP0). }
  destruct (float_construct (rnd (T / INR n)) (rates fe omega T n p full) D0) as [c [HC D]]; rewrite LR in HC.
  exists n, p0, k, (rates fe omega T n p full), c.
  split; [auto|]; split; [auto|]; split; [auto|]; split; [exact HP0|]; split; [auto|]; split; [exact HC|]; split; [exact D|]; split; [auto|]; split; [auto|].
  split; [apply (rates_pos fe omega T n AE HT HW N N2 p p0 HP HP0 full k); auto|].
  split; [apply (rates_exact fe omega T n AE HT HW N N2 p p0 HP HP0 full k); auto|].
  split; [apply (rates_total fe omega T n AE HT HW N N2 p p0 HP HP0 full k); auto|].
  split; [apply (count_low fe omega T n AE HT HW N N2 p p0 HP HP0 k); auto|].
  apply (count_high fe omega T n AE HT HW N N2 p p0 HP HP0 k); auto.
Qed.

Lemma Forall2_nth {A B} (P : A -> B -> Prop) xs ys i x y : Forall2 P xs ys -> nth_error xs i = Some x -> nth_error ys i = Some y -> P x y.
Proof.
  intros F; revert i; induction F as [|a b xs ys H F IH]; intros [|i] X Y; try discriminate; cbn in X, Y.
  - injection X as <-; injection Y as <-; auto.
  - apply (IH i); auto.
Qed.
Lemma seq_nth_error n i s : (i < n)%nat -> nth_error (seq s n) i = Some (s + i)%nat.
Proof.
  revert i s; induction n as [|n IH]; intros [|i] s H; try lia; cbn [seq nth_error]; [f_equal; lia|].
  rewrite IH by lia; f_equal; lia.
Qed.
Lemma nth_samples g T n i : (i < n)%nat -> nth_error (samples g T n) i = Some (g (midpoint T n i)).
Proof. intros H; unfold samples; rewrite nth_error_map, seq_nth_error by auto; reflexivity. Qed.

Theorem float_gaussian_zero fs fe omega m T c l :
  accurate_exp fe -> gaussian_floats omega m T ->
  fl_new_modulated_gaussian_control rnd fs fe float_pi omega m T 0 = Ok c -> describes l c ->
  exists n peak k, nearly_ceiling (T / m) n /\ (2 <= n)%nat /\ is_maximum peak (samples (envelope T) T n) /\ (1 <= k)%nat /\
    durations c = repeat (rnd (T / INR n)) n /\ azimuthal_angles c = repeat 0 n /\ detunings c = repeat 0 n /\
    List.length (rabi_rates c) = n /\
    (forall i r, nth_error (rabi_rates c) i = Some r ->
       let v := omega * (envelope T (midpoint T n i) / peak) * (2 * PI * INR k / available_rotation omega T n peak) in
       0 < r /\ Rabs (r - v) <= v / 2 ^ 42) /\
    (k = 1%nat \/ 2 * PI * INR k <= available_rotation omega T n peak * (1 + / 2 ^ 43)) /\
    available_rotation omega T n peak < 2 * PI * INR (S k) * (1 + / 2 ^ 43) /\
    Rabs (total (map (fun g => g_rabi g * g_dur g) l) - 2 * PI * INR k) <= 2 * PI * INR k / 2 ^ 46 /\
    close_to (PI * INR k / 2 ^ 46) (evolution l) (mscale (RtoC ((-1) ^ k)) mone).
Proof.
  intros AE G H DL; assert (FR := float_gaussian_closed _ _ _ _ _ _ _ H).
  destruct (float_zero_built fs fe omega m T AE G FR) as [n [p0 [k [vs [c' [_ [C [N [P [K1 [E [D [D0 [L [VP [F [TA [KL KH]]]]]]]]]]]]]]]]]].
  rewrite H in E; injection E as <-.
  assert (l = map (float_signed_seg (rnd (T / INR n))) vs) by (eapply describes_fun; eauto); subst l.
  assert (DS := positive_segments (rnd (T / INR n)) vs VP); rewrite DS in *; clear DS DL.
  set (dt := rnd (T / INR n)) in *.
  assert (RV : rabi_rates c = vs).
  { destruct D as [-> _]; rewrite map_map; rewrite <- (map_id vs) at 2; apply map_ext_in; intros v I; cbn; apply Rabs_pos_eq; left; auto. }
  assert (PP := PI_bounds); assert (I := pos_INR k); assert (E := eps_pos).
  assert (TT : total (map (fun g => g_rabi g * g_dur g) (map (signed_seg dt) vs)) = total vs * dt).
  { rewrite map_map, <- total_scale_r; f_equal; apply map_ext_in; intros v J; cbn; rewrite Rabs_pos_eq by (left; auto); ring. }
  assert (A46 : Rabs (total vs * dt - 2 * PI * INR k) <= 2 * PI * INR k / 2 ^ 46).
  { eapply Rle_trans; [exact TA|]; replace (2 * PI * INR k / 2 ^ 46) with (128 * eps * (2 * PI * INR k)) by (unfold eps; field).
    apply Rmult_le_compat_r; [nra|lra]. }
  exists n, p0, k; split; [auto|]; split; [auto|]; split; [auto|]; split; [auto|].
  assert (CR : forall x : R, map (fun _ : R => x) vs = repeat x n).
  { intros x; rewrite <- L; clear; induction vs; cbn; [auto|rewrite IHvs; auto]. }
  split; [destruct D as [_ [_ [_ ->]]]; rewrite map_map; cbn [signed_seg g_dur]; apply CR|].
  split; [destruct D as [_ [-> _]]; rewrite map_map, <- (CR 0); apply map_ext_in; intros v J; cbn; destruct (Rle_dec 0 v) as [|Z]; [auto|specialize (VP v J); lra]|].
  split; [destruct D as [_ [_ [-> _]]]; rewrite map_map; cbn [signed_seg g_det]; apply CR|].
  rewrite RV; split; [auto|].
  split.
  { intros i r R; cbv zeta.
    assert (IL : (i < n)%nat) by (rewrite <- L; apply nth_error_Some; congruence).
    split; [apply VP, (nth_error_In _ i); auto|].
    assert (Q := Forall2_nth _ _ _ i r _ F R ltac:(rewrite nth_error_map, nth_samples by auto; reflexivity)); cbv beta in Q.
    set (v := omega * _ * _) in *; clearbody v.
    assert (V0 : 0 <= v).
    { unfold acc in Q; assert (Z := Rabs_pos (r - v)); assert (0 <= eps * v) by lra. apply (Rmult_le_reg_l eps); lra. }
    eapply Rle_trans; [exact Q|]; replace (v / 2 ^ 42) with (2048 * eps * v) by (unfold eps; field).
    apply Rmult_le_compat_r; lra. }
  split; [auto|]; split; [auto|]; rewrite TT; split; [auto|].
  unfold evolution; rewrite noisy_evolution_qmat, qevolution_signed by lra; rewrite <- whole_turns; apply qnear_close.
  eapply qnear_mono; [|apply planar_near].
  replace ((1 + 0) * (dt * total vs) / 2 - INR k * PI) with ((total vs * dt - 2 * PI * INR k) * / 2) by field.
  rewrite Rabs_mult, (Rabs_pos_eq (/ 2)) by lra; lra.
Qed.

(** ** Non-zero frequency *)

Lemma sample_error_eps f T : sample_error f T = 64 * (Rabs f * T + 8) * eps.
Proof. unfold sample_error, eps; field. Qed.

Lemma plus_bound a b x y : Rabs a <= x -> Rabs b <= y -> Rabs (a + b) <= x + y.
Proof. intros; eapply Rle_trans; [apply Rabs_triang|]; lra. Qed.
Lemma mult_bound a b x y : Rabs a <= x -> Rabs b <= y -> Rabs (a * b) <= x * y.
Proof. intros; rewrite Rabs_mult; apply Rmult_le_compat; auto using Rabs_pos. Qed.

Section Modulated.
  Variables (fs fe : R -> R) (T : R) (n : nat) (f : R).
  Hypothesis AE : accurate_exp fe.
  Hypothesis AS : accurate_sine fs.
  Hypothesis HT : / 2 ^ 200 <= T <= 2 ^ 200.
  Hypothesis HN : 2 <= INR n <= 2 ^ 40.
  Hypothesis HF : / 2 ^ 200 <= Rabs f.
  Hypothesis HG : Rabs f * T <= 2 ^ 12.

  Local Notation dt := (rnd (T / INR n)).

  Lemma phase_error i : (i < n)%nat ->
    let x := rnd (rnd (rnd (2 * float_pi) * f) * rnd (fl_gaussian_midpoint rnd dt i - rnd (T / 2))) in
    Rabs (x - 2 * PI * f * (midpoint T n i - T / 2)) <= 38 * eps * (Rabs f * T) /\ Rabs x <= 2 ^ 14.
  Proof using HT HN HF HG.
    intros L; cbv zeta; rewrite rnd_2pi.
    assert (C := centre_apx T n (proj1 HT) HN i _ L eq_refl); assert (P := T_pos T (proj1 HT)); assert (U := place_range T n (proj1 HT) HN i L).
    replace (midpoint T n i - T / 2) with (T * place T n i) by (unfold place; field; lra).
    set (d := rnd (_ - _)) in *; clearbody d; set (u := place T n i) in *; clearbody u.
    assert (E := eps_pos); assert (ES := eps_small); assert (PP := PI_bounds); assert (FP := float_pi_bound).
    assert (ten : 10 ^ 16 = 10000000000000000) by ring; rewrite ten in FP.
    assert (P4 : 3 < PI < 3.15) by (assert (Q := PI_2_3_7_ineq 2); cbn in Q; assert (Z := float_pi_bound); rewrite ten in Z; unfold float_pi in Z; lra).
    assert (P5 : 3 < float_pi < 3.15) by lra.
    set (h := Rabs f) in *; assert (H0 : 0 < h) by (assert (Z := inv_pow_pos 200); lra).
    assert (FH : L_FloatProperties.floor h) by (right; apply (big_900 200); auto; lia).
    assert (D1 : Rabs (d - T * u) <= 4.4 * eps * T).
    { unfold apx in C; replace (d - T * u) with ((d / T - u) * T) by (field; lra); rewrite Rabs_mult, (Rabs_pos_eq T) by lra.
      apply Rmult_le_compat_r; lra. }
    assert (D2 : Rabs d <= 0.51 * T).
    { replace d with (T * u + (d - T * u)) by ring; eapply Rle_trans; [apply (plus_bound _ _ (0.5 * T) (4.4 * eps * T))|]; auto.
      - rewrite Rabs_mult, (Rabs_pos_eq T), (Rmult_comm 0.5) by lra; apply Rmult_le_compat_l; [lra|apply Rabs_le; lra].
      - assert (eps * T <= / 1000000000 * T) by (apply Rmult_le_compat_r; lra); lra. }
    assert (A1 : Rabs (2 * float_pi * f) <= 6.3 * h) by (rewrite Rabs_mult, Rabs_pos_eq by lra; fold h; apply Rmult_le_compat_r; lra).
    assert (A2 := errm h 6.3 (2 * float_pi * f) FH A1); set (w := rnd (2 * float_pi * f)) in *; clearbody w.
    assert (A3 : Rabs (w - 2 * PI * f) <= 12.7 * eps * h).
    { replace (w - 2 * PI * f) with (w - 2 * float_pi * f + 2 * (float_pi - PI) * f) by ring.
      eapply Rle_trans; [apply plus_bound; [exact A2|]; apply (mult_bound _ f (6.3 * eps) h)|].
      - assert (Q := acc_2pi); unfold acc in Q; replace (2 * (float_pi - PI)) with (2 * float_pi - 2 * PI) by ring.
        eapply Rle_trans; [exact Q|]; rewrite Rmult_1_l, (Rmult_comm 6.3); apply Rmult_le_compat_l; lra.
      - apply Rle_refl.
      - assert (0 < eps * h) by (apply Rmult_lt_0_compat; lra); lra. }
    assert (EH : 0 <= eps * h <= / 1000000000 * h) by (split; [apply Rmult_le_pos; lra|apply Rmult_le_compat_r; lra]).
    assert (A4 : Rabs w <= 6.31 * h).
    { replace w with (2 * PI * f + (w - 2 * PI * f)) by ring; eapply Rle_trans; [apply (plus_bound _ _ (6.3 * h) (12.7 * eps * h)); auto|lra].
      rewrite Rabs_mult, Rabs_pos_eq by lra; fold h; apply Rmult_le_compat_r; lra. }
    assert (g0 : 0 < h * T) by (apply Rmult_lt_0_compat; lra).
    assert (FG : L_FloatProperties.floor (h * T)) by (right; refine (big_900 _ _ _ (big_prod _ _ _ _ HF (proj1 HT))); lia).
    assert (B1 : Rabs (w * d - 2 * PI * f * (T * u)) <= 34.2 * eps * (h * T)).
    { replace (w * d - 2 * PI * f * (T * u)) with ((w - 2 * PI * f) * d + 2 * PI * f * (d - T * u)) by ring.
      eapply Rle_trans; [apply plus_bound; [apply mult_bound; [exact A3|exact D2]|apply (mult_bound _ _ (6.3 * h) (4.4 * eps * T)); auto]|].
      - rewrite Rabs_mult, Rabs_pos_eq by lra; fold h; apply Rmult_le_compat_r; lra.
      - assert (0 < eps * (h * T)) by (apply Rmult_lt_0_compat; lra).
        replace (12.7 * eps * h * (0.51 * T) + 6.3 * h * (4.4 * eps * T)) with ((12.7 * 0.51 + 6.3 * 4.4) * (eps * (h * T))) by ring.
        replace (34.2 * eps * (h * T)) with (34.2 * (eps * (h * T))) by ring; apply Rmult_le_compat_r; lra. }
    assert (B2 : Rabs (w * d) <= 3.22 * (h * T)).
    { eapply Rle_trans; [apply mult_bound; [exact A4|exact D2]|].
      replace (6.31 * h * (0.51 * T)) with (6.31 * 0.51 * (h * T)) by ring; apply Rmult_le_compat_r; lra. }
    assert (B3 := errm (h * T) 3.22 (w * d) FG B2); set (x := rnd (w * d)) in *; clearbody x.
    assert (EG : 0 <= eps * (h * T) <= / 1000000000 * (h * T)) by (split; [apply Rmult_le_pos; lra|apply Rmult_le_compat_r; lra]).
    split.
    - replace (x - 2 * PI * f * (T * u)) with (x - w * d + (w * d - 2 * PI * f * (T * u))) by ring.
      eapply Rle_trans; [apply plus_bound; [exact B3|exact B1]|]; lra.
    - replace x with (w * d + (x - w * d)) by ring; eapply Rle_trans; [apply plus_bound; [exact B2|exact B3]|].
      replace (2 ^ 14) with (4 * 2 ^ 12) by ring; lra.
  Qed.

  Lemma modulated_error i : (i < n)%nat ->
    Rabs (fl_gaussian_modulated rnd fs fe float_pi f T (fl_gaussian_midpoint rnd dt i) - signal f T (midpoint T n i))
      <= (360 + 38 * (Rabs f * T)) * eps /\
    Rabs (signal f T (midpoint T n i)) <= 1.
  Proof using HT HN HF HG AE AS.
    intros L; destruct (phase_error i L) as [X XB]; unfold fl_gaussian_modulated, signal.
    assert (B := base_acc T n (proj1 HT) HN fe i AE L); assert (ER := envelope_size T n (proj1 HT) HN i L).
    assert (E := eps_pos); assert (ES := eps_small).
    set (y := rnd (rnd (2 * float_pi) * f) * rnd (_ - rnd (T / 2))) in *.
    assert (S := AS (rnd y) (format_rnd y) XB); rewrite inv_50 in S.
    set (x0 := 2 * PI * f * _) in *; set (b := fl_gaussian_base _ _ _ _) in *; set (e0 := envelope T _) in *; set (s := fs (rnd y)) in *; set (x := rnd y) in *.
    clearbody x0 b e0 s x.
    assert (g0 : 0 <= Rabs f * T <= 2 ^ 12) by (split; [apply Rmult_le_pos; [apply Rabs_pos|assert (P := T_pos T (proj1 HT)); lra]|auto]).
    set (g := Rabs f * T) in *; clearbody g.
    assert (E0 : 0 <= e0) by (assert (Z := inv_pow_pos 20); lra).
    assert (SB : forall z, Rabs (sin z) <= 1) by (intros z; apply Rabs_le; assert (Z := SIN_bound z); lra).
    assert (S1 : Rabs s <= 1.01) by (replace s with (sin x + (s - sin x)) by ring; eapply Rle_trans; [apply plus_bound; [apply SB|exact S]|lra]).
    assert (S2 : Rabs (s - sin x0) <= (8 + 38 * g) * eps).
    { replace (s - sin x0) with (s - sin x + (sin x - sin x0)) by ring; eapply Rle_trans; [apply plus_bound; [exact S|apply sin_lipschitz]|]; lra. }
    assert (B1 : Rabs (b - e0) <= 347 * eps).
    { eapply Rle_trans; [exact B|]; rewrite <- (Rmult_1_r (347 * eps)) at 2; apply Rmult_le_compat_l; lra. }
    assert (M1 : Rabs (b * s - e0 * sin x0) <= (358.5 + 38 * g) * eps).
    { replace (b * s - e0 * sin x0) with ((b - e0) * s + e0 * (s - sin x0)) by ring.
      eapply Rle_trans; [apply plus_bound; [apply mult_bound; [exact B1|exact S1]|apply (mult_bound _ _ 1 ((8 + 38 * g) * eps)); [rewrite Rabs_pos_eq; lra|exact S2]]|].
      lra. }
    assert (V : Rabs (e0 * sin x0) <= 1).
    { replace 1 with (1 * 1) by ring; apply mult_bound; [rewrite Rabs_pos_eq; lra|apply SB]. }
    split; [|exact V].
    assert (GE : (358.5 + 38 * g) * eps <= / 1000).
    { apply Rle_trans with ((358.5 + 38 * 2 ^ 12) * eps); [apply Rmult_le_compat_r; lra|unfold eps; lra]. }
    assert (M2 : Rabs (b * s) <= 1.01 * 1).
    { replace (b * s) with (e0 * sin x0 + (b * s - e0 * sin x0)) by ring; eapply Rle_trans; [apply plus_bound; [exact V|exact M1]|lra]. }
    assert (R := errm 1 1.01 (b * s) ltac:(right; apply (big_900 0); [lia|cbn [pow]; lra]) M2).
    replace (rnd (b * s) - e0 * sin x0) with (rnd (b * s) - b * s + (b * s - e0 * sin x0)) by ring.
    eapply Rle_trans; [apply plus_bound; [exact R|exact M1]|]; lra.
  Qed.

  Definition signals : list R := map (fl_gaussian_modulated rnd fs fe float_pi f T) (fl_gaussian_midpoints rnd n dt).
  Definition exact_signals : list R := samples (signal f T) T n.

  Definition near_sample (x y : R) : Prop := Rabs (x - y) <= (360 + 38 * (Rabs f * T)) * eps /\ Rabs y <= 1.
  Lemma signals_near : Forall2 near_sample signals exact_signals.
  Proof using HT HN HF HG AE AS.
    unfold signals, exact_signals, samples, fl_gaussian_midpoints, range; rewrite map_map; apply Forall2_maps.
    intros i I; apply in_seq in I; apply modulated_error; lia.
  Qed.
  Lemma signals_length : List.length signals = n.
  Proof. unfold signals, fl_gaussian_midpoints, range; rewrite !map_length, seq_length; reflexivity. Qed.

  Variables (omega p p0 : R).
  Hypothesis HW : / 2 ^ 200 <= omega <= 2 ^ 200.
  Hypothesis HP : is_maximum p signals.
  Hypothesis HP0 : is_maximum p0 exact_signals.
  Hypothesis HB : 4 * sample_error f T <= p0.

  Lemma error_pos : 512 * eps <= sample_error f T.
  Proof using HT. rewrite sample_error_eps; assert (E := eps_pos); assert (P := T_pos T (proj1 HT)); assert (Z := Rmult_le_pos _ _ (Rabs_pos f) (Rlt_le _ _ P)); nra. Qed.
  Lemma error_room : (362 + 38 * (Rabs f * T)) * eps <= sample_error f T.
  Proof using HT. rewrite sample_error_eps; assert (E := eps_pos); assert (P := T_pos T (proj1 HT)); assert (Z := Rmult_le_pos _ _ (Rabs_pos f) (Rlt_le _ _ P)); nra. Qed.
  Lemma peak_near : Rabs (p - p0) <= sample_error f T.
  Proof using HT HN HF HG AE AS HP HP0.
    apply (max_near _ signals exact_signals); auto.
    assert (F := signals_near); revert F; generalize signals exact_signals; intros xs ys F.
    induction F as [|x y xs ys [H _] F IH]; constructor; auto; eapply Rle_trans; [exact H|]; eapply Rle_trans; [|apply error_room].
    apply Rmult_le_compat_r; [left; apply eps_pos|lra].
  Qed.

  Definition signed_rate (v : R) : R := rnd (rnd (omega * v) / p).

  Lemma signed_rate_near x y : near_sample x y -> Rabs y <= p0 ->
    Rabs (signed_rate x - omega * y / p0) <= omega * (2.7 * (sample_error f T / p0)) /\ Rabs (signed_rate x) <= 1.7 * omega.
  Proof using HT HN HF HG AE AS HP HP0 HW HB.
    intros [A Y1] YP; assert (EP := error_pos); assert (ER := error_room); assert (PN := peak_near); assert (E := eps_pos); assert (ES := eps_small).
    assert (W0 : 0 < omega) by (assert (Z := inv_pow_pos 200); lra).
    assert (FW : L_FloatProperties.floor omega) by (right; apply (big_900 200); [lia|lra]).
    assert (P1 : p0 <= 1).
    { destruct (Forall2_right _ _ _ _ signals_near (proj1 HP0)) as [z [_ [_ H]]]; apply Rabs_le_inv in H; lra. }
    set (d := sample_error f T) in *; clearbody d; set (g := Rabs f * T) in *; clearbody g.
    assert (P0 : 0 < p0) by lra; apply Rabs_le_inv in PN; assert (PH : 3 / 4 * p0 <= p) by lra.
    assert (X1 : Rabs x <= 1.26) by (replace x with (y + (x - y)) by ring; eapply Rle_trans; [apply plus_bound; [exact Y1|exact A]|]; lra).
    assert (X2 : Rabs (omega * x) <= 1.26 * omega) by (rewrite Rabs_mult, (Rabs_pos_eq omega), Rmult_comm by lra; apply Rmult_le_compat_r; lra).
    unfold signed_rate; assert (R1 := errm omega 1.26 (omega * x) FW X2); set (a := rnd (omega * x)) in *; clearbody a.
    assert (A1 : Rabs (a - omega * y) <= omega * d).
    { replace (a - omega * y) with (a - omega * x + omega * (x - y)) by ring.
      eapply Rle_trans; [apply plus_bound; [exact R1|apply (mult_bound omega _ omega); [rewrite Rabs_pos_eq; lra|exact A]]|].
      apply Rle_trans with (omega * ((362 + 38 * g) * eps)); [|apply Rmult_le_compat_l; lra].
      assert (0 < omega * eps) by (apply Rmult_lt_0_compat; lra); lra. }
    assert (I0 : 0 < / p0) by (apply Rinv_0_lt_compat; auto).
    assert (IP : / p <= 4 / 3 * / p0) by (replace (4 / 3 * / p0) with (/ (3 / 4 * p0)) by (field; lra); apply Rinv_le_contravar; lra).
    assert (I1 : 0 < / p) by (apply Rinv_0_lt_compat; lra).
    assert (D1 : Rabs (a / p - omega * y / p0) <= omega * (8 / 3 * (d / p0))).
    { replace (a / p - omega * y / p0) with (((a - omega * y) + omega * (y / p0) * (p0 - p)) * / p) by (field; lra).
      rewrite Rabs_mult, (Rabs_pos_eq (/ p)) by lra.
      apply Rle_trans with ((omega * d + omega * 1 * d) * (4 / 3 * / p0)); [|apply Req_le; field; lra].
      apply Rmult_le_compat; [apply Rabs_pos|lra| |auto].
      apply plus_bound; [exact A1|]; apply mult_bound; [apply mult_bound; [rewrite Rabs_pos_eq; lra|]|apply Rabs_le; lra].
      unfold Rdiv; rewrite Rabs_mult, (Rabs_pos_eq (/ p0)) by lra; apply (Rmult_le_reg_r p0); auto; rewrite Rmult_assoc, Rinv_l by lra; lra. }
    assert (dp : 512 * eps <= d / p0 <= 1 / 4).
    { split; apply (Rmult_le_reg_r p0); auto; unfold Rdiv; rewrite ?Rmult_assoc, ?Rinv_l, ?Rmult_1_r by lra; nra. }
    set (q := d / p0) in *; clearbody q.
    assert (YW : Rabs (omega * y / p0) <= omega).
    { unfold Rdiv; rewrite Rmult_assoc, Rabs_mult, (Rabs_pos_eq omega) by lra; rewrite <- (Rmult_1_r omega) at 2; apply Rmult_le_compat_l; [lra|].
      rewrite Rabs_mult, (Rabs_pos_eq (/ p0)) by lra; apply (Rmult_le_reg_r p0); auto; rewrite Rmult_assoc, Rinv_l by lra; lra. }
    assert (AP : Rabs (a / p) <= 1.67 * omega).
    { replace (a / p) with (omega * y / p0 + (a / p - omega * y / p0)) by ring; eapply Rle_trans; [apply plus_bound; [exact YW|exact D1]|]; nra. }
    assert (R2 := errm omega 1.67 (a / p) FW AP); set (v := rnd (a / p)) in *; clearbody v.
    assert (OE : 0 < omega * eps) by (apply Rmult_lt_0_compat; lra).
    split.
    - replace (v - omega * y / p0) with (v - a / p + (a / p - omega * y / p0)) by ring.
      eapply Rle_trans; [apply plus_bound; [exact R2|exact D1]|].
      assert (1.671 * eps <= 0.01 * q) by lra.
      assert (omega * (1.671 * eps) <= omega * (0.01 * q)) by (apply Rmult_le_compat_l; lra); lra.
    - replace v with (a / p + (v - a / p)) by ring; eapply Rle_trans; [apply plus_bound; [exact AP|exact R2]|]; nra.
  Qed.
End Modulated.

Lemma total_near d xs ys : 0 <= d -> Forall2 (fun x y => Rabs (x - y) <= d) xs ys -> Rabs (total xs - total ys) <= INR (List.length xs) * d.
Proof.
  intros D; induction 1 as [|x y xs ys H F IH]; cbn [total]; [cbn; rewrite Rminus_0_r, Rabs_R0; lra|].
  change (List.length (x :: xs)) with (S (List.length xs)); rewrite S_INR.
  replace (x + total xs - (y + total ys)) with (x - y + (total xs - total ys)) by ring; eapply Rle_trans; [apply Rabs_triang|]; lra.
Qed.

Lemma xdiv_all (w rndv : R -> R) p l : p <> 0 -> map (fun v => fl_xdiv rndv (w v) p) l = map (fun v => Fin (rndv (w v / p))) l.
Proof.
  intros P; apply map_ext; intros v; unfold fl_xdiv, xdiv.
  assert (eqb p 0 = false) as -> by (destruct (eqb p 0) eqn:Z; auto; apply eqb_true in Z; contradiction); reflexivity.
Qed.

Lemma float_modulated_built fs fe omega m T f n peak : accurate_exp fe -> accurate_sine fs -> gaussian_floats omega m T ->
  / 2 ^ 200 <= Rabs f -> Rabs f * T <= 2 ^ 12 -> float_requirements omega m T -> fl_gaussian_count rnd T m = n ->
  is_maximum peak (samples (signal f T) T n) -> 4 * sample_error f T <= peak ->
  exists vs c, fl_new_modulated_gaussian_control rnd fs fe float_pi omega m T f = Ok c /\
    describes (map (float_signed_seg (rnd (T / INR n))) vs) c /\ List.length vs = n /\
    Forall2 (fun v s => Rabs (v - omega * s / peak) <= omega * (2.7 * (sample_error f T / peak)) /\ Rabs v <= 1.7 * omega)
      vs (samples (signal f T) T n).
Proof.
  intros AE AS G HF HG FR EN PK B; assert (L : m < T) by apply FR; destruct (inputs_range _ _ _ G L) as [HT HW].
  destruct (float_count _ _ _ G L) as [n' [E [C [N2 N]]]]; rewrite EN in E; subst n'.
  assert (f0 : f <> 0) by (intros ->; rewrite Rabs_R0 in HF; assert (Z := inv_pow_pos 200); lra).
  rewrite (float_gaussian_open fs fe omega m T f FR); cbv zeta; rewrite EN; clear EN.
  unfold fl_gaussian_segments; rewrite (proj2 (neqb_true f 0) f0).
  fold (signals fs fe T n f); assert (LS := signals_length fs fe T n f).
  destruct (np_amax_ok (signals fs fe T n f)) as [p HP]; [intros Z; rewrite Z in LS; cbn in LS; lia|].
  rewrite HP; apply amax_maximum in HP; cbn [bind].
  assert (T0 : T <> 0) by (assert (Z := inv_pow_pos 200); lra).
  assert (PN := peak_near fs fe T n f AE AS HT N HF HG p peak HP PK); assert (EP := error_pos T f HT); assert (E0 := eps_pos).
  apply Rabs_le_inv in PN.
  rewrite (xdiv_all (fun v => rnd (omega * v))) by lra.
  change (map (fun v => Fin (rnd (rnd (omega * v) / p))) (signals fs fe T n f)) with (map (fun v => Fin (signed_rate omega p v)) (signals fs fe T n f)).
  rewrite all_finite_map.
  set (vs := map (signed_rate omega p) (signals fs fe T n f)).
  assert (LV : List.length vs = n) by (unfold vs; rewrite map_length; auto).
  destruct (float_construct (rnd (T / INR n)) vs (step_pos T n (proj1 HT) N)) as [c [HC D]]; rewrite LV in HC.
  exists vs, c; split; [exact HC|]; split; [exact D|]; split; [auto|].
  unfold vs; rewrite <- (map_id (samples (signal f T) T n)); apply (Forall2_map_both _ (near_sample T f)); [|apply (signals_near fs fe T n f AE AS HT N HF HG)].
  intros x y _ Y A; apply (signed_rate_near fs fe T n f AE AS HT N HF HG omega p peak HW HP PK B x y A).
  apply (samples_bounded (signal f T) T n peak); auto; intros t; apply signal_mirror; auto.
Qed.

(** the half turn by numpy.pi *)
Lemma half_turn_near e dt v : -1 < e -> 0 < dt ->
  qnear ((1 + e) * Rabs v * dt * eps) (qnoisy e 0 (float_signed_seg dt v)) (qnoisy e 0 (signed_seg dt v)).
Proof.
  intros E D; assert (P := eps_pos); assert (V := Rabs_pos v).
  assert (Z : 0 <= (1 + e) * Rabs v * dt * eps) by (repeat apply Rmult_le_pos; lra).
  unfold float_signed_seg, signed_seg; destruct (Rle_dec 0 v) as [|N].
  - eapply qnear_mono; [exact Z|apply qnear_refl].
  - unfold qnoisy; cbn [g_rabi g_phi g_det g_dur]; rewrite !qseg_exp by auto; apply qexp_near; auto.
    rewrite cos_PI, sin_PI.
    set (k := (1 + e) * Rabs v * dt) in *.
    replace ((1 + e) * Rabs v * cos float_pi * dt - (1 + e) * Rabs v * -1 * dt) with (k * (cos float_pi + 1)) by (unfold k; ring).
    replace ((1 + e) * Rabs v * sin float_pi * dt - (1 + e) * Rabs v * 0 * dt) with (k * sin float_pi) by (unfold k; ring).
    replace (((0 + 0) * dt - (0 + 0) * dt) ^ 2) with 0 by ring; clearbody k.
    assert (C := versine (PI - float_pi)); rewrite <- (cos_neg (PI - float_pi)) in C.
    replace (- (PI - float_pi)) with (float_pi - PI) in C by ring; rewrite cos_minus, cos_PI, sin_PI in C.
    assert (S := sin2_cos2 float_pi); unfold Rsqr in S.
    assert (Q : (cos float_pi + 1) ^ 2 + sin float_pi ^ 2 <= (PI - float_pi) ^ 2) by lra.
    assert (FP := float_pi_bound); assert (ten : 10 ^ 16 = 10000000000000000) by ring; rewrite ten in FP.
    assert (Q2 : (PI - float_pi) ^ 2 <= (2 * eps) ^ 2) by (apply pow_incr; unfold eps; lra).
    replace ((k * (cos float_pi + 1)) ^ 2 + (k * sin float_pi) ^ 2 + 0) with (k ^ 2 * ((cos float_pi + 1) ^ 2 + sin float_pi ^ 2)) by ring.
    replace ((2 * (k * eps)) ^ 2) with (k ^ 2 * (2 * eps) ^ 2) by ring; apply Rmult_le_compat_l; [apply pow2_ge_0|lra].
Qed.

Lemma unit_signed e dt (vs : list R) (seg_of : R -> seg) : 0 < dt -> (forall v, g_dur (seg_of v) = dt) -> unit_quat (qevolution e 0 (map seg_of vs)).
Proof.
  intros D H; induction vs as [|v vs IH]; cbn [map qevolution]; [apply unit_one|]; apply unit_mul; auto.
  unfold qnoisy; rewrite qseg_exp by (rewrite H; auto); apply unit_qexp.
Qed.

Lemma half_turns_near e dt W vs : -1 < e -> 0 < dt -> (forall v, In v vs -> Rabs v <= W) ->
  qnear (INR (List.length vs) * ((1 + e) * W * dt * eps)) (qevolution e 0 (map (float_signed_seg dt) vs)) (qevolution e 0 (map (signed_seg dt) vs)).
Proof.
  intros E D; induction vs as [|v vs IH]; intros H.
  - cbn [map qevolution List.length INR]; rewrite Rmult_0_l; apply qnear_refl.
  - cbn [map qevolution]; change (List.length (v :: vs)) with (S (List.length vs)); rewrite S_INR, Rmult_plus_distr_r, Rmult_1_l.
    apply qnear_mul.
    + apply (unit_signed e dt); auto.
    + unfold qnoisy; rewrite qseg_exp by auto; apply unit_qexp.
    + apply IH; intros; apply H; right; auto.
    + eapply qnear_mono; [|apply half_turn_near; auto].
      apply Rmult_le_compat_r; [left; apply eps_pos|]; apply Rmult_le_compat_r; [lra|]; apply Rmult_le_compat_l; [lra|]; apply H; left; auto.
Qed.

Lemma planar_zero : qplanar 0 0 = qone.
Proof. unfold qplanar; rewrite cos_0, sin_0; apply q_eq; simpl; ring. Qed.

Theorem float_gaussian_counted fs fe omega m T f c l :
  accurate_exp fe -> accurate_sine fs -> gaussian_floats omega m T -> / 2 ^ 200 <= Rabs f -> Rabs f * T <= 2 ^ 12 ->
  fl_new_modulated_gaussian_control rnd fs fe float_pi omega m T f = Ok c -> describes l c ->
  exists n, fl_gaussian_count rnd T m = n /\ nearly_ceiling (T / m) n /\ (2 <= n)%nat /\
    forall peak, is_maximum peak (samples (signal f T) T n) -> 4 * sample_error f T <= peak ->
    exists vs, l = map (float_signed_seg (rnd (T / INR n))) vs /\ List.length vs = n /\
      (forall i v, nth_error vs i = Some v ->
         Rabs (v - omega * signal f T (midpoint T n i) / peak) <= 3 * omega * (sample_error f T / peak)) /\
      forall e, -1 < e ->
        close_to (2 * (1 + e) * omega * T * (sample_error f T / peak)) (noisy_evolution e 0 l) mone.
Proof.
  intros AE AS G HF HG H DL; assert (FR := float_gaussian_closed _ _ _ _ _ _ _ H).
  assert (L : m < T) by apply FR; destruct (inputs_range _ _ _ G L) as [HT HW].
  destruct (float_count _ _ _ G L) as [n [EN [C [N2 N]]]]; exists n; split; [auto|]; split; [auto|]; split; [auto|].
  intros peak PK B; destruct (float_modulated_built fs fe omega m T f n peak AE AS G HF HG FR EN PK B) as [vs [c' [E [D [LV F]]]]].
  rewrite H in E; injection E as <-.
  exists vs; split; [eapply describes_fun; eauto|]; split; [auto|].
  assert (l = map (float_signed_seg (rnd (T / INR n))) vs) by (eapply describes_fun; eauto); subst l.
  assert (EP := error_pos T f HT); assert (E0 := eps_pos); assert (ES := eps_small); assert (T0 := T_pos T (proj1 HT)).
  assert (P0 : 0 < peak) by lra; assert (W0 : 0 < omega) by (assert (Z := inv_pow_pos 200); lra).
  assert (P1 : peak <= 1).
  { destruct (proj1 (in_samples (signal f T) T n peak) (proj1 PK)) as [i [I ->]].
    assert (Z := proj2 (modulated_error fs fe T n f AE AS HT N HF HG i I)); apply Rabs_le_inv in Z; lra. }
  assert (Q : 512 * eps <= sample_error f T / peak).
  { apply (Rmult_le_reg_r peak); auto; replace (sample_error f T / peak * peak) with (sample_error f T) by (field; lra); nra. }
  set (q := sample_error f T / peak) in *; clearbody q.
  split.
  { intros i v V; assert (I : (i < n)%nat) by (rewrite <- LV; apply nth_error_Some; congruence).
    destruct (Forall2_nth _ _ _ i v _ F V (nth_samples _ T n i I)) as [A _]; eapply Rle_trans; [exact A|]; nra. }
  intros e E; set (dt := rnd (T / INR n)) in *; assert (D0 : 0 < dt) by (apply step_pos; auto; apply HT).
  assert (DA : INR n * dt <= 1.01 * T).
  { assert (A := step_acc T n (proj1 HT) N); fold dt in A; apply acc_abs in A.
    assert (X : INR n * (T / INR n) = T) by (field; lra).
    assert (T' : INR n * dt <= INR n * (T / INR n + 1 * eps * (T / INR n))) by (apply Rmult_le_compat_l; lra).
    replace (INR n * (T / INR n + 1 * eps * (T / INR n))) with (INR n * (T / INR n) * (1 + eps)) in T' by ring; rewrite X in T'; nra. }
  assert (TV : Rabs (total vs) <= INR n * (omega * (2.7 * q))).
  { assert (Z : total (map (fun s => omega * s / peak) (samples (signal f T) T n)) = 0).
    { rewrite (map_ext _ (fun s => s * (omega * / peak))) by (intros; unfold Rdiv; ring).
      rewrite total_scale_r, samples_balanced; [ring|intros t; apply signal_mirror; lra]. }
    rewrite <- LV, <- (Rminus_0_r (total vs)), <- Z; apply total_near; [apply Rmult_le_pos; lra|].
    rewrite <- (map_id vs); apply (Forall2_map_both _ _ (fun x => x) _ _ _) with (2 := F); intros x y _ _ [A _]; exact A. }
  rewrite noisy_evolution_qmat, <- qmat_one; apply qnear_close.
  eapply qnear_mono; [|eapply qnear_trans; [apply (half_turns_near e dt (1.7 * omega)); auto|]].
  2:{ intros v V; destruct (Forall2_left _ _ _ _ F V) as [y [_ [_ A]]]; exact A. }
  2:{ rewrite qevolution_signed, <- planar_zero by auto; apply planar_near. }
  rewrite LV, Rminus_0_r; unfold Rdiv; rewrite !Rabs_mult, (Rabs_pos_eq (1 + e)), (Rabs_pos_eq dt), (Rabs_pos_eq (/ 2)) by lra.
  set (k := (1 + e) * omega * T * q).
  assert (K : 0 < (1 + e) * omega) by (apply Rmult_lt_0_compat; lra).
  assert (A1 : (1 + e) * (dt * Rabs (total vs)) * / 2 <= 1.37 * k).
  { apply Rle_trans with ((1 + e) * (dt * (INR n * (omega * (2.7 * q)))) * / 2).
    - apply Rmult_le_compat_r; [lra|]; apply Rmult_le_compat_l; [lra|]; apply Rmult_le_compat_l; lra.
    - replace ((1 + e) * (dt * (INR n * (omega * (2.7 * q)))) * / 2) with ((1 + e) * omega * (INR n * dt) * (1.35 * q)) by lra.
      apply Rle_trans with ((1 + e) * omega * (1.01 * T) * (1.35 * q)); [apply Rmult_le_compat_r; [lra|]; apply Rmult_le_compat_l; lra|].
      assert (0 <= k) by (unfold k; apply Rmult_le_pos; [apply Rmult_le_pos; lra|lra]).
      replace ((1 + e) * omega * (1.01 * T) * (1.35 * q)) with (1.01 * 1.35 * k) by (unfold k; ring); lra. }
  assert (A2 : INR n * ((1 + e) * (1.7 * omega) * dt * eps) <= 0.1 * k).
  { replace (INR n * ((1 + e) * (1.7 * omega) * dt * eps)) with ((1 + e) * omega * (INR n * dt) * (1.7 * eps)) by ring.
    apply Rle_trans with ((1 + e) * omega * (1.01 * T) * (1.7 * (/ 512 * q))).
    - apply Rmult_le_compat.
      + apply Rmult_le_pos; [lra|]. apply Rmult_le_pos; lra.
      + lra.
      + apply Rmult_le_compat_l; lra.
      + lra.
    - assert (0 <= k) by (unfold k; apply Rmult_le_pos; [apply Rmult_le_pos; lra|lra]).
      replace ((1 + e) * omega * (1.01 * T) * (1.7 * (/ 512 * q))) with (1.01 * 1.7 * / 512 * k) by (unfold k; ring); lra. }
  assert (A3 : 0 <= k) by (unfold k; apply Rmult_le_pos; [apply Rmult_le_pos; lra|lra]).
  replace (2 * (1 + e) * omega * T * q) with (2 * k) by (unfold k; ring); lra.
Qed.
Theorem float_gaussian_modulated fs fe omega m T f c l :
  accurate_exp fe -> accurate_sine fs -> gaussian_floats omega m T -> / 2 ^ 200 <= Rabs f -> Rabs f * T <= 2 ^ 12 ->
  fl_new_modulated_gaussian_control rnd fs fe float_pi omega m T f = Ok c -> describes l c ->
  exists n, nearly_ceiling (T / m) n /\ (2 <= n)%nat /\
    forall peak, is_maximum peak (samples (signal f T) T n) -> 4 * sample_error f T <= peak ->
    exists vs, l = map (float_signed_seg (rnd (T / INR n))) vs /\ List.length vs = n /\
      (forall i v, nth_error vs i = Some v ->
         Rabs (v - omega * signal f T (midpoint T n i) / peak) <= 3 * omega * (sample_error f T / peak)) /\
      forall e, -1 < e ->
        close_to (2 * (1 + e) * omega * T * (sample_error f T / peak)) (noisy_evolution e 0 l) mone.
Proof. intros AE AS G HF HG H DL; destruct (float_gaussian_counted fs fe omega m T f c l AE AS G HF HG H DL) as [n [_ X]]; exists n; exact X. Qed.

(** ** Acceptance *)

Theorem float_gaussian_accepts fs fe omega m T f :
  accurate_exp fe -> accurate_sine fs -> gaussian_floats omega m T ->
  ((exists c, fl_new_modulated_gaussian_control rnd fs fe float_pi omega m T f = Ok c) ->
     m < T /\ reaches (- / 2 ^ 50) omega T) /\
  (~ (m < T /\ reaches (- / 2 ^ 50) omega T) ->
     exists s args ex, fl_new_modulated_gaussian_control rnd fs fe float_pi omega m T f = Raise (ArgumentsValueError s args ex)) /\
  (m < T -> reaches (/ 2 ^ 50) omega T ->
     exists n, nearly_ceiling (T / m) n /\
     (f = 0 \/ (/ 2 ^ 200 <= Rabs f /\ Rabs f * T <= 2 ^ 12 /\
                exists i, (i < n)%nat /\ 4 * sample_error f T <= Rabs (signal f T (midpoint T n i))) ->
      exists c, fl_new_modulated_gaussian_control rnd fs fe float_pi omega m T f = Ok c)).
Proof.
  intros AE AS G; assert (W0 : 0 < omega) by (destruct G as [_ [_ [_ [W _]]]]; assert (Z := inv_pow_pos 200); lra).
  assert (M0 : 0 < m) by (destruct G as [_ [_ [_ [_ [W _]]]]]; assert (Z := inv_pow_pos 200); lra).
  assert (K : float_requirements omega m T -> m < T /\ reaches (- / 2 ^ 50) omega T).
  { intros [_ [_ [L B]]]; split; [auto|]; destruct (inputs_range _ _ _ G L) as [HT _]; apply (bound_reaches omega T HT W0); auto. }
  split; [intros [c H]; apply K, (float_gaussian_closed _ _ _ _ _ _ _ H)|].
  split; [intros H; apply float_gaussian_rejects; intros F; apply H, K, F|].
  intros L RE; destruct (inputs_range _ _ _ G L) as [HT HW]; destruct (float_count _ _ _ G L) as [n [EN [C [N2 N]]]].
  assert (FR : float_requirements omega m T) by (repeat split; auto; apply (bound_reaches omega T HT W0); auto).
  exists n; split; [auto|]; intros [->|[HF [HG [i [I S]]]]].
  - destruct (float_zero_built fs fe omega m T AE G FR) as [? [? [? [? [c [_ [_ [_ [_ [_ [E _]]]]]]]]]]]; exists c; exact E.
  - destruct (np_amax_ok (samples (signal f T) T n)) as [pk PK]; [apply samples_nonempty; lia|]; apply amax_maximum in PK.
    assert (T0 : T <> 0) by (assert (Z := inv_pow_pos 200); lra).
    assert (B : 4 * sample_error f T <= pk).
    { eapply Rle_trans; [exact S|]; apply (samples_bounded (signal f T) T n pk); auto; [intros t; apply signal_mirror; auto|].
      apply in_samples; eauto. }
    destruct (float_modulated_built fs fe omega m T f n pk AE AS G HF HG FR EN PK B) as [vs [c [E _]]]; exists c; exact E.
Qed.

(** ** No rounding *)

Theorem float_gaussian_exact omega m T f :
  fl_new_modulated_gaussian_control (fun x => x) sin exp PI omega m T f = new_modulated_gaussian_control omega m T f.
Proof.
  unfold fl_new_modulated_gaussian_control, new_modulated_gaussian_control, fl_gaussian_bound, fl_gaussian_width, fl_gaussian_count, gaussian_segment_count.
  repeat (match goal with |- bind ?x _ = bind ?x _ => f_equal; apply functional_extensionality; intros _ end); cbv zeta.
  set (n := Z.to_nat _); change (fl_gaussian_midpoints (fun x => x) n (T / INR n)) with (gaussian_midpoints n (T / INR n)).
  replace (fl_gaussian_segments (fun x => x) sin exp PI omega T f (T / INR n) (gaussian_midpoints n (T / INR n)))
    with (gaussian_segments omega T f (T / INR n) (gaussian_midpoints n (T / INR n))); [reflexivity|].
  unfold gaussian_segments, fl_gaussian_segments; destruct (neqb f 0).
  - change (fl_gaussian_modulated (fun x => x) sin exp PI f T) with (gaussian_modulated f T).
    destruct (np_amax _); [|reflexivity]; cbn [bind]; f_equal; apply map_ext; intros v; unfold fl_xdiv; destruct (xdiv _ _); reflexivity.
  - change (fl_gaussian_base (fun x => x) exp T) with (gaussian_base T).
    destruct (np_amax _); [|reflexivity]; cbn [bind]; f_equal.
    unfold fl_sum; rewrite exact_pairwise, Rplus_0_l, np_sum_total; reflexivity.
Qed.

(** ** Correctly rounded functions *)

Lemma rounded_exp_accurate : accurate_exp (fun x => rnd (exp x)).
Proof.
  intros x _ [L _]; assert (E := exp_pos x).
  assert (B : / 2 ^ 900 <= exp x).
  { apply (big_900 32); [lia|]; apply Rle_trans with (exp (- INR 16)).
    - rewrite exp_Ropp, exp_nat; apply Rinv_le_contravar; [apply pow_lt, exp_pos|].
      assert (X3 := exp_le_3); assert (P1 := exp_pos 1); apply Rle_trans with (4 ^ 16); [apply pow_incr; lra|lra].
    - replace (INR 16) with 16 by (cbn; lra); destruct L as [L|L]; [left; apply exp_increasing; lra|right; f_equal; lra]. }
  assert (A := acc_round _ B); unfold acc in A; eapply Rle_trans; [exact A|].
  unfold Rdiv; rewrite inv_50; assert (P := eps_pos); nra.
Qed.
Lemma rounded_sine_accurate : accurate_sine (fun x => rnd (sin x)).
Proof.
  intros x _ _; assert (S := SIN_bound x).
  assert (A := errm 1 1 (sin x) ltac:(right; apply (big_900 0); [lia|cbn [pow]; lra]) ltac:(apply Rabs_le; lra)).
  rewrite inv_50; assert (P := eps_pos); lra.
Qed.

(** ** Rounding noise taken for a signal *)

Lemma float_pi_below : float_pi + / 2 ^ 54 <= PI.
Proof.
  assert (H := PI_2_3_7_ineq 10); unfold float_pi.
  cbv [sum_f_R0 tg_alt PI_2_3_7_tg Ratan_seq Nat.mul Nat.add] in H.
  rewrite !INR_IZR_INZ in H; cbn [Z.of_nat Pos.of_succ_nat Pos.succ] in H; lra.
Qed.
Lemma sine_float_pi : / 2 ^ 55 <= sin float_pi.
Proof.
  assert (A := float_pi_below); assert (B := float_pi_bound); assert (ten : 10 ^ 16 = 10000000000000000) by ring; rewrite ten in B.
  rewrite <- sin_PI_x; set (x := PI - float_pi) in *; assert (X : / 2 ^ 54 <= x <= / 1000000) by (unfold x; lra); clearbody x.
  assert (P := inv_pow_pos 54); assert (Q := PI_bounds); assert (S := sin_ge_cubic x ltac:(lra)).
  replace (/ 2 ^ 55) with (/ 2 ^ 54 / 2) by (change 55%nat with (54 + 1)%nat; rewrite inv_pow_add; unfold Rdiv; f_equal; f_equal; lra).
  assert (x ^ 3 / 6 <= x / 2); [|lra]; cbn [pow]; assert (0 <= x * x <= 1) by nra; nra.
Qed.

Lemma dyadic z k : (Z.abs z < 2 ^ 53)%Z -> (k <= 1000)%nat -> binary64_format (IZR z * / 2 ^ k).
Proof.
  intros H K; apply generic_format_FLT; exists (Float radix2 z (- Z.of_nat k)); [|exact H|cbn; lia].
  unfold F2R; cbn [Fnum Fexp]; rewrite bpow_inv; reflexivity.
Qed.
Lemma rnd_dyadic z k x : (Z.abs z < 2 ^ 53)%Z -> (k <= 1000)%nat -> x = IZR z * / 2 ^ k -> rnd x = x.
Proof. intros H K ->; apply rnd_format, dyadic; auto. Qed.

(** a request whose samples all vanish: two segments and a modulation with a
    node in the middle of each *)
Lemma noise_floats : gaussian_floats 100 (1 / 2) 1.
Proof.
  assert (I := inv_pow_le 1 200 ltac:(lia)); assert (J : 2 ^ 7 <= 2 ^ 200) by (apply Rle_pow; [lra|lia]).
  replace (/ 2 ^ 1) with (/ 2) in I by (f_equal; lra); replace (2 ^ 7) with 128 in J by lra.
  split; [replace 100 with (IZR 100 * / 2 ^ 0) by (cbn [pow]; lra); apply dyadic; [reflexivity|lia]|].
  split; [replace (1 / 2) with (IZR 1 * / 2 ^ 1) by (cbn [pow]; lra); apply dyadic; [reflexivity|lia]|].
  split; [replace 1 with (IZR 1 * / 2 ^ 0) by (cbn [pow]; lra); apply dyadic; [reflexivity|lia]|].
  split; [lra|]; split; [lra|]; split; [lra|]; lra.
Qed.
Lemma noise_reaches : reaches (/ 2 ^ 50) 100 1.
Proof.
  unfold reaches; rewrite inv_50; assert (E := eps_small); assert (P := PI_bounds).
  assert (Q : 0 <= sqrt (2 * PI) <= 3).
  { split; [apply sqrt_pos|]; replace 3 with (sqrt (3 * 3)) by (apply sqrt_square; lra); apply sqrt_le_1_alt; lra. }
  nra.
Qed.
Lemma exactly_ceiling k n : INR k <= 2 ^ 50 -> nearly_ceiling (INR k) n -> n = k.
Proof.
  intros K [A B]; assert (n < S k)%nat; [apply INR_lt; rewrite S_INR; lra|].
  assert (I := pos_INR n); assert (k < S n)%nat; [apply INR_lt; rewrite S_INR|lia].
  replace (/ 2 ^ 52) with (2 * eps) in B by (unfold eps; lra).
  assert (L : INR n < INR k + 1) by lra; assert (INR n * (2 * eps) <= 1 / 2); [|lra].
  apply Rle_trans with ((2 ^ 50 + 1) * (2 * eps)); [apply Rmult_le_compat_r; [unfold eps; lra|lra]|unfold eps; lra].
Qed.

Lemma noise_accepted : let fs := fun x => rnd (sin x) in let fe := fun x => rnd (exp x) in
  exists c, fl_new_modulated_gaussian_control rnd fs fe float_pi 100 (1 / 2) 1 2 = Ok c /\
    exists r, In r (rabi_rates c) /\ 99 <= r.
Proof.
  cbv zeta; set (fs := fun x => rnd (sin x)); set (fe := fun x => rnd (exp x)).
  assert (G := noise_floats); assert (L : 1 / 2 < 1) by lra; destruct (inputs_range _ _ _ G L) as [HT HW].
  destruct (float_count _ _ _ G L) as [n [EN [C [N2 N]]]].
  assert (n2 : n = 2%nat) by (apply exactly_ceiling; [cbn; lra|]; replace (INR 2) with (1 / (1 / 2)) by (cbn; field); auto); rewrite n2 in *; clear n n2.
  assert (FR : float_requirements 100 (1 / 2) 1).
  { split; [lra|]; split; [lra|]; split; [lra|]; apply (bound_reaches 100 1 HT ltac:(lra)), noise_reaches. }
  rewrite (float_gaussian_open fs fe 100 (1 / 2) 1 2 FR); cbv zeta; rewrite EN.
  unfold fl_gaussian_segments; rewrite (proj2 (neqb_true 2 0)) by lra.
  fold (signals fs fe 1 2 2); assert (LS := signals_length fs fe 1 2 2).
  destruct (np_amax_ok (signals fs fe 1 2 2)) as [p HP]; [intros Z; rewrite Z in LS; discriminate|].
  rewrite HP; apply amax_maximum in HP; cbn [bind].
  assert (P : / 2 ^ 100 <= p).
  { set (s := fl_gaussian_modulated rnd fs fe float_pi 2 1 (fl_gaussian_midpoint rnd (rnd (1 / INR 2)) 1)).
    assert (I : In s (signals fs fe 1 2 2)) by (unfold signals, fl_gaussian_midpoints; right; left; reflexivity).
    apply Rle_trans with s; [|apply HP; auto]; unfold s, fl_gaussian_modulated.
    assert (B := base_acc 1 2 (proj1 HT) N fe 1 rounded_exp_accurate ltac:(lia)).
    assert (BS := envelope_size 1 2 (proj1 HT) N 1 ltac:(lia)).
    assert (Z20 := inv_pow_pos 20); apply acc_lower in B; [|lra|num].
    assert (X : rnd (rnd (rnd (2 * float_pi) * 2) * rnd (fl_gaussian_midpoint rnd (rnd (1 / INR 2)) 1 - rnd (1 / 2))) = float_pi).
    { rewrite rnd_2pi; replace (2 * float_pi * 2) with (4 * float_pi) by ring; rewrite (rnd_format (4 * float_pi)) by apply format_4pi.
      unfold fl_gaussian_midpoint; cbn [INR]; replace (1 + 1) with 2 by ring.
      rewrite (rnd_dyadic 1 1 (1 / 2)) by (try reflexivity; try lia; cbn [pow]; lra).
      rewrite (rnd_dyadic 1 1 (1 * (1 / 2))) by (try reflexivity; try lia; cbn [pow]; lra).
      rewrite (rnd_dyadic 1 2 (1 / 2 / 2)) by (try reflexivity; try lia; cbn [pow]; lra).
      rewrite (rnd_dyadic 3 2 (1 * (1 / 2) + 1 / 2 / 2)) by (try reflexivity; try lia; cbn [pow]; lra).
      rewrite (rnd_dyadic 1 2 (1 * (1 / 2) + 1 / 2 / 2 - 1 / 2)) by (try reflexivity; try lia; cbn [pow]; lra).
      replace (4 * float_pi * (1 * (1 / 2) + 1 / 2 / 2 - 1 / 2)) with float_pi by field; apply rnd_format, format_pi. }
    rewrite X; unfold fs; assert (SF := sine_float_pi).
    assert (SR : acc 1 (rnd (sin float_pi)) (sin float_pi)) by (apply acc_round, (big_900 55); auto; lia).
    assert (Z55 := inv_pow_pos 55); apply acc_lower in SR; [|lra|num].
    set (b := fl_gaussian_base _ _ _ _) in *; set (e0 := envelope _ _) in *; set (y := rnd (sin float_pi)) in *; clearbody b e0 y.
    assert (B21 : / 2 ^ 21 <= b) by (change 21%nat with (20 + 1)%nat; rewrite inv_pow_add; replace (/ 2 ^ 1) with (/ 2) by (f_equal; lra); lra).
    assert (Y56 : / 2 ^ 56 <= y) by (change 56%nat with (55 + 1)%nat; rewrite inv_pow_add; replace (/ 2 ^ 1) with (/ 2) by (f_equal; lra); lra).
    assert (Q := big_prod _ _ _ _ B21 Y56); rewrite <- (rnd_format (/ 2 ^ 100)).
    - apply rnd_mono; eapply Rle_trans; [|exact Q]; apply inv_pow_le; lia.
    - replace (/ 2 ^ 100) with (IZR 1 * / 2 ^ 100) by ring; apply dyadic; [reflexivity|lia]. }
  assert (Z100 := inv_pow_pos 100); rewrite (xdiv_all (fun v => rnd (100 * v))) by lra.
  change (map (fun v => Fin (rnd (rnd (100 * v) / p))) (signals fs fe 1 2 2)) with (map (fun v => Fin (signed_rate 100 p v)) (signals fs fe 1 2 2)).
  rewrite all_finite_map.
  set (vs := map (signed_rate 100 p) (signals fs fe 1 2 2)).
  assert (LV : List.length vs = 2%nat) by (unfold vs; rewrite map_length; auto).
  destruct (float_construct (rnd (1 / INR 2)) vs (step_pos 1 2 (proj1 HT) N)) as [c [HC D]]; rewrite LV in HC.
  exists c; split; [exact HC|]; destruct D as [-> _]; exists (Rabs (signed_rate 100 p p)); split.
  - rewrite map_map; apply in_map_iff; exists (signed_rate 100 p p); split; [reflexivity|]; apply in_map, HP.
  - unfold signed_rate.
    assert (A1 : acc 1 (rnd (100 * p)) (100 * p)) by (apply acc_round, (big_900 100); [lia|lra]).
    assert (A2 : acc 1 (rnd (100 * p) / p) 100).
    { replace 100 with (100 * p / p) at 2 by (field; lra); unfold Rdiv; apply acc_scale_r; [left; apply Rinv_0_lt_compat; lra|exact A1]. }
    apply (acc_rounded 1 2.1) in A2; [|lra|num|apply (big_900 0); [lia|cbn [pow]; lra]]; apply acc_abs in A2.
    assert (E := eps_small); assert (E0 := eps_pos); apply Rle_trans with (2 := Rle_abs _); lra.
Qed.

Lemma noise_rejected : exists s args ex, new_modulated_gaussian_control 100 (1 / 2) 1 2 = Raise (ArgumentsValueError s args ex).
Proof.
  apply (gaussian_accepts 100 (1 / 2) 1 2); intros [_ [Z|[n [i [C [I S]]]]]]; [lra|]; apply S; clear S.
  assert (n = 2%nat).
  { apply (ceiling_unique (1 / (1 / 2)) n 2 C); replace (1 / (1 / 2)) with 2 by field; split; cbn; lra. }
  subst n; unfold signal, midpoint.
  assert (i = 0 \/ i = 1)%nat as [-> | ->] by lia; cbn [INR].
  - replace (2 * PI * 2 * ((0 + 1 / 2) * (1 / (1 + 1)) - 1 / 2)) with (- PI) by field; rewrite sin_neg, sin_PI; ring.
  - replace (2 * PI * 2 * ((1 + 1 / 2) * (1 / (1 + 1)) - 1 / 2)) with PI by field; rewrite sin_PI; ring.
Qed.

(** ** A quotient rounded down to an integer *)

Definition long_duration : R := 3 + / 2 ^ 50.
Definition short_segment : R := 1 + / 2 ^ 52.
Lemma count_floats : gaussian_floats 100 short_segment long_duration.
Proof.
  unfold short_segment, long_duration.
  assert (I := inv_pow_le 1 200 ltac:(lia)); assert (J : 2 ^ 7 <= 2 ^ 200) by (apply Rle_pow; [lra|lia]).
  replace (/ 2 ^ 1) with (/ 2) in I by (f_equal; lra); replace (2 ^ 7) with 128 in J by lra.
  split; [replace 100 with (IZR 100 * / 2 ^ 0) by (cbn [pow]; lra); apply dyadic; [reflexivity|lia]|].
  split; [replace (1 + / 2 ^ 52) with (IZR 4503599627370497 * / 2 ^ 52) by lra; apply dyadic; [reflexivity|lia]|].
  split; [replace (3 + / 2 ^ 50) with (IZR 3377699720527873 * / 2 ^ 50) by lra; apply dyadic; [reflexivity|lia]|].
  split; [lra|]; split; [lra|]; split; [lra|]; lra.
Qed.
Lemma count_quotient : rnd (long_duration / short_segment) = 3.
Proof.
  assert (V : Valid_exp fexp) by (apply FLT_exp_valid; reflexivity).
  assert (F3 : binary64_format 3) by (replace 3 with (IZR 3 * / 2 ^ 0) by (cbn [pow]; lra); apply dyadic; [reflexivity|lia]).
  assert (S : / 2 ^ 52 = 2 * eps) by (unfold eps; lra); assert (L : / 2 ^ 50 = 8 * eps) by (unfold eps; lra).
  assert (E := eps_pos); assert (ES := eps_small).
  unfold long_duration, short_segment; rewrite S, L.
  assert (Q : 3 <= (3 + 8 * eps) / (1 + 2 * eps) < 3 + 2 * eps).
  { split; [apply (Rmult_le_reg_r (1 + 2 * eps))|apply (Rmult_lt_reg_r (1 + 2 * eps))]; try lra;
    replace ((3 + 8 * eps) / (1 + 2 * eps) * (1 + 2 * eps)) with (3 + 8 * eps) by (field; lra); nra. }
  apply Rle_antisym.
  - apply (round_N_le_midp radix2 fexp (fun z => negb (Z.even z)) 3 _ F3).
    assert (U : ulp radix2 fexp 3 = 4 * eps).
    { rewrite ulp_neq_0 by lra; unfold cexp; rewrite (mag_unique radix2 3 2) by (rewrite Rabs_pos_eq by lra; cbn [bpow Z.pow_pos Pos.iter radix_val radix2 Z.sub Z.add Z.opp Z.pos_sub Pos.pred_double]; cbn; lra).
      change (fexp 2) with (2 + -53)%Z; rewrite bpow_plus, bpow_53; cbn; lra. }
    rewrite succ_eq_pos, U by lra; lra.
  - rewrite <- (rnd_format 3 F3) at 1; apply rnd_mono; lra.
Qed.
Lemma count_differs fs fe : accurate_exp fe ->
  exists c c0, fl_new_modulated_gaussian_control rnd fs fe float_pi 100 short_segment long_duration 0 = Ok c /\
    new_modulated_gaussian_control 100 short_segment long_duration 0 = Ok c0 /\
    List.length (durations c) = 3%nat /\ List.length (durations c0) = 4%nat.
Proof.
  intros AE; assert (G := count_floats); assert (L : short_segment < long_duration) by (unfold short_segment, long_duration; lra).
  destruct (inputs_range _ _ _ G L) as [HT HW].
  assert (RE : reaches (/ 2 ^ 50) 100 long_duration).
  { assert (H := noise_reaches); unfold reaches in *; unfold long_duration; assert (Z := inv_pow_pos 50); lra. }
  assert (S0 : 0 < short_segment) by (unfold short_segment; assert (Z := inv_pow_pos 52); lra).
  assert (FR : float_requirements 100 short_segment long_duration).
  { split; [lra|]; split; [auto|]; split; [auto|]; apply (bound_reaches 100 _ HT ltac:(lra)), RE. }
  destruct (float_zero_built fs fe 100 short_segment long_duration AE G FR) as [n [p0 [k [vs [c [EN [_ [_ [_ [_ [E [D [_ [LV _]]]]]]]]]]]]]].
  assert (n = 3%nat) as ->.
  { rewrite <- EN; unfold fl_gaussian_count; rewrite count_quotient.
    destruct (np_ceil_spec 3 ltac:(lra)) as [C _]; apply (ceiling_unique 3 _ 3 C); split; cbn; lra. }
  assert (GI : gaussian_inputs 100 short_segment long_duration).
  { split; [lra|]; split; [auto|]; split; [auto|]; unfold reaches in RE; assert (Z := inv_pow_pos 50); assert (Q := sqrt_pos (2 * PI)); nra. }
  destruct (proj2 (proj1 (gaussian_accepts 100 short_segment long_duration 0)) (conj GI (or_introl eq_refl))) as [c0 E0].
  exists c, c0; split; [exact E|]; split; [exact E0|]; split.
  - destruct D as [_ [_ [_ ->]]]; rewrite !map_length; auto.
  - destruct (gaussian_segmentation _ _ _ _ _ E0) as [_ [n [C [_ [-> _]]]]]; rewrite repeat_length.
    apply (ceiling_unique _ n 4 C); assert (E1 := eps_pos); assert (ES := eps_small).
    unfold long_duration, short_segment; replace (/ 2 ^ 52) with (2 * eps) by (unfold eps; lra); replace (/ 2 ^ 50) with (8 * eps) by (unfold eps; lra).
    unfold is_ceiling; replace (INR 4) with 4 by (cbn; lra).
    split; [apply (Rmult_lt_reg_r (1 + 2 * eps))|apply (Rmult_le_reg_r (1 + 2 * eps))]; try lra;
    replace ((3 + 8 * eps) / (1 + 2 * eps) * (1 + 2 * eps)) with (3 + 8 * eps) by (field; lra); lra.
Qed.
