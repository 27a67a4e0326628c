(** * Walsh sequences in floating point: the signs are exact *)

From Coq Require Import ZArith.
From Flocq Require Import Core.
From Verif Require Export L_Float.
Import ListNotations.
Open Scope string_scope.
Open Scope list_scope.
Open Scope R_scope.

(** ** Dyadic numbers are exact *)

Lemma format_dyadic (m : Z) (n : nat) : (Z.abs m < 2 ^ 53)%Z -> (n <= 1074)%nat -> binary64_format (IZR m * / 2 ^ n).
Proof.
  intros M N; apply generic_format_FLT; apply (FLT_spec _ _ _ _ (Float radix2 m (- Z.of_nat n))).
  - unfold F2R; cbn [Fnum Fexp]; rewrite bpow_inv; reflexivity.
  - exact M.
  - cbn [Fexp]; lia.
Qed.

Lemma rnd_dyadic (m n : nat) : INR m < 2 ^ 53 -> (n <= 1074)%nat -> binary64 (INR m * / 2 ^ n) = INR m * / 2 ^ n.
Proof.
  intros M N; apply rnd_format; rewrite INR_IZR_INZ; apply format_dyadic; auto.
  rewrite Z.abs_eq by lia; apply lt_IZR; rewrite <- INR_IZR_INZ.
  change (IZR (2 ^ 53)) with (IZR (2 ^ Z.of_nat 53)); rewrite <- pow_IZR; exact M.
Qed.

(** ** The samples *)

Lemma pow2_double m : 2 * INR (2 ^ m) = 2 ^ S m.
Proof. rewrite pow2_INR; reflexivity. Qed.

Lemma fl_arange_exact m : (m <= 40)%nat ->
  fl_arange binary64 (binary64 (1 / (2 * INR (2 ^ m)))) 1 (binary64 (1 / INR (2 ^ m))) =
  np_arange (1 / (2 * INR (2 ^ m))) 1 (1 / INR (2 ^ m)).
Proof.
  intros M; assert (P : 0 < 2 ^ m) by (apply pow_lt; lra); assert (PS : 0 < 2 ^ S m) by (apply pow_lt; lra).
  assert (UP : 2 ^ m <= 2 ^ 40) by (apply Rle_pow; [lra|auto]).
  assert (P53 : 2 ^ 53 = 8192 * 2 ^ 40) by lra; assert (P40 : 1 <= 2 ^ 40) by (cbn [pow]; lra).
  rewrite pow2_double, pow2_INR.
  assert (E1 : binary64 (1 / 2 ^ S m) = 1 / 2 ^ S m).
  { replace (1 / 2 ^ S m) with (INR 1 * / 2 ^ S m) by (cbn [INR]; field; lra); apply rnd_dyadic; [cbn [INR]; lra|lia]. }
  assert (E2 : binary64 (1 / 2 ^ m) = 1 / 2 ^ m).
  { replace (1 / 2 ^ m) with (INR 1 * / 2 ^ m) by (cbn [INR]; field; lra); apply rnd_dyadic; [cbn [INR]; lra|lia]. }
  rewrite E1, E2; unfold fl_arange, np_arange; cbv zeta.
  assert (E3 : binary64 (1 / 2 ^ S m + 1 / 2 ^ m) = 3 / 2 ^ S m).
  { replace (1 / 2 ^ S m + 1 / 2 ^ m) with (INR 3 * / 2 ^ S m) by (cbn [INR pow]; field; lra).
    rewrite rnd_dyadic; [cbn [INR]; field; lra|cbn [INR]; lra|lia]. }
  assert (E4 : binary64 (3 / 2 ^ S m - 1 / 2 ^ S m) = 1 / 2 ^ m).
  { replace (3 / 2 ^ S m - 1 / 2 ^ S m) with (1 / 2 ^ m) by (cbn [pow]; field; lra); exact E2. }
  assert (E5 : binary64 (1 - 1 / 2 ^ S m) = 1 - 1 / 2 ^ S m).
  { replace (1 - 1 / 2 ^ S m) with (INR (2 ^ S m - 1) * / 2 ^ S m).
    - apply rnd_dyadic; [|lia]; rewrite minus_INR, pow2_INR by apply pow2_pos; cbn [INR pow]; lra.
    - rewrite minus_INR, pow2_INR by apply pow2_pos; cbn [INR]; field; lra. }
  assert (E6 : binary64 ((1 - 1 / 2 ^ S m) / (1 / 2 ^ m)) = (1 - 1 / 2 ^ S m) / (1 / 2 ^ m)).
  { replace ((1 - 1 / 2 ^ S m) / (1 / 2 ^ m)) with (INR (2 ^ S m - 1) * / 2 ^ 1).
    - apply rnd_dyadic; [|lia]; rewrite minus_INR, pow2_INR by apply pow2_pos; cbn [INR pow]; lra.
    - rewrite minus_INR, pow2_INR by apply pow2_pos; cbn [INR pow]; field; lra. }
  rewrite E3, E4, E5, E6.
  replace ((1 - 1 / 2 ^ S m) / (1 / 2 ^ m)) with (INR (2 ^ m) - 1 / 2) by (rewrite pow2_INR; cbn [pow]; field; lra).
  rewrite Int_part_neg_half by apply pow2_pos; unfold range; apply map_ext_in; intros i I; apply in_seq in I.
  assert (IB : INR i + 1 <= 2 ^ m) by (rewrite <- pow2_INR, <- S_INR; apply le_INR; lia).
  replace (binary64 (INR i * (1 / 2 ^ m))) with (INR i * (1 / 2 ^ m)).
  - replace (1 / 2 ^ S m + INR i * (1 / 2 ^ m)) with (INR (2 * i + 1) * / 2 ^ S m).
    + apply rnd_dyadic; [|lia]; rewrite plus_INR, mult_INR; cbn [INR]; lra.
    + rewrite plus_INR, mult_INR; cbn [INR pow]; field; lra.
  - symmetry; replace (INR i * (1 / 2 ^ m)) with (INR i * / 2 ^ m) by (field; lra); apply rnd_dyadic; [lra|lia].
Qed.

(** ** The signs *)

Lemma abs_sin_shift k y : Rabs (sin (INR k * PI + y)) = Rabs (sin y).
Proof.
  induction k as [|k IH]; [cbn [INR]; rewrite Rmult_0_l, Rplus_0_l; auto|].
  replace (INR (S k) * PI + y) with (INR k * PI + y + PI) by (rewrite S_INR; ring).
  rewrite neg_sin, Rabs_Ropp; auto.
Qed.

(** odd multiples of [PI / 2 ^ s] *)
Lemma abs_sin_odd q s : (1 <= s <= 11)%nat -> Nat.odd q = true -> / 2 ^ 11 <= Rabs (sin (PI * INR q * / 2 ^ s)).
Proof.
  intros [S1 S2] Q; assert (P := PI_bounds); assert (PS : 0 < 2 ^ s) by (apply pow_lt; lra).
  assert (NS : (2 ^ s <> 0)%nat) by (apply Nat.pow_nonzero; lia).
  assert (D := Nat.div_mod q (2 ^ s) NS); assert (ML := Nat.mod_upper_bound q (2 ^ s) NS).
  set (k := (q / 2 ^ s)%nat) in *; set (r := (q mod 2 ^ s)%nat) in *.
  assert (R1 : (1 <= r)%nat).
  { destruct r as [|r]; [|lia]; exfalso; rewrite D, Nat.add_0_r, Nat.odd_mul in Q.
    replace (2 ^ s)%nat with (2 * 2 ^ (s - 1))%nat in Q.
    - rewrite Nat.odd_mul in Q; discriminate.
    - rewrite <- Nat.pow_succ_r', <- Nat.sub_succ_l by lia; f_equal; lia. }
  replace (PI * INR q * / 2 ^ s) with (INR k * PI + PI * INR r * / 2 ^ s).
  - rewrite abs_sin_shift.
    assert (RB : 1 <= INR r <= 2 ^ s - 1).
    { split; [apply (le_INR 1); auto|].
      assert (H : (r <= 2 ^ s - 1)%nat) by lia; apply le_INR in H.
      rewrite minus_INR, pow2_INR in H by lia; exact H. }
    assert (L : / 2 ^ 11 <= / 2 ^ s) by (apply inv_pow_le; auto).
    assert (H2 : / 2 ^ s <= / 2) by (rewrite <- (pow_1 2) at 2; apply inv_pow_le; auto).
    assert (IS : / 2 ^ s * 2 ^ s = 1) by (field; lra); assert (PI' : 0 < / 2 ^ s) by apply inv_pow_pos.
    set (y := PI * INR r * / 2 ^ s).
    assert (YB : PI * / 2 ^ s <= y <= PI - PI * / 2 ^ s).
    { unfold y; split; [rewrite Rmult_assoc; apply Rmult_le_compat_l; nra|].
      rewrite Rmult_assoc; replace (PI - PI * / 2 ^ s) with (PI * (1 - / 2 ^ s)) by ring; apply Rmult_le_compat_l; nra. }
    assert (SB : forall z, PI * / 2 ^ s <= z <= PI / 2 -> / 2 ^ 11 <= sin z).
    { intros z Z; assert (PS3 : 3 * / 2 ^ s <= PI * / 2 ^ s) by (apply Rmult_le_compat_r; lra).
      assert (C := sin_ge_cubic z ltac:(lra)).
      assert (S : z ^ 2 <= 250 / 100) by (cbn [pow]; nra).
      replace (z ^ 3) with (z ^ 2 * z) in C by ring; nra. }
    assert (PH : PI * / 2 ^ s <= PI / 2) by nra.
    eapply Rle_trans; [|apply Rle_abs].
    destruct (Rle_dec y (PI / 2)); [apply SB; lra|].
    rewrite <- (sin_PI_x y); apply SB; lra.
  - rewrite D, plus_INR, mult_INR, pow2_INR; field; lra.
Qed.

Section Library.
  Variable fsin : R -> R.
  Hypothesis Hsin : accurate_sine fsin.

  Lemma sign_exact m i j : (m <= 11)%nat -> (i < m)%nat -> (j < 2 ^ m)%nat ->
    np_sign (fsin (binary64 (binary64 (2 ^ (i + 1) * float_pi) * (INR (2 * j + 1) * / 2 ^ S m)))) =
    np_sign (sin (2 ^ (i + 1) * PI * (INR (2 * j + 1) * / 2 ^ S m))).
  Proof.
    intros M I J; assert (P := PI_bounds); assert (F := float_pi_bound).
    set (x := INR (2 * j + 1) * / 2 ^ S m).
    assert (IS : / 2 ^ S m * 2 ^ S m = 1) by (field; apply pow_nonzero; lra).
    assert (L : / 2 ^ 12 <= / 2 ^ S m) by (apply inv_pow_le; lia).
    assert (PM := inv_pow_pos (S m)); assert (P12 := inv_pow_pos 12).
    assert (QB : 1 <= INR (2 * j + 1) <= 2 ^ S m).
    { split; [apply (le_INR 1); lia|]; rewrite <- pow2_INR; apply le_INR; cbn [Nat.pow]; lia. }
    assert (XB : / 2 ^ 12 <= x <= 1) by (unfold x; split; nra).
    assert (B : 1 <= 2 ^ (i + 1) <= 2 ^ 11) by (split; [apply pow_R1_Rle; lra|apply Rle_pow; [lra|lia]]).
    set (b := 2 ^ (i + 1)) in *; set (a := b * PI * x).
    assert (BP : 3 <= b * PI <= 2 ^ 11 * 4) by (split; nra).
    assert (A1 : acc 2.1 (binary64 (b * float_pi)) (b * PI)).
    { apply (acc_step 1); try num; [|apply acc_scale; [lra|apply float_pi_acc]].
      apply not_tiny, (above_100 1); [lia|]; cbn [pow]; lra. }
    assert (AL : / 2 ^ 12 <= a) by (unfold a; nra).
    assert (AU : a <= 2 ^ 11 * 4) by (unfold a; nra).
    assert (A2 : acc 3.2 (binary64 (binary64 (b * float_pi) * x)) a).
    { apply (acc_step 2.1); try num; [apply not_tiny, (above_100 12); [lia|lra]|apply acc_scale_r; auto; lra]. }
    assert (FM : binary64_format (binary64 (binary64 (b * float_pi) * x))) by apply format_rnd.
    set (y := binary64 (binary64 (b * float_pi) * x)) in *.
    assert (YL := acc_lower 3.2 y a ltac:(lra) ltac:(num) A2).
    assert (SA : / 2 ^ 11 <= Rabs (sin a)).
    { replace a with (PI * INR (2 * j + 1) * / 2 ^ (m - i)).
      - apply abs_sin_odd; [lia|]; rewrite Nat.add_1_r, Nat.odd_succ, Nat.even_mul; reflexivity.
      - unfold a, x, b; replace (S m) with ((m - i) + (i + 1))%nat by lia; rewrite inv_pow_add.
        field; split; apply pow_nonzero; lra. }
    assert (SY : Rabs (sin y - sin a) <= / 2 ^ 13).
    { eapply Rle_trans; [apply sin_lipschitz|]; eapply Rle_trans; [exact A2|].
      apply (Rle_trans _ (3.2 * eps * (2 ^ 11 * 4))); [apply Rmult_le_compat_l; num|num]. }
    assert (V1 : / 2 ^ 11 = / 2048) by (f_equal; lra); assert (V2 : / 2 ^ 13 = / 8192) by (f_equal; lra).
    assert (V3 : / 2 ^ 30 = / 1073741824) by (f_equal; lra).
    assert (YU : y <= 2 ^ 13).
    { apply acc_abs in A2; assert (3.2 * eps * a <= 3.2 * eps * (2 ^ 11 * 4)) by (apply Rmult_le_compat_l; num).
      assert (3.2 * eps * (2 ^ 11 * 4) <= 1) by num. 
      assert (a <= 2 ^ 11 * PI) by (unfold a; nra); lra. }
    rewrite V1 in SA; rewrite V2 in SY; apply Rabs_le_inv in SY.
    assert (G : binary64_format (fsin y) /\ Rabs (fsin y - sin y) <= Rabs (sin y) / 2 ^ 50).
    { apply Hsin; auto; [lra|]; rewrite V3; unfold Rabs in *; destruct (Rcase_abs (sin y)), (Rcase_abs (sin a)); lra. }
    destruct G as [_ G]; unfold np_sign, ltb.
    assert (V4 : Rabs (sin y) / 2 ^ 50 <= Rabs (sin y) / 2) by (assert (Q := Rabs_pos (sin y)); lra).
    assert (SGN : Rabs (fsin y - sin y) <= Rabs (sin y) / 2) by lra; clear G V4.
    unfold Rabs in SA, SGN; destruct (Rcase_abs (sin a)), (Rcase_abs (sin y)), (Rcase_abs (fsin y - sin y));
      try lra; destruct (Rlt_dec 0 (fsin y)), (Rlt_dec 0 (sin a)), (Rlt_dec (fsin y) 0), (Rlt_dec (sin a) 0); lra.
  Qed.

  Lemma fl_walsh_array_exact k : (1 <= k <= 2000)%nat -> fl_walsh_array binary64 fsin float_pi k = walsh_array k.
  Proof.
    intros K; unfold fl_walsh_array, walsh_array; cbv zeta.
    assert (M : (walsh_hamming_weight k <= 11)%nat).
    { unfold walsh_hamming_weight; assert (L : (Nat.log2 k <= Nat.log2 2000)%nat) by (apply Nat.log2_le_mono; lia).
      change (Nat.log2 2000) with 10%nat in L; lia. }
    set (m := walsh_hamming_weight k) in *; rewrite fl_arange_exact by lia.
    apply map_ext_in; intros x X; unfold np_arange in X.
    assert (PR : 0 < INR (2 ^ m)) by (apply lt_0_INR, pow2_pos).
    replace ((1 - 1 / (2 * INR (2 ^ m))) / (1 / INR (2 ^ m))) with (INR (2 ^ m) - 1 / 2) in X by (field; lra).
    rewrite Int_part_neg_half in X by apply pow2_pos.
    apply in_map_iff in X; destruct X as [j [<- J]]; apply in_seq in J.
    replace (1 / (2 * INR (2 ^ m)) + INR j * (1 / INR (2 ^ m))) with (INR (2 * j + 1) * / 2 ^ S m).
    - unfold fl_walsh_value, walsh_value, range.
      assert (G : forall l z, (forall i, In i l -> (i < m)%nat) ->
        fold_left (fun acc i => acc * np_sign (fsin (binary64 (binary64 (2 ^ (i + 1) * float_pi) * (INR (2 * j + 1) * / 2 ^ S m))))
                                ^ nth (m - 1 - i) (binary_repr k m) 0%nat) l z =
        fold_left (fun acc i => acc * np_sign (sin (2 ^ (i + 1) * PI * (INR (2 * j + 1) * / 2 ^ S m)))
                                ^ nth (m - 1 - i) (binary_repr k m) 0%nat) l z).
      { induction l as [|i l IH]; intros z H; [reflexivity|]; cbn [fold_left].
        rewrite sign_exact by (auto; try lia; apply H; left; auto); apply IH; intros; apply H; right; auto. }
      apply G; intros i I; apply in_seq in I; lia.
    - rewrite pow2_INR, plus_INR, mult_INR; cbn [INR pow]; field; apply pow_nonzero; lra.
  Qed.

  (** the times are rounded once *)
  Lemma fl_walsh_offsets_exact T k : (1 <= k <= 2000)%nat ->
    fl_walsh_offsets binary64 fsin float_pi T k = map (fun t => binary64 (T * t)) (walsh_relative_offsets k).
  Proof.
    intros K; unfold fl_walsh_offsets, walsh_relative_offsets; cbv zeta; rewrite fl_walsh_array_exact, map_map by auto.
    assert (M : (walsh_hamming_weight k <= 11)%nat).
    { unfold walsh_hamming_weight; assert (L : (Nat.log2 k <= Nat.log2 2000)%nat) by (apply Nat.log2_le_mono; lia).
      change (Nat.log2 2000) with 10%nat in L; lia. }
    set (m := walsh_hamming_weight k) in *; apply map_ext_in; intros i I; apply filter_In in I; destruct I as [I _].
    apply in_seq in I; do 2 f_equal.
    assert (P : 0 < 2 ^ m) by (apply pow_lt; lra); assert (U : 2 ^ m <= 2 ^ 11) by (apply Rle_pow; [lra|auto]).
    assert (E : binary64 (1 / INR (2 ^ m)) = 1 / INR (2 ^ m)).
    { rewrite pow2_INR; replace (1 / 2 ^ m) with (INR 1 * / 2 ^ m) by (cbn [INR]; field; lra); apply rnd_dyadic; [cbn [INR]; lra|lia]. }
    rewrite E, pow2_INR; replace ((INR i + 1) * (1 / 2 ^ m)) with (INR (S i) * / 2 ^ m) by (rewrite S_INR; field; lra).
    apply rnd_dyadic; [|lia]; apply (Rle_lt_trans _ (2 ^ m)); [|lra].
    rewrite <- pow2_INR; apply le_INR; lia.
  Qed.
End Library.
