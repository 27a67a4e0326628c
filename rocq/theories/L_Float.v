(** * Rounding errors of the times of the predefined sequences *)

From Coq Require Import Machin.
From Flocq Require Import Core Relative.
From Verif Require Export Spec_Float L_Requests.
Import ListNotations.
Open Scope string_scope.
Open Scope list_scope.
Open Scope R_scope.

Notation fexp := (FLT_exp (-1074) 53).

(** ** The rounding of one operation *)

Definition eps : R := / 9007199254740992.
Lemma eps_pos : 0 < eps. Proof. unfold eps; lra. Qed.

Lemma bpow_pow n : bpow radix2 (Z.of_nat n) = 2 ^ n.
Proof.
  induction n; [reflexivity|]; rewrite Nat2Z.inj_succ; unfold Z.succ.
  rewrite bpow_plus, IHn, bpow_1; cbn [pow]; change (IZR radix2) with 2; ring.
Qed.
Lemma bpow_inv n : bpow radix2 (- Z.of_nat n) = / 2 ^ n.
Proof. rewrite bpow_opp, bpow_pow; reflexivity. Qed.
Lemma bpow_53 : bpow radix2 (- 53) = eps.
Proof. change (bpow radix2 (-53)) with (bpow radix2 (- Z.of_nat 53)); rewrite bpow_inv; unfold eps; f_equal; lra. Qed.

(** results below this size are not considered *)
Definition tiny : R := / 2 ^ 1022.
Lemma tiny_bpow : bpow radix2 (-1074 + 53 - 1) = tiny.
Proof. change (-1074 + 53 - 1)%Z with (- Z.of_nat 1022)%Z; apply bpow_inv. Qed.

Definition acc (k x y : R) : Prop := Rabs (x - y) <= k * eps * y.

Lemma acc_rnd x : tiny <= x -> acc 1 (binary64 x) x.
Proof.
  intros H; assert (P : 0 < tiny) by (rewrite <- tiny_bpow; apply bpow_gt_0).
  unfold acc, binary64.
  assert (E := relative_error_N_FLT radix2 (-1074) 53 eq_refl (fun n => negb (Z.even n)) x).
  rewrite tiny_bpow in E; rewrite (Rabs_right x) in E by lra; specialize (E H).
  rewrite Rmult_1_l; replace eps with (/ 2 * bpow radix2 (- (53) + 1)); auto.
  rewrite bpow_plus; change (Z.opp 53) with (-53)%Z; rewrite bpow_53, bpow_1; change (IZR radix2) with 2; field.
Qed.

Lemma rnd_format x : binary64_format x -> binary64 x = x.
Proof. intros H; apply round_generic; auto; apply valid_rnd_N. Qed.
Lemma format_rnd x : binary64_format (binary64 x).
Proof. apply generic_format_round; [apply FLT_exp_valid; reflexivity|apply valid_rnd_N]. Qed.
Lemma format_0 : binary64_format 0. Proof. apply generic_format_0. Qed.
Lemma rnd_mono x y : x <= y -> binary64 x <= binary64 y.
Proof. apply round_le; [apply FLT_exp_valid; reflexivity|apply valid_rnd_N]. Qed.

(** ** Composition of relative errors *)

Lemma acc_abs k x y : acc k x y -> y - k * eps * y <= x <= y + k * eps * y.
Proof. intros H; apply Rabs_le_inv in H; lra. Qed.

Lemma acc_intro k x y : y - k * eps * y <= x <= y + k * eps * y -> acc k x y.
Proof. intros H; apply Rabs_le; lra. Qed.

Lemma acc_refl x : 0 <= x -> acc 0 x x.
Proof. intros H; apply acc_intro; lra. Qed.

Lemma acc_weaken j k x y : 0 <= y -> j <= k -> acc j x y -> acc k x y.
Proof.
  intros Y K H; unfold acc in *; eapply Rle_trans; [exact H|].
  apply Rmult_le_compat_r; auto; apply Rmult_le_compat_r; auto; apply Rlt_le, eps_pos.
Qed.

Lemma acc_trans j k m x y z : 0 <= z -> 0 <= j -> 0 <= k -> j + k + j * k * eps <= m ->
  acc j y z -> acc k x y -> acc m x z.
Proof.
  intros Z J K M A B; assert (E := eps_pos); assert (A' := acc_abs _ _ _ A); assert (B' := acc_abs _ _ _ B).
  assert (D : k * eps * y <= k * eps * (z + j * eps * z)) by (apply Rmult_le_compat_l; [apply Rmult_le_pos; lra|lra]).
  assert (G : (j + k + j * k * eps) * eps * z <= m * eps * z) by (repeat (apply Rmult_le_compat_r; [lra|]); auto).
  apply acc_intro; split; nra.
Qed.

Lemma acc_scale c k x y : 0 <= c -> acc k x y -> acc k (c * x) (c * y).
Proof.
  intros C A; apply acc_abs in A; apply acc_intro; split; nra.
Qed.
Lemma acc_scale_r c k x y : 0 <= c -> acc k x y -> acc k (x * c) (y * c).
Proof. rewrite (Rmult_comm x), (Rmult_comm y); apply acc_scale. Qed.

Lemma acc_add k x y x' y' : acc k x y -> acc k x' y' -> acc k (x + x') (y + y').
Proof. intros A B; apply acc_abs in A; apply acc_abs in B; apply acc_intro; lra. Qed.

Lemma acc_mult j k m x y x' y' : 0 <= y -> 0 <= y' -> 0 <= x' -> 0 <= j -> 0 <= k -> j + k + j * k * eps <= m ->
  acc j x y -> acc k x' y' -> acc m (x * x') (y * y').
Proof.
  intros Y Y' X' J K M A B.
  apply (acc_trans k j m _ (y * x')); auto.
  - apply Rmult_le_pos; auto.
  - rewrite (Rplus_comm k j), (Rmult_comm k j); auto.
  - apply acc_scale; auto.
  - apply acc_scale_r; auto.
Qed.

Lemma acc_lower k x y : 0 <= y -> k * eps <= / 2 -> acc k x y -> y / 2 <= x.
Proof. intros Y K A; apply acc_abs in A; nra. Qed.
Lemma acc_upper k x y : 0 <= y -> k * eps <= / 2 -> acc k x y -> x <= 2 * y.
Proof. intros Y K A; apply acc_abs in A; nra. Qed.

(** one more rounded operation *)
Lemma acc_step k m x y : 0 < y -> 0 <= k <= 1000000 -> k + 1 + k * eps <= m -> 2 * tiny <= y ->
  acc k x y -> acc m (binary64 x) y.
Proof.
  intros Y K M T A; assert (L : y / 2 <= x) by (apply (acc_lower k); auto; unfold eps; lra).
  apply (acc_trans k 1 m _ x); auto; try lra; apply acc_rnd; lra.
Qed.

(** ** Sizes *)

Lemma tiny_scale : tiny = / 2 ^ 900 * / 2 ^ 100 * / 2 ^ 22.
Proof. unfold tiny; rewrite <- !Rinv_mult, <- !pow_add; reflexivity. Qed.
Lemma inv_pow_pos n : 0 < / 2 ^ n. Proof. apply Rinv_0_lt_compat, pow_lt; lra. Qed.
Lemma inv_pow_le m n : (m <= n)%nat -> / 2 ^ n <= / 2 ^ m.
Proof. intros H; apply Rinv_le_contravar; [apply pow_lt; lra|apply Rle_pow; [lra|auto]]. Qed.
Lemma inv_pow_add m n : / 2 ^ (m + n) = / 2 ^ m * / 2 ^ n.
Proof. rewrite pow_add, Rinv_mult; reflexivity. Qed.
Lemma inv_22 : / 2 ^ 22 = / 4194304. Proof. f_equal; lra. Qed.

Lemma not_tiny x : / 2 ^ 100 <= x -> 2 * tiny <= x.
Proof.
  intros H; rewrite tiny_scale, inv_22; assert (A := inv_pow_pos 100).
  assert (B : / 2 ^ 900 <= 1) by (rewrite <- Rinv_1; apply (inv_pow_le 0 900); lia).
  assert (0 < / 2 ^ 900) by apply inv_pow_pos; nra.
Qed.
Lemma not_tiny_time T x : / 2 ^ 900 <= T -> / 2 ^ 100 <= x -> 2 * tiny <= T * x.
Proof.
  intros HT H; rewrite tiny_scale, inv_22; assert (A := inv_pow_pos 100).
  assert (0 < / 2 ^ 900) by apply inv_pow_pos.
  assert (/ 2 ^ 900 * / 2 ^ 100 <= T * x) by (apply Rmult_le_compat; lra); nra.
Qed.

Lemma inv_pow_bound n x : 0 < x <= 2 ^ n -> / 2 ^ n <= / x.
Proof. intros H; apply Rinv_le_contravar; lra. Qed.
Lemma above_100 n x : (n <= 100)%nat -> / 2 ^ n <= x -> / 2 ^ 100 <= x.
Proof. intros N H; assert (A := inv_pow_le n 100 N); lra. Qed.

(** ** Carr-Purcell and CPMG *)

Ltac num := unfold eps; lra.

Lemma carr_purcell_acc T n i : / 2 ^ 900 <= T -> 1 <= INR n <= 2 ^ 40 ->
  acc 5 (binary64 (binary64 (binary64 (binary64 (1 / INR n) * INR i) + binary64 (binary64 (1 / INR n) * (5 / 10))) * T))
        (T * (1 / INR n * (INR i + 1 / 2))).
Proof.
  intros HT HN; assert (I := pos_INR i); assert (T0 : 0 < / 2 ^ 900) by apply inv_pow_pos.
  assert (L : / 2 ^ 40 <= 1 / INR n) by (unfold Rdiv; rewrite Rmult_1_l; apply inv_pow_bound; lra).
  assert (P := inv_pow_pos 40); set (s := 1 / INR n) in *.
  assert (L41 : / 2 ^ 42 = / 2 ^ 40 * / 4) by (change 42%nat with (40 + 2)%nat; rewrite inv_pow_add; f_equal; f_equal; lra).
  assert (A1 : acc 1 (binary64 s) s) by (apply acc_rnd; assert (N := not_tiny s (above_100 40 s ltac:(lia) L)); assert (0 < tiny) by apply inv_pow_pos; lra).
  assert (A2 : acc 2.1 (binary64 (binary64 s * (5 / 10))) (s * (5 / 10))).
  { apply (acc_step 1); try num; [|apply acc_scale_r; auto; lra].
    apply not_tiny, (above_100 42); [lia|]; lra. }
  assert (A3 : acc 2.1 (binary64 (binary64 s * INR i)) (s * INR i)).
  { destruct i as [|i].
    - cbn [INR]; rewrite !Rmult_0_r, rnd_format by apply format_0; apply acc_intro; lra.
    - assert (1 <= INR (S i)) by (rewrite S_INR; assert (Q := pos_INR i); lra).
      apply (acc_step 1); try num; [nra| |apply acc_scale_r; auto].
      apply not_tiny, (above_100 40); [lia|]; nra. }
  assert (A4 : acc 3.2 (binary64 (binary64 (binary64 s * INR i) + binary64 (binary64 s * (5 / 10)))) (s * (INR i + 1 / 2))).
  { replace (s * (INR i + 1 / 2)) with (s * INR i + s * (5 / 10)) by field.
    apply (acc_step 2.1); try num; [nra| |apply acc_add; auto].
    apply not_tiny, (above_100 42); [lia|]; nra. }
  rewrite (Rmult_comm T); apply (acc_step 3.2); try num; [apply Rmult_lt_0_compat; nra| |apply acc_scale_r; auto; lra].
  rewrite (Rmult_comm _ T); apply not_tiny_time; auto; apply (above_100 42); [lia|]; nra.
Qed.

Lemma periodic_acc T n i : / 2 ^ 900 <= T -> 1 <= INR n <= 2 ^ 40 -> (1 <= i)%nat ->
  acc 4 (binary64 (T * binary64 (INR i * binary64 (1 / (INR n + 1))))) (T * (INR i / (INR n + 1))).
Proof.
  intros HT HN I; assert (T0 : 0 < / 2 ^ 900) by apply inv_pow_pos.
  assert (I1 : 1 <= INR i) by (apply (le_INR 1); auto).
  assert (L : / 2 ^ 41 <= 1 / (INR n + 1)).
  { unfold Rdiv; rewrite Rmult_1_l; apply inv_pow_bound; cbn [pow] in *; lra. }
  assert (P := inv_pow_pos 41).
  replace (INR i / (INR n + 1)) with (INR i * (1 / (INR n + 1))) by (field; lra).
  set (s := 1 / (INR n + 1)) in *.
  assert (A1 : acc 1 (binary64 s) s) by (apply acc_rnd; assert (N := not_tiny s (above_100 41 s ltac:(lia) L)); assert (0 < tiny) by apply inv_pow_pos; lra).
  assert (A2 : acc 2.1 (binary64 (INR i * binary64 s)) (INR i * s)).
  { apply (acc_step 1); try num; [nra| |apply acc_scale; auto; lra].
    apply not_tiny, (above_100 41); [lia|]; nra. }
  apply (acc_step 2.1); try num; [apply Rmult_lt_0_compat; nra| |apply acc_scale; auto; lra].
  apply not_tiny_time; auto; apply (above_100 41); [lia|]; nra.
Qed.

(** ** Uhrig *)

Lemma float_pi_bound : float_pi <= PI <= float_pi + 2 / 10 ^ 16.
Proof.
  assert (H := PI_2_3_7_ineq 9); unfold float_pi.
  cbv [sum_f_R0 tg_alt PI_2_3_7_tg Ratan_seq Nat.mul Nat.add] in H.
  rewrite !INR_IZR_INZ in H; cbn [Z.of_nat Pos.of_succ_nat Pos.succ] in H.
  split; lra.
Qed.
Lemma float_pi_acc : acc 1 float_pi PI.
Proof. assert (H := float_pi_bound); assert (P := PI_bounds); apply acc_intro; unfold eps; lra. Qed.

Lemma sin_acc a x : 0 < a <= PI / 2 -> acc 4.3 x a -> acc 8 (sin x) (sin a).
Proof.
  intros HA A; assert (P := PI_bounds); assert (C := sin_ge_cubic a ltac:(lra)).
  assert (L : 58 / 100 * a <= sin a).
  { assert (S : a ^ 2 <= 250 / 100) by (cbn [pow]; nra).
    replace (a ^ 3) with (a ^ 2 * a) in C by ring; nra. }
  unfold acc in *; eapply Rle_trans; [apply sin_lipschitz|]; eapply Rle_trans; [exact A|].
  assert (E := eps_pos); nra.
Qed.

Section Library.
  Variables (fsin fsquare : R -> R).
  Hypothesis Hsin : accurate_sine fsin.
  Hypothesis Hsquare : accurate_square fsquare.

  Definition fl_delta (n k : nat) : R :=
    fsquare (fsin (binary64 (binary64 (float_pi * INR k) * binary64 (1 / (2 * INR n + 2))))).

  Lemma fl_delta_acc n k : INR n + 1 <= 2 ^ 20 -> (1 <= k <= n)%nat ->
    acc 35 (fl_delta n k) (uhrig_time 1 n k) /\ / 2 ^ 43 <= uhrig_time 1 n k.
  Proof.
    intros HN [K1 K2]; assert (P := PI_bounds); assert (F := float_pi_bound); assert (E := eps_pos).
    apply (le_INR 1) in K1; apply le_INR in K2; cbn [INR] in K1.
    assert (L : / 2 ^ 21 <= 1 / (2 * INR n + 2)) by (unfold Rdiv; rewrite Rmult_1_l; apply inv_pow_bound; cbn [pow] in *; lra).
    assert (P21 := inv_pow_pos 21).
    unfold uhrig_time, fl_delta; rewrite Rmult_1_l.
    replace (INR k * PI / (2 * (INR n + 1))) with (PI * INR k * (1 / (2 * INR n + 2))) by (field; lra).
    assert (CU : 1 / (2 * INR n + 2) * (2 * INR n + 2) = 1) by (field; lra).
    set (c := 1 / (2 * INR n + 2)) in *; set (a := PI * INR k * c).
    assert (PK : 3 <= PI * INR k) by nra.
    assert (KC : INR k * c <= / 2) by nra.
    assert (A0 : / 2 ^ 21 * 3 <= a <= PI / 2).
    { unfold a; split; [rewrite (Rmult_comm _ 3); apply Rmult_le_compat; lra|rewrite Rmult_assoc; apply Rmult_le_compat_l; lra]. }
    assert (B1 : acc 2.1 (binary64 (float_pi * INR k)) (PI * INR k)).
    { apply (acc_step 1); try num; [|apply acc_scale_r; [lra|apply float_pi_acc]].
      apply not_tiny, (above_100 1); [lia|]; cbn [pow]; lra. }
    assert (B2 : acc 1 (binary64 c) c).
    { apply acc_rnd; assert (N := not_tiny c (above_100 21 c ltac:(lia) L)); assert (0 < tiny) by apply inv_pow_pos; lra. }
    assert (B3 : acc 4.3 (binary64 (binary64 (float_pi * INR k) * binary64 c)) a).
    { apply (acc_step 3.2); try num.
      - apply not_tiny, (above_100 21); [lia|lra].
      - apply (acc_mult 2.1 1); try num; auto.
        assert (Q := acc_lower 1 _ c ltac:(lra) ltac:(num) B2); lra. }
    set (x := binary64 (binary64 (float_pi * INR k) * binary64 c)) in *.
    assert (B4 := sin_acc a x ltac:(lra) B3).
    assert (C := sin_ge_cubic a ltac:(lra)).
    assert (SL : 58 / 100 * a <= sin a).
    { assert (S : a ^ 2 <= 250 / 100) by (cbn [pow]; nra).
      replace (a ^ 3) with (a ^ 2 * a) in C by ring; nra. }
    assert (S1 : / 2 ^ 21 <= sin a) by lra.
    assert (SX := acc_lower 8 _ (sin a) ltac:(lra) ltac:(num) B4).
    assert (SX2 : sin x <= 1) by apply SIN_bound.
    assert (P30 : / 2 ^ 30 = / 2 ^ 21 * / 512) by (change 30%nat with (21 + 9)%nat; rewrite inv_pow_add; f_equal; f_equal; lra).
    assert (P31 : / 2 ^ 31 = / 2 ^ 21 * / 1024) by (change 31%nat with (21 + 10)%nat; rewrite inv_pow_add; f_equal; f_equal; lra).
    assert (XA := acc_lower 4.3 _ a ltac:(lra) ltac:(num) B3).
    assert (XB := acc_upper 4.3 _ a ltac:(lra) ltac:(num) B3).
    destruct (Hsin x) as [G1 G2]; [apply format_rnd|cbn [pow]; lra|rewrite Rabs_right; lra|].
    rewrite (Rabs_right (sin x)) in G2 by lra.
    assert (B5 : acc 8 (fsin x) (sin x)).
    { unfold acc; replace (8 * eps * sin x) with (sin x / 2 ^ 50); [exact G2|]; unfold eps; lra. }
    assert (B6 : acc 16.1 (fsin x) (sin a)) by (apply (acc_trans 8 8 _ _ (sin x)); auto; try num).
    assert (FL := acc_lower 16.1 _ (sin a) ltac:(lra) ltac:(num) B6).
    assert (FU : fsin x <= 2) by (assert (Q := acc_upper 8 _ (sin x) ltac:(lra) ltac:(num) B5); lra).
    assert (B7 : acc 32.3 (fsin x ^ 2) (sin a ^ 2)).
    { replace (fsin x ^ 2) with (fsin x * fsin x) by ring; replace (sin a ^ 2) with (sin a * sin a) by ring.
      apply (acc_mult 16.1 16.1); auto; num. }
    assert (B8 : acc 2 (fsquare (fsin x)) (fsin x ^ 2)).
    { assert (Q := Hsquare (fsin x) G1 ltac:(lra)); unfold acc.
      replace (2 * eps * fsin x ^ 2) with (fsin x ^ 2 / 2 ^ 52); [exact Q|]; unfold eps; lra. }
    split.
    - apply (acc_trans 32.3 2 _ _ (fsin x ^ 2)); auto; try num; apply pow2_ge_0.
    - assert (P43 : / 2 ^ 43 = / 2 ^ 21 * / 2 ^ 21 * / 2).
      { change 43%nat with (21 + 21 + 1)%nat; rewrite !inv_pow_add; f_equal; f_equal; lra. }
      rewrite P43; cbn [pow] in *; nra.
  Qed.

  Lemma fl_uhrig_acc T n k : INR n + 1 <= 2 ^ 20 -> (1 <= k <= n)%nat -> 0 < T -> 2 * tiny <= T * / 2 ^ 43 ->
    acc 37 (binary64 (T * fl_delta n k)) (uhrig_time T n k).
  Proof.
    intros HN HK HT S; destruct (fl_delta_acc n k HN HK) as [A L]; assert (P := inv_pow_pos 43).
    rewrite uhrig_scale; apply (acc_step 35); try num; [nra| |apply acc_scale; auto; lra].
    eapply Rle_trans; [exact S|]; apply Rmult_le_compat_l; lra.
  Qed.

  Lemma uhrig_unit n k : (k <= n + 1)%nat -> 0 <= uhrig_time 1 n k <= 1.
  Proof.
    intros H; destruct k as [|k]; [rewrite uhrig_time_0; lra|].
    destruct (Nat.eq_dec (S k) (n + 1)) as [->|N]; [rewrite uhrig_time_end; lra|].
    assert (U := uhrig_within 1 n (S k) ltac:(lra) ltac:(lia)); lra.
  Qed.

  (** ** Quadratic *)

  (** the outer times with the ends *)
  Definition fl_outer (T : R) (n j : nat) : R :=
    if Nat.eqb j 0 then 0 else if Nat.eqb j (n + 1) then T else binary64 (T * fl_delta n j).

  Lemma fl_outer_acc T n j : INR n + 1 <= 2 ^ 20 -> (j <= n + 1)%nat -> / 2 ^ 900 <= T ->
    Rabs (fl_outer T n j - uhrig_time T n j) <= 37 * eps * T.
  Proof.
    intros HN HJ HT; assert (P := inv_pow_pos 900); assert (E := eps_pos).
    unfold fl_outer; destruct (Nat.eqb_spec j 0) as [->|J0].
    - rewrite uhrig_time_0, Rminus_0_r, Rabs_R0; nra.
    - destruct (Nat.eqb_spec j (n + 1)) as [->|J1].
      + rewrite uhrig_time_end, Rminus_diag_eq, Rabs_R0; auto; nra.
      + eapply Rle_trans; [apply fl_uhrig_acc; auto; try lia; try lra|].
        * apply not_tiny_time; auto; apply (above_100 43); [lia|lra].
        * rewrite uhrig_scale; assert (U := uhrig_unit n j HJ); apply Rmult_le_compat_l; nra.
  Qed.

  Lemma quadratic_acc T n1 n2 j i : INR n1 + 1 <= 2 ^ 20 -> INR n2 + 1 <= 2 ^ 20 -> / 2 ^ 900 <= T ->
    (1 <= n2)%nat -> (j <= n2)%nat -> (1 <= i <= n1)%nat ->
    let t0 := uhrig_time T n2 j in let t1 := uhrig_time T n2 (j + 1) in
    Rabs (binary64 (binary64 (binary64 (fl_outer T n2 (j + 1) - fl_outer T n2 j) * fl_delta n1 i) + fl_outer T n2 j)
          - (t0 + uhrig_time (t1 - t0) n1 i)) <= 256 * eps * T.
  Proof.
    intros H1 H2 HT N2 HJ HI t0 t1; assert (P := inv_pow_pos 900); assert (E := eps_pos); assert (P43 := inv_pow_pos 43).
    assert (A0 := fl_outer_acc T n2 j H2 ltac:(lia) HT); fold t0 in A0.
    assert (A1 := fl_outer_acc T n2 (j + 1) H2 ltac:(lia) HT); fold t1 in A1.
    assert (O0 : 0 <= fl_outer T n2 j).
    { unfold fl_outer; destruct (Nat.eqb_spec j 0); [lra|]; destruct (Nat.eqb_spec j (n2 + 1)); [lra|].
      assert (Q := fl_uhrig_acc T n2 j H2 ltac:(lia) ltac:(lra)
                     (not_tiny_time T _ HT (above_100 43 _ ltac:(lia) (Rle_refl _)))).
      assert (U := uhrig_within T n2 j ltac:(lra) ltac:(lia)).
      assert (V := acc_lower 37 _ (uhrig_time T n2 j) ltac:(lra) ltac:(num) Q); lra. }
    set (o0 := fl_outer T n2 j) in *; set (o1 := fl_outer T n2 (j + 1)) in *.
    apply Rabs_le_inv in A0; apply Rabs_le_inv in A1.
    assert (G : T * / 2 ^ 43 <= t1 - t0).
    { assert (U := uhrig_gap T n2 j ltac:(lra) ltac:(lia)); replace (S j) with (j + 1)%nat in U by lia; fold t0 t1 in U.
      destruct (fl_delta_acc n2 1 H2 ltac:(lia)) as [_ W].
      unfold uhrig_time in W; rewrite !Rmult_1_l in W.
      replace (INR 1 * PI) with PI in W by (cbn [INR]; ring).
      eapply Rle_trans; [|exact U]; apply Rmult_le_compat_l; lra. }
    assert (B0 : 0 <= t0 <= T) by (unfold t0; rewrite uhrig_scale; assert (U := uhrig_unit n2 j ltac:(lia)); split; nra).
    assert (B1 : 0 <= t1 <= T) by (unfold t1; rewrite uhrig_scale; assert (U := uhrig_unit n2 (j + 1) ltac:(lia)); split; nra).
    assert (V43 : / 2 ^ 43 = 1024 * eps) by (unfold eps; lra).
    assert (V44 : / 2 ^ 44 = 512 * eps) by (unfold eps; lra).
    assert (D0 : T * / 2 ^ 44 <= o1 - o0) by (rewrite V43 in G; rewrite V44; nra).
    assert (D1 : o1 - o0 <= 1.1 * T) by (assert (74 * eps * T <= 0.1 * T) by (apply Rmult_le_compat_r; [lra|num]); lra).
    assert (R1 : acc 1 (binary64 (o1 - o0)) (o1 - o0)).
    { apply acc_rnd; eapply Rle_trans; [|exact D0].
      assert (Q := not_tiny_time T (/ 2 ^ 44) HT (above_100 44 _ ltac:(lia) (Rle_refl _))).
      assert (0 < tiny) by apply inv_pow_pos; lra. }
    apply acc_abs in R1; set (dd := binary64 (o1 - o0)) in *.
    assert (EO : 1 * eps * (o1 - o0) <= 1 * eps * (1.1 * T)) by (apply Rmult_le_compat_l; lra).
    assert (DL : T * (256 * eps) <= dd) by (rewrite V44 in D0; nra).
    assert (DU : dd <= 1.2 * T) by (assert (1.1 * eps * T <= 0.1 * T) by (apply Rmult_le_compat_r; [lra|num]); lra).
    assert (V45 : 256 * eps = / 2 ^ 45) by (unfold eps; lra).
    assert (TI : 2 * tiny <= dd * / 2 ^ 43).
    { eapply Rle_trans; [apply (not_tiny_time T (/ 2 ^ 88) HT), (above_100 88); [lia|lra]|].
      change 88%nat with (45 + 43)%nat; rewrite inv_pow_add, <- Rmult_assoc; apply Rmult_le_compat_r; [lra|].
      rewrite <- V45; exact DL. }
    assert (DP : 0 < dd) by nra.
    assert (X := fl_uhrig_acc dd n1 i H1 HI DP TI); apply acc_abs in X.
    rewrite uhrig_scale in X |- *; assert (U := uhrig_unit n1 i ltac:(lia)).
    destruct (fl_delta_acc n1 i H1 HI) as [_ UL].
    set (w := uhrig_time 1 n1 i) in *; set (x := binary64 (dd * fl_delta n1 i)) in *.
    assert (DW : 0 <= dd * w <= 1.2 * T) by (split; nra).
    assert (EX : 37 * eps * (dd * w) <= 37 * eps * (1.2 * T)) by (apply Rmult_le_compat_l; lra).
    assert (ED : - (75.2 * eps * T) <= dd - (t1 - t0) <= 75.2 * eps * T) by lra.
    assert (EW : - (75.2 * eps * T) <= dd * w - (t1 - t0) * w <= 75.2 * eps * T) by (split; nra).
    assert (XP : 0 < x).
    { assert (37 * eps * (dd * w) <= / 2 * (dd * w)) by (apply Rmult_le_compat_r; [lra|num]).
      assert (0 < dd * w) by (apply Rmult_lt_0_compat; lra); lra. }
    assert (XS : tiny <= x + o0).
    { assert (Q : dd * / 2 ^ 43 <= dd * w) by (apply Rmult_le_compat_l; lra).
      assert (37 * eps * (dd * w) <= / 2 * (dd * w)) by (apply Rmult_le_compat_r; [lra|num]); lra. }
    assert (R2 := acc_rnd (x + o0) XS); apply acc_abs in R2.
    assert (XU : x + o0 <= 3 * T).
    { assert (200 * eps * T <= 0.5 * T) by (apply Rmult_le_compat_r; [lra|num]); lra. }
    assert (EF : 1 * eps * (x + o0) <= 1 * eps * (3 * T)) by (apply Rmult_le_compat_l; lra).
    apply Rabs_le; lra.
  Qed.
End Library.
