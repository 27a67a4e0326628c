(** * Distances between quaternions *)

From Coq Require Import Lia.
From Verif Require Export L_Scrofulous L_Toggle.
Import ListNotations.
Open Scope string_scope.
Open Scope list_scope.
Open Scope R_scope.

Definition qnorm2 (q : quat) : R := qa q * qa q + qb q * qb q + qc q * qc q + qd q * qd q.
Definition qsub (p q : quat) : quat := Q4 (qa p - qa q) (qb p - qb q) (qc p - qc q) (qd p - qd q).

Lemma qnorm2_mul p q : qnorm2 (qmul p q) = qnorm2 p * qnorm2 q.
Proof. unfold qnorm2, qmul; cbn [qa qb qc qd]; ring. Qed.

Lemma close_norm e p q : 0 <= e -> qnorm2 (qsub p q) <= e ^ 2 -> close_to e (qmat p) (qmat q).
Proof.
  intros E H; unfold qnorm2, qsub in H; cbn [qa qb qc qd] in H.
  assert (K : forall x, x * x <= e ^ 2 -> Rabs x <= e).
  { intros x X; rewrite <- (Rabs_right e) by lra; apply Rsqr_le_abs_0; unfold Rsqr; cbn [pow] in X; lra. }
  assert (A := Rle_0_sqr (qa p - qa q)); assert (B := Rle_0_sqr (qb p - qb q));
    assert (C0 := Rle_0_sqr (qc p - qc q)); assert (D := Rle_0_sqr (qd p - qd q)); unfold Rsqr in *.
  apply close_qmat; apply K; lra.
Qed.

Lemma qz_distance x y : qnorm2 (qsub (qz x) (qz y)) <= (Rabs (x - y) / 2) ^ 2.
Proof.
  unfold qnorm2, qsub, qz; cbn [qa qb qc qd].
  replace ((Rabs (x - y) / 2) ^ 2) with ((x - y) ^ 2 / 4).
  2:{ replace ((Rabs (x - y) / 2) ^ 2) with (Rabs (x - y) ^ 2 / 4) by field; rewrite pow2_abs; auto. }
  assert (H : cos (x / 2 - y / 2) = 1 - 2 * sin ((x - y) / 4) ^ 2).
  { replace (x / 2 - y / 2) with (2 * ((x - y) / 4)) by field; rewrite cos_2a_sin; ring. }
  rewrite cos_minus in H.
  assert (S1 := sin2_cos2 (x / 2)); assert (S2 := sin2_cos2 (y / 2)); unfold Rsqr in S1, S2.
  assert (L : sin ((x - y) / 4) ^ 2 <= ((x - y) / 4) ^ 2).
  { assert (B := sin_lipschitz ((x - y) / 4) 0); rewrite sin_0, !Rminus_0_r in B.
    rewrite <- (pow2_abs (sin _)), <- (pow2_abs ((x - y) / 4)); apply pow_incr; split; auto; apply Rabs_pos. }
  replace ((x - y) ^ 2 / 4) with (4 * ((x - y) / 4) ^ 2) by field; nra.
Qed.

(** ** Distances of products *)

Definition unit_quat (q : quat) : Prop := qnorm2 q = 1.
Definition qnear (e : R) (p q : quat) : Prop := 0 <= e /\ qnorm2 (qsub p q) <= e ^ 2.

Lemma unit_mul p q : unit_quat p -> unit_quat q -> unit_quat (qmul p q).
Proof. unfold unit_quat; intros A B; rewrite qnorm2_mul, A, B; ring. Qed.
Lemma unit_one : unit_quat qone.
Proof. unfold unit_quat, qnorm2, qone; cbn [qa qb qc qd]; ring. Qed.
Lemma unit_qz a : unit_quat (qz a).
Proof. unfold unit_quat, qnorm2, qz; cbn [qa qb qc qd]; assert (S := sin2_cos2 (a / 2)); unfold Rsqr in S; lra. Qed.
Lemma unit_planar h phi : unit_quat (qplanar h phi).
Proof. apply qplanar_unit. Qed.

Lemma qnear_refl p : qnear 0 p p.
Proof. split; [lra|]; unfold qnorm2, qsub; cbn [qa qb qc qd]; apply Req_le; ring. Qed.
Lemma qnear_mono e f p q : e <= f -> qnear e p q -> qnear f p q.
Proof. intros H [A B]; split; [lra|]; eapply Rle_trans; [exact B|apply pow_incr; lra]. Qed.

Lemma root_sum u v w e f : 0 <= e -> 0 <= f -> 0 <= v -> u <= e ^ 2 -> v <= f ^ 2 -> w ^ 2 <= u * v -> u + 2 * w + v <= (e + f) ^ 2.
Proof.
  intros E F V U W H.
  assert (K : w ^ 2 <= (e * f) ^ 2).
  { eapply Rle_trans; [exact H|]; rewrite Rpow_mult_distr; apply Rmult_le_compat_r with (r := v) in U; auto.
    eapply Rle_trans; [exact U|]; apply Rmult_le_compat_l; auto; apply pow2_ge_0. }
  assert (L : w <= e * f).
  { destruct (Rle_dec w (e * f)) as [|N]; auto; exfalso.
    assert (0 <= e * f) by (apply Rmult_le_pos; auto); nra. }
  nra.
Qed.

Lemma qnear_trans e f p q r : qnear e p q -> qnear f q r -> qnear (e + f) p r.
Proof.
  intros [A B] [C D]; split; [lra|]; unfold qnorm2, qsub in *; cbn [qa qb qc qd] in *.
  set (x1 := qa p - qa q) in *; set (x2 := qb p - qb q) in *; set (x3 := qc p - qc q) in *; set (x4 := qd p - qd q) in *.
  set (y1 := qa q - qa r) in *; set (y2 := qb q - qb r) in *; set (y3 := qc q - qc r) in *; set (y4 := qd q - qd r) in *.
  replace (qa p - qa r) with (x1 + y1) by (unfold x1, y1; ring); replace (qb p - qb r) with (x2 + y2) by (unfold x2, y2; ring);
  replace (qc p - qc r) with (x3 + y3) by (unfold x3, y3; ring); replace (qd p - qd r) with (x4 + y4) by (unfold x4, y4; ring).
  replace ((x1 + y1) * (x1 + y1) + (x2 + y2) * (x2 + y2) + (x3 + y3) * (x3 + y3) + (x4 + y4) * (x4 + y4))
    with ((x1 * x1 + x2 * x2 + x3 * x3 + x4 * x4) + 2 * (x1 * y1 + x2 * y2 + x3 * y3 + x4 * y4) +
          (y1 * y1 + y2 * y2 + y3 * y3 + y4 * y4)) by ring.
  apply root_sum; auto.
  - assert (Q := Rle_0_sqr y1); assert (Q2 := Rle_0_sqr y2); assert (Q3 := Rle_0_sqr y3); assert (Q4 := Rle_0_sqr y4); unfold Rsqr in *; lra.
  - apply Rminus_le.
    replace ((x1 * y1 + x2 * y2 + x3 * y3 + x4 * y4) ^ 2 -
        (x1 * x1 + x2 * x2 + x3 * x3 + x4 * x4) * (y1 * y1 + y2 * y2 + y3 * y3 + y4 * y4))
      with (- (Rsqr (x1 * y2 - x2 * y1) + Rsqr (x1 * y3 - x3 * y1) + Rsqr (x1 * y4 - x4 * y1) +
               Rsqr (x2 * y3 - x3 * y2) + Rsqr (x2 * y4 - x4 * y2) + Rsqr (x3 * y4 - x4 * y3))) by (unfold Rsqr; ring).
    assert (Z := fun x => Rle_0_sqr x).
    assert (Z1 := Z (x1 * y2 - x2 * y1)); assert (Z2 := Z (x1 * y3 - x3 * y1)); assert (Z3 := Z (x1 * y4 - x4 * y1)).
    assert (Z4 := Z (x2 * y3 - x3 * y2)); assert (Z5 := Z (x2 * y4 - x4 * y2)); assert (Z6 := Z (x3 * y4 - x4 * y3)); lra.
Qed.

Lemma qnear_left e u p q : unit_quat u -> qnear e p q -> qnear e (qmul u p) (qmul u q).
Proof.
  intros U [A B]; split; auto.
  replace (qsub (qmul u p) (qmul u q)) with (qmul u (qsub p q)) by (apply q_eq; unfold qmul, qsub; cbn [qa qb qc qd]; ring).
  rewrite qnorm2_mul, U; lra.
Qed.
Lemma qnear_right e u p q : unit_quat u -> qnear e p q -> qnear e (qmul p u) (qmul q u).
Proof.
  intros U [A B]; split; auto.
  replace (qsub (qmul p u) (qmul q u)) with (qmul (qsub p q) u) by (apply q_eq; unfold qmul, qsub; cbn [qa qb qc qd]; ring).
  rewrite qnorm2_mul, U; lra.
Qed.
Lemma qnear_mul e f p p' q q' : unit_quat p' -> unit_quat q -> qnear e p p' -> qnear f q q' ->
  qnear (e + f) (qmul p q) (qmul p' q').
Proof. intros U V A B; eapply qnear_trans; [apply qnear_right; eauto|apply qnear_left; eauto]. Qed.
Lemma qnear_close e p q : qnear e p q -> close_to e (qmat p) (qmat q).
Proof. intros [A B]; apply close_norm; auto. Qed.
Lemma qnear_sym e p q : qnear e p q -> qnear e q p.
Proof.
  intros [A B]; split; auto; replace (qnorm2 (qsub q p)) with (qnorm2 (qsub p q)); auto.
  unfold qnorm2, qsub; cbn [qa qb qc qd]; ring.
Qed.

Lemma qz_near x y : qnear (Rabs (x - y) / 2) (qz x) (qz y).
Proof. split; [assert (H := Rabs_pos (x - y)); lra|apply qz_distance]. Qed.
Lemma qz_0 : qz 0 = qone.
Proof. unfold qz, qone; replace (0 / 2) with 0 by field; rewrite sin_0, cos_0; reflexivity. Qed.
Lemma qz_add x y : qmul (qz x) (qz y) = qz (x + y).
Proof.
  apply q_eq; unfold qz, qmul; cbn [qa qb qc qd]; try ring; replace ((x + y) / 2) with (x / 2 + y / 2) by field;
    rewrite ?cos_plus, ?sin_plus; ring.
Qed.

(** ** The rotation of a vector, and how much it changes with the vector *)

Definition qexp (x y z : R) : quat := qseg x y z 1.

Lemma qseg_exp x y z t : 0 < t -> qseg x y z t = qexp (x * t) (y * t) (z * t).
Proof.
  intros T; unfold qexp, qseg; cbv zeta.
  replace ((x * t) ^ 2 + (y * t) ^ 2 + (z * t) ^ 2) with ((x ^ 2 + y ^ 2 + z ^ 2) * (t * t)) by ring.
  assert (P : 0 <= x ^ 2 + y ^ 2 + z ^ 2).
  { assert (A := pow2_ge_0 x); assert (B := pow2_ge_0 y); assert (C := pow2_ge_0 z); lra. }
  assert (TT : 0 <= t * t) by (apply Rmult_le_pos; lra).
  rewrite sqrt_mult, sqrt_square by lra.
  set (w := sqrt (x ^ 2 + y ^ 2 + z ^ 2)); rewrite Rmult_1_r.
  destruct (Req_dec w 0) as [W|W].
  - assert (S : x ^ 2 + y ^ 2 + z ^ 2 = 0) by (apply sqrt_eq_0; auto).
    assert (A := pow2_ge_0 x); assert (B := pow2_ge_0 y); assert (C := pow2_ge_0 z).
    assert (x = 0) by (apply Rsqr_0_uniq; unfold Rsqr; lra); assert (y = 0) by (apply Rsqr_0_uniq; unfold Rsqr; lra);
      assert (z = 0) by (apply Rsqr_0_uniq; unfold Rsqr; lra).
    rewrite H, H0, H1; unfold Rdiv; rewrite !Rmult_0_l; reflexivity.
  - f_equal; f_equal; field; lra.
Qed.

Lemma unit_qexp x y z : unit_quat (qexp x y z).
Proof.
  unfold unit_quat, qnorm2, qexp, qseg; cbv zeta; cbn [qa qb qc qd].
  assert (P : 0 <= x ^ 2 + y ^ 2 + z ^ 2).
  { assert (A := pow2_ge_0 x); assert (B := pow2_ge_0 y); assert (C := pow2_ge_0 z); lra. }
  assert (Q := sqrt_sqrt _ P); set (w := sqrt (x ^ 2 + y ^ 2 + z ^ 2)) in *; rewrite Rmult_1_r.
  assert (S := sin2_cos2 (w / 2)); unfold Rsqr in S.
  destruct (Req_dec w 0) as [W|W].
  - rewrite W; replace (0 / 2) with 0 by field; rewrite sin_0, cos_0; ring.
  - replace (cos (w / 2) * cos (w / 2) + sin (w / 2) * (x / w) * (sin (w / 2) * (x / w)) +
      sin (w / 2) * (y / w) * (sin (w / 2) * (y / w)) + sin (w / 2) * (z / w) * (sin (w / 2) * (z / w)))
      with (cos (w / 2) * cos (w / 2) + sin (w / 2) * sin (w / 2) * ((x ^ 2 + y ^ 2 + z ^ 2) / (w * w))) by (field; auto).
    rewrite <- Q; replace (w * w / (w * w)) with 1 by (field; auto); lra.
Qed.

(** 1 - cos *)
Lemma versine x : 2 - 2 * cos x <= x ^ 2.
Proof.
  replace x with (2 * (x / 2)) at 1 by field; rewrite cos_2a_sin.
  assert (L : sin (x / 2) ^ 2 <= (x / 2) ^ 2).
  { assert (B := sin_lipschitz (x / 2) 0); rewrite sin_0, !Rminus_0_r in B.
    rewrite <- (pow2_abs (sin _)), <- (pow2_abs (x / 2)); apply pow_incr; split; auto; apply Rabs_pos. }
  replace (x ^ 2) with (4 * (x / 2) ^ 2) by field; lra.
Qed.
Lemma sin_product a b : 0 <= a -> 0 <= b -> sin a * sin b <= a * b.
Proof.
  intros A B; eapply Rle_trans; [apply Rle_abs|]; rewrite Rabs_mult.
  assert (S : forall u, 0 <= u -> Rabs (sin u) <= u).
  { intros u U; assert (L := sin_lipschitz u 0); rewrite sin_0, !Rminus_0_r, (Rabs_right u) in L; lra. }
  apply Rmult_le_compat; auto; apply Rabs_pos.
Qed.

Lemma qexp_lipschitz x y z x' y' z' :
  qnorm2 (qsub (qexp x y z) (qexp x' y' z')) <= ((x - x') ^ 2 + (y - y') ^ 2 + (z - z') ^ 2) / 4.
Proof.
  assert (U := unit_qexp x y z); assert (U' := unit_qexp x' y' z'); unfold unit_quat, qnorm2 in U, U'.
  set (p := qexp x y z) in *; set (q := qexp x' y' z') in *.
  assert (N : qnorm2 (qsub p q) = 2 - 2 * (qa p * qa q + qb p * qb q + qc p * qc q + qd p * qd q)).
  { unfold qnorm2, qsub; cbn [qa qb qc qd].
    replace 2 with ((qa p * qa p + qb p * qb p + qc p * qc p + qd p * qd p) + (qa q * qa q + qb q * qb q + qc q * qc q + qd q * qd q))
      at 1 by (rewrite U, U'; ring); ring. }
  rewrite N; clear N U U'; unfold p, q, qexp, qseg; cbv zeta; cbn [qa qb qc qd]; clear p q; rewrite !Rmult_1_r.
  assert (P : 0 <= x ^ 2 + y ^ 2 + z ^ 2).
  { assert (A := pow2_ge_0 x); assert (B := pow2_ge_0 y); assert (C := pow2_ge_0 z); lra. }
  assert (P' : 0 <= x' ^ 2 + y' ^ 2 + z' ^ 2).
  { assert (A := pow2_ge_0 x'); assert (B := pow2_ge_0 y'); assert (C := pow2_ge_0 z'); lra. }
  assert (Q := sqrt_sqrt _ P); assert (Q' := sqrt_sqrt _ P'); assert (W0 := sqrt_pos (x ^ 2 + y ^ 2 + z ^ 2));
    assert (W0' := sqrt_pos (x' ^ 2 + y' ^ 2 + z' ^ 2)).
  set (w := sqrt (x ^ 2 + y ^ 2 + z ^ 2)) in *; set (w' := sqrt (x' ^ 2 + y' ^ 2 + z' ^ 2)) in *.
  set (c := x * x' + y * y' + z * z').
  replace ((x - x') ^ 2 + (y - y') ^ 2 + (z - z') ^ 2) with (w * w + w' * w' - 2 * c) by (unfold c; rewrite Q, Q'; ring).
  assert (ZERO : forall a b d, a ^ 2 + b ^ 2 + d ^ 2 = 0 -> a = 0 /\ b = 0 /\ d = 0).
  { intros a b d S; assert (A := pow2_ge_0 a); assert (B := pow2_ge_0 b); assert (C := pow2_ge_0 d).
    repeat split; apply Rsqr_0_uniq; unfold Rsqr; lra. }
  destruct (Req_dec w 0) as [W|W].
  - destruct (ZERO x y z) as [-> [-> ->]]; [rewrite <- Q, W; ring|].
    unfold c; rewrite W; replace (0 / 2) with 0 by field; rewrite sin_0, cos_0.
    assert (V := versine (w' / 2)); replace ((w' / 2) ^ 2) with (w' * w' / 4) in V by field; lra.
  - destruct (Req_dec w' 0) as [W'|W'].
    + destruct (ZERO x' y' z') as [-> [-> ->]]; [rewrite <- Q', W'; ring|].
      unfold c; rewrite W'; replace (0 / 2) with 0 by field; rewrite sin_0, cos_0.
      assert (V := versine (w / 2)); replace ((w / 2) ^ 2) with (w * w / 4) in V by field; lra.
    + replace (cos (w / 2) * cos (w' / 2) + sin (w / 2) * (x / w) * (sin (w' / 2) * (x' / w')) +
        sin (w / 2) * (y / w) * (sin (w' / 2) * (y' / w')) + sin (w / 2) * (z / w) * (sin (w' / 2) * (z' / w')))
        with (cos (w / 2 - w' / 2) - sin (w / 2) * sin (w' / 2) * (1 - c / (w * w'))).
      2:{ rewrite cos_minus; unfold c; field; auto. }
      assert (V := versine (w / 2 - w' / 2)).
      assert (S := sin_product (w / 2) (w' / 2) ltac:(lra) ltac:(lra)).
      assert (PW : 0 < w * w') by (apply Rmult_lt_0_compat; lra).
      assert (CS : c <= w * w').
      { destruct (Rle_dec c (w * w')) as [|F]; auto; exfalso.
        assert (K : c ^ 2 <= (w * w') ^ 2).
        { replace ((w * w') ^ 2) with ((w * w) * (w' * w')) by ring; rewrite Q, Q'; unfold c; apply Rminus_le.
          replace ((x * x' + y * y' + z * z') ^ 2 - (x ^ 2 + y ^ 2 + z ^ 2) * (x' ^ 2 + y' ^ 2 + z' ^ 2))
            with (- (Rsqr (x * y' - y * x') + Rsqr (x * z' - z * x') + Rsqr (y * z' - z * y'))) by (unfold Rsqr; ring).
          assert (Z1 := Rle_0_sqr (x * y' - y * x')); assert (Z2 := Rle_0_sqr (x * z' - z * x')); assert (Z3 := Rle_0_sqr (y * z' - z * y')); lra. }
        nra. }
      assert (D : 0 <= 1 - c / (w * w')).
      { apply (Rmult_le_reg_r (w * w')); auto; rewrite Rmult_0_l, Rmult_minus_distr_r.
        replace (c / (w * w') * (w * w')) with c by (field; auto); lra. }
      assert (M : sin (w / 2) * sin (w' / 2) * (1 - c / (w * w')) <= (w * w' - c) / 4).
      { eapply Rle_trans; [apply Rmult_le_compat_r; [exact D|exact S]|]; apply Req_le; field; auto. }
      replace ((w / 2 - w' / 2) ^ 2) with ((w * w + w' * w' - 2 * (w * w')) / 4) in V by field; lra.
Qed.

Lemma qexp_near x y z x' y' z' e : 0 <= e -> (x - x') ^ 2 + (y - y') ^ 2 + (z - z') ^ 2 <= (2 * e) ^ 2 ->
  qnear e (qexp x y z) (qexp x' y' z').
Proof.
  intros E H; split; auto; eapply Rle_trans; [apply qexp_lipschitz|].
  replace ((2 * e) ^ 2) with (4 * e ^ 2) in H by ring; lra.
Qed.
