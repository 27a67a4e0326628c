(** * The Schroedinger equation with time-dependent drive *)

From Coq Require Import Lia.
From Verif Require Export L_QuatNorm L_Noise Spec_Drive.
Import ListNotations.
Open Scope string_scope.
Open Scope list_scope.
Open Scope R_scope.

(** ** Solutions are unit quaternions *)

Definition qham (x y z : R) : quat := Q4 0 (x / 2) (y / 2) (z / 2).
Lemma qham_mat x y z V : mscale (0, -1) (mmul (hamiltonian x y z) V) = mmul (qmat (qham x y z)) V.
Proof. destruct V as [[a b] [c d] [e f] [g h]]; m_real; field. Qed.

Definition qsolves (x y z : R -> R) (t0 : R) (q : R -> quat) : Prop :=
  q t0 = qone /\ forall t, qderive q t (qmul (qham (x t) (y t) (z t)) (q t)).

Lemma qsolves_mat x y z t0 q : qsolves x y z t0 q -> qmat (q t0) = mone /\
  forall t, m_derive (fun t => qmat (q t)) t (mscale (0, -1) (mmul (hamiltonian (x t) (y t) (z t)) (qmat (q t)))).
Proof.
  intros [S D]; split; [rewrite S; apply qmat_one|].
  intros t; rewrite qham_mat, <- qmat_mul; destruct (D t) as [A [B [C0 E]]].
  assert (B' := is_derive_opp _ _ _ B); assert (C' := is_derive_opp _ _ _ C0); assert (E' := is_derive_opp _ _ _ E).
  unfold opp in B', C', E'; simpl in B', C', E'.
  unfold m_derive, c_derive, qmat; cbn [m00 m01 m10 m11 fst snd].
  split; [split|split; [split|split; [split|split]]]; auto.
Qed.

Lemma solution_quat (x y z : R -> R) t0 (U : R -> M2) : U t0 = mone ->
  (forall t, m_derive U t (mscale (0, -1) (mmul (hamiltonian (x t) (y t) (z t)) (U t)))) ->
  exists q, qsolves x y z t0 q /\ forall t, U t = qmat (q t).
Proof.
  intros U0 UD.
  set (N := fun t : R =>
    (fst (m00 (U t)) - fst (m11 (U t))) ^ 2 + (snd (m00 (U t)) - - snd (m11 (U t))) ^ 2 +
    (fst (m01 (U t)) - - fst (m10 (U t))) ^ 2 + (snd (m01 (U t)) - snd (m10 (U t))) ^ 2).
  assert (OP : forall (f : R -> R) t d, is_derive f t d -> is_derive (fun t => - f t) t (- d)).
  { intros f t d H; apply (is_derive_opp f t d H). }
  assert (HN : forall t, is_derive N t 0).
  { intros t; unfold N.
    destruct (UD t) as [[A1 A2] [[A3 A4] [[A5 A6] [A7 A8]]]].
    eapply is_derive_eq.
    - exact (sum_derive _ _ _ _ _ (sum_derive _ _ _ _ _ (sum_derive _ _ _ _ _
                (diffsq_derive _ _ _ _ _ A1 A7) (diffsq_derive _ _ _ _ _ A2 (OP _ _ _ A8)))
                (diffsq_derive _ _ _ _ _ A3 (OP _ _ _ A5))) (diffsq_derive _ _ _ _ _ A4 A6)).
    - clear; cbv beta.
      destruct (U t) as [[u1 u2] [u3 u4] [u5 u6] [u7 u8]]; simpl; field. }
  assert (E : forall t, U t = qmat (Q4 (fst (m00 (U t))) (- snd (m10 (U t))) (fst (m10 (U t))) (snd (m11 (U t))))).
  { intros t; assert (Z : N t = 0).
    { rewrite (null_derive_const N HN t t0); unfold N; rewrite U0; simpl; ring. }
    unfold N in Z.
    assert (fst (m00 (U t)) - fst (m11 (U t)) = 0 /\ snd (m00 (U t)) - - snd (m11 (U t)) = 0 /\
      fst (m01 (U t)) - - fst (m10 (U t)) = 0 /\ snd (m01 (U t)) - snd (m10 (U t)) = 0) as [Z1 [Z2 [Z3 Z4]]].
    { destruct (sumsq8 (fst (m00 (U t)) - fst (m11 (U t))) (snd (m00 (U t)) - - snd (m11 (U t)))
        (fst (m01 (U t)) - - fst (m10 (U t))) (snd (m01 (U t)) - snd (m10 (U t))) 0 0 0 0) as [Y1 [Y2 [Y3 [Y4 _]]]]; [lra|auto]. }
    destruct (U t) as [[u1 u2] [u3 u4] [u5 u6] [u7 u8]]; simpl in *; m_real; lra. }
  exists (fun t => Q4 (fst (m00 (U t))) (- snd (m10 (U t))) (fst (m10 (U t))) (snd (m11 (U t)))); split; auto.
  split; [rewrite U0; unfold qone; simpl; f_equal; ring|].
  intros t; assert (D := UD t); rewrite qham_mat in D; rewrite (E t) in D; rewrite <- qmat_mul in D.
  set (r := qmul _ _) in D |- *; clearbody r.
  destruct D as [[A1 A2] [[A3 A4] [[A5 A6] [A7 A8]]]].
  unfold qmat in *; cbn [m00 m01 m10 m11 fst snd] in *.
  split; [|split; [|split]]; cbn [qa qb qc qd]; auto.
  eapply is_derive_eq; [apply OP, A6|simpl; apply Ropp_involutive].
Qed.

Lemma qsolves_unit x y z t0 q : qsolves x y z t0 q -> forall t, unit_quat (q t).
Proof.
  intros [S D]; set (N := fun t => qnorm2 (q t)).
  assert (HN : forall t, is_derive N t 0).
  { intros t; unfold N, qnorm2; destruct (D t) as [A [B [C0 E]]].
    eapply is_derive_eq.
    - exact (sum_derive _ _ _ _ _ (sum_derive _ _ _ _ _ (sum_derive _ _ _ _ _ (is_derive_mulR _ _ _ _ _ A A)
        (is_derive_mulR _ _ _ _ _ B B)) (is_derive_mulR _ _ _ _ _ C0 C0)) (is_derive_mulR _ _ _ _ _ E E)).
    - unfold qham; simpl; field. }
  intros t; unfold unit_quat; change (N t = 1); rewrite (null_derive_const N HN t t0); unfold N; rewrite S; apply unit_one.
Qed.

(** ** Solutions of nearby equations are near *)

Lemma mean_value (f f' : R -> R) a b L : a <= b -> (forall t, a <= t <= b -> is_derive f t (f' t)) ->
  (forall t, a <= t <= b -> f' t <= L) -> f b - f a <= L * (b - a).
Proof.
  intros AB D B; destruct (MVT_gen f a b f') as [c [C1 C2]].
  - intros t T; rewrite Rmin_left, Rmax_right in T by auto; apply D; lra.
  - intros t T; rewrite Rmin_left, Rmax_right in T by auto.
    apply derivable_continuous_pt; exists (f' t); apply is_derive_Reals, D; lra.
  - rewrite Rmin_left, Rmax_right in C1 by auto; rewrite C2; apply Rmult_le_compat_r; [lra|apply B; auto].
Qed.

Lemma qsolves_near x y z x' y' z' t0 q p D t1 : qsolves x y z t0 q -> qsolves x' y' z' t0 p -> t0 <= t1 -> 0 <= D ->
  (forall t, t0 <= t <= t1 -> (x t - x' t) ^ 2 + (y t - y' t) ^ 2 + (z t - z' t) ^ 2 <= D ^ 2) ->
  qnear (D * (t1 - t0) / 2) (q t1) (p t1).
Proof.
  intros Sq Sp LE D0 B.
  assert (Uq := qsolves_unit _ _ _ _ _ Sq); assert (Up := qsolves_unit _ _ _ _ _ Sp).
  destruct Sq as [Sq Dq], Sp as [Sp Dp].
  assert (P0 : 0 <= D * (t1 - t0) / 2) by (assert (0 <= D * (t1 - t0)) by (apply Rmult_le_pos; lra); lra).
  split; auto.
  set (N := fun t => qnorm2 (qsub (q t) (p t))).
  set (dN := fun t => 2 * (
     (qa (q t) - qa (p t)) * (qa (qmul (qham (x t) (y t) (z t)) (q t)) - qa (qmul (qham (x' t) (y' t) (z' t)) (p t))) +
     (qb (q t) - qb (p t)) * (qb (qmul (qham (x t) (y t) (z t)) (q t)) - qb (qmul (qham (x' t) (y' t) (z' t)) (p t))) +
     (qc (q t) - qc (p t)) * (qc (qmul (qham (x t) (y t) (z t)) (q t)) - qc (qmul (qham (x' t) (y' t) (z' t)) (p t))) +
     (qd (q t) - qd (p t)) * (qd (qmul (qham (x t) (y t) (z t)) (q t)) - qd (qmul (qham (x' t) (y' t) (z' t)) (p t))))).
  assert (N0 : forall t, 0 <= N t).
  { intros t; unfold N, qnorm2, qsub; cbn [qa qb qc qd].
    assert (K := fun u => Rle_0_sqr u); unfold Rsqr in K.
    assert (K1 := K (qa (q t) - qa (p t))); assert (K2 := K (qb (q t) - qb (p t)));
      assert (K3 := K (qc (q t) - qc (p t))); assert (K4 := K (qd (q t) - qd (p t))); lra. }
  assert (DN : forall t, is_derive N t (dN t)).
  { intros t; unfold N, qnorm2, qsub; cbn [qa qb qc qd].
    destruct (Dq t) as [A1 [A2 [A3 A4]]], (Dp t) as [B1 [B2 [B3 B4]]].
    assert (SQ : forall (f g : R -> R) a b, is_derive f t a -> is_derive g t b ->
      is_derive (fun t => (f t - g t) * (f t - g t)) t (2 * ((f t - g t) * (a - b)))).
    { intros f g a b Ha Hb; eapply is_derive_eq; [apply is_derive_mulR; apply is_derive_subR; eassumption|simpl; ring]. }
    eapply is_derive_eq.
    - exact (sum_derive _ _ _ _ _ (sum_derive _ _ _ _ _ (sum_derive _ _ _ _ _ (SQ _ _ _ _ A1 B1) (SQ _ _ _ _ A2 B2))
        (SQ _ _ _ _ A3 B3)) (SQ _ _ _ _ A4 B4)).
    - unfold dN; simpl; ring. }
  (* the growth of the square of the distance *)
  assert (G : forall t, t0 <= t <= t1 -> dN t ^ 2 <= D ^ 2 * N t).
  { intros t I; assert (BB := B t I); assert (UU := Up t); unfold unit_quat, qnorm2 in UU.
    set (u := x t - x' t) in *; set (v := y t - y' t) in *; set (w := z t - z' t) in *.
    set (h := qmul (Q4 0 u v w) (p t)).
    set (e := qsub (q t) (p t)).
    assert (DE : dN t = qa e * qa h + qb e * qb h + qc e * qc h + qd e * qd h).
    { unfold dN, h, e, u, v, w, qham, qsub; cbn [qmul qa qb qc qd]; field. }
    assert (HN : qnorm2 h = u ^ 2 + v ^ 2 + w ^ 2).
    { unfold h; rewrite qnorm2_mul; unfold qnorm2 at 2; rewrite UU; unfold qnorm2; cbn [qa qb qc qd]; ring. }
    change (N t) with (qnorm2 e); rewrite DE.
    apply Rle_trans with (qnorm2 h * qnorm2 e).
    - unfold qnorm2; apply Rminus_le.
      replace ((qa e * qa h + qb e * qb h + qc e * qc h + qd e * qd h) ^ 2 -
        (qa h * qa h + qb h * qb h + qc h * qc h + qd h * qd h) * (qa e * qa e + qb e * qb e + qc e * qc e + qd e * qd e))
      with (- (Rsqr (qa e * qb h - qb e * qa h) + Rsqr (qa e * qc h - qc e * qa h) + Rsqr (qa e * qd h - qd e * qa h) +
               Rsqr (qb e * qc h - qc e * qb h) + Rsqr (qb e * qd h - qd e * qb h) + Rsqr (qc e * qd h - qd e * qc h))) by (unfold Rsqr; ring).
      assert (Z := fun x => Rle_0_sqr x).
      assert (Z1 := Z (qa e * qb h - qb e * qa h)); assert (Z2 := Z (qa e * qc h - qc e * qa h)); assert (Z3 := Z (qa e * qd h - qd e * qa h)).
      assert (Z4 := Z (qb e * qc h - qc e * qb h)); assert (Z5 := Z (qb e * qd h - qd e * qb h)); assert (Z6 := Z (qc e * qd h - qd e * qc h)); lra.
    - rewrite HN; apply Rmult_le_compat_r; [apply N0|auto]. }
  (* the distance, smoothed *)
  assert (F : forall e, 0 < e -> N t1 <= (e + D * (t1 - t0) / 2) ^ 2).
  { intros e E; set (f := fun t => sqrt (N t + e ^ 2)).
    assert (PE : forall t, 0 < N t + e ^ 2) by (intros t; assert (0 < e ^ 2) by (apply pow_lt; auto); assert (K := N0 t); lra).
    assert (DF : forall t, is_derive f t (dN t / (2 * f t))).
    { intros t; unfold f; assert (SR := sqrt_lt_R0 _ (PE t)).
      assert (DP : is_derive (fun t => N t + e ^ 2) t (dN t)).
      { eapply is_derive_eq; [apply (is_derive_plus N (fun _ => e ^ 2) t (dN t) 0 (DN t)); apply @is_derive_const|].
        unfold plus; simpl; ring. }
      apply (is_derive_sqrt (fun t => N t + e ^ 2) t (dN t) DP (PE t)). }
    assert (M := mean_value f (fun t => dN t / (2 * f t)) t0 t1 (D / 2) LE (fun t _ => DF t)).
    assert (M' : f t1 - f t0 <= D / 2 * (t1 - t0)).
    { apply M; intros t I; assert (SR := sqrt_lt_R0 _ (PE t)); fold (f t) in SR.
      apply (Rmult_le_reg_r (2 * f t)); [lra|].
      replace (dN t / (2 * f t) * (2 * f t)) with (dN t) by (field; lra).
      replace (D / 2 * (2 * f t)) with (D * f t) by field.
      apply Rsqr_incr_0_var; [|apply Rmult_le_pos; lra].
      unfold Rsqr; assert (GG := G t I); replace (dN t ^ 2) with (dN t * dN t) in GG by ring.
      eapply Rle_trans; [exact GG|].
      replace (D * f t * (D * f t)) with (D ^ 2 * (f t * f t)) by ring; unfold f; rewrite sqrt_sqrt by (apply Rlt_le, PE).
      apply Rmult_le_compat_l; [apply pow2_ge_0|]; assert (K := pow2_ge_0 e); lra. }
    assert (F0 : f t0 = e).
    { unfold f, N; rewrite Sq, Sp; replace (qnorm2 (qsub qone qone)) with 0 by (unfold qnorm2, qsub; cbn [qa qb qc qd]; ring).
      rewrite Rplus_0_l; apply sqrt_pow2; lra. }
    rewrite F0 in M'.
    assert (S1 : N t1 + e ^ 2 = f t1 * f t1) by (unfold f; rewrite sqrt_sqrt; [auto|apply Rlt_le, PE]).
    assert (F1 : 0 <= f t1) by apply sqrt_pos.
    assert (LL : f t1 <= e + D * (t1 - t0) / 2) by lra.
    assert (K := pow2_ge_0 e).
    apply Rle_trans with (f t1 * f t1); [lra|]; cbn [pow]; rewrite Rmult_1_r; apply Rmult_le_compat; auto. }
  change (N t1 <= (D * (t1 - t0) / 2) ^ 2).
  set (d := D * (t1 - t0) / 2) in *.
  apply Rnot_lt_le; intros L.
  set (g := N t1 - d ^ 2) in *; assert (0 < g) by (unfold g; lra).
  (* e with 2 e d + e^2 < g *)
  set (e := Rmin 1 (g / (2 * (2 * d + 1)))).
  assert (Q : 0 < g / (2 * (2 * d + 1))) by (apply Rdiv_lt_0_compat; lra).
  assert (E0 : 0 < e) by (unfold e; apply Rmin_pos; lra).
  assert (E1 : e <= 1) by apply Rmin_l; assert (E2 : e <= g / (2 * (2 * d + 1))) by apply Rmin_r.
  assert (FF := F e E0).
  assert (e * (2 * d + 1) <= g / 2).
  { apply Rle_trans with (g / (2 * (2 * d + 1)) * (2 * d + 1)); [apply Rmult_le_compat_r; lra|apply Req_le; field; lra]. }
  unfold g in *; nra.
Qed.
