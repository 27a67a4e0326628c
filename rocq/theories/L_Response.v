(** * First-order response of a control to noise *)

From Verif Require Import L_DriveExists L_DriveControl L_RemainderControl L_Remainder Spec_Remainder Spec_Drive Spec_Response.
From Verif Require Import L_FirstOrderFamilies L_FinitePulse L_PreConvert L_Requests L_FirstOrder.
From Coq Require Import Lia.
Import ListNotations.
Set Bullet Behavior "Strict Subproofs".
Open Scope list_scope.
Open Scope R_scope.

(** ** Growth of a solution *)

Definition qdot (p q : quat) : R := qa p * qa q + qb p * qb q + qc p * qc q + qd p * qd q.

Lemma cauchy p q : qdot p q ^ 2 <= qnorm2 p * qnorm2 q.
Proof.
  unfold qdot, qnorm2; apply Rminus_le.
  replace ((qa p * qa q + qb p * qb q + qc p * qc q + qd p * qd q) ^ 2 -
    (qa p * qa p + qb p * qb p + qc p * qc p + qd p * qd p) * (qa q * qa q + qb q * qb q + qc q * qc q + qd q * qd q))
  with (- (Rsqr (qa p * qb q - qb p * qa q) + Rsqr (qa p * qc q - qc p * qa q) + Rsqr (qa p * qd q - qd p * qa q) +
           Rsqr (qb p * qc q - qc p * qb q) + Rsqr (qb p * qd q - qd p * qb q) + Rsqr (qc p * qd q - qd p * qc q))) by (unfold Rsqr; ring).
  assert (Z := fun x => Rle_0_sqr x).
  assert (Z1 := Z (qa p * qb q - qb p * qa q)); assert (Z2 := Z (qa p * qc q - qc p * qa q)); assert (Z3 := Z (qa p * qd q - qd p * qa q)).
  assert (Z4 := Z (qb p * qc q - qc p * qb q)); assert (Z5 := Z (qb p * qd q - qd p * qb q)); assert (Z6 := Z (qc p * qd q - qd p * qc q)); lra.
Qed.

Lemma qnorm2_pos q : 0 <= qnorm2 q.
Proof.
  unfold qnorm2; assert (K := fun u => Rle_0_sqr u); unfold Rsqr in K.
  assert (K1 := K (qa q)); assert (K2 := K (qb q)); assert (K3 := K (qc q)); assert (K4 := K (qd q)); lra.
Qed.

Lemma growth (e de : R -> quat) (f F : R -> R) t0 t1 : t0 <= t1 -> e t0 = qzero ->
  (forall t, qderive e t (de t)) -> (forall t, is_derive F t (f t)) -> F t0 = 0 -> 0 <= F t1 ->
  (forall t, t0 <= t <= t1 -> 0 <= f t /\ qdot (e t) (de t) ^ 2 <= f t ^ 2 * qnorm2 (e t)) ->
  qnorm2 (e t1) <= F t1 ^ 2.
Proof.
  intros LE E0 DE DF F0 FP H.
  set (N := fun t => qnorm2 (e t)).
  assert (N0 : forall t, 0 <= N t) by (intros; apply qnorm2_pos).
  assert (DN : forall t, is_derive N t (2 * qdot (e t) (de t))).
  { intros t; unfold N, qnorm2; destruct (DE t) as [A1 [A2 [A3 A4]]].
    eapply is_derive_eq.
    - exact (sum_derive _ _ _ _ _ (sum_derive _ _ _ _ _ (sum_derive _ _ _ _ _ (is_derive_mulR _ _ _ _ _ A1 A1)
        (is_derive_mulR _ _ _ _ _ A2 A2)) (is_derive_mulR _ _ _ _ _ A3 A3)) (is_derive_mulR _ _ _ _ _ A4 A4)).
    - unfold qdot; simpl; ring. }
  assert (B : forall x, 0 < x -> N t1 <= (x + F t1) ^ 2).
  { intros x X; set (g := fun t => sqrt (N t + x ^ 2)).
    assert (PE : forall t, 0 < N t + x ^ 2) by (intros t; assert (0 < x ^ 2) by (apply pow_lt; auto); assert (K := N0 t); lra).
    assert (DG : forall t, is_derive g t (2 * qdot (e t) (de t) / (2 * g t))).
    { intros t; unfold g; assert (SR := sqrt_lt_R0 _ (PE t)).
      assert (DP : is_derive (fun t => N t + x ^ 2) t (2 * qdot (e t) (de t))).
      { eapply is_derive_eq; [apply (is_derive_plus N (fun _ => x ^ 2) t _ 0 (DN t)); apply @is_derive_const|].
        unfold plus; simpl; ring. }
      apply (is_derive_sqrt (fun t => N t + x ^ 2) t _ DP (PE t)). }
    assert (M : (g t1 - F t1) - (g t0 - F t0) <= 0 * (t1 - t0)).
    { apply (mean_value (fun t => g t - F t) (fun t => 2 * qdot (e t) (de t) / (2 * g t) - f t) t0 t1 0 LE).
      - intros t I; apply is_derive_subR; auto.
      - intros t I; assert (SR := sqrt_lt_R0 _ (PE t)); fold (g t) in SR; destruct (H t I) as [P Q].
        enough (qdot (e t) (de t) <= f t * g t).
        { replace (2 * qdot (e t) (de t) / (2 * g t)) with (qdot (e t) (de t) * / g t) by (field; lra).
          assert (qdot (e t) (de t) * / g t <= f t * g t * / g t) by (apply Rmult_le_compat_r; [left; apply Rinv_0_lt_compat; auto|auto]).
          replace (f t * g t * / g t) with (f t) in * by (field; lra); lra. }
        apply Rsqr_incr_0_var; [|apply Rmult_le_pos; lra].
        unfold Rsqr; replace (qdot (e t) (de t) * qdot (e t) (de t)) with (qdot (e t) (de t) ^ 2) by ring.
        eapply Rle_trans; [exact Q|].
        replace (f t * g t * (f t * g t)) with (f t ^ 2 * (g t * g t)) by ring; unfold g; rewrite sqrt_sqrt by (apply Rlt_le, PE).
        apply Rmult_le_compat_l; [apply pow2_ge_0|]; assert (K := pow2_ge_0 x); fold (N t); lra. }
    assert (G0 : g t0 = x).
    { unfold g, N; rewrite E0; replace (qnorm2 qzero) with 0 by (unfold qnorm2, qzero; cbn [qa qb qc qd]; ring).
      rewrite Rplus_0_l; apply sqrt_pow2; lra. }
    rewrite G0, F0 in M.
    assert (S1 : N t1 + x ^ 2 = g t1 * g t1) by (unfold g; rewrite sqrt_sqrt; [auto|apply Rlt_le, PE]).
    assert (F1 : 0 <= g t1) by apply sqrt_pos.
    assert (LL : g t1 <= x + F t1) by lra.
    assert (K := pow2_ge_0 x).
    apply Rle_trans with (g t1 * g t1); [lra|]; cbn [pow]; rewrite Rmult_1_r; apply Rmult_le_compat; auto. }
  change (N t1 <= F t1 ^ 2); set (d := F t1) in *.
  apply Rnot_lt_le; intros L.
  set (g := N t1 - d ^ 2) in *; assert (0 < g) by (unfold g; lra).
  set (x := Rmin 1 (g / (2 * (2 * d + 1)))).
  assert (Q : 0 < g / (2 * (2 * d + 1))) by (apply Rdiv_lt_0_compat; lra).
  assert (X0 : 0 < x) by (unfold x; apply Rmin_pos; lra).
  assert (X1 : x <= 1) by apply Rmin_l; assert (X2 : x <= g / (2 * (2 * d + 1))) by apply Rmin_r.
  assert (FF := B x X0).
  assert (x * (2 * d + 1) <= g / 2).
  { apply Rle_trans with (g / (2 * (2 * d + 1)) * (2 * d + 1)); [apply Rmult_le_compat_r; lra|apply Req_le; field; lra]. }
  unfold g in *; nra.
Qed.

(** ** One segment *)

Lemma qham_norm x y z : qnorm2 (qham x y z) = (x ^ 2 + y ^ 2 + z ^ 2) / 4.
Proof. unfold qnorm2, qham; cbn [qa qb qc qd]; field. Qed.
Lemma qdot_skew x y z e : qdot e (qmul (qham x y z) e) = 0.
Proof. unfold qdot, qham; cbn [qa qb qc qd qmul]; ring. Qed.
Lemma qdot_add e p q : qdot e (qadd p q) = qdot e p + qdot e q.
Proof. unfold qdot; cbn [qa qb qc qd qadd]; ring. Qed.

Definition qsees (dx dy dz : R -> R) (t0 : R) (p w : R -> quat) : Prop :=
  w t0 = qzero /\ forall t, qderive w t (qmul (qconj (p t)) (qmul (qham (dx t) (dy t) (dz t)) (p t))).

Section Segment.
  Variables (x y z dx dy dz : R -> R) (t0 t1 D : R) (q p w : R -> quat).
  Hypothesis Sq : qsolves (fun t => x t + dx t) (fun t => y t + dy t) (fun t => z t + dz t) t0 q.
  Hypothesis Sp : qsolves x y z t0 p.
  Hypothesis Sw : qsees dx dy dz t0 p w.
  Hypothesis LE : t0 <= t1.
  Hypothesis D0 : 0 <= D.
  Hypothesis BD : forall t, t0 <= t <= t1 -> dx t ^ 2 + dy t ^ 2 + dz t ^ 2 <= D ^ 2.

  Lemma seen_size : qnear (D * (t1 - t0) / 2) (w t1) qzero.
  Proof.
    assert (P : 0 <= D * (t1 - t0)) by (apply Rmult_le_pos; lra).
    split; [lra|]; replace (qsub (w t1) qzero) with (w t1) by (apply q_eq; unfold qsub, qzero; cbn [qa qb qc qd]; ring).
    destruct Sw as [W0 DW]; assert (U := qsolves_unit _ _ _ _ _ Sp).
    apply (growth w _ (fun _ => D / 2) (fun t => D * (t - t0) / 2) t0 t1 LE W0 DW).
    - intros t; auto_derive; auto; field.
    - unfold Rdiv; ring.
    - lra.
    - intros t I; split; [lra|]; eapply Rle_trans; [apply cauchy|]; rewrite !qnorm2_mul, (U t), (qconj_unit _ (U t)), qham_norm.
      assert (B := BD t I); assert (N := qnorm2_pos (w t)); nra.
  Qed.

  Lemma second_order : qnear ((D * (t1 - t0) / 2) ^ 2 / 2) (q t1) (qadd (p t1) (qmul (p t1) (w t1))).
  Proof.
    split; [assert (K := pow2_ge_0 (D * (t1 - t0) / 2)); lra|].
    destruct Sq as [Q0 DQ], Sp as [P0 DP], Sw as [W0 DW]; assert (U := qsolves_unit _ _ _ _ _ Sp).
    set (e := fun t => qsub (q t) (qadd (p t) (qmul (p t) (w t)))).
    set (H0 := fun t => qham (x t) (y t) (z t)); set (h := fun t => qham (dx t) (dy t) (dz t)).
    assert (DE : forall t, qderive e t (qadd (qmul (H0 t) (e t)) (qmul (h t) (qsub (q t) (p t))))).
    { intros t.
      assert (X1 := DQ t); assert (X2 := DP t); assert (X3 := qderive_mul _ _ _ _ _ (DP t) (DW t)).
      fold (H0 t) in X2, X3; fold (h t) in X3.
      destruct (qconj_inverse _ (U t)) as [PI1 _].
      assert (X4 : qmul (p t) (qmul (qconj (p t)) (qmul (h t) (p t))) = qmul (h t) (p t)) by (rewrite qmul_assoc, PI1, qmul_1_l; auto).
      rewrite X4 in X3; cbv beta in X3.
      destruct X1 as [A1 [A2 [A3 A4]]], X2 as [B1 [B2 [B3 B4]]], X3 as [C1 [C2 [C3 C4]]].
      unfold e; split; [|split; [|split]]; cbn [qsub qadd qa qb qc qd].
      - eapply is_derive_eq; [apply is_derive_subR; [exact A1|apply sum_derive; [exact B1|exact C1]]|].
        unfold H0, h, qham; cbn [qsub qadd qmul qa qb qc qd]; match goal with |- ?a = ?b => change (@eq R a b) end; field.
      - eapply is_derive_eq; [apply is_derive_subR; [exact A2|apply sum_derive; [exact B2|exact C2]]|].
        unfold H0, h, qham; cbn [qsub qadd qmul qa qb qc qd]; match goal with |- ?a = ?b => change (@eq R a b) end; field.
      - eapply is_derive_eq; [apply is_derive_subR; [exact A3|apply sum_derive; [exact B3|exact C3]]|].
        unfold H0, h, qham; cbn [qsub qadd qmul qa qb qc qd]; match goal with |- ?a = ?b => change (@eq R a b) end; field.
      - eapply is_derive_eq; [apply is_derive_subR; [exact A4|apply sum_derive; [exact B4|exact C4]]|].
        unfold H0, h, qham; cbn [qsub qadd qmul qa qb qc qd]; match goal with |- ?a = ?b => change (@eq R a b) end; field. }
    change (qnorm2 (e t1) <= ((D * (t1 - t0) / 2) ^ 2 / 2) ^ 2).
    apply (growth e (fun t => qadd (qmul (H0 t) (e t)) (qmul (h t) (qsub (q t) (p t)))) (fun t => (D / 2) ^ 2 * (t - t0)) (fun t => (D * (t - t0) / 2) ^ 2 / 2) t0 t1 LE); auto.
    - unfold e; rewrite Q0, P0, W0; apply q_eq; unfold qsub, qadd, qzero, qone; cbn [qa qb qc qd qmul]; ring.
    - intros t; auto_derive; auto; field.
    - replace (t0 - t0) with 0 by ring; field.
    - assert (K := pow2_ge_0 (D * (t1 - t0) / 2)); lra.
    - intros t I; assert (K := pow2_ge_0 (D / 2)); split; [apply Rmult_le_pos; lra|].
      cbv beta; rewrite qdot_add; unfold H0 at 1; rewrite qdot_skew, Rplus_0_l.
      eapply Rle_trans; [apply cauchy|]; rewrite qnorm2_mul; unfold h at 1; rewrite qham_norm.
      assert (NP : qnear (D * (t - t0) / 2) (q t) (p t)).
      { eapply qsolves_near; [exact Sq|exact Sp|lra|auto|]; intros s J; cbv beta.
        replace ((x s + dx s - x s) ^ 2 + (y s + dy s - y s) ^ 2 + (z s + dz s - z s) ^ 2) with (dx s ^ 2 + dy s ^ 2 + dz s ^ 2) by ring.
        apply BD; lra. }
      destruct NP as [_ NP]; assert (B := BD t I); assert (N1 := qnorm2_pos (e t)); assert (N2 := qnorm2_pos (qsub (q t) (p t))).
      rewrite Rmult_comm; apply Rmult_le_compat_r; [auto|].
      replace (((D / 2) ^ 2 * (t - t0)) ^ 2) with (D ^ 2 / 4 * (D * (t - t0) / 2) ^ 2) by field.
      assert (Z1 := pow2_ge_0 (dx t)); assert (Z2 := pow2_ge_0 (dy t)); assert (Z3 := pow2_ge_0 (dz t)).
      apply Rmult_le_compat; lra.
  Qed.
End Segment.

(** ** Products *)

Lemma product_order K1 K2 v1 v2 u1 u2 w1 w2 : unit_quat u1 -> unit_quat u2 -> unit_quat v1 -> unit_quat v2 ->
  0 <= K1 -> 0 <= K2 ->
  qnear (K1 ^ 2 / 2) v1 (qadd u1 (qmul u1 w1)) -> qnear (K2 ^ 2 / 2) v2 (qadd u2 (qmul u2 w2)) ->
  qnear K2 v2 u2 -> qnear K1 w1 qzero ->
  qnear ((K1 + K2) ^ 2 / 2) (qmul v2 v1)
    (qadd (qmul u2 u1) (qmul (qmul u2 u1) (qadd w1 (qmul (qconj u1) (qmul w2 u1))))).
Proof.
  intros U1 U2 V1 V2 P1 P2 N1 N2 N3 N4.
  replace (qadd (qmul u2 u1) (qmul (qmul u2 u1) (qadd w1 (qmul (qconj u1) (qmul w2 u1)))))
    with (qadd (qmul (qadd u2 (qmul u2 w2)) u1) (qmul u2 (qmul u1 w1))).
  2: { destruct (qconj_inverse _ U1) as [I _].
       assert (J : qmul u1 (qmul (qconj u1) (qmul w2 u1)) = qmul w2 u1) by (rewrite qmul_assoc, I, qmul_1_l; auto).
       rewrite !qmul_add_l, !qmul_add_r, <- !qmul_assoc, J.
       set (a := qmul u2 u1); set (b := qmul u2 (qmul w2 u1)); set (c := qmul u2 (qmul u1 w1)).
       apply q_eq; cbn [qadd qa qb qc qd]; ring. }
  replace ((K1 + K2) ^ 2 / 2) with (K1 ^ 2 / 2 + (K2 * K1 + K2 ^ 2 / 2)) by field.
  eapply qnear_trans; [apply qnear_left; [exact V2|exact N1]|].
  eapply qnear_trans with (q := qadd (qmul v2 u1) (qmul u2 (qmul u1 w1))).
  - split; [apply Rmult_le_pos; auto|].
    replace (qsub (qmul v2 (qadd u1 (qmul u1 w1))) (qadd (qmul v2 u1) (qmul u2 (qmul u1 w1)))) with (qmul (qsub v2 u2) (qmul u1 w1))
      by (set (c := qmul u1 w1); apply q_eq; unfold qsub; cbn [qadd qmul qa qb qc qd]; ring).
    rewrite !qnorm2_mul, U1, Rmult_1_l, Rpow_mult_distr; destruct N3 as [_ N3], N4 as [_ N4].
    replace (qsub w1 qzero) with w1 in N4 by (apply q_eq; unfold qsub, qzero; cbn [qa qb qc qd]; ring).
    apply Rmult_le_compat; auto using qnorm2_pos.
  - destruct N2 as [A N2]; split; auto.
    replace (qsub (qadd (qmul v2 u1) (qmul u2 (qmul u1 w1))) (qadd (qmul (qadd u2 (qmul u2 w2)) u1) (qmul u2 (qmul u1 w1))))
      with (qmul (qsub v2 (qadd u2 (qmul u2 w2))) u1)
      by (set (c := qmul u2 (qmul u1 w1)); set (d := qadd u2 (qmul u2 w2)); apply q_eq; unfold qsub; cbn [qadd qmul qa qb qc qd]; ring).
    rewrite qnorm2_mul, U1, Rmult_1_r; auto.
Qed.

(** ** Matrices *)

Lemma madj_qmat q : madj (qmat q) = qmat (qconj q).
Proof. unfold qconj; m_real; ring. Qed.
Lemma madd_qmat p q : madd (qmat p) (qmat q) = qmat (qadd p q).
Proof. m_real; ring. Qed.
Lemma mzero_qmat : mzero = qmat qzero.
Proof. m_real; ring. Qed.

Lemma qmat_derive f t d : qderive f t d -> m_derive (fun t => qmat (f t)) t (qmat d).
Proof.
  intros [A [B [C0 E]]].
  assert (B' := is_derive_opp _ _ _ B); assert (C' := is_derive_opp _ _ _ C0); assert (E' := is_derive_opp _ _ _ E).
  unfold opp in B', C', E'; simpl in B', C', E'.
  unfold m_derive, c_derive, qmat; cbn [m00 m01 m10 m11 fst snd].
  split; [split|split; [split|split; [split|split]]]; auto.
Qed.

Lemma same_derive (f g d : R -> R) a : (forall t, is_derive f t (d t)) -> (forall t, is_derive g t (d t)) -> f a = g a -> forall t, f t = g t.
Proof.
  intros F G E t.
  assert (H : forall t, is_derive (fun t => f t - g t) t 0) by (intros s; eapply is_derive_eq; [apply is_derive_subR; auto|]; simpl; ring).
  assert (K := null_derive_const _ H t a); cbv beta in K; lra.
Qed.

Lemma derive_quat (F : R -> M2) (r : R -> quat) t0 : F t0 = mzero -> (forall t, m_derive F t (qmat (r t))) ->
  exists w, w t0 = qzero /\ (forall t, qderive w t (r t)) /\ forall t, F t = qmat (w t).
Proof.
  intros F0 DF.
  assert (OP : forall (f : R -> R) t d, is_derive f t (- d) -> is_derive (fun t => - f t) t d).
  { intros f t d H; eapply is_derive_eq; [apply (is_derive_opp f t (- d) H)|unfold opp; simpl; ring]. }
  set (w := fun t => Q4 (fst (m00 (F t))) (- snd (m10 (F t))) (fst (m10 (F t))) (snd (m11 (F t)))).
  assert (DW : forall t, qderive w t (r t)).
  { intros t; destruct (DF t) as [[A1 A2] [[A3 A4] [[A5 A6] [A7 A8]]]]; cbn [qmat m00 m01 m10 m11 fst snd] in *.
    split; [|split; [|split]]; cbn [w qa qb qc qd]; auto. }
  exists w; split; [unfold w; rewrite F0; apply q_eq; simpl; ring|split; [exact DW|]].
  assert (G0 : F t0 = qmat (w t0)) by (unfold w; rewrite F0; m_real; ring).
  assert (DG := fun t => qmat_derive _ _ _ (DW t)).
  intros t; apply m_eq; apply c_eq.
  - apply (same_derive (fun t => fst (m00 (F t))) (fun t => fst (m00 (qmat (w t)))) _ t0 (fun t => proj1 (proj1 (DF t))) (fun t => proj1 (proj1 (DG t)))); rewrite G0; auto.
  - apply (same_derive (fun t => snd (m00 (F t))) (fun t => snd (m00 (qmat (w t)))) _ t0 (fun t => proj2 (proj1 (DF t))) (fun t => proj2 (proj1 (DG t)))); rewrite G0; auto.
  - apply (same_derive (fun t => fst (m01 (F t))) (fun t => fst (m01 (qmat (w t)))) _ t0 (fun t => proj1 (proj1 (proj2 (DF t)))) (fun t => proj1 (proj1 (proj2 (DG t))))); rewrite G0; auto.
  - apply (same_derive (fun t => snd (m01 (F t))) (fun t => snd (m01 (qmat (w t)))) _ t0 (fun t => proj2 (proj1 (proj2 (DF t)))) (fun t => proj2 (proj1 (proj2 (DG t))))); rewrite G0; auto.
  - apply (same_derive (fun t => fst (m10 (F t))) (fun t => fst (m10 (qmat (w t)))) _ t0 (fun t => proj1 (proj1 (proj2 (proj2 (DF t))))) (fun t => proj1 (proj1 (proj2 (proj2 (DG t)))))); rewrite G0; auto.
  - apply (same_derive (fun t => snd (m10 (F t))) (fun t => snd (m10 (qmat (w t)))) _ t0 (fun t => proj2 (proj1 (proj2 (proj2 (DF t))))) (fun t => proj2 (proj1 (proj2 (proj2 (DG t)))))); rewrite G0; auto.
  - apply (same_derive (fun t => fst (m11 (F t))) (fun t => fst (m11 (qmat (w t)))) _ t0 (fun t => proj1 (proj2 (proj2 (proj2 (DF t))))) (fun t => proj1 (proj2 (proj2 (proj2 (DG t)))))); rewrite G0; auto.
  - apply (same_derive (fun t => snd (m11 (F t))) (fun t => snd (m11 (qmat (w t)))) _ t0 (fun t => proj2 (proj2 (proj2 (proj2 (DF t))))) (fun t => proj2 (proj2 (proj2 (proj2 (DG t)))))); rewrite G0; auto.
Qed.

Definition qafter (g : seg) (t : R) : quat := qseg (g_rabi g * cos (g_phi g)) (g_rabi g * sin (g_phi g)) (g_det g) t.
Definition qnoise (eps beta : R -> R) (g : seg) (t : R) : quat :=
  qham (eps t * (g_rabi g * cos (g_phi g))) (eps t * (g_rabi g * sin (g_phi g))) (beta t).
Definition qsight (eps beta : R -> R) (g : seg) (t0 : R) (w : R -> quat) : Prop :=
  qsees (fun t => eps t * (g_rabi g * cos (g_phi g))) (fun t => eps t * (g_rabi g * sin (g_phi g))) beta t0 (fun t => qafter g (t - t0)) w.

Lemma response_quat eps beta g t0 t1 W : segment_response eps beta g t0 t1 W <-> exists w, qsight eps beta g t0 w /\ W = qmat (w t1).
Proof.
  assert (X : forall t, mmul (madj (segment_after g (t - t0))) (mscale (0, -1) (mmul
       (hamiltonian (eps t * (g_rabi g * cos (g_phi g))) (eps t * (g_rabi g * sin (g_phi g))) (beta t))
       (segment_after g (t - t0)))) = qmat (qmul (qconj (qafter g (t - t0))) (qmul (qnoise eps beta g t) (qafter g (t - t0))))).
  { intros t; unfold segment_after; rewrite segment_unitary_qmat, qham_mat, madj_qmat, <- !qmat_mul; reflexivity. }
  split.
  - intros [F [F0 [DF <-]]].
    destruct (derive_quat F (fun t => qmul (qconj (qafter g (t - t0))) (qmul (qnoise eps beta g t) (qafter g (t - t0)))) t0 F0) as [w [W0 [DW E]]].
    + intros t; rewrite <- X; apply DF.
    + exists w; split; [split; auto|auto].
  - intros [w [[W0 DW] ->]]; exists (fun t => qmat (w t)); split; [rewrite W0; symmetry; apply mzero_qmat|split; [|auto]].
    intros t; rewrite X; apply qmat_derive; apply DW.
Qed.

(** ** Any control *)

Lemma pure_frame u w : qa (qmul (qconj u) (qmul w u)) = qnorm2 u * qa w.
Proof. unfold qconj, qnorm2; cbn [qa qb qc qd qmul]; ring. Qed.

Lemma sight_pure eps beta g t0 w : qsight eps beta g t0 w -> forall t, qa (w t) = 0.
Proof.
  intros [W0 D] t; rewrite (null_derive_const (fun t => qa (w t))) with (b := t0); [rewrite W0; reflexivity|].
  intros s; eapply is_derive_eq; [exact (proj1 (D s))|]; rewrite pure_frame; unfold qham; cbn [qa]; apply Rmult_0_r.
Qed.

Lemma total_positive l : (forall g, In g l -> 0 <= g_rabi g /\ 0 <= g_dur g) -> 0 <= total (map g_dur l) /\ 0 <= turned l.
Proof.
  unfold turned; induction l as [|g l IH]; intros P; cbn [map total]; [lra|].
  destruct (P g (or_introl eq_refl)) as [A B]; destruct (IH (fun h H => P h (or_intror H))).
  assert (0 <= g_rabi g * g_dur g) by (apply Rmult_le_pos; auto); lra.
Qed.

Lemma after_unit g t : unit_quat (qafter g t).
Proof. apply unit_qseg. Qed.
Lemma once_after g : qnoisy 0 0 g = qafter g (g_dur g).
Proof. unfold qnoisy, qafter; rewrite !Rplus_0_r, !Rmult_1_l; auto. Qed.

Lemma control_response eps beta E M l : (forall g, In g l -> 0 <= g_rabi g /\ 0 <= g_dur g) -> 0 <= E -> 0 <= M -> forall t0 V W,
  bounded_by eps E t0 (t0 + total (map g_dur l)) -> bounded_by beta M t0 (t0 + total (map g_dur l)) ->
  noisy_control eps beta t0 l V -> response eps beta t0 l W ->
  let K := (M * total (map g_dur l) + E * turned l) / 2 in let u := qevolution 0 0 l in
  exists v w, V = qmat v /\ W = qmat w /\ unit_quat v /\ qa w = 0 /\
    qnear (K ^ 2 / 2) v (qadd u (qmul u w)) /\ qnear K v u /\ qnear K w qzero.
Proof.
  intros P E0 M0; unfold turned; induction l as [|g l IH]; intros t0 V W BE BM N RS; cbn [noisy_control] in N; cbn [response] in RS; cbn [map total qevolution] in *.
  - subst V W; exists qone, qzero; split; [symmetry; apply qmat_one|split; [apply mzero_qmat|split; [apply unit_one|split; [reflexivity|]]]].
    replace ((M * 0 + E * 0) / 2) with 0 by field; replace (0 ^ 2 / 2) with 0 by field.
    replace (qadd qone (qmul qone qzero)) with qone by (apply q_eq; unfold qzero; cbn [qone qa qb qc qd qmul qadd]; ring).
    split; [|split]; apply qnear_refl.
  - destruct N as [V1 [V2 [D [N ->]]]]; destruct RS as [W1 [W2 [DW [RS ->]]]]; destruct (P g (or_introl eq_refl)) as [R W].
    destruct (total_positive l (fun h H => P h (or_intror H))) as [TP TQ]; unfold turned in TQ.
    set (T2 := total (map g_dur l)) in *; set (A2 := total (map (fun g => g_rabi g * g_dur g) l)) in *.
    assert (BE2 : bounded_by eps E (t0 + g_dur g) (t0 + g_dur g + T2)) by (intros t I; apply BE; lra).
    assert (BM2 : bounded_by beta M (t0 + g_dur g) (t0 + g_dur g + T2)) by (intros t I; apply BM; lra).
    destruct (IH (fun h H => P h (or_intror H)) (t0 + g_dur g) V2 W2 BE2 BM2 N RS) as [v2 [w2 [-> [-> [U2 [Z2 [X2 [Y2 S2]]]]]]]]; clear IH.
    set (K2 := (M * T2 + E * A2) / 2) in *.
    assert (P2 : 0 <= K2) by (destruct Y2; auto).
    apply response_quat in DW; destruct DW as [w [SW ->]].
    apply driven_quat in D; destruct D as [q [S ->]].
    assert (SP := constant_solves (g_rabi g * cos (g_phi g)) (g_rabi g * sin (g_phi g)) (g_det g) t0).
    set (rc := g_rabi g * cos (g_phi g)) in *; set (rs := g_rabi g * sin (g_phi g)) in *.
    assert (S' : qsolves (fun t => rc + eps t * rc) (fun t => rs + eps t * rs) (fun t => g_det g + beta t) t0 q).
    { destruct S as [S0 DS]; split; auto; intros t; eapply qderive_eq; [apply DS|]; f_equal; f_equal; unfold rc, rs; ring. }
    set (DD := M + E * g_rabi g).
    assert (D0 : 0 <= DD) by (assert (0 <= E * g_rabi g) by (apply Rmult_le_pos; auto); unfold DD; lra).
    assert (BD : forall t, t0 <= t <= t0 + g_dur g -> (eps t * rc) ^ 2 + (eps t * rs) ^ 2 + beta t ^ 2 <= DD ^ 2).
    { intros t I; assert (BE' := BE t ltac:(lra)); assert (BM' := BM t ltac:(lra)); unfold rc, rs, DD; set (r := g_rabi g) in *; set (ph := g_phi g).
      replace ((eps t * (r * cos ph)) ^ 2 + (eps t * (r * sin ph)) ^ 2 + beta t ^ 2)
        with ((eps t * r) ^ 2 * ((sin ph)² + (cos ph)²) + (beta t) ^ 2) by (unfold Rsqr; ring).
      rewrite sin2_cos2, Rmult_1_r, <- (pow2_abs (eps t * r)), <- (pow2_abs (beta t)), Rabs_mult, (Rabs_right r) by lra.
      assert (A0 := Rabs_pos (eps t)); assert (B0 := Rabs_pos (beta t)).
      assert (A1 : Rabs (eps t) * r <= E * r) by (apply Rmult_le_compat_r; auto).
      assert (A3 : 0 <= Rabs (eps t) * r) by (apply Rmult_le_pos; auto).
      nra. }
    assert (SO := second_order _ _ _ _ _ _ t0 (t0 + g_dur g) DD q _ w S' SP SW ltac:(lra) D0 BD).
    assert (SZ := seen_size _ _ _ _ _ _ t0 (t0 + g_dur g) DD _ w SP SW ltac:(lra) D0 BD).
    assert (NR := qsolves_near _ _ _ _ _ _ t0 _ _ DD (t0 + g_dur g) S' SP ltac:(lra) D0).
    cbv beta in SO, SZ, NR; replace (t0 + g_dur g - t0) with (g_dur g) in * by ring.
    fold (qafter g (g_dur g)) in SO, NR.
    assert (NR' : qnear (DD * g_dur g / 2) (q (t0 + g_dur g)) (qafter g (g_dur g))).
    { apply NR; intros t I; replace ((rc + eps t * rc - rc) ^ 2 + (rs + eps t * rs - rs) ^ 2 + (g_det g + beta t - g_det g) ^ 2)
        with ((eps t * rc) ^ 2 + (eps t * rs) ^ 2 + beta t ^ 2) by ring; apply BD; auto. }
    clear NR; set (K1 := DD * g_dur g / 2) in *; set (v1 := q (t0 + g_dur g)) in *; set (w1 := w (t0 + g_dur g)) in *.
    assert (P1 : 0 <= K1) by (destruct NR'; auto).
    set (u1 := qafter g (g_dur g)) in *; set (u2 := qevolution 0 0 l) in *.
    assert (Uv1 : unit_quat v1) by (eapply qsolves_unit; eauto).
    assert (Uu1 : unit_quat u1) by apply after_unit.
    assert (Uu2 : unit_quat u2).
    { unfold u2; clear; induction l as [|g l IH]; cbn [qevolution]; [apply unit_one|apply unit_mul; auto; apply unit_qseg]. }
    assert (EK : (M * (g_dur g + T2) + E * (g_rabi g * g_dur g + A2)) / 2 = K1 + K2) by (unfold K1, K2, DD; field).
    rewrite EK, once_after; fold u1.
    exists (qmul v2 v1), (qadd w1 (qmul (qconj u1) (qmul w2 u1))); split; [rewrite qmat_mul; auto|split].
    { unfold segment_after; rewrite segment_unitary_qmat; change (qseg _ _ _ (g_dur g)) with u1.
      rewrite madj_qmat, <- !qmat_mul, madd_qmat; reflexivity. }
    split; [apply unit_mul; auto|split].
    { cbn [qadd qa]; rewrite pure_frame, Z2, Rmult_0_r, Rplus_0_r; apply (sight_pure _ _ _ _ _ SW). }
    split; [apply product_order; auto|split].
    + replace (K1 + K2) with (K2 + K1) by ring; apply qnear_mul; auto.
    + destruct SZ as [_ SZ], S2 as [_ S2]; split; [lra|].
      assert (SB : forall a, qsub a qzero = a) by (intros; apply q_eq; unfold qsub, qzero; cbn [qa qb qc qd]; ring).
      rewrite SB in *.
      assert (C2 : qnorm2 (qmul (qconj u1) (qmul w2 u1)) <= K2 ^ 2).
      { rewrite !qnorm2_mul, (qconj_unit _ Uu1), Uu1, Rmult_1_l, Rmult_1_r; auto. }
      set (c := qmul (qconj u1) (qmul w2 u1)) in *; clearbody c.
      assert (CS := cauchy w1 c).
      replace (qnorm2 (qadd w1 c)) with (qnorm2 w1 + 2 * qdot w1 c + qnorm2 c) by (unfold qnorm2, qdot; cbn [qadd qa qb qc qd]; ring).
      apply root_sum; auto; apply qnorm2_pos.
Qed.
