(** * Dephasing noise that varies in time *)

From Coq Require Import Lia.
From Verif Require Export L_QuatNorm Spec_Noise L_PreConvert.
Import ListNotations.
Open Scope string_scope.
Open Scope list_scope.
Open Scope R_scope.

(** ** The Schroedinger equation *)

Lemma drifts_closed_form beta t0 t1 : (forall t, continuous beta t) ->
  drifts beta t0 t1 (z_rotation (RInt beta 0 t1 - RInt beta 0 t0)).
Proof.
  intros C; set (B := fun t => RInt beta 0 t).
  assert (DB : forall t, is_derive B t (beta t)).
  { intros t; apply is_derive_RInt with (a := 0); [|apply C].
    exists posreal_one; intros y _; apply RInt_correct, ex_RInt_continuous; intros; apply C. }
  exists (fun t => qmat (qz (B t - B t0))); split; [|split].
  - rewrite Rminus_eq_0, qz_0; apply qmat_one.
  - intros t.
    assert (Dc : is_derive (fun t => cos ((B t - B t0) / 2)) t (- (beta t / 2) * sin ((B t - B t0) / 2))).
    { auto_derive; [repeat split; eexists; apply DB|].
      replace (Derive (fun x => B x) t) with (beta t) by (symmetry; apply is_derive_unique, DB).
      unfold Rdiv, Rminus; ring. }
    assert (Ds : is_derive (fun t => sin ((B t - B t0) / 2)) t (beta t / 2 * cos ((B t - B t0) / 2))).
    { auto_derive; [repeat split; eexists; apply DB|].
      replace (Derive (fun x => B x) t) with (beta t) by (symmetry; apply is_derive_unique, DB).
      unfold Rdiv, Rminus; ring. }
    assert (Ds' := is_derive_opp _ _ _ Ds); unfold opp in Ds'; simpl in Ds'.
    assert (D0 : is_derive (fun _ : R => 0) t 0) by apply @is_derive_const.
    assert (D0' : is_derive (fun _ : R => - 0) t 0) by apply @is_derive_const.
    unfold m_derive, c_derive, qmat, qz; cbn [m00 m01 m10 m11 fst snd qa qb qc qd].
    repeat split;
      first [ eapply is_derive_eq; [exact Dc|simpl; field]
            | eapply is_derive_eq; [exact Ds|simpl; field]
            | eapply is_derive_eq; [exact Ds'|simpl; field]
            | eapply is_derive_eq; [exact D0|simpl; field]
            | eapply is_derive_eq; [exact D0'|simpl; field] ].
  - symmetry; apply z_rotation_qmat.
Qed.

Lemma null_derive_const (f : R -> R) : (forall t, is_derive f t 0) -> forall a b, f a = f b.
Proof. intros H a b; rewrite (const_of_null_derive f H a), (const_of_null_derive f H b); auto. Qed.

Lemma drifts_unique beta t0 t1 V1 V2 : drifts beta t0 t1 V1 -> drifts beta t0 t1 V2 -> V1 = V2.
Proof.
  intros [U [U0 [UD <-]]] [W [W0 [WD <-]]].
  set (N := fun t : R =>
    (fst (m00 (U t)) - fst (m00 (W t))) ^ 2 + (snd (m00 (U t)) - snd (m00 (W t))) ^ 2 +
    (fst (m01 (U t)) - fst (m01 (W t))) ^ 2 + (snd (m01 (U t)) - snd (m01 (W t))) ^ 2 +
    (fst (m10 (U t)) - fst (m10 (W t))) ^ 2 + (snd (m10 (U t)) - snd (m10 (W t))) ^ 2 +
    (fst (m11 (U t)) - fst (m11 (W t))) ^ 2 + (snd (m11 (U t)) - snd (m11 (W t))) ^ 2).
  assert (HN : forall t, is_derive N t 0).
  { intros t; unfold N.
    destruct (UD t) as [[A1 A2] [[A3 A4] [[A5 A6] [A7 A8]]]].
    destruct (WD t) as [[B1 B2] [[B3 B4] [[B5 B6] [B7 B8]]]].
    eapply is_derive_eq.
    - exact (sum_derive _ _ _ _ _ (sum_derive _ _ _ _ _ (sum_derive _ _ _ _ _
              (sum_derive _ _ _ _ _ (sum_derive _ _ _ _ _ (sum_derive _ _ _ _ _
              (sum_derive _ _ _ _ _
                (diffsq_derive _ _ _ _ _ A1 B1) (diffsq_derive _ _ _ _ _ A2 B2))
                (diffsq_derive _ _ _ _ _ A3 B3)) (diffsq_derive _ _ _ _ _ A4 B4))
                (diffsq_derive _ _ _ _ _ A5 B5)) (diffsq_derive _ _ _ _ _ A6 B6))
                (diffsq_derive _ _ _ _ _ A7 B7)) (diffsq_derive _ _ _ _ _ A8 B8)).
    - clear; cbv beta.
      destruct (U t) as [[u1 u2] [u3 u4] [u5 u6] [u7 u8]].
      destruct (W t) as [[w1 w2] [w3 w4] [w5 w6] [w7 w8]].
      simpl; field. }
  assert (E : N t1 = 0).
  { rewrite (null_derive_const N HN t1 t0); unfold N; rewrite U0, W0; ring. }
  unfold N in E; apply sumsq8 in E.
  destruct E as [E1 [E2 [E3 [E4 [E5 [E6 [E7 E8]]]]]]].
  apply m_eq; apply c_eq; lra.
Qed.

Lemma drifts_iff beta t0 t1 V : (forall t, continuous beta t) ->
  (drifts beta t0 t1 V <-> V = z_rotation (RInt beta 0 t1 - RInt beta 0 t0)).
Proof.
  intros C; split; intros H.
  - eapply drifts_unique; [exact H|apply drifts_closed_form; auto].
  - subst; apply drifts_closed_form; auto.
Qed.

Lemma noisy_sequence_from beta T l : (forall t, continuous beta t) -> forall t0 V,
  noisy_sequence beta t0 T l V <-> V = evolution_from (fun t => RInt beta 0 t) t0 T l.
Proof.
  intros C; induction l as [|e l IH]; intros t0 V; cbn [noisy_sequence evolution_from]; [apply drifts_iff; auto|].
  split.
  - intros [V1 [V2 [A [B ->]]]]; apply drifts_iff in A; auto; apply IH in B; subst; auto.
  - intros ->; do 2 eexists; split; [apply drifts_iff; eauto|]; split; [apply IH; eauto|]; auto.
Qed.

Theorem schroedinger_dephasing beta T l V : (forall t, continuous beta t) ->
  (noisy_sequence beta 0 T l V <-> V = dephased_evolution (fun t => RInt beta 0 t) T l).
Proof. intros C; apply noisy_sequence_from; auto. Qed.

(** ** Nearby detunings *)

Lemma unit_qseg x y z t : unit_quat (qseg x y z t).
Proof.
  unfold unit_quat, qnorm2, qseg; cbn [qa qb qc qd].
  set (w := sqrt (x ^ 2 + y ^ 2 + z ^ 2)).
  assert (W : w * w = x ^ 2 + y ^ 2 + z ^ 2).
  { apply sqrt_sqrt; generalize (pow2_ge_0 x) (pow2_ge_0 y) (pow2_ge_0 z); lra. }
  destruct (Req_dec w 0) as [E|E].
  - rewrite E; unfold Rdiv; rewrite !Rmult_0_l, sin_0, cos_0; ring.
  - assert (S := sin2_cos2 (w * t / 2)); unfold Rsqr in S.
    set (s := sin (w * t / 2)) in *; set (c := cos (w * t / 2)) in *.
    replace (c * c + s * (x / w) * (s * (x / w)) + s * (y / w) * (s * (y / w)) + s * (z / w) * (s * (z / w)))
      with (c * c + s * s * ((x ^ 2 + y ^ 2 + z ^ 2) / (w * w))) by (field; auto).
    rewrite <- W; replace (w * w / (w * w)) with 1 by (field; auto); lra.
Qed.

Definition qpul (e : event) : quat := qseg (e_rabi e * cos (e_phi e)) (e_rabi e * sin (e_phi e)) (e_det e) 1.
Fixpoint qfrom (B : R -> R) (t0 T : R) (l : list event) : quat :=
  match l with
  | [] => qz (B T - B t0)
  | e :: l' => qmul (qfrom B (e_time e) T l') (qmul (qpul e) (qz (B (e_time e) - B t0)))
  end.
Lemma evolution_qfrom B T l : forall t0, evolution_from B t0 T l = qmat (qfrom B t0 T l).
Proof.
  induction l as [|e l IH]; intros t0; cbn [evolution_from qfrom]; [apply z_rotation_qmat|].
  rewrite !qmat_mul, <- IH, <- z_rotation_qmat; unfold qpul; rewrite <- segment_unitary_qmat; reflexivity.
Qed.
Lemma unit_qfrom B T l : forall t0, unit_quat (qfrom B t0 T l).
Proof.
  induction l as [|e l IH]; intros t0; cbn [qfrom]; [apply unit_qz|].
  apply unit_mul; [apply IH|apply unit_mul; [apply unit_qseg|apply unit_qz]].
Qed.

(** the difference of the accumulated detunings grows at most like [G] *)
Lemma qfrom_near B P G T l : 
  (forall a b, 0 <= a <= b -> b <= T -> Rabs ((B b - P b) - (B a - P a)) <= G b - G a) ->
  forall t0, 0 <= t0 <= T -> nondecreasing (t0 :: map e_time l) -> (forall e, In e l -> e_time e <= T) ->
  qnear ((G T - G t0) / 2) (qfrom B t0 T l) (qfrom P t0 T l).
Proof.
  intros D; induction l as [|e l IH]; intros t0 H0 ND BT; cbn [qfrom].
  - eapply qnear_mono; [|apply qz_near].
    assert (K := D t0 T); apply Rmult_le_compat_r; [lra|].
    replace (B T - B t0 - (P T - P t0)) with (B T - P T - (B t0 - P t0)) by ring; apply K; lra.
  - destruct ND as [N1 N2]; cbn [map] in N1, N2.
    assert (e_time e <= T) by (apply BT; left; auto).
    replace ((G T - G t0) / 2) with ((G T - G (e_time e)) / 2 + (G (e_time e) - G t0) / 2) by field.
    apply qnear_mul; [apply unit_qfrom|apply unit_mul; [apply unit_qseg|apply unit_qz]| |].
    + apply IH; [lra|exact N2|intros; apply BT; right; auto].
    + apply qnear_left; [apply unit_qseg|].
      eapply qnear_mono; [|apply qz_near]; apply Rmult_le_compat_r; [lra|].
      replace (B (e_time e) - B t0 - (P (e_time e) - P t0)) with (B (e_time e) - P (e_time e) - (B t0 - P t0)) by ring.
      apply D; cbn [map] in N1; lra.
Qed.

(** ** Taylor expansion of the detuning *)

Definition taylor (beta : R -> R) (n : nat) : list R := map (fun k => Derive_n beta k 0 / INR (fact k)) (seq 0 n).


Lemma polynomial_taylor f t : forall n a, polynomial (map f (seq a (S n))) t = sum_f_R0 (fun k => f (a + k)%nat * t ^ k) n.
Proof.
  induction n as [|n IH]; intros a.
  - cbn; rewrite Nat.add_0_r; ring.
  - change (seq a (S (S n))) with (a :: seq (S a) (S n)); cbn [map polynomial]; rewrite IH.
    rewrite (decomp_sum _ (S n)) by lia; cbn [pred]; rewrite Nat.add_0_r; simpl pow.
    rewrite scal_sum; f_equal; [ring|].
    apply sum_eq; intros i _; replace (S a + i)%nat with (a + S i)%nat by lia; simpl; ring.
Qed.

Lemma taylor_remainder beta n M T t : smooth_detuning beta n M T -> 0 <= t <= T ->
  Rabs (beta t - polynomial (taylor beta n) t) <= M * t ^ n / INR (fact n).
Proof.
  intros [_ S] Ht; unfold taylor; destruct n as [|n].
  - destruct (S t Ht) as [_ B]; cbn in *; unfold Rdiv; rewrite Rinv_1, Rminus_0_r; lra.
  - rewrite polynomial_taylor; cbn [Nat.add].
    destruct (Req_dec t 0) as [->|NZ].
    + assert (E : beta 0 - sum_f_R0 (fun k => Derive_n beta k 0 / INR (fact k) * 0 ^ k) n = 0).
      { destruct n; [cbn; field|].
        rewrite (decomp_sum _ (Datatypes.S n)) by lia; rewrite (sum_eq _ (fun _ => 0)).
        2:{ intros i _; simpl; ring. }
        rewrite sum_cte; cbn; field. }
      rewrite E, Rabs_R0; rewrite pow_i by lia; unfold Rdiv; rewrite Rmult_0_r, Rmult_0_l; lra.
    + destruct (Taylor_Lagrange beta n 0 t) as [z [Z E]]; [lra|intros u U k K; apply S; auto; lra|].
      rewrite E, Rminus_0_r.
      replace (sum_f_R0 (fun m => t ^ m / INR (fact m) * Derive_n beta m 0) n)
        with (sum_f_R0 (fun k => Derive_n beta k 0 / INR (fact k) * t ^ k) n).
      2:{ apply sum_eq; intros; field; apply INR_fact_neq_0. }
      match goal with |- Rabs (?a + ?b - ?a) <= _ => replace (a + b - a) with b by ring end.
      assert (F := INR_fact_lt_0 (Datatypes.S n)).
      rewrite Rabs_mult, Rabs_pos_eq.
      2:{ apply Rmult_le_pos; [apply pow_le; lra|apply Rlt_le, Rinv_0_lt_compat; auto]. }
      replace (M * t ^ Datatypes.S n / INR (fact (Datatypes.S n))) with (t ^ Datatypes.S n / INR (fact (Datatypes.S n)) * M)
        by (field; lra).
      apply Rmult_le_compat_l; [|apply S; lra].
      apply Rmult_le_pos; [apply pow_le; lra|apply Rlt_le, Rinv_0_lt_compat; auto].
Qed.

Lemma is_RInt_power a b n : is_RInt (fun t => t ^ n) a b (b ^ S n / INR (S n) - a ^ S n / INR (S n)).
Proof.
  apply (is_RInt_derive (fun t => t ^ S n / INR (S n)) (fun t => t ^ n)).
  - intros x _; assert (INR (S n) <> 0) by (apply not_0_INR; lia).
    auto_derive; auto; change (pred (S n)) with n; field; auto.
  - intros x _; apply (continuous_comp (fun t => t) (fun t => t ^ n)); [apply continuous_id|].
    apply @ex_derive_continuous; auto_derive; auto.
Qed.

Lemma accumulated_remainder beta n M T a b : smooth_detuning beta n M T -> 0 <= a <= b -> b <= T ->
  Rabs ((RInt beta 0 b - RInt (polynomial (taylor beta n)) 0 b) -
        (RInt beta 0 a - RInt (polynomial (taylor beta n)) 0 a)) <=
  M * b ^ (n + 1) / INR (fact (n + 1)) - M * a ^ (n + 1) / INR (fact (n + 1)).
Proof.
  intros S Hab HT; assert (C := proj1 S); set (p := polynomial (taylor beta n)).
  assert (Cp : forall t, continuous p t) by (intros; apply polynomial_continuous).
  assert (IB : forall u v, ex_RInt beta u v) by (intros; apply (ex_RInt_continuous beta); intros; apply C).
  assert (IP : forall u v, ex_RInt p u v) by (intros; apply (ex_RInt_continuous p); intros; apply Cp).
  assert (EB : RInt beta 0 b = RInt beta 0 a + RInt beta a b).
  { symmetry; apply (RInt_Chasles beta 0 a b); auto. }
  assert (EP : RInt p 0 b = RInt p 0 a + RInt p a b).
  { symmetry; apply (RInt_Chasles p 0 a b); auto. }
  assert (EM : RInt (fun t => beta t - p t) a b = RInt beta a b - RInt p a b).
  { apply (RInt_minus beta p a b); auto. }
  assert (K : forall x y u v, Rabs (x + y - (u + v) - (x - u)) = Rabs (y - v)) by (intros; f_equal; ring).
  rewrite EB, EP, K, <- EM.
  assert (F := INR_fact_lt_0 n).
  assert (IR : is_RInt (fun t => M / INR (fact n) * t ^ n) a b (M / INR (fact n) * (b ^ Datatypes.S n / INR (Datatypes.S n) - a ^ Datatypes.S n / INR (Datatypes.S n)))).
  { apply (is_RInt_scal (fun t => t ^ n) a b (M / INR (fact n))); apply is_RInt_power. }
  assert (N := pos_INR n).
  assert (ER : M * b ^ (n + 1) / INR (fact (n + 1)) - M * a ^ (n + 1) / INR (fact (n + 1)) =
    M / INR (fact n) * (b ^ Datatypes.S n / INR (Datatypes.S n) - a ^ Datatypes.S n / INR (Datatypes.S n))).
  { rewrite Nat.add_1_r, fact_simpl, mult_INR, S_INR; field; lra. }
  rewrite ER.
  rewrite <- (is_RInt_unique _ _ _ _ IR).
  eapply Rle_trans; [apply abs_RInt_le; [lra|]|].
  { apply (ex_RInt_minus beta p); auto. }
  apply RInt_le; [lra| |eexists; exact IR|].
  - apply (ex_RInt_norm (fun t => beta t - p t)), (ex_RInt_minus beta p); auto.
  - intros t Ht; eapply Rle_trans; [apply (taylor_remainder beta n M T); auto; lra|].
    apply Req_le; field; lra.
Qed.

(** ** Cancelled polynomials suppress smooth detunings *)

Lemma nondecreasing_from t0 l : nondecreasing l -> (forall t, In t l -> t0 <= t) -> nondecreasing (t0 :: l).
Proof. intros H K; destruct l; cbn; auto; split; auto; apply K; left; auto. Qed.

Theorem suppression n s : constructible_sequence s -> nondecreasing (offsets s) ->
  (forall c, (List.length c <= n)%nat -> cancels c s) -> suppresses n s.
Proof.
  intros CS ND H beta M l V SM E NS.
  assert (C := proj1 SM); apply schroedinger_dephasing in NS; auto; subst V.
  apply constructible_well_formed in CS; destruct CS as [HT [B _]].
  set (T := seq_duration s) in *.
  assert (OF : offsets s = map e_time l) by (rewrite E; reflexivity); rewrite OF in *.
  rewrite <- (H (taylor beta n) ltac:(unfold taylor; rewrite map_length, seq_length; lia) l E).
  fold T; unfold dephased_evolution; rewrite !evolution_qfrom; apply qnear_close.
  assert (F := INR_fact_lt_0 (n + 1)).
  eapply qnear_mono; [|apply (qfrom_near _ _ (fun t => M * t ^ (n + 1) / INR (fact (n + 1))) T)].
  - rewrite pow_i by lia; apply Req_le; field; lra.
  - intros a b Hab HbT; apply (accumulated_remainder beta n M T a b); auto.
  - lra.
  - apply nondecreasing_from; auto; intros t I; apply B in I; lra.
  - intros e I; apply (in_map e_time) in I; apply B in I; lra.
Qed.
