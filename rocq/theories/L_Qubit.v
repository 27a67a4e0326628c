(** * Lemmas about the qubit specification *)

From Verif Require Export Spec_Qubit.
From Coq Require Import Lia.
Open Scope R_scope.

(** ** Quaternions  a - i (b sx + c sy + d sz) *)

Record quat : Type := Q4 { qa : R; qb : R; qc : R; qd : R }.

Definition qmat (q : quat) : M2 :=
  mk2 (qa q, - qd q) (- qc q, - qb q) (qc q, - qb q) (qa q, qd q).
Definition qone : quat := Q4 1 0 0 0.
Definition qmul (p q : quat) : quat :=
  Q4 (qa p * qa q - qb p * qb q - qc p * qc q - qd p * qd q)
     (qa p * qb q + qb p * qa q + qc p * qd q - qd p * qc q)
     (qa p * qc q + qc p * qa q + qd p * qb q - qb p * qd q)
     (qa p * qd q + qd p * qa q + qb p * qc q - qc p * qb q).
Definition qadd (p q : quat) : quat :=
  Q4 (qa p + qa q) (qb p + qb q) (qc p + qc q) (qd p + qd q).
Definition qzero : quat := Q4 0 0 0 0.

Lemma q_eq p q : qa p = qa q -> qb p = qb q -> qc p = qc q -> qd p = qd q -> p = q.
Proof. destruct p, q; simpl; intros -> -> -> ->; reflexivity. Qed.

Lemma qmat_mul p q : qmat (qmul p q) = mmul (qmat p) (qmat q).
Proof. m_real; ring. Qed.
Lemma qmat_one : qmat qone = mone.
Proof. m_real; ring. Qed.
Lemma qmat_inj p q : qmat p = qmat q -> p = q.
Proof.
  intros H; apply q_eq.
  - apply (f_equal (fun m => fst (m00 m)) H).
  - generalize (f_equal (fun m => snd (m10 m)) H); simpl; lra.
  - apply (f_equal (fun m => fst (m10 m)) H).
  - apply (f_equal (fun m => snd (m11 m)) H).
Qed.

Lemma bloch_rotation_qmat angle x y z :
  bloch_rotation angle x y z =
  qmat (Q4 (cos (angle / 2)) (sin (angle / 2) * x) (sin (angle / 2) * y) (sin (angle / 2) * z)).
Proof. m_real; ring. Qed.

Lemma qmul_assoc p q r : qmul p (qmul q r) = qmul (qmul p q) r.
Proof. apply q_eq; simpl; ring. Qed.
Lemma qmul_1_l q : qmul qone q = q.
Proof. apply q_eq; simpl; ring. Qed.
Lemma qmul_1_r q : qmul q qone = q.
Proof. apply q_eq; simpl; ring. Qed.

(** ** Segments *)

Definition qseg (x y z dt : R) : quat :=
  let w := sqrt (x ^ 2 + y ^ 2 + z ^ 2) in
  Q4 (cos (w * dt / 2)) (sin (w * dt / 2) * (x / w)) (sin (w * dt / 2) * (y / w))
     (sin (w * dt / 2) * (z / w)).

Lemma segment_unitary_qmat x y z dt : segment_unitary x y z dt = qmat (qseg x y z dt).
Proof. unfold segment_unitary; rewrite bloch_rotation_qmat; reflexivity. Qed.

Definition qnoisy (eps delta : R) (g : seg) : quat :=
  qseg ((1 + eps) * g_rabi g * cos (g_phi g)) ((1 + eps) * g_rabi g * sin (g_phi g))
       (g_det g + delta) (g_dur g).
Fixpoint qevolution (eps delta : R) (l : list seg) : quat :=
  match l with
  | [] => qone
  | g :: l' => qmul (qevolution eps delta l') (qnoisy eps delta g)
  end.

Lemma noisy_evolution_qmat eps delta l :
  noisy_evolution eps delta l = qmat (qevolution eps delta l).
Proof.
  induction l as [|g l IH]; simpl.
  - symmetry; apply qmat_one.
  - rewrite qmat_mul, <- IH; unfold noisy_segment, qnoisy.
    rewrite segment_unitary_qmat; reflexivity.
Qed.

Lemma noisy_evolution_app eps delta l1 l2 :
  noisy_evolution eps delta (l1 ++ l2) =
  mmul (noisy_evolution eps delta l2) (noisy_evolution eps delta l1).
Proof.
  induction l1 as [|g l1 IH]; simpl; [rewrite mmul_1_r; auto|].
  rewrite IH, mmul_assoc; auto.
Qed.
Lemma qevolution_app eps delta l1 l2 :
  qevolution eps delta (l1 ++ l2) = qmul (qevolution eps delta l2) (qevolution eps delta l1).
Proof.
  induction l1 as [|g l1 IH]; simpl; [rewrite qmul_1_r; auto|].
  rewrite IH, qmul_assoc; auto.
Qed.

Lemma sqrt_planar r phi : 0 <= r -> sqrt ((r * cos phi) ^ 2 + (r * sin phi) ^ 2 + 0 ^ 2) = r.
Proof.
  intros Hr.
  replace ((r * cos phi) ^ 2 + (r * sin phi) ^ 2 + 0 ^ 2)
    with (r * r * ((sin phi)² + (cos phi)²)) by (unfold Rsqr; ring).
  rewrite sin2_cos2, Rmult_1_r; apply sqrt_square; auto.
Qed.

(** planar quaternion: rotation with half angle [h] about (cos phi, sin phi) *)
Definition qplanar (h phi : R) : quat := Q4 (cos h) (sin h * cos phi) (sin h * sin phi) 0.

Lemma rotation_qmat theta phi : rotation theta phi = qmat (qplanar (theta / 2) phi).
Proof.
  unfold rotation; rewrite bloch_rotation_qmat; f_equal; apply q_eq; simpl; ring.
Qed.

(** a resonant segment with amplitude error is a planar rotation *)
Lemma qnoisy_resonant eps r phi dt :
  0 < r -> 0 < 1 + eps ->
  qnoisy eps 0 (Seg r phi 0 dt) = qplanar ((1 + eps) * r * dt / 2) phi.
Proof.
  intros Hr He; unfold qnoisy, qseg; cbn [g_rabi g_phi g_det g_dur].
  assert (0 < (1 + eps) * r) by (apply Rmult_lt_0_compat; auto).
  rewrite Rplus_0_r, sqrt_planar by lra.
  unfold qplanar; f_equal; field; lra.
Qed.

(** ** The Schroedinger equation determines the segment evolution *)

Definition qflow (x y z t : R) : quat := qseg x y z t.

Section Flow.
  Variables x y z : R.
  Let w := sqrt (x ^ 2 + y ^ 2 + z ^ 2).

  Lemma w_sq : w * w = x ^ 2 + y ^ 2 + z ^ 2.
  Proof.
    unfold w; apply sqrt_sqrt.
    generalize (pow2_ge_0 x) (pow2_ge_0 y) (pow2_ge_0 z); lra.
  Qed.

  (** derivative of the closed form, component by component *)
  Lemma flow_derive t :
    is_derive (fun t => qa (qseg x y z t)) t
      (- (1 / 2) * (x * qb (qseg x y z t) + y * qc (qseg x y z t) + z * qd (qseg x y z t))) /\
    is_derive (fun t => qb (qseg x y z t)) t (1 / 2 * x * qa (qseg x y z t)) /\
    is_derive (fun t => qc (qseg x y z t)) t (1 / 2 * y * qa (qseg x y z t)) /\
    is_derive (fun t => qd (qseg x y z t)) t (1 / 2 * z * qa (qseg x y z t)).
  Proof.
    unfold qseg; simpl; fold w.
    assert (Hw : w * w = x ^ 2 + y ^ 2 + z ^ 2) by apply w_sq.
    change (sqrt (x * (x * 1) + y * (y * 1) + z * (z * 1))) with w.
    clearbody w.
    destruct (Req_dec w 0) as [E|E].
    - assert (x = 0 /\ y = 0 /\ z = 0) as [-> [-> ->]].
      { rewrite E in Hw.
        assert (x ^ 2 = 0 /\ y ^ 2 = 0 /\ z ^ 2 = 0) as [A [B D]]
          by (generalize (pow2_ge_0 x) (pow2_ge_0 y) (pow2_ge_0 z); lra).
        repeat split; apply Rsqr_0_uniq; unfold Rsqr; lra. }
      rewrite E; split; [|split; [|split]]; auto_derive; auto; unfold Rdiv; ring.
    - split; [|split; [|split]]; auto_derive; auto;
        change (w * t * / 2) with (w * t / 2); try (field; auto; fail).
      replace (- (1 / 2) * (x * (sin (w * t / 2) * (x / w)) +
        y * (sin (w * t / 2) * (y / w)) + z * (sin (w * t / 2) * (z / w))))
        with (- (1/2) * sin (w * t / 2) * ((x ^ 2 + y ^ 2 + z ^ 2) / w)) by (field; auto).
      rewrite <- Hw; change (w * t * / 2) with (w * t / 2); field; auto.
  Qed.
End Flow.

Lemma is_derive_eq (f : R -> R) x d d' : is_derive f x d -> d = d' -> is_derive f x d'.
Proof. intros H <-; auto. Qed.

Lemma qseg_parallel x y z t :
  y * qd (qseg x y z t) - z * qc (qseg x y z t) = 0 /\
  z * qb (qseg x y z t) - x * qd (qseg x y z t) = 0 /\
  x * qc (qseg x y z t) - y * qb (qseg x y z t) = 0.
Proof. unfold qseg; cbn [qb qc qd]; repeat split; unfold Rdiv; ring. Qed.

Lemma flow_derive' x y z t :
  is_derive (fun t => qa (qseg x y z t)) t
    (- (1 / 2) * (x * qb (qseg x y z t) + y * qc (qseg x y z t) + z * qd (qseg x y z t))) /\
  is_derive (fun t => qb (qseg x y z t)) t
    (1 / 2 * (x * qa (qseg x y z t) + (y * qd (qseg x y z t) - z * qc (qseg x y z t)))) /\
  is_derive (fun t => qc (qseg x y z t)) t
    (1 / 2 * (y * qa (qseg x y z t) + (z * qb (qseg x y z t) - x * qd (qseg x y z t)))) /\
  is_derive (fun t => qd (qseg x y z t)) t
    (1 / 2 * (z * qa (qseg x y z t) + (x * qc (qseg x y z t) - y * qb (qseg x y z t)))).
Proof.
  destruct (qseg_parallel x y z t) as [P1 [P2 P3]]; rewrite P1, P2, P3, !Rplus_0_r.
  rewrite <- !Rmult_assoc; apply flow_derive.
Qed.

(** *** existence *)

Lemma qseg_0 x y z : qseg x y z 0 = qone.
Proof.
  unfold qseg; rewrite Rmult_0_r; replace (0 / 2) with 0 by field.
  rewrite cos_0, sin_0; apply q_eq; simpl; ring.
Qed.

Lemma evolves_closed_form x y z T :
  evolves (hamiltonian x y z) T (segment_unitary x y z T).
Proof.
  exists (fun t => qmat (qseg x y z t)); split; [|split].
  - rewrite qseg_0; apply qmat_one.
  - intros t; destruct (flow_derive' x y z t) as [Ha [Hb [Hc Hd]]].
    set (q := qseg x y z) in *; clearbody q.
    assert (Hb' := is_derive_opp _ _ _ Hb); assert (Hc' := is_derive_opp _ _ _ Hc);
    assert (Hd' := is_derive_opp _ _ _ Hd).
    unfold opp in Hb', Hc', Hd'; simpl in Hb', Hc', Hd'.
    split; [|split; [|split]]; split; unfold qmat; cbn [m00 m01 m10 m11 fst snd];
      first [ eapply is_derive_eq; [exact Ha|simpl; field]
            | eapply is_derive_eq; [exact Hb'|simpl; field]
            | eapply is_derive_eq; [exact Hc|simpl; field]
            | eapply is_derive_eq; [exact Hc'|simpl; field]
            | eapply is_derive_eq; [exact Hd|simpl; field]
            | eapply is_derive_eq; [exact Hd'|simpl; field] ].
  - symmetry; apply segment_unitary_qmat.
Qed.

(** *** uniqueness *)

Lemma const_of_null_derive (f : R -> R) :
  (forall t, is_derive f t 0) -> forall T, f T = f 0.
Proof.
  intros H T; destruct (Rtotal_order 0 T) as [L|[L|L]].
  - symmetry; apply (eq_is_derive f 0 T); auto; intros; apply H.
  - subst; auto.
  - apply (eq_is_derive f T 0); auto; intros; apply H.
Qed.

Lemma sumsq8 a b c d e f g h :
  a ^ 2 + b ^ 2 + c ^ 2 + d ^ 2 + e ^ 2 + f ^ 2 + g ^ 2 + h ^ 2 = 0 ->
  a = 0 /\ b = 0 /\ c = 0 /\ d = 0 /\ e = 0 /\ f = 0 /\ g = 0 /\ h = 0.
Proof.
  intros H.
  generalize (pow2_ge_0 a) (pow2_ge_0 b) (pow2_ge_0 c) (pow2_ge_0 d)
             (pow2_ge_0 e) (pow2_ge_0 f) (pow2_ge_0 g) (pow2_ge_0 h); intros.
  repeat split; apply Rsqr_0_uniq; unfold Rsqr; lra.
Qed.

Lemma diffsq_derive (f g : R -> R) t a b :
  is_derive f t a -> is_derive g t b ->
  is_derive (fun t => (f t - g t) ^ 2) t (2 * (f t - g t) * (a - b)).
Proof.
  intros Ha Hb; auto_derive; [repeat split; eexists; eassumption|].
  replace (Derive (fun x => f x) t) with a by (symmetry; exact (is_derive_unique _ _ _ Ha)).
  replace (Derive (fun x => g x) t) with b by (symmetry; exact (is_derive_unique _ _ _ Hb)).
  ring.
Qed.

Lemma sum_derive (f g : R -> R) t a b :
  is_derive f t a -> is_derive g t b -> is_derive (fun t => f t + g t) t (a + b).
Proof. intros Ha Hb; apply (is_derive_plus f g t a b Ha Hb). Qed.

Lemma evolves_unique x y z T V1 V2 :
  evolves (hamiltonian x y z) T V1 -> evolves (hamiltonian x y z) T V2 -> V1 = V2.
Proof.
  intros [U [U0 [UD <-]]] [W [W0 [WD <-]]].
  set (N := fun t : R =>
    (fst (m00 (U t)) - fst (m00 (W t))) ^ 2 + (snd (m00 (U t)) - snd (m00 (W t))) ^ 2 +
    (fst (m01 (U t)) - fst (m01 (W t))) ^ 2 + (snd (m01 (U t)) - snd (m01 (W t))) ^ 2 +
    (fst (m10 (U t)) - fst (m10 (W t))) ^ 2 + (snd (m10 (U t)) - snd (m10 (W t))) ^ 2 +
    (fst (m11 (U t)) - fst (m11 (W t))) ^ 2 + (snd (m11 (U t)) - snd (m11 (W t))) ^ 2).
  assert (HN : forall t, is_derive N t 0).
  { intros t; unfold N.
    destruct (UD t) as [[A1 A2] [[A3 A4] [[A5 A6] [A7 A8]]]].
    destruct (WD t) as [[B1 B2] [[B3 B4] [[B5 B6] [B7 B8]]]].
    eapply is_derive_eq.
    - exact (sum_derive _ _ _ _ _ (sum_derive _ _ _ _ _ (sum_derive _ _ _ _ _
              (sum_derive _ _ _ _ _ (sum_derive _ _ _ _ _ (sum_derive _ _ _ _ _
              (sum_derive _ _ _ _ _
                (diffsq_derive _ _ _ _ _ A1 B1) (diffsq_derive _ _ _ _ _ A2 B2))
                (diffsq_derive _ _ _ _ _ A3 B3)) (diffsq_derive _ _ _ _ _ A4 B4))
                (diffsq_derive _ _ _ _ _ A5 B5)) (diffsq_derive _ _ _ _ _ A6 B6))
                (diffsq_derive _ _ _ _ _ A7 B7)) (diffsq_derive _ _ _ _ _ A8 B8)).
    - clear; cbv beta.
      destruct (U t) as [[u1 u2] [u3 u4] [u5 u6] [u7 u8]].
      destruct (W t) as [[w1 w2] [w3 w4] [w5 w6] [w7 w8]].
      simpl; field. }
  assert (E : N T = 0).
  { rewrite (const_of_null_derive N HN T); unfold N; rewrite U0, W0; ring. }
  unfold N in E; apply sumsq8 in E.
  destruct E as [E1 [E2 [E3 [E4 [E5 [E6 [E7 E8]]]]]]].
  apply m_eq; apply c_eq; lra.
Qed.

Lemma evolves_iff x y z T V :
  evolves (hamiltonian x y z) T V <-> V = segment_unitary x y z T.
Proof.
  split; intros H.
  - eapply evolves_unique; [exact H|apply evolves_closed_form].
  - subst; apply evolves_closed_form.
Qed.

Lemma schroedinger_iff eps delta l V :
  schroedinger eps delta l V <-> V = noisy_evolution eps delta l.
Proof.
  revert V; induction l as [|g l IH]; intros V; simpl; [tauto|].
  split.
  - intros [V1 [V2 [H1 [H2 ->]]]]; apply evolves_iff in H1; apply IH in H2; subst; auto.
  - intros ->; eexists; eexists; repeat split; [apply evolves_closed_form|apply IH; reflexivity].
Qed.
