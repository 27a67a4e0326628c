(** * How far an error moves the evolution *)

From Verif Require Export L_DriveExists L_Orders.
From Coq Require Import Lia Factorial.
Import ListNotations.
Set Bullet Behavior "Strict Subproofs".
Open Scope string_scope.
Open Scope list_scope.
Open Scope R_scope.

(** ** Sizes of quaternions *)

Definition qsmall (e : R) (q : quat) : Prop := 0 <= e /\ qnorm2 q <= e ^ 2.
Definition qlin (k : R) (q : quat) : quat := Q4 (k * qa q) (k * qb q) (k * qc q) (k * qd q).

Lemma qnear_small e p q : qnear e p q <-> qsmall e (qsub p q).
Proof. split; auto. Qed.
Lemma qsmall_mono e f q : e <= f -> qsmall e q -> qsmall f q.
Proof. intros H [A B]; split; [lra|]; eapply Rle_trans; [exact B|apply pow_incr; lra]. Qed.
Lemma qsmall_add e f p q : qsmall e p -> qsmall f q -> qsmall (e + f) (qadd p q).
Proof.
  intros P Q; assert (A : qnear e p qzero) by (unfold qnear; replace (qsub p qzero) with p by (apply q_eq; cbn; ring); exact P).
  assert (B : qnear f qzero (qlin (-1) q)).
  { unfold qnear; replace (qsub qzero (qlin (-1) q)) with q by (apply q_eq; cbn; ring); exact Q. }
  assert (C := qnear_trans _ _ _ _ _ A B); unfold qnear in C.
  replace (qsub p (qlin (-1) q)) with (qadd p q) in C by (apply q_eq; cbn; ring); exact C.
Qed.
Lemma qsmall_mul e f p q : qsmall e p -> qsmall f q -> qsmall (e * f) (qmul p q).
Proof.
  intros [A B] [C D]; split; [apply Rmult_le_pos; auto|]; rewrite qnorm2_mul, Rpow_mult_distr.
  apply Rmult_le_compat; auto; unfold qnorm2; assert (Z := Rle_0_sqr); unfold Rsqr in Z;
    [generalize (Z (qa p)) (Z (qb p)) (Z (qc p)) (Z (qd p))|generalize (Z (qa q)) (Z (qb q)) (Z (qc q)) (Z (qd q))]; lra.
Qed.
Lemma qsmall_unit q : unit_quat q -> qsmall 1 q.
Proof. intros U; split; [lra|]; rewrite U; lra. Qed.
Lemma qsmall_lin k e q : qsmall e q -> qsmall (Rabs k * e) (qlin k q).
Proof.
  intros [A B]; split; [apply Rmult_le_pos; auto; apply Rabs_pos|].
  replace (qnorm2 (qlin k q)) with (k ^ 2 * qnorm2 q) by (unfold qnorm2; cbn; ring).
  rewrite Rpow_mult_distr, pow2_abs; apply Rmult_le_compat_l; auto; apply pow2_ge_0.
Qed.
Lemma qsmall_component e q : qsmall e q -> Rabs (qa q) <= e /\ Rabs (qb q) <= e /\ Rabs (qc q) <= e /\ Rabs (qd q) <= e.
Proof.
  intros [A B]; unfold qnorm2 in B; assert (Z := Rle_0_sqr); unfold Rsqr in Z.
  assert (H1 := Z (qa q)); assert (H2 := Z (qb q)); assert (H3 := Z (qc q)); assert (H4 := Z (qd q)).
  assert (K : forall x, x * x <= e ^ 2 -> Rabs x <= e).
  { intros x X; rewrite <- (Rabs_right e) by lra; apply Rsqr_le_abs_0; unfold Rsqr; cbn [pow] in X; lra. }
  repeat split; apply K; lra.
Qed.

(** ** Integrating a bound on the derivative *)

Definition qdot (p q : quat) : R := qa p * qa q + qb p * qb q + qc p * qc q + qd p * qd q.
Lemma qdot_bound p q : qdot p q ^ 2 <= qnorm2 p * qnorm2 q.
Proof.
  unfold qdot, qnorm2; apply Rminus_le; assert (Z := Rle_0_sqr).
  generalize (Z (qa p * qb q - qb p * qa q)) (Z (qa p * qc q - qc p * qa q)) (Z (qa p * qd q - qd p * qa q))
    (Z (qb p * qc q - qc p * qb q)) (Z (qb p * qd q - qd p * qb q)) (Z (qc p * qd q - qd p * qc q)); unfold Rsqr; intros.
  match goal with |- ?x <= 0 => replace x with (- ((qa p * qb q - qb p * qa q) * (qa p * qb q - qb p * qa q) + (qa p * qc q - qc p * qa q) * (qa p * qc q - qc p * qa q) +
    (qa p * qd q - qd p * qa q) * (qa p * qd q - qd p * qa q) + (qb p * qc q - qc p * qb q) * (qb p * qc q - qc p * qb q) +
    (qb p * qd q - qd p * qb q) * (qb p * qd q - qd p * qb q) + (qc p * qd q - qd p * qc q) * (qc p * qd q - qd p * qc q))) by ring end; lra.
Qed.
Lemma qnorm2_pos q : 0 <= qnorm2 q.
Proof. unfold qnorm2; assert (Z := Rle_0_sqr); unfold Rsqr in Z; generalize (Z (qa q)) (Z (qb q)) (Z (qc q)) (Z (qd q)); lra. Qed.
Lemma qdot_le e p q : qsmall e q -> qdot p q <= sqrt (qnorm2 p) * e.
Proof.
  intros [A B]; assert (N := qnorm2_pos p); assert (S := sqrt_pos (qnorm2 p)); assert (SS := sqrt_sqrt _ N).
  apply Rnot_lt_le; intros L; assert (D := qdot_bound p q).
  assert (0 <= sqrt (qnorm2 p) * e) by (apply Rmult_le_pos; auto).
  assert ((sqrt (qnorm2 p) * e) ^ 2 < qdot p q ^ 2) by (cbn [pow]; nra).
  assert (qnorm2 p * qnorm2 q <= qnorm2 p * e ^ 2) by (apply Rmult_le_compat_l; auto).
  replace ((sqrt (qnorm2 p) * e) ^ 2) with (sqrt (qnorm2 p) * sqrt (qnorm2 p) * e ^ 2) in * by ring; rewrite SS in *; lra.
Qed.

Lemma qsmall_integral (f f' : R -> quat) (G g : R -> R) T : 0 <= T -> f 0 = qzero -> G 0 = 0 ->
  (forall t, 0 <= t <= T -> qderive f t (f' t)) -> (forall t, 0 <= t <= T -> is_derive G t (g t)) ->
  (forall t, 0 <= t <= T -> qsmall (g t) (f' t)) -> qsmall (G T) (f T).
Proof.
  intros HT F0 G0 DF DG B.
  set (N := sqrt (qnorm2 (f T))); assert (N0 : 0 <= N) by apply sqrt_pos; assert (NN := sqrt_sqrt _ (qnorm2_pos (f T))); fold N in NN.
  assert (GT : 0 <= G T).
  { assert (M := mean_value (fun t => - G t) (fun t => - g t) 0 T 0 HT); cbv beta in M.
    assert (- G T - - G 0 <= 0 * (T - 0)); [|rewrite G0 in *; lra].
    apply M; intros t Ht; [apply (is_derive_opp G t (g t)); auto|destruct (B t Ht); lra]. }
  assert (H : qdot (f T) (f T) - N * G T <= 0).
  { assert (M := mean_value (fun t => qdot (f T) (f t) - N * G t) (fun t => qdot (f T) (f' t) - N * g t) 0 T 0 HT); cbv beta in M.
    assert (qdot (f T) (f T) - N * G T - (qdot (f T) (f 0) - N * G 0) <= 0 * (T - 0)).
    2:{ rewrite F0, G0 in *; unfold qdot at 2 in H; cbn in H; lra. }
    apply M; intros t Ht.
    - destruct (DF t Ht) as [A1 [A2 [A3 A4]]]; unfold qdot.
      apply (is_derive_subR (fun t => _) (fun t => _)).
      + repeat apply (is_derive_addR (fun t => _) (fun t => _)); apply is_derive_scaleR; auto.
      + apply is_derive_scaleR; auto.
    - assert (L := qdot_le _ (f T) _ (B t Ht)); fold N in L; lra. }
  replace (qdot (f T) (f T)) with (N * N) in H by (rewrite NN; unfold qdot, qnorm2; ring).
  split; auto; rewrite <- NN; cbn [pow]; destruct (Req_dec N 0) as [->|NZ]; [nra|].
  assert (N <= G T) by nra; nra.
Qed.

(** ** One segment *)

Definition qconj (q : quat) : quat := Q4 (qa q) (- qb q) (- qc q) (- qd q).
Lemma qconj_unit q : unit_quat q -> unit_quat (qconj q).
Proof. unfold unit_quat, qnorm2, qconj; cbn [qa qb qc qd]; intros U; rewrite <- U; ring. Qed.
Lemma qconj_inverse q : unit_quat q -> qmul q (qconj q) = qone /\ qmul (qconj q) q = qone.
Proof.
  unfold unit_quat, qnorm2; intros U; split; apply q_eq; unfold qmul, qconj, qone; cbn [qa qb qc qd]; try ring; rewrite <- U; ring.
Qed.
Lemma qderive_conj f x d : qderive f x d -> qderive (fun t => qconj (f t)) x (qconj d).
Proof.
  intros [A [B [C D]]]; split; [|split; [|split]]; cbn; auto; [apply (is_derive_opp _ _ _ B)|apply (is_derive_opp _ _ _ C)|apply (is_derive_opp _ _ _ D)].
Qed.

Lemma qseg_derive x y z t : qderive (qseg x y z) t (qmul (qham x y z) (qseg x y z t)).
Proof.
  destruct (flow_derive' x y z t) as [A [B [C D]]]; set (q := qseg x y z) in *; clearbody q.
  split; [|split; [|split]].
  - eapply is_derive_eq; [exact A|]; unfold qham, qmul; cbn [qa qb qc qd]; match goal with |- ?a = ?b => change (@eq R a b) end; field.
  - eapply is_derive_eq; [exact B|]; unfold qham, qmul; cbn [qa qb qc qd]; match goal with |- ?a = ?b => change (@eq R a b) end; field.
  - eapply is_derive_eq; [exact C|]; unfold qham, qmul; cbn [qa qb qc qd]; match goal with |- ?a = ?b => change (@eq R a b) end; field.
  - eapply is_derive_eq; [exact D|]; unfold qham, qmul; cbn [qa qb qc qd]; match goal with |- ?a = ?b => change (@eq R a b) end; field.
Qed.
Lemma qseg_solves x y z : qsolves (fun _ => x) (fun _ => y) (fun _ => z) 0 (qseg x y z).
Proof. split; [apply qseg_0|intros t; apply qseg_derive]. Qed.

(** integrals of quaternions *)
Definition qintegral (f : R -> quat) (t : R) : quat :=
  Q4 (RInt (fun s => qa (f s)) 0 t) (RInt (fun s => qb (f s)) 0 t) (RInt (fun s => qc (f s)) 0 t) (RInt (fun s => qd (f s)) 0 t).
Lemma qintegral_derive f f' : (forall t, qderive f t (f' t)) -> forall t, qderive (qintegral f) t (f t).
Proof.
  intros D t; split; [|split; [|split]]; cbn [qintegral qa qb qc qd]; apply cont_RInt; intros s; apply @ex_derive_continuous;
    destruct (D s) as [A [B [C E]]]; eexists; eassumption.
Qed.
Lemma qintegral_0 f : qintegral f 0 = qzero.
Proof. unfold qintegral, qzero; f_equal; apply (RInt_point (V := R_CompleteNormedModule)). Qed.

(** the first order in an error along (u, v, r) *)
Definition toggled (x y z u v r t : R) : quat := qmul (qmul (qconj (qseg x y z t)) (qham u v r)) (qseg x y z t).
Lemma toggled_derive x y z u v r : exists g, forall t, qderive (toggled x y z u v r) t (g t).
Proof.
  eexists; intros t; unfold toggled; apply qderive_mul; [apply qderive_mul|apply qseg_derive].
  - apply qderive_conj, qseg_derive.
  - apply L_Composite.qderive_const.
Qed.
Definition segment_slope (x y z u v r t : R) : quat := qmul (qseg x y z t) (qintegral (toggled x y z u v r) t).

Lemma qham_small u v r n : 0 <= n -> u ^ 2 + v ^ 2 + r ^ 2 <= n ^ 2 -> qsmall (n / 2) (qham u v r).
Proof. intros N B; split; [lra|]; unfold qnorm2, qham; cbn [qa qb qc qd]; replace ((n / 2) ^ 2) with (n ^ 2 / 4) by field; lra. Qed.

Lemma toggled_small x y z u v r n t : 0 <= n -> u ^ 2 + v ^ 2 + r ^ 2 <= n ^ 2 -> qsmall (n / 2) (toggled x y z u v r t).
Proof.
  intros N B; unfold toggled; replace (n / 2) with (1 * (n / 2) * 1) by ring; apply qsmall_mul; [apply qsmall_mul|].
  - apply qsmall_unit, qconj_unit, unit_qseg.
  - apply qham_small; auto.
  - apply qsmall_unit, unit_qseg.
Qed.

Lemma slope_small x y z u v r n t : 0 <= n -> 0 <= t -> u ^ 2 + v ^ 2 + r ^ 2 <= n ^ 2 -> qsmall (n * t / 2) (segment_slope x y z u v r t).
Proof.
  intros N T B; unfold segment_slope; replace (n * t / 2) with (1 * (n * t / 2)) by ring; apply qsmall_mul; [apply qsmall_unit, unit_qseg|].
  destruct (toggled_derive x y z u v r) as [g G].
  apply (qsmall_integral (qintegral (toggled x y z u v r)) (toggled x y z u v r) (fun s => n * s / 2) (fun _ => n / 2) t T).
  - apply qintegral_0.
  - lra.
  - intros s _; eapply qintegral_derive, G.
  - intros s _; auto_derive; auto; field.
  - intros s _; apply toggled_small; auto.
Qed.

Lemma segment_zeroth x y z u v r n t d : 0 <= n -> 0 <= t -> u ^ 2 + v ^ 2 + r ^ 2 <= n ^ 2 ->
  qsmall (Rabs d * (n * t) / 2) (qsub (qseg (x + d * u) (y + d * v) (z + d * r) t) (qseg x y z t)).
Proof.
  intros N T B; apply qnear_small.
  assert (H := qsolves_near _ _ _ _ _ _ 0 _ _ (Rabs d * n) t (qseg_solves (x + d * u) (y + d * v) (z + d * r)) (qseg_solves x y z) T).
  replace (Rabs d * (n * t) / 2) with (Rabs d * n * (t - 0) / 2) by field; apply H.
  - apply Rmult_le_pos; auto; apply Rabs_pos.
  - intros s _; rewrite Rpow_mult_distr, pow2_abs.
    replace ((x + d * u - x) ^ 2 + (y + d * v - y) ^ 2 + (z + d * r - z) ^ 2) with (d ^ 2 * (u ^ 2 + v ^ 2 + r ^ 2)) by ring.
    apply Rmult_le_compat_l; auto; apply pow2_ge_0.
Qed.

Lemma segment_first x y z u v r n t d : 0 <= n -> 0 <= t -> u ^ 2 + v ^ 2 + r ^ 2 <= n ^ 2 ->
  qsmall ((d * (n * t)) ^ 2 / 8) (qsub (qsub (qseg (x + d * u) (y + d * v) (z + d * r) t) (qseg x y z t)) (qlin d (segment_slope x y z u v r t))).
Proof.
  intros N T B.
  set (q := qseg (x + d * u) (y + d * v) (z + d * r)); set (q0 := qseg x y z); set (I := qintegral (toggled x y z u v r)).
  set (E := fun s => qsub (qsub (qmul (qconj (q0 s)) (q s)) qone) (qlin d (I s))).
  assert (U0 : forall s, unit_quat (q0 s)) by (intros; apply unit_qseg).
  replace (qsub (qsub (q t) (q0 t)) (qlin d (segment_slope x y z u v r t))) with (qmul (q0 t) (E t)).
  2:{ unfold E, segment_slope; fold q0 I; destruct (qconj_inverse (q0 t) (U0 t)) as [K _].
      transitivity (qsub (qsub (qmul (qmul (q0 t) (qconj (q0 t))) (q t)) (q0 t)) (qlin d (qmul (q0 t) (I t)))).
      - apply q_eq; unfold qsub, qlin, qmul, qone; cbn [qa qb qc qd]; ring.
      - rewrite K, qmul_1_l; reflexivity. }
  replace ((d * (n * t)) ^ 2 / 8) with (1 * ((d * (n * t)) ^ 2 / 8)) by ring; apply qsmall_mul; [apply qsmall_unit; auto|].
  destruct (toggled_derive x y z u v r) as [g G].
  apply (qsmall_integral E (fun s => qlin d (qmul (qmul (qconj (q0 s)) (qham u v r)) (qsub (q s) (q0 s)))) (fun s => (d * (n * s)) ^ 2 / 8) (fun s => Rabs d * (1 * (n / 2) * (Rabs d * (n * s) / 2))) t T).
  - unfold E, q, q0, I; rewrite !qseg_0, qintegral_0; apply q_eq; cbn; ring.
  - rewrite !Rmult_0_r; field.
  - intros s _; unfold E.
    assert (D0 := qderive_conj _ _ _ (qseg_derive x y z s)); fold q0 in D0.
    assert (D1 := qseg_derive (x + d * u) (y + d * v) (z + d * r) s); fold q in D1.
    assert (DI := qintegral_derive _ _ G s); fold I in DI.
    assert (DM := qderive_mul _ _ _ _ _ D0 D1); clear D0 D1.
    destruct DM as [A1 [A2 [A3 A4]]]; destruct DI as [I1 [I2 [I3 I4]]].
    assert (SU : forall (f h : R -> R) a b c, is_derive f s a -> is_derive h s b -> is_derive (fun t => f t - c - d * h t) s (a - 0 - d * b)).
    { intros f h a b c F H; apply is_derive_subR; [|apply is_derive_scaleR; auto].
      apply (is_derive_subR f (fun _ => c)); auto; apply (is_derive_const (V := R_NormedModule)). }
    unfold toggled in I1, I2, I3, I4; fold q0 in I1, I2, I3, I4.
    set (p0 := q0 s) in *; set (p := q s) in *; clearbody p0 p.
    split; [|split; [|split]]; unfold qsub, qlin; cbn [qa qb qc qd qone].
    + eapply is_derive_eq; [apply (SU _ _ _ _ 1 A1 I1)|]; unfold qham, qconj, qmul, qadd; cbn [qa qb qc qd]; match goal with |- ?a = ?b => change (@eq R a b) end; field.
    + eapply is_derive_eq; [apply (SU _ _ _ _ 0 A2 I2)|]; unfold qham, qconj, qmul, qadd; cbn [qa qb qc qd]; match goal with |- ?a = ?b => change (@eq R a b) end; field.
    + eapply is_derive_eq; [apply (SU _ _ _ _ 0 A3 I3)|]; unfold qham, qconj, qmul, qadd; cbn [qa qb qc qd]; match goal with |- ?a = ?b => change (@eq R a b) end; field.
    + eapply is_derive_eq; [apply (SU _ _ _ _ 0 A4 I4)|]; unfold qham, qconj, qmul, qadd; cbn [qa qb qc qd]; match goal with |- ?a = ?b => change (@eq R a b) end; field.
  - intros s _; auto_derive; auto.
    replace (Rabs d * (1 * (n / 2) * (Rabs d * (n * s) / 2))) with (Rabs d ^ 2 * (n * n * s) / 4) by field; rewrite pow2_abs; field.
  - intros s Hs; apply qsmall_lin, qsmall_mul; [apply qsmall_mul|].
    + apply qsmall_unit, qconj_unit; auto.
    + apply qham_small; auto.
    + apply segment_zeroth; auto; lra.
Qed.

(** ** Sequences of segments *)

Definition first_order (T : R) (f : R -> quat) (f1 : quat) : Prop :=
  0 <= T /\ (forall d, unit_quat (f d)) /\ qsmall (T / 2) f1 /\
  (forall d, qsmall (Rabs d * T / 2) (qsub (f d) (f 0))) /\
  (forall d, qsmall ((d * T) ^ 2 / 8) (qsub (qsub (f d) (f 0)) (qlin d f1))).

Lemma first_order_one : first_order 0 (fun _ => qone) qzero.
Proof.
  split; [lra|]; split; [intros; apply unit_one|]; assert (Z : forall e, e = 0 -> qsmall e qzero).
  { intros e ->; split; [lra|]; unfold qnorm2; cbn; lra. }
  split; [apply Z; lra|]; split; intros d.
  - replace (qsub qone qone) with qzero by (apply q_eq; cbn; ring); apply Z; lra.
  - replace (qsub (qsub qone qone) (qlin d qzero)) with qzero by (apply q_eq; cbn; ring); apply Z; lra.
Qed.

Lemma first_order_mul T T' f g f1 g1 : first_order T f f1 -> first_order T' g g1 ->
  first_order (T + T') (fun d => qmul (f d) (g d)) (qadd (qmul f1 (g 0)) (qmul (f 0) g1)).
Proof.
  intros [T0 [UF [F1 [FZ FR]]]] [T0' [UG [G1 [GZ GR]]]].
  assert (SF := fun d => qsmall_unit _ (UF d)); assert (SG := fun d => qsmall_unit _ (UG d)).
  split; [lra|]; split; [intros; apply unit_mul; auto|]; split; [|split]; intros.
  - replace ((T + T') / 2) with (T / 2 * 1 + 1 * (T' / 2)) by field; apply qsmall_add; apply qsmall_mul; auto.
  - replace (Rabs d * (T + T') / 2) with (Rabs d * T / 2 * 1 + 1 * (Rabs d * T' / 2)) by field.
    replace (qsub (qmul (f d) (g d)) (qmul (f 0) (g 0))) with (qadd (qmul (qsub (f d) (f 0)) (g 0)) (qmul (f d) (qsub (g d) (g 0))))
      by (apply q_eq; unfold qadd, qsub, qmul; cbn [qa qb qc qd]; ring).
    apply qsmall_add; apply qsmall_mul; auto.
  - replace ((d * (T + T')) ^ 2 / 8) with ((d * T) ^ 2 / 8 * 1 + 1 * ((d * T') ^ 2 / 8) + Rabs d * (Rabs d * T / 2 * (T' / 2))).
    2:{ transitivity ((d * T) ^ 2 / 8 + (d * T') ^ 2 / 8 + Rabs d ^ 2 * (T * T') / 4); [field|rewrite pow2_abs; field]. }
    replace (qsub (qsub (qmul (f d) (g d)) (qmul (f 0) (g 0))) (qlin d (qadd (qmul f1 (g 0)) (qmul (f 0) g1)))) with
      (qadd (qadd (qmul (qsub (qsub (f d) (f 0)) (qlin d f1)) (g 0)) (qmul (f d) (qsub (qsub (g d) (g 0)) (qlin d g1))))
        (qlin d (qmul (qsub (f d) (f 0)) g1))) by (apply q_eq; unfold qadd, qsub, qmul, qlin; cbn [qa qb qc qd]; ring).
    apply qsmall_add; [apply qsmall_add; apply qsmall_mul; auto|]; apply qsmall_lin, qsmall_mul; auto.
Qed.

Lemma first_order_ext T f g f1 : (forall d, f d = g d) -> first_order T f f1 -> first_order T g f1.
Proof.
  intros E [A [B [C [D F]]]]; split; [auto|]; split; [intros d; rewrite <- E; auto|]; split; [auto|]; split; intros d; rewrite <- !E; auto.
Qed.

Lemma first_order_segment x y z u v r n t : 0 <= n -> 0 <= t -> u ^ 2 + v ^ 2 + r ^ 2 <= n ^ 2 ->
  first_order (n * t) (fun d => qseg (x + d * u) (y + d * v) (z + d * r) t) (segment_slope x y z u v r t).
Proof.
  intros N T B; assert (E : qseg (x + 0 * u) (y + 0 * v) (z + 0 * r) t = qseg x y z t) by (f_equal; ring).
  split; [apply Rmult_le_pos; auto|]; split; [intros; apply unit_qseg|]; split; [|split]; try intros d; try rewrite E.
  - replace (n * t / 2) with (n * t / 2) by reflexivity; apply slope_small; auto.
  - apply segment_zeroth; auto.
  - apply segment_first; auto.
Qed.

Definition turn_total (l : list seg) : R := fold_right (fun g s => Rabs (g_rabi g) * g_dur g + s) 0 l.
Definition time_total (l : list seg) : R := fold_right (fun g s => g_dur g + s) 0 l.

Lemma amplitude_first_order l : Forall (fun g => 0 <= g_dur g) l -> exists f1, first_order (turn_total l) (fun e => qevolution e 0 l) f1.
Proof.
  induction 1 as [|g l G _ [f1 IH]]; [exists qzero; apply first_order_one|].
  eexists; cbn [turn_total fold_right qevolution]; fold (turn_total l); rewrite Rplus_comm; apply first_order_mul; [exact IH|].
  unfold qnoisy; eapply first_order_ext; [|apply (first_order_segment (g_rabi g * cos (g_phi g)) (g_rabi g * sin (g_phi g)) (g_det g)
    (g_rabi g * cos (g_phi g)) (g_rabi g * sin (g_phi g)) 0 (Rabs (g_rabi g)) (g_dur g) (Rabs_pos _) G)].
  - intros d; cbv beta; f_equal; ring.
  - rewrite pow2_abs; replace ((g_rabi g * cos (g_phi g)) ^ 2 + (g_rabi g * sin (g_phi g)) ^ 2 + 0 ^ 2)
      with (g_rabi g ^ 2 * (cos (g_phi g) * cos (g_phi g) + sin (g_phi g) * sin (g_phi g))) by ring; rewrite cs1; apply Req_le; ring.
Qed.
Lemma detuning_first_order l : Forall (fun g => 0 <= g_dur g) l -> exists f1, first_order (time_total l) (fun d => qevolution 0 d l) f1.
Proof.
  induction 1 as [|g l G _ [f1 IH]]; [exists qzero; apply first_order_one|].
  eexists; cbn [time_total fold_right qevolution]; fold (time_total l); rewrite Rplus_comm; apply first_order_mul; [exact IH|].
  replace (g_dur g) with (1 * g_dur g) by ring.
  unfold qnoisy; eapply first_order_ext; [|apply (first_order_segment (g_rabi g * cos (g_phi g)) (g_rabi g * sin (g_phi g)) (g_det g)
    0 0 1 1 (g_dur g) Rle_0_1 G)].
  - intros d; cbv beta; f_equal; ring.
  - lra.
Qed.

(** ** Insensitive controls *)

Lemma quadratic_derive (f : R -> R) a K : (forall d, Rabs (f d - f 0 - d * a) <= K * d ^ 2) -> is_derive f 0 a.
Proof.
  intros H; assert (K0 : 0 <= K).
  { assert (H1 := H 1); assert (Z := Rabs_pos (f 1 - f 0 - 1 * a)); lra. }
  apply is_derive_Reals; intros eps E; assert (P : 0 < eps / (K + 1)) by (apply Rdiv_lt_0_compat; lra).
  exists (mkposreal _ P); intros h H0 Hh; cbn in Hh; rewrite Rplus_0_l.
  replace ((f h - f 0) / h - a) with ((f h - f 0 - h * a) / h) by (field; auto).
  assert (AH : 0 < Rabs h) by (apply Rabs_pos_lt; auto).
  unfold Rdiv; rewrite Rabs_mult, Rabs_inv; apply Rle_lt_trans with (K * h ^ 2 * / Rabs h).
  - apply Rmult_le_compat_r; [left; apply Rinv_0_lt_compat; auto|apply H].
  - rewrite <- (pow2_abs h); replace (K * Rabs h ^ 2 * / Rabs h) with (K * Rabs h) by (field; lra).
    apply Rmult_lt_compat_r with (r := K + 1) in Hh; [|lra]; replace (eps / (K + 1) * (K + 1)) with eps in Hh by (field; lra); nra.
Qed.

Lemma first_order_derive T f f1 : first_order T f f1 -> qderive f 0 f1.
Proof.
  intros [T0 [_ [_ [_ R]]]]; split; [|split; [|split]]; apply (quadratic_derive _ _ (T ^ 2 / 8)); intros d;
    destruct (qsmall_component _ _ (R d)) as [A [B [C D]]]; unfold qsub, qlin in *; cbn [qa qb qc qd] in *;
    (eapply Rle_trans; [eassumption|]; apply Req_le; field).
Qed.

Lemma flat_slope f f1 : qderive f 0 f1 -> flat 1 (fun t => qmat (f t)) -> f1 = qzero.
Proof.
  intros [A [B [C D]]] [F1 [_ [_ [_ [F5 [F6 [_ F8]]]]]]].
  assert (L : (1 <= 1 <= 1)%nat) by lia.
  assert (U : forall (g : R -> R) a b, is_derive g 0 a -> is_derive g 0 b -> a = b).
  { intros g a b G1 G2; apply is_derive_unique in G1; apply is_derive_unique in G2; congruence. }
  assert (B' := is_derive_opp _ _ _ B).
  apply q_eq; cbn [qzero qa qb qc qd].
  - apply (U _ _ _ A (F1 1%nat L)).
  - assert (X := U _ _ _ B' (F6 1%nat L)); unfold opp in X; cbn in X; lra.
  - apply (U _ _ _ C (F5 1%nat L)).
  - apply (U _ _ _ D (F8 1%nat L)).
Qed.

Lemma first_order_robust T f f1 d : first_order T f f1 -> flat 1 (fun t => qmat (f t)) -> qnear ((d * T) ^ 2 / 8) (f d) (f 0).
Proof.
  intros F H; assert (Z := flat_slope _ _ (first_order_derive _ _ _ F) H); subst f1.
  destruct F as [_ [_ [_ [_ R]]]]; apply qnear_small.
  replace (qsub (f d) (f 0)) with (qsub (qsub (f d) (f 0)) (qlin d qzero)) by (apply q_eq; unfold qsub, qlin, qzero; cbn [qa qb qc qd]; ring); apply R.
Qed.

Theorem amplitude_distance l e : Forall (fun g => 0 <= g_dur g) l ->
  close_to (Rabs e * turn_total l / 2) (noisy_evolution e 0 l) (evolution l) /\
  (amplitude_robust 1 l -> close_to ((e * turn_total l) ^ 2 / 8) (noisy_evolution e 0 l) (evolution l)).
Proof.
  intros P; destruct (amplitude_first_order l P) as [f1 F]; unfold evolution; rewrite !noisy_evolution_qmat; split.
  - apply qnear_close; destruct F as [_ [_ [_ [Z _]]]]; apply Z.
  - intros A; apply qnear_close, (first_order_robust _ (fun e => qevolution e 0 l) f1 e F).
    eapply flat_ext_loc; [|exact A]; apply filter_forall; intros t; apply noisy_evolution_qmat.
Qed.
Theorem detuning_distance l d : Forall (fun g => 0 <= g_dur g) l ->
  close_to (Rabs d * time_total l / 2) (noisy_evolution 0 d l) (evolution l) /\
  (dephasing_robust 1 l -> close_to ((d * time_total l) ^ 2 / 8) (noisy_evolution 0 d l) (evolution l)).
Proof.
  intros P; destruct (detuning_first_order l P) as [f1 F]; unfold evolution; rewrite !noisy_evolution_qmat; split.
  - apply qnear_close; destruct F as [_ [_ [_ [Z _]]]]; apply Z.
  - intros A; apply qnear_close, (first_order_robust _ (fun d => qevolution 0 d l) f1 d F).
    eapply flat_ext_loc; [|exact A]; apply filter_forall; intros t; apply noisy_evolution_qmat.
Qed.

(** ** Both errors at once *)

Lemma qintegral_linear f g f' g' a b t : (forall s, qderive f s (f' s)) -> (forall s, qderive g s (g' s)) ->
  qintegral (fun s => qadd (qlin a (f s)) (qlin b (g s))) t = qadd (qlin a (qintegral f t)) (qlin b (qintegral g t)).
Proof.
  intros F G.
  assert (L : forall p : quat -> R, (forall s, exists v, is_derive (fun s => p (f s)) s v) -> (forall s, exists v, is_derive (fun s => p (g s)) s v) ->
    RInt (fun s => a * p (f s) + b * p (g s)) 0 t = a * RInt (fun s => p (f s)) 0 t + b * RInt (fun s => p (g s)) 0 t).
  { intros p PF PG.
    assert (CF : ex_RInt (fun s => p (f s)) 0 t) by (apply (ex_RInt_continuous (V := R_CompleteNormedModule)); intros s _; apply @ex_derive_continuous; apply PF).
    assert (CG : ex_RInt (fun s => p (g s)) 0 t) by (apply (ex_RInt_continuous (V := R_CompleteNormedModule)); intros s _; apply @ex_derive_continuous; apply PG).
    apply is_RInt_unique, (is_RInt_plus (fun s => a * p (f s)) (fun s => b * p (g s)));
      [apply (is_RInt_scal (fun s => p (f s)) 0 t a)|apply (is_RInt_scal (fun s => p (g s)) 0 t b)]; apply (RInt_correct (V := R_CompleteNormedModule)); auto. }
  unfold qintegral; apply q_eq; cbn [qa qb qc qd qadd qlin].
  - apply (L qa); intros s; [destruct (F s) as [A _]|destruct (G s) as [A _]]; eexists; exact A.
  - apply (L qb); intros s; [destruct (F s) as [_ [A _]]|destruct (G s) as [_ [A _]]]; eexists; exact A.
  - apply (L qc); intros s; [destruct (F s) as [_ [_ [A _]]]|destruct (G s) as [_ [_ [A _]]]]; eexists; exact A.
  - apply (L qd); intros s; [destruct (F s) as [_ [_ [_ A]]]|destruct (G s) as [_ [_ [_ A]]]]; eexists; exact A.
Qed.

Lemma slope_linear x y z u v r u' v' r' a b t :
  segment_slope x y z (a * u + b * u') (a * v + b * v') (a * r + b * r') t =
  qadd (qlin a (segment_slope x y z u v r t)) (qlin b (segment_slope x y z u' v' r' t)).
Proof.
  destruct (toggled_derive x y z u v r) as [f' F]; destruct (toggled_derive x y z u' v' r') as [g' G].
  unfold segment_slope.
  replace (qintegral (toggled x y z (a * u + b * u') (a * v + b * v') (a * r + b * r')) t)
    with (qintegral (fun s => qadd (qlin a (toggled x y z u v r s)) (qlin b (toggled x y z u' v' r' s))) t).
  - rewrite (qintegral_linear _ _ _ _ a b t F G); apply q_eq; unfold qmul, qadd, qlin; cbn [qa qb qc qd]; ring.
  - unfold qintegral; f_equal; apply RInt_ext; intros s _; unfold toggled, qmul, qadd, qlin, qham; cbn [qa qb qc qd]; match goal with |- ?a = ?b => change (@eq R a b) end; field.
Qed.

Lemma joint_first_order l : Forall (fun g => 0 <= g_dur g) l -> exists A B, forall e d,
  first_order (Rabs e * turn_total l + Rabs d * time_total l) (fun s => qevolution (s * e) (s * d) l) (qadd (qlin e A) (qlin d B)).
Proof.
  induction 1 as [|g l G _ [A [B IH]]].
  - exists qzero, qzero; intros e d; cbn [turn_total time_total fold_right qevolution].
    replace (Rabs e * 0 + Rabs d * 0) with 0 by ring; replace (qadd (qlin e qzero) (qlin d qzero)) with qzero by (apply q_eq; cbn; ring); apply first_order_one.
  - set (x := g_rabi g * cos (g_phi g)); set (y := g_rabi g * sin (g_phi g)).
    set (SA := segment_slope x y (g_det g) x y 0 (g_dur g)); set (SB := segment_slope x y (g_det g) 0 0 1 (g_dur g)).
    set (Q0 := qevolution 0 0 l); set (q0 := qseg x y (g_det g) (g_dur g)).
    exists (qadd (qmul A q0) (qmul Q0 SA)), (qadd (qmul B q0) (qmul Q0 SB)); intros e d.
    cbn [turn_total time_total fold_right qevolution]; fold (turn_total l) (time_total l).
    replace (Rabs e * (Rabs (g_rabi g) * g_dur g + turn_total l) + Rabs d * (g_dur g + time_total l))
      with ((Rabs e * turn_total l + Rabs d * time_total l) + (Rabs e * Rabs (g_rabi g) + Rabs d) * g_dur g) by ring.
    assert (N : 0 <= Rabs e * Rabs (g_rabi g) + Rabs d).
    { assert (P1 := Rabs_pos d); assert (P2 := Rmult_le_pos _ _ (Rabs_pos e) (Rabs_pos (g_rabi g))); lra. }
    assert (S : first_order ((Rabs e * Rabs (g_rabi g) + Rabs d) * g_dur g) (fun s => qnoisy (s * e) (s * d) g) (qadd (qlin e SA) (qlin d SB))).
    { unfold SA, SB; rewrite <- slope_linear; unfold qnoisy; eapply first_order_ext; [|apply first_order_segment; [exact N|exact G|]].
      - intros s; cbv beta; unfold x, y; f_equal; ring.
      - replace ((e * x + d * 0) ^ 2 + (e * y + d * 0) ^ 2 + (e * 0 + d * 1) ^ 2)
          with (e ^ 2 * (g_rabi g ^ 2 * (cos (g_phi g) * cos (g_phi g) + sin (g_phi g) * sin (g_phi g))) + d ^ 2) by (unfold x, y; ring).
        rewrite cs1; replace (1 - sin (g_phi g) * sin (g_phi g) + sin (g_phi g) * sin (g_phi g)) with 1 by ring.
        rewrite <- (pow2_abs e), <- (pow2_abs d), <- (pow2_abs (g_rabi g)).
        assert (P1 := Rabs_pos d); assert (P2 := Rmult_le_pos _ _ (Rabs_pos e) (Rabs_pos (g_rabi g))); assert (P3 := Rmult_le_pos _ _ P2 P1); nra. }
    assert (M := first_order_mul _ _ _ _ _ _ (IH e d) S); cbv beta in M; rewrite !Rmult_0_l in M; fold Q0 in M.
    assert (E0 : qnoisy 0 0 g = q0) by (unfold qnoisy, q0, x, y; f_equal; ring); rewrite E0 in M.
    replace (qadd (qlin e (qadd (qmul A q0) (qmul Q0 SA))) (qlin d (qadd (qmul B q0) (qmul Q0 SB))))
      with (qadd (qmul (qadd (qlin e A) (qlin d B)) q0) (qmul Q0 (qadd (qlin e SA) (qlin d SB))))
      by (apply q_eq; unfold qmul, qadd, qlin; cbn [qa qb qc qd]; ring); exact M.
Qed.

Theorem joint_distance l e d : Forall (fun g => 0 <= g_dur g) l ->
  close_to ((Rabs e * turn_total l + Rabs d * time_total l) / 2) (noisy_evolution e d l) (evolution l) /\
  (amplitude_robust 1 l -> dephasing_robust 1 l ->
   close_to ((Rabs e * turn_total l + Rabs d * time_total l) ^ 2 / 8) (noisy_evolution e d l) (evolution l)).
Proof.
  intros P; destruct (joint_first_order l P) as [A [B F]]; unfold evolution; rewrite !noisy_evolution_qmat.
  assert (F1 := F e d); split.
  - apply qnear_close; destruct F1 as [_ [_ [_ [Z _]]]]; assert (Z1 := Z 1).
    rewrite !Rmult_1_l, !Rmult_0_l, Rabs_R1, Rmult_1_l in Z1; exact Z1.
  - intros RA RD.
    assert (ZA : A = qzero).
    { assert (FA := F 1 0); apply first_order_derive in FA.
      replace (qadd (qlin 1 A) (qlin 0 B)) with A in FA by (apply q_eq; cbn; ring).
      apply (flat_slope _ _ FA); eapply flat_ext_loc; [|exact RA]; apply filter_forall; intros t; cbv beta.
      rewrite Rmult_1_r, Rmult_0_r; apply noisy_evolution_qmat. }
    assert (ZB : B = qzero).
    { assert (FB := F 0 1); apply first_order_derive in FB.
      replace (qadd (qlin 0 A) (qlin 1 B)) with B in FB by (apply q_eq; cbn; ring).
      apply (flat_slope _ _ FB); eapply flat_ext_loc; [|exact RD]; apply filter_forall; intros t; cbv beta.
      rewrite Rmult_1_r, Rmult_0_r; apply noisy_evolution_qmat. }
    subst A B; apply qnear_close; destruct F1 as [_ [_ [_ [_ Z]]]]; assert (Z1 := Z 1).
    rewrite !Rmult_1_l, !Rmult_0_l in Z1; apply qnear_small.
    replace (qsub (qsub (qevolution e d l) (qevolution 0 0 l)) (qlin 1 (qadd (qlin e qzero) (qlin d qzero))))
      with (qsub (qevolution e d l) (qevolution 0 0 l)) in Z1 by (apply q_eq; unfold qsub, qadd, qlin, qzero; cbn [qa qb qc qd]; ring); exact Z1.
Qed.

(** ** Higher orders on resonance *)

(** [F m] is the derivative of order [m], of size at most [a h^m] *)
Definition qjets (a h : R) (F : nat -> R -> quat) : Prop :=
  (forall m t, qderive (F m) t (F (S m) t)) /\ forall m t, qsmall (a * h ^ m) (F m t).
Fixpoint product_jet (F G : nat -> R -> quat) (m : nat) (t : R) : quat :=
  match m with
  | O => qmul (F O t) (G O t)
  | S m' => qadd (product_jet (fun j => F (S j)) G m' t) (product_jet F (fun j => G (S j)) m' t)
  end.

Lemma product_jet_derive F G m : (forall j t, qderive (F j) t (F (S j) t)) -> (forall j t, qderive (G j) t (G (S j) t)) ->
  forall t, qderive (product_jet F G m) t (product_jet F G (S m) t).
Proof.
  revert F G; induction m as [|m IH]; intros F G DF DG t.
  - cbn [product_jet]; apply qderive_mul; auto.
  - change (qderive (fun t => qadd (product_jet (fun j => F (S j)) G m t) (product_jet F (fun j => G (S j)) m t)) t
      (qadd (product_jet (fun j => F (S j)) G (S m) t) (product_jet F (fun j => G (S j)) (S m) t))).
    apply qderive_add; apply IH; auto.
Qed.
Lemma product_jet_small F G m : forall a b h k, (forall j t, qsmall (a * h ^ j) (F j t)) -> (forall j t, qsmall (b * k ^ j) (G j t)) ->
  forall t, qsmall (a * b * (h + k) ^ m) (product_jet F G m t).
Proof.
  revert F G; induction m as [|m IH]; intros F G a b h k SF SG t; cbn [product_jet pow].
  - assert (A := SF 0%nat t); assert (B := SG 0%nat t); cbn [pow] in A, B; rewrite Rmult_1_r in *; apply qsmall_mul; auto.
  - replace (a * b * ((h + k) * (h + k) ^ m)) with (a * h * b * (h + k) ^ m + a * (b * k) * (h + k) ^ m) by ring.
    apply qsmall_add; apply IH; auto; intros j s.
    + replace (a * h * h ^ j) with (a * h ^ S j) by (cbn [pow]; ring); apply SF.
    + replace (b * k * k ^ j) with (b * k ^ S j) by (cbn [pow]; ring); apply SG.
Qed.
Lemma qjets_mul a b h k F G : qjets a h F -> qjets b k G -> qjets (a * b) (h + k) (product_jet F G).
Proof. intros [DF SF] [DG SG]; split; intros m t; [apply product_jet_derive; auto|apply product_jet_small; auto]. Qed.

Definition planar_jet (r p : R) (m : nat) (e : R) : quat := qlin (r ^ m) (qplanar ((1 + e) * r + INR m * (PI / 2)) p).
Lemma planar_jet_derive r p m e : qderive (planar_jet r p m) e (planar_jet r p (S m) e).
Proof.
  assert (T : forall x, cos (x + PI / 2) = - sin x /\ sin (x + PI / 2) = cos x).
  { intros x; rewrite cos_plus, sin_plus, cos_PI2, sin_PI2; split; ring. }
  unfold planar_jet, qplanar, qlin; split; [|split; [|split]]; cbn [qa qb qc qd].
  4: auto_derive; auto; ring.
  all: rewrite S_INR; replace ((1 + e) * r + (INR m + 1) * (PI / 2)) with ((1 + e) * r + INR m * (PI / 2) + PI / 2) by ring;
    destruct (T ((1 + e) * r + INR m * (PI / 2))) as [TC TS]; rewrite ?TC, ?TS; auto_derive; auto; cbn [pow]; ring.
Qed.
Lemma planar_jets r p : qjets 1 (Rabs r) (planar_jet r p).
Proof.
  split; [intros; apply planar_jet_derive|]; intros m t; unfold planar_jet.
  replace (1 * Rabs r ^ m) with (Rabs (r ^ m) * 1) by (rewrite RPow_abs; ring); apply qsmall_lin, qsmall_unit, unit_planar.
Qed.

Definition resonant (g : seg) : Prop := 0 <= g_rabi g /\ g_det g = 0.
Lemma qnoisy_on_resonance e g : resonant g -> 0 < 1 + e -> qnoisy e 0 g = qplanar ((1 + e) * (g_rabi g * g_dur g / 2)) (g_phi g).
Proof.
  destruct g as [r p d t]; intros [[R|R] D] E; cbn [g_rabi g_det g_phi g_dur] in *; subst d.
  - rewrite qnoisy_resonant by auto; f_equal; field.
  - subst r; unfold qnoisy, qseg; cbn [g_rabi g_det g_phi g_dur].
    replace ((1 + e) * 0) with 0 by ring; replace (0 + 0) with 0 by ring.
    replace ((0 * cos p) ^ 2 + (0 * sin p) ^ 2 + 0 ^ 2) with 0 by ring; rewrite sqrt_0.
    replace (0 * t / 2) with 0 by field; rewrite Rmult_0_r.
    unfold qplanar; rewrite sin_0, cos_0; apply q_eq; cbn [qa qb qc qd]; ring.
Qed.

Lemma resonant_jets l : Forall resonant l -> Forall (fun g => 0 <= g_dur g) l ->
  exists F, qjets 1 (turn_total l / 2) F /\ forall e, 0 < 1 + e -> qevolution e 0 l = F O e.
Proof.
  induction l as [|g l IH]; intros R P.
  - exists (fun m _ => match m with O => qone | _ => qzero end); split; [|reflexivity]; split.
    + intros [|m] t; apply L_Composite.qderive_const.
    + intros m t; cbn [turn_total fold_right]; replace (0 / 2) with 0 by field; destruct m as [|m].
      * cbn [pow]; rewrite Rmult_1_r; apply qsmall_unit, unit_one.
      * cbn [pow]; rewrite Rmult_0_l, Rmult_0_r; split; [lra|]; unfold qnorm2; cbn; lra.
  - inversion R as [|? ? Rg Rl]; inversion P as [|? ? Pg Pl]; subst; destruct (IH Rl Pl) as [F [J E]].
    exists (product_jet F (planar_jet (g_rabi g * g_dur g / 2) (g_phi g))); split.
    + assert (M := qjets_mul _ _ _ _ _ _ J (planar_jets (g_rabi g * g_dur g / 2) (g_phi g))); rewrite Rmult_1_l in M.
      replace (turn_total (g :: l) / 2) with (turn_total l / 2 + Rabs (g_rabi g * g_dur g / 2)); auto.
      cbn [turn_total fold_right]; fold (turn_total l); destruct Rg as [R0 _].
      assert (0 <= g_rabi g * g_dur g) by (apply Rmult_le_pos; auto); rewrite (Rabs_right (g_rabi g)), Rabs_right by lra; field.
    + intros e H; cbn [qevolution product_jet]; rewrite E, qnoisy_on_resonance by auto; f_equal.
      unfold planar_jet; cbn [pow INR]; unfold qlin; cbn [qa qb qc qd]; rewrite Rmult_0_l, Rplus_0_r; apply q_eq; cbn [qa qb qc qd qplanar]; ring.
Qed.

Lemma taylor_step (h h' : R -> R) B i : 0 <= B -> (forall t, is_derive h t (h' t)) -> h 0 = 0 ->
  (forall t, Rabs (h' t) <= B * Rabs t ^ i / INR (fact i)) -> forall t, Rabs (h t) <= B * Rabs t ^ S i / INR (fact (S i)).
Proof.
  intros B0 D Z H.
  assert (FP : forall n, 0 < INR (fact n)) by (intros; apply INR_fact_lt_0).
  assert (P : forall (k k' : R -> R), (forall t, is_derive k t (k' t)) -> k 0 = 0 -> (forall t, 0 <= t -> k' t <= B * t ^ i / INR (fact i)) ->
    forall t, 0 <= t -> k t <= B * t ^ S i / INR (fact (S i))).
  { intros k k' DK ZK HK t T.
    assert (M := mean_value (fun s => k s - B * s ^ S i / INR (fact (S i))) (fun s => k' s - B * s ^ i / INR (fact i)) 0 t 0 T); cbv beta in M.
    assert (X : k t - B * t ^ S i / INR (fact (S i)) - (k 0 - B * 0 ^ S i / INR (fact (S i))) <= 0 * (t - 0)).
    - apply M; intros s S0; [|assert (Q := HK s); lra].
      apply is_derive_subR; auto.
      assert (F1 := FP i); assert (S1 : 0 < INR (S i)) by (apply lt_0_INR; lia).
      assert (FS : INR (fact (S i)) = INR (S i) * INR (fact i)) by (rewrite fact_simpl, mult_INR; reflexivity).
      set (K := INR (fact (S i))) in *; clearbody K; eapply is_derive_eq.
      { eapply (is_derive_ext (fun s => (B / K) * s ^ S i)); [intros u; cbv beta; match goal with |- ?a = ?b => change (@eq R a b) end; unfold Rdiv; ring|].
        apply (is_derive_scaleR (fun s => s ^ S i)); apply (is_derive_pow (fun s => s) (S i) s 1); apply (is_derive_id (K := R_AbsRing)). }
      rewrite FS; cbn [Nat.pred]; set (N := INR (S i)) in *; clearbody N; match goal with |- ?a = ?b => change (@eq R a b) end; field; repeat split; try lra.
    - rewrite ZK, (pow_i (S i)), Rmult_0_r in X by lia; unfold Rdiv in *; rewrite Rmult_0_l in X; lra. }
  intros t; destruct (Rle_dec 0 t) as [T|T].
  - rewrite (Rabs_right t) by lra; apply Rabs_le; split.
    + assert (Q := P (fun s => - h s) (fun s => - h' s)); cbv beta in Q.
      assert (- h t <= B * t ^ S i / INR (fact (S i))); [|lra]; apply Q; auto.
      * intros s; apply (is_derive_opp h s (h' s)); auto.
      * rewrite Z; ring.
      * intros s S0; assert (K := H s); rewrite (Rabs_right s) in K by lra; apply Rabs_le_between in K; lra.
    + apply (P h h'); auto; intros s S0; assert (K := H s); rewrite (Rabs_right s) in K by lra; apply Rabs_le_between in K; lra.
  - rewrite (Rabs_left t) by lra.
    assert (DN : forall s, is_derive (fun s => h (- s)) s (- h' (- s))).
    { intros s; eapply is_derive_eq; [apply (is_derive_comp h Ropp s (h' (- s)) (-1)); auto; auto_derive; auto; ring|unfold scal; cbn; unfold mult; cbn; ring]. }
    assert (ZN : h (- 0) = 0) by (rewrite Ropp_0; auto).
    apply Rabs_le; split.
    + assert (Q := P (fun s => - h (- s)) (fun s => - - h' (- s))); cbv beta in Q.
      assert (X : - h (- - t) <= B * (- t) ^ S i / INR (fact (S i))); [|rewrite Ropp_involutive in X; lra]; apply Q; [|rewrite ZN; ring| |lra].
      * intros s; apply (is_derive_opp (fun s => h (- s)) s (- h' (- s))); auto.
      * intros s S0; assert (K := H (- s)); rewrite Rabs_Ropp, (Rabs_right s) in K by lra; apply Rabs_le_between in K; lra.
    + assert (Q := P (fun s => h (- s)) (fun s => - h' (- s)) DN ZN); cbv beta in Q.
      assert (X : h (- - t) <= B * (- t) ^ S i / INR (fact (S i))); [|rewrite Ropp_involutive in X; lra]; apply Q; [|lra].
      intros s S0; assert (K := H (- s)); rewrite Rabs_Ropp, (Rabs_right s) in K by lra; apply Rabs_le_between in K; lra.
Qed.

Lemma taylor_bound (g : nat -> R -> R) k B : 0 <= B -> (forall m t, is_derive (g m) t (g (S m) t)) ->
  (forall m, (1 <= m <= k)%nat -> g m 0 = 0) -> (forall t, Rabs (g (S k) t) <= B) ->
  forall t, Rabs (g O t - g O 0) <= B * Rabs t ^ S k / INR (fact (S k)).
Proof.
  intros B0 D Z H.
  assert (L : forall i, (i <= k)%nat -> forall t, Rabs (g (S k - i)%nat t) <= B * Rabs t ^ i / INR (fact i)).
  { induction i as [|i IH]; intros I t.
    - replace (S k - 0)%nat with (S k) by lia; cbn [pow fact INR]; replace (B * 1 / 1) with B by field; auto.
    - apply (taylor_step _ (g (S k - i)%nat)); auto; [|apply Z; lia|apply IH; lia].
      intros s; replace (S k - i)%nat with (S (S k - S i)) by lia; apply D. }
  apply (taylor_step (fun t => g O t - g O 0) (g 1%nat)); auto.
  - intros t; eapply is_derive_eq; [apply (is_derive_subR (g O) (fun _ => g O 0)); [apply D|apply (is_derive_const (V := R_NormedModule))]|unfold zero; cbn; ring].
  - ring.
  - intros t; assert (Q := L k (le_n k) t); replace (S k - k)%nat with 1%nat in Q by lia; exact Q.
Qed.

Lemma jets_derive_n (g : nat -> R -> R) m : (forall m t, is_derive (g m) t (g (S m) t)) -> forall t, is_derive_n (g O) m t (g m t).
Proof.
  intros D; induction m as [|m IH]; intros t; [reflexivity|].
  cbn [is_derive_n]; eapply is_derive_ext; [intros s; symmetry; apply is_derive_n_unique, IH|apply D].
Qed.

Theorem resonant_distance l k e : Forall resonant l -> Forall (fun g => 0 <= g_dur g) l -> amplitude_robust k l -> -1 < e ->
  close_to ((Rabs e * turn_total l / 2) ^ S k / INR (fact (S k))) (noisy_evolution e 0 l) (evolution l).
Proof.
  intros RS P A E; destruct (resonant_jets l RS P) as [F [[D S0] EQ]].
  unfold evolution; rewrite !noisy_evolution_qmat, !EQ by lra.
  assert (FL : flat k (fun t => qmat (F O t))).
  { eapply flat_ext_loc; [|exact A]; eapply filter_imp; [|apply near_zero_pos]; intros t T; cbv beta in *; rewrite noisy_evolution_qmat, EQ; auto. }
  assert (T0 : 0 <= turn_total l).
  { clear - P; induction P as [|g l G _ IH]; cbn [turn_total fold_right]; [lra|]; fold (turn_total l).
    assert (0 <= Rabs (g_rabi g) * g_dur g) by (apply Rmult_le_pos; auto; apply Rabs_pos); lra. }
  set (B := (turn_total l / 2) ^ S k).
  assert (B0 : 0 <= B) by (apply pow_le; lra).
  assert (V : (Rabs e * turn_total l / 2) ^ S k / INR (fact (S k)) = B * Rabs e ^ S k / INR (fact (S k))).
  { unfold B; rewrite <- Rpow_mult_distr; do 2 f_equal; field. }
  rewrite V.
  assert (X : forall c : quat -> R, (forall m t, is_derive (fun s => c (F m s)) t (c (F (S m) t))) -> (forall t, Rabs (c (F (S k) t)) <= B) ->
    flat_entry k (fun t => c (F O t)) -> Rabs (c (F O e) - c (F O 0)) <= B * Rabs e ^ S k / INR (fact (S k))).
  { intros c DC SC FC; apply (taylor_bound (fun m t => c (F m t))); auto.
    intros m M; assert (N := jets_derive_n (fun m t => c (F m t)) m DC 0); eapply flat_entry_value; [exact M|exact FC|exact N]. }
  assert (SB : forall t, qsmall B (F (S k) t)).
  { intros t; assert (Q := S0 (S k) t); rewrite Rmult_1_l in Q; exact Q. }
  destruct FL as [F1 [_ [_ [_ [F5 [F6 [_ F8]]]]]]]; cbn in F1, F5, F6, F8.
  assert (F6' : flat_entry k (fun t => qb (F O t))).
  { intros m M; eapply derive_n_ext; [|apply (flat_entry_opp _ _ F6 m M)|reflexivity]; intros t; cbv beta; ring. }
  apply close_qmat.
  - apply (X qa); auto; [intros m t; apply D|intros t; apply (qsmall_component _ _ (SB t))].
  - apply (X qb); auto; [intros m t; apply D|intros t; apply (qsmall_component _ _ (SB t))].
  - apply (X qc); auto; [intros m t; apply D|intros t; apply (qsmall_component _ _ (SB t))].
  - apply (X qd); auto; [intros m t; apply D|intros t; apply (qsmall_component _ _ (SB t))].
Qed.
