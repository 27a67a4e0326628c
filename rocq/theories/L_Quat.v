(** * Quaternion calculus: azimuthal covariance and derivatives *)

From Verif Require Export L_Qubit.
From Coq Require Import Lia.
Import ListNotations.
Open Scope R_scope.

(** ** Rotation about Z as an automorphism *)

Definition rotz (a : R) (q : quat) : quat :=
  Q4 (qa q) (qb q * cos a - qc q * sin a) (qb q * sin a + qc q * cos a) (qd q).

Lemma cs1 a : cos a * cos a = 1 - sin a * sin a.
Proof. generalize (sin2_cos2 a); unfold Rsqr; lra. Qed.

Lemma rotz_mul a p q : rotz a (qmul p q) = qmul (rotz a p) (rotz a q).
Proof.
  assert (E := cs1 a); unfold rotz, qmul.
  set (c := cos a) in *; set (s := sin a) in *; clearbody c s.
  apply q_eq; cbn [qa qb qc qd].
  - transitivity (qa p * qa q - (qb p * qb q + qc p * qc q) * (c * c + s * s) - qd p * qd q);
      [rewrite E; ring|ring].
  - ring.
  - ring.
  - transitivity (qa p * qd q + qd p * qa q + (qb p * qc q - qc p * qb q) * (c * c + s * s));
      [rewrite E; ring|ring].
Qed.

Lemma rotz_one a : rotz a qone = qone.
Proof. apply q_eq; simpl; ring. Qed.

Definition shift_seg (a : R) (g : seg) : seg := Seg (g_rabi g) (g_phi g + a) (g_det g) (g_dur g).

Lemma qnoisy_shift a e d g : qnoisy e d (shift_seg a g) = rotz a (qnoisy e d g).
Proof.
  unfold qnoisy, qseg, shift_seg; cbn [g_rabi g_phi g_det g_dur].
  rewrite cos_plus, sin_plus.
  set (k := (1 + e) * g_rabi g); set (c := cos (g_phi g)); set (s := sin (g_phi g)).
  replace ((k * (c * cos a - s * sin a)) ^ 2 + (k * (s * cos a + c * sin a)) ^ 2 + (g_det g + d) ^ 2)
    with ((k * c) ^ 2 + (k * s) ^ 2 + (g_det g + d) ^ 2).
  - apply q_eq; unfold rotz; cbn [qa qb qc qd]; unfold Rdiv; ring.
  - transitivity ((k * k * (c * c + s * s)) * (cos a * cos a + sin a * sin a) + (g_det g + d) ^ 2);
      [rewrite (cs1 a); ring|ring].
Qed.

Lemma qevolution_shift a e d l :
  qevolution e d (map (shift_seg a) l) = rotz a (qevolution e d l).
Proof.
  induction l as [|g l IH]; simpl; [symmetry; apply rotz_one|].
  rewrite IH, qnoisy_shift, rotz_mul; reflexivity.
Qed.

Lemma rotz_conj a q :
  qmat (rotz a q) = mmul (z_rotation a) (mmul (qmat q) (z_rotation (- a))).
Proof.
  unfold z_rotation; rewrite !bloch_rotation_qmat, <- !qmat_mul; f_equal.
  replace (- a / 2) with (- (a / 2)) by field; rewrite cos_neg, sin_neg.
  assert (C : cos a = 1 - 2 * sin (a / 2) * sin (a / 2)).
  { replace a with (2 * (a / 2)) at 1 by field; apply cos_2a_sin. }
  assert (S : sin a = 2 * sin (a / 2) * cos (a / 2)).
  { replace a with (2 * (a / 2)) at 1 by field; apply sin_2a. }
  assert (E := cs1 (a / 2)).
  apply q_eq; unfold rotz, qmul; cbn [qa qb qc qd]; rewrite ?C, ?S; ring_simplify;
    replace (cos (a / 2) ^ 2) with (1 - sin (a / 2) * sin (a / 2)) by (rewrite <- E; ring); ring.
Qed.

Lemma qplanar_rotz h p a : qplanar h (p + a) = rotz a (qplanar h p).
Proof.
  unfold qplanar, rotz; rewrite cos_plus, sin_plus; apply q_eq; cbn [qa qb qc qd]; ring.
Qed.

(** ** Derivatives of quaternion-valued functions *)

Definition qderive (f : R -> quat) (x : R) (d : quat) : Prop :=
  is_derive (fun t => qa (f t)) x (qa d) /\ is_derive (fun t => qb (f t)) x (qb d) /\
  is_derive (fun t => qc (f t)) x (qc d) /\ is_derive (fun t => qd (f t)) x (qd d).

Definition qscale (k : R) (q : quat) : quat := Q4 (k * qa q) (k * qb q) (k * qc q) (k * qd q).

Lemma is_derive_mulR (f g : R -> R) x a b :
  is_derive f x a -> is_derive g x b -> is_derive (fun t => f t * g t) x (a * g x + f x * b).
Proof.
  intros Ha Hb; assert (H := is_derive_mult f g x a b Ha Hb Rmult_comm); exact H.
Qed.
Lemma is_derive_addR (f g : R -> R) x a b :
  is_derive f x a -> is_derive g x b -> is_derive (fun t => f t + g t) x (a + b).
Proof. intros Ha Hb; apply (is_derive_plus f g x a b Ha Hb). Qed.
Lemma is_derive_subR (f g : R -> R) x a b :
  is_derive f x a -> is_derive g x b -> is_derive (fun t => f t - g t) x (a - b).
Proof. intros Ha Hb; apply (is_derive_minus f g x a b Ha Hb). Qed.

Lemma qderive_mul f g x f' g' :
  qderive f x f' -> qderive g x g' ->
  qderive (fun t => qmul (f t) (g t)) x (qadd (qmul f' (g x)) (qmul (f x) g')).
Proof.
  intros [A1 [A2 [A3 A4]]] [B1 [B2 [B3 B4]]].
  split; [|split; [|split]]; cbn [qmul qadd qa qb qc qd].
  - eapply is_derive_eq; [apply is_derive_subR; [apply is_derive_subR; [apply is_derive_subR|]|];
      apply is_derive_mulR; eassumption|simpl; ring].
  - eapply is_derive_eq; [apply is_derive_subR; [apply is_derive_addR; [apply is_derive_addR|]|];
      apply is_derive_mulR; eassumption|simpl; ring].
  - eapply is_derive_eq; [apply is_derive_subR; [apply is_derive_addR; [apply is_derive_addR|]|];
      apply is_derive_mulR; eassumption|simpl; ring].
  - eapply is_derive_eq; [apply is_derive_subR; [apply is_derive_addR; [apply is_derive_addR|]|];
      apply is_derive_mulR; eassumption|simpl; ring].
Qed.

Lemma qderive_add f g x f' g' :
  qderive f x f' -> qderive g x g' ->
  qderive (fun t => qadd (f t) (g t)) x (qadd f' g').
Proof.
  intros [A1 [A2 [A3 A4]]] [B1 [B2 [B3 B4]]].
  split; [|split; [|split]]; cbn [qadd qa qb qc qd]; apply is_derive_addR; auto.
Qed.

Lemma qderive_ext f g x d : (forall t, f t = g t) -> qderive f x d -> qderive g x d.
Proof.
  intros E [A1 [A2 [A3 A4]]]; split; [|split; [|split]];
    (eapply is_derive_ext; [|eassumption]; intros t; simpl; rewrite E; reflexivity).
Qed.

Lemma qderive_eq f x d d' : qderive f x d -> d = d' -> qderive f x d'.
Proof. intros H <-; exact H. Qed.

Lemma is_derive_scaleR (f : R -> R) x k a : is_derive f x a -> is_derive (fun t => k * f t) x (k * a).
Proof. intros H; apply (is_derive_scal f x k a H). Qed.

Lemma qderive_rotz a f x d : qderive f x d -> qderive (fun t => rotz a (f t)) x (rotz a d).
Proof.
  intros [A1 [A2 [A3 A4]]]; split; [|split; [|split]]; cbn [rotz qa qb qc qd]; auto.
  - apply (is_derive_ext (fun t => cos a * qb (f t) - sin a * qc (f t))).
    + intros t; simpl; ring.
    + eapply is_derive_eq; [apply is_derive_subR; apply is_derive_scaleR; eassumption|simpl; ring].
  - apply (is_derive_ext (fun t => sin a * qb (f t) + cos a * qc (f t))).
    + intros t; simpl; ring.
    + eapply is_derive_eq; [apply is_derive_addR; apply is_derive_scaleR; eassumption|simpl; ring].
Qed.

(** ** Two-jets at 0 of functions differentiable everywhere *)

Definition jet2 (f : R -> quat) (f1 f2 : quat) : Prop :=
  exists f' : R -> quat, (forall t, qderive f t (f' t)) /\ f' 0 = f1 /\ qderive f' 0 f2.

Lemma jet2_mul f g f1 f2 g1 g2 :
  jet2 f f1 f2 -> jet2 g g1 g2 ->
  jet2 (fun t => qmul (f t) (g t))
    (qadd (qmul f1 (g 0)) (qmul (f 0) g1))
    (qadd (qadd (qmul f2 (g 0)) (qmul f1 g1)) (qadd (qmul f1 g1) (qmul (f 0) g2))).
Proof.
  intros [f' [F1 [<- F2]]] [g' [G1 [<- G2]]].
  exists (fun t => qadd (qmul (f' t) (g t)) (qmul (f t) (g' t))); split; [|split].
  - intros t; apply qderive_mul; auto.
  - reflexivity.
  - apply qderive_add; apply qderive_mul; auto.
Qed.

Definition planar_1 (h phi : R) : quat := Q4 (- sin h) (cos h * cos phi) (cos h * sin phi) 0.

Lemma planar_derive r phi t :
  qderive (fun e => qplanar ((1 + e) * r / 2) phi) t (qscale (r / 2) (planar_1 ((1 + t) * r / 2) phi)).
Proof.
  split; [|split; [|split]]; unfold qplanar, qscale, planar_1; cbn [qa qb qc qd]; auto_derive; auto;
    change ((1 + t) * r * / 2) with ((1 + t) * r / 2); try field; ring.
Qed.

Lemma planar_1_derive r phi t :
  qderive (fun e => qscale (r / 2) (planar_1 ((1 + e) * r / 2) phi)) t
          (qscale (- (r / 2) * (r / 2)) (qplanar ((1 + t) * r / 2) phi)).
Proof.
  split; [|split; [|split]]; unfold qplanar, qscale, planar_1; cbn [qa qb qc qd]; auto_derive; auto;
    change ((1 + t) * r * / 2) with ((1 + t) * r / 2); try field; ring.
Qed.

Lemma planar_jet2 r phi :
  jet2 (fun e => qplanar ((1 + e) * r / 2) phi)
       (qscale (r / 2) (planar_1 (r / 2) phi)) (qscale (- (r / 2) * (r / 2)) (qplanar (r / 2) phi)).
Proof.
  assert (E : (1 + 0) * r / 2 = r / 2) by field.
  exists (fun e => qscale (r / 2) (planar_1 ((1 + e) * r / 2) phi)); split; [|split].
  - intros t; apply planar_derive.
  - rewrite E; reflexivity.
  - generalize (planar_1_derive r phi 0); rewrite E; auto.
Qed.

Lemma jet2_ext f g f1 f2 : (forall t, f t = g t) -> jet2 f f1 f2 -> jet2 g f1 f2.
Proof.
  intros E [f' [F1 [F2 F3]]]; exists f'; split; [|split]; auto.
  intros t; eapply qderive_ext; [exact E|apply F1].
Qed.

Lemma jet2_rotz a f f1 f2 : jet2 f f1 f2 -> jet2 (fun t => rotz a (f t)) (rotz a f1) (rotz a f2).
Proof.
  intros [f' [F1 [<- F2]]]; exists (fun t => rotz a (f' t)); split; [|split]; auto.
  - intros t; apply qderive_rotz; auto.
  - apply qderive_rotz; auto.
Qed.

(** ** Flatness *)

Lemma flat_entry_1 f : is_derive f 0 0 -> flat_entry 1 f.
Proof.
  intros H m Hm; assert (m = 1%nat) by lia; subst m; simpl; exact H.
Qed.

Lemma flat_entry_2 (f f' : R -> R) :
  (forall t, is_derive f t (f' t)) -> f' 0 = 0 -> is_derive f' 0 0 -> flat_entry 2 f.
Proof.
  intros D Z D2 m Hm.
  destruct (Nat.eq_dec m 1) as [->|].
  - simpl; eapply is_derive_eq; [apply D|exact Z].
  - assert (m = 2%nat) by lia; subst m; simpl.
    eapply is_derive_ext; [|exact D2].
    intros t; symmetry; apply is_derive_unique, D.
Qed.

Lemma flat_entry_ext_loc k f g :
  locally 0 (fun t => f t = g t) -> flat_entry k f -> flat_entry k g.
Proof. intros L H m Hm; eapply is_derive_n_ext_loc; [exact L|apply H; auto]. Qed.

Lemma flat_entry_opp k f : flat_entry k f -> flat_entry k (fun t => - f t).
Proof.
  intros H m Hm; generalize (is_derive_n_opp f m 0 0 (H m Hm)); rewrite Ropp_0; auto.
Qed.

Lemma flat_qmat k f :
  flat_entry k (fun t => qa (f t)) -> flat_entry k (fun t => qb (f t)) ->
  flat_entry k (fun t => qc (f t)) -> flat_entry k (fun t => qd (f t)) ->
  flat k (fun t => qmat (f t)).
Proof.
  intros A B D E.
  assert (B' := flat_entry_opp _ _ B); assert (D' := flat_entry_opp _ _ D);
    assert (E' := flat_entry_opp _ _ E).
  split; [|split; [|split; [|split; [|split; [|split; [|split]]]]]]; simpl; assumption.
Qed.

Lemma flat_ext_loc k f g : locally 0 (fun t => f t = g t) -> flat k f -> flat k g.
Proof.
  intros L H.
  assert (X : forall p : M2 -> R, locally 0 (fun t => p (f t) = p (g t))).
  { intros p; eapply filter_imp; [|exact L]; intros t E; simpl in *; rewrite E; reflexivity. }
  destruct H as [H1 [H2 [H3 [H4 [H5 [H6 [H7 H8]]]]]]].
  split; [|split; [|split; [|split; [|split; [|split; [|split]]]]]].
  - eapply flat_entry_ext_loc; [apply (X (fun m => fst (m00 m)))|assumption].
  - eapply flat_entry_ext_loc; [apply (X (fun m => snd (m00 m)))|assumption].
  - eapply flat_entry_ext_loc; [apply (X (fun m => fst (m01 m)))|assumption].
  - eapply flat_entry_ext_loc; [apply (X (fun m => snd (m01 m)))|assumption].
  - eapply flat_entry_ext_loc; [apply (X (fun m => fst (m10 m)))|assumption].
  - eapply flat_entry_ext_loc; [apply (X (fun m => snd (m10 m)))|assumption].
  - eapply flat_entry_ext_loc; [apply (X (fun m => fst (m11 m)))|assumption].
  - eapply flat_entry_ext_loc; [apply (X (fun m => snd (m11 m)))|assumption].
Qed.

Lemma flat_jet2 f : jet2 f qzero qzero -> flat 2 (fun t => qmat (f t)).
Proof.
  intros [f' [F1 [F2 F3]]]; destruct F3 as [D1 [D2 [D3 D4]]].
  assert (Z := F2).
  apply flat_qmat; [eapply (flat_entry_2 _ (fun t => qa (f' t)))|eapply (flat_entry_2 _ (fun t => qb (f' t)))
    |eapply (flat_entry_2 _ (fun t => qc (f' t)))|eapply (flat_entry_2 _ (fun t => qd (f' t)))];
    try (rewrite Z; reflexivity); auto; intros t; apply (F1 t).
Qed.

Lemma flat_qderive f : qderive f 0 qzero -> flat 1 (fun t => qmat (f t)).
Proof.
  intros [D1 [D2 [D3 D4]]]; apply flat_qmat; apply flat_entry_1; auto.
Qed.

Lemma near_zero_pos : locally 0 (fun e : R => 0 < 1 + e).
Proof.
  exists (mkposreal 1 Rlt_0_1); intros e H.
  unfold ball in H; simpl in H; unfold AbsRing_ball, abs, minus, plus, opp in H; simpl in H.
  apply Rabs_def2 in H; lra.
Qed.

(** ** Sequences of resonant pulses at a constant Rabi rate *)

(** evolution under amplitude error [e] *)
Fixpoint qpulses (e : R) (l : list (R * R)) : quat :=
  match l with
  | [] => qone
  | p :: l' => qmul (qpulses e l') (qplanar ((1 + e) * fst p / 2) (snd p))
  end.

Lemma qevolution_pulses w e l :
  0 < w -> 0 < 1 + e -> qevolution e 0 (pulses w l) = qpulses e l.
Proof.
  intros W E; induction l as [|p l IH]; [reflexivity|].
  cbn [pulses map qevolution qpulses]; fold (pulses w l); rewrite IH; f_equal.
  rewrite qnoisy_resonant by auto; f_equal; field; lra.
Qed.

Lemma qpulses_app e l1 l2 : qpulses e (l1 ++ l2) = qmul (qpulses e l2) (qpulses e l1).
Proof.
  induction l1 as [|p l1 IH]; simpl; [rewrite qmul_1_r; auto|].
  rewrite IH, qmul_assoc; auto.
Qed.

Definition shift_pulse (a : R) (p : R * R) : R * R := (fst p, snd p + a).

Lemma qpulses_shift a e l : qpulses e (map (shift_pulse a) l) = rotz a (qpulses e l).
Proof.
  induction l as [|p l IH]; simpl; [symmetry; apply rotz_one|].
  rewrite IH, qplanar_rotz, rotz_mul; reflexivity.
Qed.

Lemma amplitude_robust_2 w l a :
  0 < w -> jet2 (fun e => qpulses e l) qzero qzero ->
  amplitude_robust 2 (pulses w (map (shift_pulse a) l)).
Proof.
  intros W J; unfold amplitude_robust.
  apply (flat_ext_loc 2 (fun e => qmat (rotz a (qpulses e l)))).
  - eapply filter_imp; [|apply near_zero_pos]; intros e E; simpl.
    rewrite noisy_evolution_qmat, qevolution_pulses, qpulses_shift by auto; reflexivity.
  - apply flat_jet2.
    assert (Z : rotz a qzero = qzero) by (apply q_eq; simpl; ring).
    rewrite <- Z; apply jet2_rotz; auto.
Qed.

Lemma amplitude_robust_1 w l a :
  0 < w -> qderive (fun e => qpulses e l) 0 qzero ->
  amplitude_robust 1 (pulses w (map (shift_pulse a) l)).
Proof.
  intros W J; unfold amplitude_robust.
  apply (flat_ext_loc 1 (fun e => qmat (rotz a (qpulses e l)))).
  - eapply filter_imp; [|apply near_zero_pos]; intros e E; simpl.
    rewrite noisy_evolution_qmat, qevolution_pulses, qpulses_shift by auto; reflexivity.
  - apply flat_qderive.
    assert (Z : rotz a qzero = qzero) by (apply q_eq; simpl; ring).
    rewrite <- Z; apply qderive_rotz; auto.
Qed.

(** ** Dephasing: derivative with respect to the detuning at 0 *)

Lemma sqrt_planar' r phi d : ((1 + 0) * r * cos phi) ^ 2 + ((1 + 0) * r * sin phi) ^ 2 + (0 + d) ^ 2
  = r * r + d * d.
Proof.
  transitivity (r * r * (cos phi * cos phi + sin phi * sin phi) + d * d); [ring|].
  rewrite (cs1 phi); ring.
Qed.

Lemma qnoisy_detuning r phi t :
  0 < r ->
  qderive (fun d => qnoisy 0 d (Seg r phi 0 t)) 0 (Q4 0 0 0 (sin (r * t / 2) / r)).
Proof.
  intros Hr.
  assert (P : 0 < r * r + 0 * 0) by nra.
  assert (S : sqrt (r * r + 0 * 0) = r) by (rewrite Rmult_0_l, Rplus_0_r; apply sqrt_square; lra).
  apply (qderive_ext (fun d => Q4 (cos (sqrt (r * r + d * d) * t / 2))
     (sin (sqrt (r * r + d * d) * t / 2) * (r * cos phi / sqrt (r * r + d * d)))
     (sin (sqrt (r * r + d * d) * t / 2) * (r * sin phi / sqrt (r * r + d * d)))
     (sin (sqrt (r * r + d * d) * t / 2) * (d / sqrt (r * r + d * d))))).
  { intros d; unfold qnoisy, qseg; cbn [g_rabi g_phi g_det g_dur]; rewrite sqrt_planar'.
    apply q_eq; cbn [qa qb qc qd]; unfold Rdiv; ring. }
  assert (NZ : sqrt (r * r + 0 * 0) <> 0) by lra.
  split; [|split; [|split]]; cbn [qa qb qc qd]; auto_derive;
    repeat split; auto; rewrite ?S; try field; lra.
Qed.

Lemma dephasing_ext e l f :
  qderive (fun d => qevolution e d l) 0 f ->
  forall a, qderive (fun d => qevolution e d (map (shift_seg a) l)) 0 (rotz a f).
Proof.
  intros H a; apply (qderive_ext (fun d => rotz a (qevolution e d l))).
  - intros t; symmetry; apply qevolution_shift.
  - apply qderive_rotz; auto.
Qed.

Lemma dephasing_robust_1 l a :
  qderive (fun d => qevolution 0 d l) 0 qzero -> dephasing_robust 1 (map (shift_seg a) l).
Proof.
  intros H; unfold dephasing_robust.
  apply (flat_ext_loc 1 (fun d => qmat (qevolution 0 d (map (shift_seg a) l)))).
  - exists (mkposreal 1 Rlt_0_1); intros d _; symmetry; apply noisy_evolution_qmat.
  - apply flat_qderive.
    assert (Z : rotz a qzero = qzero) by (apply q_eq; simpl; ring).
    rewrite <- Z; apply dephasing_ext; auto.
Qed.

Lemma shift_pulses w a l : map (shift_seg a) (pulses w l) = pulses w (map (shift_pulse a) l).
Proof. unfold pulses; rewrite !map_map; apply map_ext; intros [x y]; reflexivity. Qed.
