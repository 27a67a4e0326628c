(** * Composite pulses: BB1, SK1, CORPSE and their concatenations *)

From Verif Require Export L_Predefined.
From Coq Require Import Lia.
Import ListNotations.
Open Scope string_scope.
Open Scope list_scope.
Open Scope R_scope.

(** evaluate products of explicit quaternions innermost first *)
Ltac rs A := try (progress ring_simplify A).
Ltac qstep :=
  match goal with
  | |- context [qmul (Q4 ?a ?b ?c ?d) (Q4 ?e ?f ?g ?h)] =>
      let A := constr:(a * e - b * f - c * g - d * h) in
      let B := constr:(a * f + b * e + c * h - d * g) in
      let C := constr:(a * g + c * e + d * f - b * h) in
      let D := constr:(a * h + d * e + b * g - c * f) in
      change (qmul (Q4 a b c d) (Q4 e f g h)) with (Q4 A B C D); rs A; rs B; rs C; rs D
  | |- context [qadd (Q4 ?a ?b ?c ?d) (Q4 ?e ?f ?g ?h)] =>
      change (qadd (Q4 a b c d) (Q4 e f g h)) with (Q4 (a + e) (b + f) (c + g) (d + h))
  end.
Ltac qeval := unfold qone, qzero; repeat qstep.

(** ** Values of pulses at the special angles *)

Lemma half_pi_vals : cos (PI / 2) = 0 /\ sin (PI / 2) = 1.
Proof. split; [apply cos_PI2|apply sin_PI2]. Qed.
Lemma pi_vals : cos (2 * PI / 2) = -1 /\ sin (2 * PI / 2) = 0.
Proof. replace (2 * PI / 2) with PI by field; split; [apply cos_PI|apply sin_PI]. Qed.

Lemma cos_3a a : cos (3 * a) = 4 * cos a * cos a * cos a - 3 * cos a.
Proof.
  replace (3 * a) with (2 * a + a) by ring.
  rewrite cos_plus, cos_2a, sin_2a.
  assert (E : sin a * sin a = 1 - cos a * cos a) by (generalize (sin2_cos2 a); unfold Rsqr; lra).
  ring [E].
Qed.
Lemma sin_3a a : sin (3 * a) = 4 * cos a * cos a * sin a - sin a.
Proof.
  replace (3 * a) with (2 * a + a) by ring.
  rewrite sin_plus, cos_2a, sin_2a.
  assert (E : sin a * sin a = 1 - cos a * cos a) by (generalize (sin2_cos2 a); unfold Rsqr; lra).
  ring [E].
Qed.
Lemma ss1 a : sin a * sin a = 1 - cos a * cos a.
Proof. generalize (sin2_cos2 a); unfold Rsqr; lra. Qed.

Lemma qplanar_pi p : qplanar (PI / 2) p = Q4 0 (cos p) (sin p) 0.
Proof. unfold qplanar; rewrite cos_PI2, sin_PI2; apply q_eq; simpl; ring. Qed.
Lemma qplanar_2pi p : qplanar (2 * PI / 2) p = Q4 (-1) 0 0 0.
Proof. unfold qplanar; destruct pi_vals as [-> ->]; apply q_eq; simpl; ring. Qed.

Lemma jet_pi p : jet2 (fun e => qplanar ((1 + e) * PI / 2) p)
  (Q4 (- (PI / 2)) 0 0 0) (qscale (- (PI / 2) * (PI / 2)) (Q4 0 (cos p) (sin p) 0)).
Proof.
  rewrite <- qplanar_pi.
  replace (Q4 (- (PI / 2)) 0 0 0) with (qscale (PI / 2) (planar_1 (PI / 2) p)); [apply planar_jet2|].
  unfold planar_1, qscale; rewrite cos_PI2, sin_PI2; apply q_eq; simpl; ring.
Qed.
Lemma jet_2pi p : jet2 (fun e => qplanar ((1 + e) * (2 * PI) / 2) p)
  (Q4 0 (- PI * cos p) (- PI * sin p) 0) (Q4 (PI * PI) 0 0 0).
Proof.
  replace (Q4 0 (- PI * cos p) (- PI * sin p) 0) with (qscale (2 * PI / 2) (planar_1 (2 * PI / 2) p)).
  replace (Q4 (PI * PI) 0 0 0) with (qscale (- (2 * PI / 2) * (2 * PI / 2)) (qplanar (2 * PI / 2) p));
    [apply planar_jet2|].
  - rewrite qplanar_2pi; unfold qscale; apply q_eq; simpl; field.
  - unfold planar_1, qscale; destruct pi_vals as [-> ->]; apply q_eq; simpl; field.
Qed.

Lemma jet2_eq f f1 f2 g1 g2 : jet2 f f1 f2 -> f1 = g1 -> f2 = g2 -> jet2 f g1 g2.
Proof. intros H <- <-; exact H. Qed.

Lemma jet2_1 f f1 f2 : jet2 f f1 f2 -> qderive f 0 f1.
Proof. intros [f' [F [<- _]]]; apply F. Qed.

(** ** The BB1 and SK1 corrections *)

Definition bb1_correction (p : R) : list (R * R) := [(PI, p); (2 * PI, 3 * p); (PI, p)].
Definition sk1_correction (p : R) : list (R * R) := [(2 * PI, - p); (2 * PI, p)].

Lemma one_plus_0 x : (1 + 0) * x = x.
Proof. ring. Qed.

Lemma bb1_correction_0 p : qpulses 0 (bb1_correction p) = qone.
Proof.
  unfold bb1_correction; cbn [qpulses fst snd]; rewrite !one_plus_0, !qplanar_pi, !qplanar_2pi.
  assert (E := ss1 p); apply q_eq; unfold qmul, qone; cbn [qa qb qc qd]; ring [E].
Qed.
Lemma sk1_correction_0 p : qpulses 0 (sk1_correction p) = qone.
Proof.
  unfold sk1_correction; cbn [qpulses fst snd]; rewrite !one_plus_0, !qplanar_2pi.
  apply q_eq; unfold qmul, qone; cbn [qa qb qc qd]; ring.
Qed.

Definition qdir (a : R) : quat := Q4 0 (cos a) (sin a) 0.

Lemma qdir_mul a b : qmul (qdir a) (qdir b) = Q4 (- cos (b - a)) 0 0 (sin (b - a)).
Proof.
  rewrite cos_minus, sin_minus; apply q_eq; unfold qmul, qdir; cbn [qa qb qc qd]; ring.
Qed.

(** the corrections have a first derivative along X only *)
Lemma bb1_half_jet p :
  jet2 (fun e => qmul (qplanar ((1 + e) * PI / 2) p) (qplanar ((1 + e) * (2 * PI) / 2) (3 * p)))
    (Q4 (PI / 2 + PI * cos (2 * p)) 0 0 (- PI * sin (2 * p)))
    (qadd (qscale (5 * (PI / 2) * (PI / 2)) (qdir p)) (qscale (PI * PI) (qdir (3 * p)))).
Proof.
  eapply jet2_eq; [apply (jet2_mul _ _ _ _ _ _ (jet_pi p) (jet_2pi (3 * p)))| |];
    rewrite !one_plus_0, !qplanar_pi, !qplanar_2pi.
  - assert (H := qdir_mul p (3 * p)); replace (3 * p - p) with (2 * p) in H by ring.
    injection H as H1 _ _ H4; clear - H1 H4.
    apply q_eq; unfold qmul, qadd; cbn [qa qb qc qd].
    + transitivity (PI / 2 - PI * (0 * 0 - cos p * cos (3 * p) - sin p * sin (3 * p) - 0 * 0));
        [field|rewrite H1; ring].
    + ring.
    + ring.
    + transitivity (- PI * (0 * 0 + 0 * 0 + cos p * sin (3 * p) - sin p * cos (3 * p)));
        [field|rewrite H4; ring].
  - apply q_eq; unfold qmul, qadd, qscale, qdir; cbn [qa qb qc qd]; field.
Qed.

Lemma bb1_correction_jet p :
  jet2 (fun e => qpulses e (bb1_correction p)) (Q4 0 (2 * PI * cos p) 0 0)
       (Q4 (- (2 * PI * cos p) * (2 * PI * cos p)) 0 0 0).
Proof.
  apply (jet2_ext (fun e => qmul (qmul (qplanar ((1 + e) * PI / 2) p)
      (qplanar ((1 + e) * (2 * PI) / 2) (3 * p))) (qplanar ((1 + e) * PI / 2) p))).
  { intros t; unfold bb1_correction; cbn [qpulses fst snd]; rewrite qmul_1_l; reflexivity. }
  assert (E := ss1 p).
  eapply jet2_eq; [apply (jet2_mul _ _ _ _ _ _ (bb1_half_jet p) (jet_pi p))| |];
    rewrite !one_plus_0, !qplanar_pi, !qplanar_2pi.
  - rewrite cos_2a, sin_2a.
    set (c := cos p) in *; set (s := sin p) in *; clearbody c s.
    apply q_eq; unfold qmul, qadd; cbn [qa qb qc qd].
    + ring.
    + transitivity (PI * c + PI * c * (c * c - s * s) + 2 * PI * c * (s * s)); [field|rewrite E; ring].
    + transitivity (PI * s * (1 + c * c - s * s - 2 * (c * c))); [field|].
      replace (1 + c * c - s * s - 2 * (c * c)) with (1 - c * c - s * s) by ring; rewrite E; ring.
    + ring.
  - change (Q4 0 (cos p) (sin p) 0) with (qdir p).
    assert (H := qdir_mul p p); replace (p - p) with 0 in H by ring; rewrite cos_0, sin_0 in H.
    assert (H3 := qdir_mul (3 * p) p); replace (p - 3 * p) with (- (2 * p)) in H3 by ring.
    rewrite cos_neg, sin_neg in H3.
    injection H as A1 _ _ A4; injection H3 as B1 _ _ B4.
    assert (C : cos (2 * p) = 2 * cos p * cos p - 1) by apply cos_2a_cos.
    apply q_eq; unfold qmul, qadd, qscale, qdir; cbn [qa qb qc qd].
    + transitivity (6 * (PI / 2) * (PI / 2) * (0 * 0 - cos p * cos p - sin p * sin p - 0 * 0)
        + PI * PI * (0 * 0 - cos (3 * p) * cos p - sin (3 * p) * sin p - 0 * 0)
        - PI * (PI / 2 + PI * cos (2 * p))); [field|rewrite A1, B1, C; field].
    + ring.
    + ring.
    + transitivity (PI * PI * (0 * 0 + 0 * 0 + cos (3 * p) * sin p - sin (3 * p) * cos p)
        + PI * PI * sin (2 * p)); [field|rewrite B4; ring].
Qed.

Lemma sk1_correction_jet p :
  exists f2, jet2 (fun e => qpulses e (sk1_correction p)) (Q4 0 (2 * PI * cos p) 0 0) f2.
Proof.
  unfold sk1_correction; cbn [qpulses fst snd]; eexists.
  eapply jet2_eq; [|shelve|reflexivity].
  - apply (jet2_ext (fun e => qmul (qplanar ((1 + e) * (2 * PI) / 2) p)
      (qplanar ((1 + e) * (2 * PI) / 2) (- p))));
      [intros t; rewrite qmul_1_l; reflexivity|].
    apply (jet2_mul _ _ _ _ _ _ (jet_2pi p) (jet_2pi (- p))).
  Unshelve.
  rewrite !one_plus_0, !qplanar_2pi, cos_neg, sin_neg.
  apply q_eq; unfold qmul, qadd, qscale; cbn [qa qb qc qd]; field.
Qed.

(** ** From the first derivative of the pulses to robustness *)

(** [l] acts as the bare pulse [(th, 0)] for every amplitude error *)
Definition acts_as (th : R) (l : list (R * R)) : Prop :=
  forall e, qpulses e l = qplanar ((1 + e) * th / 2) 0.

Lemma acts_as_pulse th : acts_as th [(th, 0)].
Proof. intros e; cbn [qpulses fst snd]; apply qmul_1_l. Qed.

Lemma qplanar_add h1 h2 : qmul (qplanar h1 0) (qplanar h2 0) = qplanar (h1 + h2) 0.
Proof.
  unfold qplanar; rewrite cos_plus, sin_plus, cos_0, sin_0.
  apply q_eq; unfold qmul; cbn [qa qb qc qd]; ring.
Qed.
Lemma qplanar_back h : qplanar h (0 + PI) = qplanar (- h) 0.
Proof.
  unfold qplanar; rewrite Rplus_0_l, cos_PI, sin_PI, cos_0, sin_0, cos_neg, sin_neg.
  apply q_eq; cbn [qa qb qc qd]; ring.
Qed.

Lemma acts_as_corpse th k : acts_as th (corpse_pulses th 0 k).
Proof.
  intros e; unfold corpse_pulses; cbn [qpulses fst snd].
  rewrite qmul_1_l, qplanar_back, !qplanar_add; f_equal; field.
Qed.

Lemma bb1_jet th p l :
  acts_as th l -> wimperis_angle th p ->
  jet2 (fun e => qpulses e (l ++ bb1_correction p)) qzero qzero.
Proof.
  intros A [_ W].
  assert (Pp := PI_pos).
  assert (T : th / 2 = - (2 * PI * cos p)) by (rewrite W; field; lra).
  apply (jet2_ext (fun e => qmul (qpulses e (bb1_correction p)) (qplanar ((1 + e) * th / 2) 0))).
  { intros e; rewrite qpulses_app, A; reflexivity. }
  eapply jet2_eq; [apply (jet2_mul _ _ _ _ _ _ (bb1_correction_jet p) (planar_jet2 th 0))| |];
    rewrite bb1_correction_0, one_plus_0, !qmul_1_l, T; set (x := 2 * PI * cos p);
    unfold planar_1, qplanar; rewrite cos_0, sin_0;
    apply q_eq; unfold qmul, qadd, qscale, qzero; cbn [qa qb qc qd]; ring.
Qed.

Lemma sk1_jet th p l :
  acts_as th l -> wimperis_angle th p ->
  qderive (fun e => qpulses e (l ++ sk1_correction p)) 0 qzero.
Proof.
  intros A [_ W].
  assert (Pp := PI_pos).
  assert (T : th / 2 = - (2 * PI * cos p)) by (rewrite W; field; lra).
  apply (qderive_ext (fun e => qmul (qpulses e (sk1_correction p)) (qplanar ((1 + e) * th / 2) 0))).
  { intros e; rewrite qpulses_app, A; reflexivity. }
  destruct (sk1_correction_jet p) as [f2 J].
  eapply qderive_eq; [apply (qderive_mul _ _ _ _ _ (jet2_1 _ _ _ J) (jet2_1 _ _ _ (planar_jet2 th 0)))|];
    rewrite sk1_correction_0, one_plus_0, !qmul_1_l, T; set (x := 2 * PI * cos p);
    unfold planar_1, qplanar; rewrite cos_0, sin_0;
    apply q_eq; unfold qmul, qadd, qscale, qzero; cbn [qa qb qc qd]; ring.
Qed.

(** the derivative with respect to the detuning, at zero detuning *)
Fixpoint qtilt (w : R) (l : list (R * R)) : quat :=
  match l with
  | [] => qzero
  | p :: l' => qadd (qmul (qtilt w l') (qplanar (fst p / 2) (snd p)))
                    (qmul (qpulses 0 l') (Q4 0 0 0 (sin (fst p / 2) / w)))
  end.

Lemma qderive_const q x : qderive (fun _ => q) x qzero.
Proof. split; [|split; [|split]]; simpl; apply (is_derive_const (V:=R_NormedModule)). Qed.

Lemma qtilt_derive w l :
  0 < w -> qderive (fun d => qevolution 0 d (pulses w l)) 0 (qtilt w l).
Proof.
  intros W; induction l as [|p l IH]; [exact (qderive_const qone 0)|].
  cbn [pulses map qevolution qtilt]; fold (pulses w l).
  assert (D := qnoisy_detuning w (snd p) (fst p / w) W).
  replace (w * (fst p / w) / 2) with (fst p / 2) in D by (field; lra).
  eapply qderive_eq; [apply (qderive_mul _ _ _ _ _ IH D)|].
  rewrite qevolution_pulses by lra.
  rewrite qnoisy_resonant by lra.
  replace ((1 + 0) * w * (fst p / w) / 2) with (fst p / 2) by (field; lra); reflexivity.
Qed.

Lemma qmul_zero_r q : qmul q qzero = qzero.
Proof. apply q_eq; simpl; ring. Qed.
Lemma qmul_zero_l q : qmul qzero q = qzero.
Proof. apply q_eq; simpl; ring. Qed.
Lemma qadd_zero_l q : qadd qzero q = q.
Proof. apply q_eq; simpl; ring. Qed.
Lemma qmul_add_l p q r : qmul (qadd p q) r = qadd (qmul p r) (qmul q r).
Proof. apply q_eq; simpl; ring. Qed.
Lemma qmul_add_r p q r : qmul r (qadd p q) = qadd (qmul r p) (qmul r q).
Proof. apply q_eq; simpl; ring. Qed.
Lemma qadd_assoc p q r : qadd p (qadd q r) = qadd (qadd p q) r.
Proof. apply q_eq; simpl; ring. Qed.

Lemma qtilt_app w l1 l2 :
  qtilt w (l1 ++ l2) = qadd (qmul (qtilt w l2) (qpulses 0 l1)) (qmul (qpulses 0 l2) (qtilt w l1)).
Proof.
  induction l1 as [|p l1 IH].
  - cbn [app qtilt qpulses]; rewrite qmul_1_r, qmul_zero_r; apply q_eq; simpl; ring.
  - cbn [app qtilt qpulses]; rewrite IH, qpulses_app, one_plus_0.
    apply q_eq; unfold qadd, qmul; cbn [qa qb qc qd]; ring.
Qed.

Lemma bb1_correction_tilt w p : qtilt w (bb1_correction p) = qzero.
Proof.
  unfold bb1_correction; cbn [qtilt qpulses fst snd].
  rewrite !one_plus_0, !qplanar_pi, !qplanar_2pi, sin_PI2; destruct pi_vals as [_ ->].
  unfold Rdiv; qeval; apply q_eq; cbn [qa qb qc qd]; ring.
Qed.
Lemma sk1_correction_tilt w p : qtilt w (sk1_correction p) = qzero.
Proof.
  unfold sk1_correction; cbn [qtilt qpulses fst snd].
  rewrite !one_plus_0, !qplanar_2pi; destruct pi_vals as [_ ->].
  unfold Rdiv; qeval; apply q_eq; cbn [qa qb qc qd]; ring.
Qed.

Lemma corpse_tilt w th k : corpse_angle th k -> qtilt w (corpse_pulses th 0 k) = qzero.
Proof.
  intros [_ C].
  set (m := th / 4 - k / 2).
  assert (X : 2 * sin m * (cos m * cos k - sin m * sin k) = sin k).
  { assert (E : sin (2 * m + k) = 2 * sin k).
    { replace (2 * m + k) with (th / 2) by (unfold m; field); lra. }
    rewrite sin_plus, sin_2a, cos_2a_sin in E. lra. }
  unfold corpse_pulses; cbn [qtilt qpulses fst snd].
  replace ((2 * PI + th / 2 - k) / 2) with (m + PI) by (unfold m; field).
  replace ((2 * PI - 2 * k) / 2) with (- k + PI) by field.
  replace ((1 + 0) * (2 * PI - 2 * k) / 2) with (- k + PI) by field.
  replace ((1 + 0) * (th / 2 - k) / 2) with m by (unfold m; field).
  replace ((th / 2 - k) / 2) with m by (unfold m; field).
  rewrite !qplanar_back; unfold qplanar.
  rewrite !cos_neg, !sin_neg, !neg_cos, !neg_sin, cos_neg, sin_neg, cos_0, sin_0.
  assert (M := ss1 m).
  clearbody m; clear C; set (sm := sin m) in *; set (cm := cos m) in *; set (ck := cos k) in *;
    set (sk := sin k) in *; clearbody sm cm ck sk.
  unfold Rdiv; qeval; apply q_eq; cbn [qa qb qc qd].
  - ring.
  - ring.
  - ring.
  - transitivity (/ w * (2 * sm * (cm * ck - sm * sk) - sk * (cm * cm + sm * sm))); [ring|].
    rewrite X, M; ring.
Qed.

(** ** The schemes *)

Lemma accepts_dec s th w : {accepts s th w} + {~ accepts s th w}.
Proof.
  unfold accepts, supported, near.
  destruct (Rlt_dec 0 w); [|right; tauto].
  destruct (Rlt_dec 0 th); [|right; tauto].
  destruct (Rle_dec (Rabs (th - PI)) (1 / 10 ^ 8 + 1 / 10 ^ 5 * Rabs PI)),
    (Rle_dec (Rabs (th - PI / 2)) (1 / 10 ^ 8 + 1 / 10 ^ 5 * Rabs (PI / 2))),
    (Rle_dec (Rabs (th - PI / 4)) (1 / 10 ^ 8 + 1 / 10 ^ 5 * Rabs (PI / 4))),
    (Rle_dec th (4 * PI)); destruct s; try (left; tauto); right; tauto.
Qed.

Lemma build_inv s th w phi name c l :
  build s th w phi name = Ok c -> describes l c -> accepts s th w /\ design s th w phi l.
Proof.
  intros B D.
  destruct (accepts_dec s th w) as [A|A].
  - destruct (build_accepts s th w phi name A) as [c' [l' [B' [D' [X _]]]]].
    rewrite B in B'; injection B' as <-.
    rewrite (describes_unique _ _ _ D D'); auto.
  - destruct (build_rejects s th w phi name A) as [d [args [E _]]].
    rewrite B in E; discriminate.
Qed.

Lemma noisy_pulses e w l a :
  0 < w -> 0 < 1 + e ->
  noisy_evolution e 0 (pulses w (map (shift_pulse a) l)) = qmat (rotz a (qpulses e l)).
Proof.
  intros W E; rewrite noisy_evolution_qmat, qevolution_pulses, qpulses_shift; auto.
Qed.

Lemma rotation_shift th a : qmat (rotz a (qplanar (th / 2) 0)) = rotation th a.
Proof.
  rewrite rotation_qmat, <- qplanar_rotz, Rplus_0_l; reflexivity.
Qed.

Lemma acts_as_rotation e w th l a :
  acts_as th l -> 0 < w -> 0 < 1 + e ->
  noisy_evolution e 0 (pulses w (map (shift_pulse a) l)) = rotation (th * (1 + e)) a.
Proof.
  intros A W E; rewrite noisy_pulses, A by auto; rewrite <- rotation_shift.
  replace ((1 + e) * th) with (th * (1 + e)) by ring; reflexivity.
Qed.

Lemma acts_as_app th l1 l2 : acts_as th l1 -> qpulses 0 l2 = qone ->
  qpulses 0 (l1 ++ l2) = qplanar (th / 2) 0.
Proof. intros A E; rewrite qpulses_app, A, E, one_plus_0, qmul_1_l; reflexivity. Qed.

Lemma shift_corpse phi th k : corpse_pulses th phi k = map (shift_pulse phi) (corpse_pulses th 0 k).
Proof.
  unfold corpse_pulses, shift_pulse; cbn [map fst snd].
  rewrite !Rplus_0_l, (Rplus_comm PI); reflexivity.
Qed.
Lemma shift_bb1 phi p :
  [(PI, phi + p); (2 * PI, phi + 3 * p); (PI, phi + p)] = map (shift_pulse phi) (bb1_correction p).
Proof.
  unfold bb1_correction, shift_pulse; cbn [map fst snd].
  rewrite (Rplus_comm phi p), (Rplus_comm phi (3 * p)); reflexivity.
Qed.
Lemma shift_sk1 phi p :
  [(2 * PI, phi - p); (2 * PI, phi + p)] = map (shift_pulse phi) (sk1_correction p).
Proof.
  unfold sk1_correction, shift_pulse; cbn [map fst snd].
  rewrite (Rplus_comm phi p); unfold Rminus; rewrite (Rplus_comm phi (- p)); reflexivity.
Qed.
Lemma shift_pulse1 phi th : (th, phi) = shift_pulse phi (th, 0).
Proof. unfold shift_pulse; cbn [fst snd]; f_equal; ring. Qed.

Definition bb1_pulses th p := [(th, 0)] ++ bb1_correction p.
Definition sk1_pulses th p := [(th, 0)] ++ sk1_correction p.
Lemma shift_bb1_pulses phi th p :
  [(th, phi); (PI, phi + p); (2 * PI, phi + 3 * p); (PI, phi + p)] = map (shift_pulse phi) (bb1_pulses th p).
Proof. unfold bb1_pulses; rewrite map_app, <- shift_bb1; cbn [map app]; rewrite <- shift_pulse1; reflexivity. Qed.
Lemma shift_sk1_pulses phi th p :
  [(th, phi); (2 * PI, phi - p); (2 * PI, phi + p)] = map (shift_pulse phi) (sk1_pulses th p).
Proof. unfold sk1_pulses; rewrite map_app, <- shift_sk1; cbn [map app]; rewrite <- shift_pulse1; reflexivity. Qed.

Lemma dephasing_pulses w l a :
  0 < w -> qtilt w l = qzero -> dephasing_robust 1 (pulses w (map (shift_pulse a) l)).
Proof.
  intros W T; rewrite <- shift_pulses; apply dephasing_robust_1.
  rewrite <- T; apply qtilt_derive; auto.
Qed.

Lemma evolution_pulses w l a q :
  0 < w -> qpulses 0 l = q -> evolution (pulses w (map (shift_pulse a) l)) = qmat (rotz a q).
Proof. intros W <-; unfold evolution; apply noisy_pulses; lra. Qed.

Theorem primitive_spec th w phi name c l :
  new_primitive_control th w phi name = Ok c -> describes l c ->
  l = [Seg w phi 0 (th / w)] /\ evolution l = rotation th phi.
Proof.
  intros B D; destruct (build_inv Primitive _ _ _ _ _ _ B D) as [[W [T _]] X].
  cbn [design] in X; subst l; split; [reflexivity|].
  rewrite (shift_pulse1 phi th); change [shift_pulse phi (th, 0)] with (map (shift_pulse phi) [(th, 0)]).
  rewrite (evolution_pulses w _ phi (qplanar (th / 2) 0)); auto; [apply rotation_shift|].
  rewrite acts_as_pulse, one_plus_0; reflexivity.
Qed.

Theorem bb1_spec th w phi name c l :
  new_bb1_control th w phi name = Ok c -> describes l c ->
  evolution l = rotation th phi.
Proof.
  intros B D; destruct (build_inv BB1 _ _ _ _ _ _ B D) as [[W [T _]] X].
  destruct X as [p [P ->]]; rewrite shift_bb1_pulses.
  rewrite (evolution_pulses w _ phi (qplanar (th / 2) 0)); auto; [apply rotation_shift|].
  apply acts_as_app; [apply acts_as_pulse|apply bb1_correction_0].
Qed.

Theorem bb1_robust th w phi name c l :
  new_bb1_control th w phi name = Ok c -> describes l c -> amplitude_robust 2 l.
Proof.
  intros B D; destruct (build_inv BB1 _ _ _ _ _ _ B D) as [[W [T _]] X].
  destruct X as [p [P ->]]; rewrite shift_bb1_pulses.
  apply amplitude_robust_2; auto; apply (bb1_jet th); [apply acts_as_pulse|auto].
Qed.

Theorem sk1_spec th w phi name c l :
  new_sk1_control th w phi name = Ok c -> describes l c ->
  evolution l = rotation th phi /\ amplitude_robust 1 l.
Proof.
  intros B D; destruct (build_inv SK1 _ _ _ _ _ _ B D) as [[W [T _]] X].
  destruct X as [p [P ->]]; rewrite shift_sk1_pulses; split.
  - rewrite (evolution_pulses w _ phi (qplanar (th / 2) 0)); auto; [apply rotation_shift|].
    apply acts_as_app; [apply acts_as_pulse|apply sk1_correction_0].
  - apply amplitude_robust_1; auto; apply (sk1_jet th); [apply acts_as_pulse|auto].
Qed.

Theorem corpse_spec th w phi name c l :
  new_corpse_control th w phi name = Ok c -> describes l c ->
  evolution l = rotation th phi /\
  (forall e, -1 < e -> noisy_evolution e 0 l = rotation (th * (1 + e)) phi).
Proof.
  intros B D; destruct (build_inv CORPSE _ _ _ _ _ _ B D) as [[W [T _]] X].
  destruct X as [k [P ->]]; rewrite shift_corpse.
  assert (H : forall e, -1 < e -> noisy_evolution e 0
    (pulses w (map (shift_pulse phi) (corpse_pulses th 0 k))) = rotation (th * (1 + e)) phi).
  { intros e E; apply acts_as_rotation; try lra; apply acts_as_corpse. }
  split; auto; unfold evolution; rewrite H by lra; f_equal; ring.
Qed.

Theorem corpse_robust th w phi name c l :
  new_corpse_control th w phi name = Ok c -> describes l c -> dephasing_robust 1 l.
Proof.
  intros B D; destruct (build_inv CORPSE _ _ _ _ _ _ B D) as [[W [T _]] X].
  destruct X as [k [P ->]]; rewrite shift_corpse; apply dephasing_pulses; auto.
  apply corpse_tilt; auto.
Qed.

Theorem corpse_in_bb1_spec th w phi name c l :
  new_corpse_in_bb1_control th w phi name = Ok c -> describes l c ->
  evolution l = rotation th phi /\ amplitude_robust 2 l /\ dephasing_robust 1 l.
Proof.
  intros B D; destruct (build_inv CORPSE_in_BB1 _ _ _ _ _ _ B D) as [[W [T _]] X].
  destruct X as [p [k [P [K ->]]]]; rewrite shift_corpse, shift_bb1, <- map_app.
  split; [|split].
  - rewrite (evolution_pulses w _ phi (qplanar (th / 2) 0)); auto; [apply rotation_shift|].
    apply acts_as_app; [apply acts_as_corpse|apply bb1_correction_0].
  - apply amplitude_robust_2; auto; apply (bb1_jet th); [apply acts_as_corpse|auto].
  - apply dephasing_pulses; auto.
    rewrite qtilt_app, bb1_correction_tilt, corpse_tilt, qmul_zero_l, qmul_zero_r by auto.
    apply qadd_zero_l.
Qed.

Theorem corpse_in_sk1_spec th w phi name c l :
  new_corpse_in_sk1_control th w phi name = Ok c -> describes l c ->
  evolution l = rotation th phi /\ amplitude_robust 1 l /\ dephasing_robust 1 l.
Proof.
  intros B D; destruct (build_inv CORPSE_in_SK1 _ _ _ _ _ _ B D) as [[W [T _]] X].
  destruct X as [p [k [P [K ->]]]]; rewrite shift_corpse, shift_sk1, <- map_app.
  split; [|split].
  - rewrite (evolution_pulses w _ phi (qplanar (th / 2) 0)); auto; [apply rotation_shift|].
    apply acts_as_app; [apply acts_as_corpse|apply sk1_correction_0].
  - apply amplitude_robust_1; auto; apply (sk1_jet th); [apply acts_as_corpse|auto].
  - apply dephasing_pulses; auto.
    rewrite qtilt_app, sk1_correction_tilt, corpse_tilt, qmul_zero_l, qmul_zero_r by auto.
    apply qadd_zero_l.
Qed.
