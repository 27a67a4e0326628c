(** * The order to which each composite pulse cancels an error *)

From Verif Require Export L_Composite L_Scrofulous L_Wamf Spec_Orders.
From Coq Require Import Lia.
Import ListNotations.
Set Bullet Behavior "Strict Subproofs".
Open Scope string_scope.
Open Scope list_scope.
Open Scope R_scope.

(** ** Flat entries *)

Lemma flat_entry_less k m f : (m <= k)%nat -> flat_entry k f -> flat_entry m f.
Proof. intros L H n N; apply H; lia. Qed.
Lemma flat_less k m f : (m <= k)%nat -> flat k f -> flat m f.
Proof. intros L [H1 [H2 [H3 [H4 [H5 [H6 [H7 H8]]]]]]]; repeat split; eapply flat_entry_less; eauto. Qed.
Lemma flat_0 f : flat 0 f.
Proof. repeat split; intros m M; lia. Qed.

Lemma flat_entry_value k m f c : (1 <= m <= k)%nat -> flat_entry k f -> is_derive_n f m 0 c -> c = 0.
Proof. intros M H D; rewrite <- (is_derive_n_unique f m 0 c D); apply is_derive_n_unique, H; auto. Qed.

(** derivatives of sums of sines *)
Definition wave (A k B : R) (e : R) : R := A * sin (k * e + B).
Lemma wave_derive A k B m e : is_derive_n (wave A k B) m e (wave (A * k ^ m) k (B + INR m * (PI / 2)) e).
Proof.
  revert e; induction m as [|m IH]; intros e.
  - cbn [is_derive_n]; unfold wave; cbn [pow INR]; rewrite Rmult_1_r, Rmult_0_l, Rplus_0_r; reflexivity.
  - cbn [is_derive_n]; apply (is_derive_ext (wave (A * k ^ m) k (B + INR m * (PI / 2)))).
    { intros t; symmetry; apply is_derive_n_unique, IH. }
    unfold wave; auto_derive; auto; rewrite S_INR.
    replace (k * e + (B + (INR m + 1) * (PI / 2))) with (PI / 2 + (k * e + (B + INR m * (PI / 2)))) by ring.
    rewrite <- cos_sin; cbn [pow]; ring.
Qed.

Lemma derive_n_ext f g m x c d : (forall t, f t = g t) -> is_derive_n f m x c -> c = d -> is_derive_n g m x d.
Proof. intros E H <-; eapply is_derive_n_ext; eauto. Qed.

Lemma derivable_n f m x c : is_derive_n f m x c -> ex_derive_n f m x.
Proof. destruct m as [|m]; intros H; [exact I|exists c; exact H]. Qed.

(** sums of sines *)
Fixpoint waves (l : list (R * R * R)) (e : R) : R :=
  match l with [] => 0 | (A, k, B) :: l' => wave A k B e + waves l' e end.
Definition wave_jet (m : nat) (p : R * R * R) : R * R * R :=
  match p with (A, k, B) => (A * k ^ m, k, B + INR m * (PI / 2)) end.
Lemma waves_derive l m : forall e, is_derive_n (waves l) m e (waves (map (wave_jet m) l) e).
Proof.
  revert m; induction l as [|[[A k] B] l IH]; intros m e; cbn [map waves wave_jet].
  - destruct m as [|m]; [reflexivity|].
    apply (is_derive_n_const m 0 e).
  - apply (is_derive_n_plus (wave A k B) (waves l)).
    + exists (mkposreal 1 Rlt_0_1); intros t _ j J; eapply derivable_n, wave_derive.
    + exists (mkposreal 1 Rlt_0_1); intros t _ j J; eapply derivable_n, IH.
    + apply wave_derive.
    + apply IH.
Qed.

Definition trig (f : R -> R) : Prop := exists l, forall e, f e = waves l e.
Lemma trig_derivable f m x : trig f -> ex_derive_n f m x.
Proof. intros [l E]; eapply derivable_n, is_derive_n_ext; [intros t; symmetry; apply E|apply waves_derive]. Qed.
Lemma waves_app l l' e : waves (l ++ l') e = waves l e + waves l' e.
Proof. induction l as [|[[A k] B] l IH]; cbn [app waves]; [|rewrite IH]; ring. Qed.
Lemma trig_ext f g : (forall e, f e = g e) -> trig f -> trig g.
Proof. intros E [l H]; exists l; intros e; rewrite <- E; auto. Qed.
Lemma trig_add f g : trig f -> trig g -> trig (fun e => f e + g e).
Proof. intros [l L] [l' L']; exists (l ++ l'); intros e; rewrite waves_app, L, L'; reflexivity. Qed.
Lemma trig_wave A k B : trig (wave A k B).
Proof. exists [(A, k, B)]; intros e; cbn [waves]; ring. Qed.
Lemma trig_scale a f : trig f -> trig (fun e => a * f e).
Proof.
  intros [l L]; exists (map (fun p => match p with (A, k, B) => (a * A, k, B) end) l); intros e; rewrite L; clear L.
  induction l as [|[[A k] B] l IH]; cbn [map waves]; [|rewrite <- IH; unfold wave]; ring.
Qed.
Lemma trig_const a : trig (fun _ => a).
Proof. exists [(a, 0, PI / 2)]; intros e; cbn [waves]; unfold wave; rewrite Rmult_0_l, Rplus_0_l, sin_PI2; ring. Qed.
Lemma trig_sub f g : trig f -> trig g -> trig (fun e => f e - g e).
Proof. intros F G; eapply trig_ext; [|apply (trig_add _ _ F (trig_scale (-1) _ G))]; intros e; cbv beta; ring. Qed.
Lemma trig_mul f g : trig f -> trig g -> trig (fun e => f e * g e).
Proof.
  intros [l L] G; apply (trig_ext (fun e => waves l e * g e)); [intros e; rewrite L; reflexivity|]; clear f L.
  induction l as [|[[A k] B] l IH]; cbn [waves].
  { eapply trig_ext; [|apply (trig_const 0)]; intros e; cbv beta; ring. }
  apply (trig_ext (fun e => wave A k B e * g e + waves l e * g e)); [intros e; ring|]; apply trig_add; auto; clear l IH.
  destruct G as [l L]; apply (trig_ext (fun e => wave A k B e * waves l e)); [intros e; rewrite L; reflexivity|]; clear g L.
  induction l as [|[[A' k'] B'] l IH]; cbn [waves].
  { eapply trig_ext; [|apply (trig_const 0)]; intros e; cbv beta; ring. }
  apply (trig_ext (fun e => wave A k B e * wave A' k' B' e + wave A k B e * waves l e)); [intros e; ring|]; apply trig_add; auto; clear l IH.
  apply (trig_ext (fun e => wave (A * A' / 2) (k - k') (B - B' + PI / 2) e + - 1 * wave (A * A' / 2) (k + k') (B + B' + PI / 2) e)).
  2:{ apply trig_add; [|apply trig_scale]; apply trig_wave. }
  intros e; unfold wave.
  replace ((k - k') * e + (B - B' + PI / 2)) with (PI / 2 + ((k * e + B) - (k' * e + B'))) by ring.
  replace ((k + k') * e + (B + B' + PI / 2)) with (PI / 2 + ((k * e + B) + (k' * e + B'))) by ring.
  rewrite <- !cos_sin, cos_plus, cos_minus; field.
Qed.
Lemma trig_sin k B : trig (fun e => sin (k * e + B)).
Proof. eapply trig_ext; [|apply (trig_wave 1 k B)]; intros e; unfold wave; ring. Qed.
Lemma trig_cos k B : trig (fun e => cos (k * e + B)).
Proof. eapply trig_ext; [|apply (trig_sin k (B + PI / 2))]; intros e; cbv beta; rewrite cos_sin; f_equal; ring. Qed.

Lemma flat_entry_combine k f g a b : trig f -> trig g -> flat_entry k f -> flat_entry k g -> flat_entry k (fun t => a * f t + b * g t).
Proof.
  intros TF TG F G m M.
  apply (derive_n_ext (fun t => a * f t + b * g t) _ m 0 (a * 0 + b * 0)); [reflexivity| |ring].
  apply (is_derive_n_plus (fun t => a * f t) (fun t => b * g t)).
  - exists (mkposreal 1 Rlt_0_1); intros t _ j J; apply trig_derivable, trig_scale; auto.
  - exists (mkposreal 1 Rlt_0_1); intros t _ j J; apply trig_derivable, trig_scale; auto.
  - apply (is_derive_n_scal_l f m a 0 0); apply F; auto.
  - apply (is_derive_n_scal_l g m b 0 0); apply G; auto.
Qed.

(** ** Components of the evolution of resonant pulses *)

Definition qtrig (f : R -> quat) : Prop :=
  trig (fun e => qa (f e)) /\ trig (fun e => qb (f e)) /\ trig (fun e => qc (f e)) /\ trig (fun e => qd (f e)).
Lemma qtrig_mul f g : qtrig f -> qtrig g -> qtrig (fun e => qmul (f e) (g e)).
Proof.
  intros [A [B [C D]]] [A' [B' [C' D']]]; unfold qmul; split; [|split; [|split]]; cbn [qa qb qc qd];
    repeat (apply trig_sub || apply trig_add); apply trig_mul; auto.
Qed.
Lemma qtrig_planar th p : qtrig (fun e => qplanar ((1 + e) * th / 2) p).
Proof.
  assert (E : forall e, (1 + e) * th / 2 = th / 2 * e + th / 2) by (intros; field).
  unfold qplanar; split; [|split; [|split]]; cbn [qa qb qc qd].
  - apply (trig_ext (fun e => cos (th / 2 * e + th / 2))); [intros e; rewrite E; reflexivity|apply trig_cos].
  - apply (trig_ext (fun e => cos p * sin (th / 2 * e + th / 2))); [intros e; rewrite E; ring|apply trig_scale, trig_sin].
  - apply (trig_ext (fun e => sin p * sin (th / 2 * e + th / 2))); [intros e; rewrite E; ring|apply trig_scale, trig_sin].
  - apply trig_const.
Qed.
Lemma qtrig_pulses l : qtrig (fun e => qpulses e l).
Proof.
  induction l as [|p l IH]; cbn [qpulses].
  - split; [|split; [|split]]; apply trig_const.
  - apply qtrig_mul; auto; apply qtrig_planar.
Qed.

Lemma flat_components k a f : qtrig f -> flat k (fun e => qmat (rotz a (f e))) ->
  flat_entry k (fun e => qa (f e)) /\ flat_entry k (fun e => qb (f e)) /\ flat_entry k (fun e => qc (f e)) /\ flat_entry k (fun e => qd (f e)).
Proof.
  intros [TA [TB [TC TD]]] [F1 [_ [_ [_ [F5 [F6 [_ F8]]]]]]]; cbn in F1, F5, F6, F8.
  assert (F6' := flat_entry_opp _ _ F6); clear F6.
  assert (X : trig (fun e => cos a * qb (f e) - sin a * qc (f e))) by (apply trig_sub; apply trig_scale; auto).
  assert (Y : trig (fun e => sin a * qb (f e) + cos a * qc (f e))) by (apply trig_add; apply trig_scale; auto).
  assert (F5' : flat_entry k (fun e => sin a * qb (f e) + cos a * qc (f e))).
  { intros m M; eapply derive_n_ext; [|apply (F5 m M)|reflexivity]; intros e; cbv beta; ring. }
  assert (F6 : flat_entry k (fun e => cos a * qb (f e) - sin a * qc (f e))).
  { intros m M; eapply derive_n_ext; [|apply (F6' m M)|reflexivity]; intros e; cbv beta; ring. }
  split; [|split; [|split]]; auto; intros m M.
  - eapply derive_n_ext; [|apply (flat_entry_combine k _ _ (cos a) (sin a) X Y F6 F5' m M)|reflexivity].
    intros e; cbv beta. transitivity ((cos a * cos a + sin a * sin a) * qb (f e)); [ring|]; rewrite cs1; ring.
  - eapply derive_n_ext; [|apply (flat_entry_combine k _ _ (- sin a) (cos a) X Y F6 F5' m M)|reflexivity].
    intros e; cbv beta. transitivity ((cos a * cos a + sin a * sin a) * qc (f e)); [ring|]; rewrite cs1; ring.
Qed.

Lemma amplitude_components k w l a : 0 < w -> amplitude_robust k (pulses w (map (shift_pulse a) l)) ->
  flat_entry k (fun e => qa (qpulses e l)) /\ flat_entry k (fun e => qb (qpulses e l)) /\
  flat_entry k (fun e => qc (qpulses e l)) /\ flat_entry k (fun e => qd (qpulses e l)).
Proof.
  intros W H; apply (flat_components k a); [apply qtrig_pulses|].
  eapply flat_ext_loc; [|exact H]; eapply filter_imp; [|apply near_zero_pos]; intros e E; cbv beta in *; apply noisy_pulses; auto.
Qed.

(** ** Amplitude errors *)

Lemma flat_entry_waves k m f l v : (1 <= m <= k)%nat -> flat_entry k f -> (forall e, f e = waves l e) ->
  waves (map (wave_jet m) l) 0 = v -> v = 0.
Proof.
  intros M F E V; apply (flat_entry_value k m f); auto.
  eapply derive_n_ext; [|apply (waves_derive l m 0)|exact V]; intros t; symmetry; apply E.
Qed.

Lemma sin_half_turns B : sin (B + 1 * (PI / 2)) = cos B /\ sin (B + 2 * (PI / 2)) = - sin B /\ sin (B + 3 * (PI / 2)) = - cos B.
Proof.
  repeat split.
  - rewrite (cos_sin B); f_equal; ring.
  - replace (B + 2 * (PI / 2)) with (B + PI) by field; apply neg_sin.
  - replace (B + 3 * (PI / 2)) with ((PI / 2 + B) + PI) by field; rewrite neg_sin, <- cos_sin; ring.
Qed.

(** a rotation about a fixed axis *)
Lemma planar_not_flat th a : th <> 0 -> ~ flat 1 (fun e => qmat (rotz a (qplanar ((1 + e) * th / 2) 0))).
Proof.
  intros T H; destruct (flat_components _ _ _ (qtrig_planar th 0) H) as [FA [FB _]].
  assert (E : forall e, (1 + e) * th / 2 = th / 2 * e + th / 2) by (intros; field).
  destruct (sin_half_turns (th / 2)) as [S1 _]; destruct (sin_half_turns (th / 2 + PI / 2)) as [S2 _].
  assert (CB : th / 2 * cos (th / 2) = 0).
  { apply (flat_entry_waves 1 1 _ [(1, th / 2, th / 2)] _ ltac:(lia) FB).
    - intros e; unfold qplanar; cbn [qb waves]; unfold wave; rewrite E, cos_0; ring.
    - cbn [map wave_jet waves INR]; unfold wave; rewrite Rmult_0_r, Rplus_0_l, S1; ring. }
  assert (CA : - (th / 2 * sin (th / 2)) = 0).
  { apply (flat_entry_waves 1 1 _ [(1, th / 2, th / 2 + PI / 2)] _ ltac:(lia) FA).
    - intros e; unfold qplanar; cbn [qa waves]; unfold wave; rewrite E, cos_sin.
      replace (th / 2 * e + (th / 2 + PI / 2)) with (PI / 2 + (th / 2 * e + th / 2)) by ring; ring.
    - cbn [map wave_jet waves INR]; unfold wave; rewrite Rmult_0_r, Rplus_0_l, S2, (Rplus_comm (th / 2)), cos_plus, cos_PI2, sin_PI2; ring. }
  assert (Z := sin2_cos2 (th / 2)); unfold Rsqr in Z.
  assert (th / 2 * 1 = 0); [|lra]; rewrite <- Z.
  transitivity (sin (th / 2) * (th / 2 * sin (th / 2)) + cos (th / 2) * (th / 2 * cos (th / 2))); [ring|]; rewrite CB; replace (th / 2 * sin (th / 2)) with 0 by lra; ring.
Qed.

Lemma axis_not_robust w th l a : 0 < w -> th <> 0 -> acts_as th l -> ~ amplitude_robust 1 (pulses w (map (shift_pulse a) l)).
Proof.
  intros W T A H; apply (planar_not_flat th a T); eapply flat_ext_loc; [|exact H].
  eapply filter_imp; [|apply near_zero_pos]; intros e E; cbv beta in *; rewrite noisy_pulses, A; auto.
Qed.

(** the second component of a symmetric product of planar quaternions *)
Lemma sandwich_c A B : qd A = 0 -> qd B = 0 ->
  qc (qmul (qmul A B) A) = 2 * (qa A * qa B - qb A * qb B - qc A * qc B) * qc A + (qa A * qa A + qb A * qb A + qc A * qc A) * qc B /\
  qd (qmul (qmul A B) A) = 0.
Proof. destruct A as [a1 b1 c1 d1], B as [a2 b2 c2 d2]; unfold qmul; cbn [qa qb qc qd]; intros -> ->; split; ring. Qed.
Lemma planar_norm h p : qa (qplanar h p) * qa (qplanar h p) + qb (qplanar h p) * qb (qplanar h p) + qc (qplanar h p) * qc (qplanar h p) = 1.
Proof.
  unfold qplanar; cbn [qa qb qc]; transitivity (cos h * cos h + sin h * sin h * (cos p * cos p + sin p * sin p)); [ring|].
  rewrite (cs1 p), (cs1 h); ring.
Qed.

Lemma half_turn_error e : cos ((1 + e) * PI / 2) = - sin (PI / 2 * e) /\ sin ((1 + e) * PI / 2) = cos (PI / 2 * e).
Proof.
  replace ((1 + e) * PI / 2) with (PI / 2 + PI / 2 * e) by field; rewrite cos_plus, sin_plus, cos_PI2, sin_PI2; split; ring.
Qed.
Lemma turn_error e : cos ((1 + e) * (2 * PI) / 2) = - cos (PI * e) /\ sin ((1 + e) * (2 * PI) / 2) = - sin (PI * e).
Proof.
  replace ((1 + e) * (2 * PI) / 2) with (PI * e + PI) by field; rewrite neg_cos, neg_sin; auto.
Qed.

Lemma bb1_error e p : qc (qpulses e (bb1_correction p)) = -4 * (sin p * (1 - sin p * sin p)) * (sin (PI * e) / 2 - sin (2 * PI * e) / 4) /\
  qd (qpulses e (bb1_correction p)) = 0.
Proof.
  unfold bb1_correction; cbn [qpulses fst snd]; rewrite qmul_1_l.
  destruct (sandwich_c (qplanar ((1 + e) * PI / 2) p) (qplanar ((1 + e) * (2 * PI) / 2) (3 * p)) eq_refl eq_refl) as [EC ED].
  split; [rewrite EC|exact ED]; clear EC ED; rewrite planar_norm; unfold qplanar; cbn [qa qb qc].
  destruct (half_turn_error e) as [-> ->]; destruct (turn_error e) as [-> ->].
  replace (2 * PI * e) with (2 * (PI * e)) by ring; rewrite (sin_2a (PI * e)).
  replace (PI * e) with (2 * (PI / 2 * e)) by field; rewrite sin_2a, cos_2a_sin.
  rewrite cos_3a, sin_3a.
  assert (CC := cs1 (PI / 2 * e)); assert (C0 := cs1 p).
  set (S := sin (PI / 2 * e)) in *; set (K := cos (PI / 2 * e)) in *; set (z := sin p) in *; set (c := cos p) in *; clearbody S K z c.
  transitivity (2 * S * K * z * ((1 - 2 * S * S) + 2 * (K * K) * ((c * c) * (4 * (c * c) - 3) + z * z * (4 * (c * c) - 1)) - (4 * (c * c) - 1))).
  - field.
  - rewrite CC, C0; field.
Qed.

Lemma sk1_error e p : qc (qpulses e (sk1_correction p)) = 0 /\ qd (qpulses e (sk1_correction p)) = - (cos p * sin p) * (1 - cos (2 * PI * e)).
Proof.
  unfold sk1_correction; cbn [qpulses fst snd]; rewrite qmul_1_l; unfold qplanar, qmul; cbn [qa qb qc qd].
  destruct (turn_error e) as [-> ->]; rewrite cos_neg, sin_neg.
  replace (2 * PI * e) with (2 * (PI * e)) by ring; rewrite cos_2a_sin; split; ring.
Qed.

Lemma corrected e th p l (corr : R -> list (R * R)) : acts_as th l -> qpulses e (l ++ corr p) = qmul (qpulses e (corr p)) (qplanar (th / 2 * e + th / 2) 0).
Proof. intros A; rewrite qpulses_app, A; do 2 f_equal; field. Qed.

Lemma bb1_not_robust w th p l a : 0 < w -> acts_as th l -> sin p * (1 - sin p * sin p) <> 0 ->
  ~ amplitude_robust 3 (pulses w (map (shift_pulse a) (l ++ bb1_correction p))).
Proof.
  intros W A N H; destruct (amplitude_components _ _ _ _ W H) as [_ [_ [FC FD]]].
  destruct (qtrig_pulses (l ++ bb1_correction p)) as [_ [_ [TC TD]]].
  assert (F := flat_entry_combine 3 _ _ (cos (th / 2)) (- sin (th / 2)) TC TD FC FD).
  set (K := sin p * (1 - sin p * sin p)) in *; set (y := th / 2) in *.
  assert (V : -6 * K * PI ^ 3 = 0).
  { apply (flat_entry_waves 3 3 _ [(- K, PI + y, 0); (- K, PI - y, 0); (K / 2, 2 * PI + y, 0); (K / 2, 2 * PI - y, 0)] _ ltac:(lia) F).
    - intros e; rewrite (corrected e th p l bb1_correction A); fold y; destruct (bb1_error e p) as [EC ED]; fold K in EC.
      unfold qmul; cbn [qc qd]; rewrite EC, ED; unfold qplanar; cbn [qa qb qc qd waves]; unfold wave; rewrite cos_0, sin_0.
      replace ((PI + y) * e + 0) with (PI * e + y * e) by ring; replace ((PI - y) * e + 0) with (PI * e - y * e) by ring.
      replace ((2 * PI + y) * e + 0) with (2 * PI * e + y * e) by ring; replace ((2 * PI - y) * e + 0) with (2 * PI * e - y * e) by ring.
      rewrite !(sin_plus (PI * e)), !(sin_minus (PI * e)), !(sin_plus (2 * PI * e)), !(sin_minus (2 * PI * e)).
      set (X := sin (PI * e)); set (X2 := sin (2 * PI * e)); clearbody X X2.
      transitivity (-4 * K * (X / 2 - X2 / 4) * (cos y * cos (y * e + y) + sin y * sin (y * e + y))); [ring|].
      replace (cos y * cos (y * e + y) + sin y * sin (y * e + y)) with (cos (y * e)); [field|].
      replace (y * e) with (y * e + y - y) at 1 by ring; rewrite cos_minus; ring.
    - cbn [map wave_jet waves]; unfold wave; rewrite !Rmult_0_r, !Rplus_0_l; replace (INR 3) with 3 by (simpl; ring).
      destruct (sin_half_turns 0) as [_ [_ S3]]; rewrite Rplus_0_l in S3; rewrite S3, cos_0; field. }
  assert (P := PI_pos); assert (PI ^ 3 <> 0) by (apply pow_nonzero; lra).
  apply Rmult_integral in V; destruct V as [V|V]; [|contradiction]; lra.
Qed.

Lemma sk1_not_robust w th p l a : 0 < w -> acts_as th l -> cos p * sin p <> 0 ->
  ~ amplitude_robust 2 (pulses w (map (shift_pulse a) (l ++ sk1_correction p))).
Proof.
  intros W A N H; destruct (amplitude_components _ _ _ _ W H) as [_ [_ [FC FD]]].
  destruct (qtrig_pulses (l ++ sk1_correction p)) as [_ [_ [TC TD]]].
  assert (F := flat_entry_combine 2 _ _ (cos (th / 2)) (sin (th / 2)) TD TC FD FC).
  set (K := cos p * sin p) in *; set (y := th / 2) in *.
  assert (V : -4 * K * PI ^ 2 = 0).
  { apply (flat_entry_waves 2 2 _ [(- K, y, PI / 2); (K / 2, 2 * PI + y, PI / 2); (K / 2, 2 * PI - y, PI / 2)] _ ltac:(lia) F).
    - intros e; rewrite (corrected e th p l sk1_correction A); fold y; destruct (sk1_error e p) as [EC ED]; fold K in ED.
      unfold qmul; cbn [qc qd]; rewrite EC, ED; unfold qplanar; cbn [qa qb qc qd waves]; unfold wave; rewrite cos_0, sin_0.
      rewrite !(Rplus_comm _ (PI / 2)), <- !cos_sin.
      replace ((2 * PI + y) * e) with (2 * PI * e + y * e) by ring; replace ((2 * PI - y) * e) with (2 * PI * e - y * e) by ring.
      rewrite !(cos_plus (2 * PI * e)), !(cos_minus (2 * PI * e)).
      set (X := sin (2 * PI * e)); set (X2 := cos (2 * PI * e)); clearbody X X2.
      transitivity (- K * (1 - X2) * (cos y * cos (y * e + y) + sin y * sin (y * e + y))); [ring|].
      replace (cos y * cos (y * e + y) + sin y * sin (y * e + y)) with (cos (y * e)); [field|].
      replace (y * e) with (y * e + y - y) at 1 by ring; rewrite cos_minus; ring.
    - cbn [map wave_jet waves]; unfold wave; rewrite !Rmult_0_r, !Rplus_0_l; replace (INR 2) with 2 by (simpl; ring).
      destruct (sin_half_turns (PI / 2)) as [_ [S2 _]]; rewrite S2, sin_PI2; field. }
  assert (P := PI_pos); assert (PI ^ 2 <> 0) by (apply pow_nonzero; lra).
  apply Rmult_integral in V; destruct V as [V|V]; [|contradiction]; lra.
Qed.

Lemma scrofulous_not_robust w t1 p a : 0 < w -> sin p <> 0 ->
  ~ amplitude_robust 2 (pulses w (map (shift_pulse a) (scrofulous_pulses t1 p))).
Proof.
  intros W N H; destruct (amplitude_components _ _ _ _ W H) as [_ [_ [FC _]]].
  assert (V : sin p * (PI / 2) ^ 2 = 0).
  { apply (flat_entry_waves 2 2 _ [(- sin p, PI / 2, PI / 2)] _ ltac:(lia) FC).
    - intros e; unfold scrofulous_pulses; cbn [qpulses fst snd]; rewrite qmul_1_l.
      destruct (sandwich_c (qplanar ((1 + e) * t1 / 2) 0) (qplanar ((1 + e) * PI / 2) (- p)) eq_refl eq_refl) as [EC _].
      rewrite EC, planar_norm; unfold qplanar; cbn [qa qb qc waves]; unfold wave; rewrite sin_0, sin_neg.
      replace (PI / 2 * e + PI / 2) with ((1 + e) * PI / 2) by field; ring.
    - cbn [map wave_jet waves]; unfold wave; rewrite !Rmult_0_r, !Rplus_0_l; replace (INR 2) with 2 by (simpl; ring).
      destruct (sin_half_turns (PI / 2)) as [_ [S2 _]]; rewrite S2, sin_PI2; field. }
  assert (P := PI_pos); assert ((PI / 2) ^ 2 <> 0) by (apply pow_nonzero; lra).
  apply Rmult_integral in V; tauto.
Qed.

(** ** Two turns *)

Lemma flat_const k M : flat k (fun _ => M).
Proof.
  repeat split; intros m Hm; destruct m as [|m]; try lia; apply (is_derive_n_const m).
Qed.
Lemma constant_robust k w l a q : 0 < w -> (forall e, qpulses e l = q) -> amplitude_robust k (pulses w (map (shift_pulse a) l)).
Proof.
  intros W E; eapply flat_ext_loc; [|apply (flat_const k (qmat (rotz a q)))].
  eapply filter_imp; [|apply near_zero_pos]; intros e P; cbv beta in *; rewrite noisy_pulses, E; auto.
Qed.
Lemma two_turns_angle p : wimperis_angle (4 * PI) p -> p = PI.
Proof.
  intros [B C]; assert (P := PI_pos); apply cos_inj; try lra; rewrite C, cos_PI; field; lra.
Qed.
Lemma qplanar_back' h k : qplanar h (PI + 2 * INR k * PI) = qplanar (- h) 0.
Proof.
  unfold qplanar; rewrite cos_period, sin_period, cos_PI, sin_PI, cos_0, sin_0, cos_neg, sin_neg; apply q_eq; cbn [qa qb qc qd]; ring.
Qed.
Lemma qplanar_0 p : qplanar 0 p = qone.
Proof. unfold qplanar, qone; rewrite cos_0, sin_0; apply q_eq; cbn [qa qb qc qd]; ring. Qed.
Lemma bb1_two_turns e l : acts_as (4 * PI) l -> qpulses e (l ++ bb1_correction PI) = qone.
Proof.
  intros A; rewrite qpulses_app, A; unfold bb1_correction; cbn [qpulses fst snd]; rewrite qmul_1_l.
  assert (Q : forall h, qplanar h PI = qplanar (- h) 0) by (intros h; rewrite <- (qplanar_back' h 0); f_equal; simpl; ring).
  replace (3 * PI) with (PI + 2 * INR 1 * PI) by (simpl; ring); rewrite qplanar_back', !Q, !qplanar_add.
  rewrite <- (qplanar_0 0); f_equal; field.
Qed.
Lemma sk1_two_turns e l : acts_as (4 * PI) l -> qpulses e (l ++ sk1_correction PI) = qone.
Proof.
  intros A; rewrite qpulses_app, A; unfold sk1_correction; cbn [qpulses fst snd]; rewrite qmul_1_l.
  assert (Q : forall h, qplanar h PI = qplanar (- h) 0) by (intros h; rewrite <- (qplanar_back' h 0); f_equal; simpl; ring).
  assert (Q' : forall h, qplanar h (- PI) = qplanar (- h) 0).
  { intros h; rewrite <- (Q h); unfold qplanar; rewrite cos_neg, sin_neg, sin_PI, Ropp_0; reflexivity. }
  rewrite Q, Q', !qplanar_add, <- (qplanar_0 0); f_equal; field.
Qed.

(** the correction angle is degenerate for two turns only *)
Lemma wimperis_sin th p : 0 < th <= 4 * PI -> wimperis_angle th p -> th <> 4 * PI -> 0 < sin p /\ cos p < 0.
Proof.
  intros T [B C] N; assert (P := PI_pos).
  assert (CL : -1 < cos p < 0).
  { assert (th / (4 * PI) * (4 * PI) = th) by (field; lra).
    assert (0 < th / (4 * PI)) by (apply Rdiv_lt_0_compat; lra).
    rewrite C; replace (- th / (4 * PI)) with (- (th / (4 * PI))) by (field; lra); nra. }
  split; [|lra]; apply sin_gt_0.
  - destruct (Rle_lt_or_eq_dec _ _ (proj1 B)) as [?|E]; auto; rewrite <- E, cos_0 in CL; lra.
  - destruct (Rle_lt_or_eq_dec _ _ (proj2 B)) as [?|E]; auto; rewrite E, cos_PI in CL; lra.
Qed.

(** ** The order of each scheme *)

Lemma wamf1_amplitude e w a b : 0 < w -> 0 < b < a -> 0 < 1 + e ->
  qevolution e 0 (wamf1_segs w 0 a b) = qplanar ((1 + e) * (2 * (a + b)) / 2) 0.
Proof.
  intros W B E; assert (R := wamf1_rates w a b W B).
  unfold wamf1_segs; cbn [qevolution]; rewrite !qnoisy_resonant by auto.
  rewrite qmul_1_l, !qplanar_add; f_equal; field; lra.
Qed.

Lemma exact_order k l m : amplitude_robust k l -> ~ amplitude_robust (S k) l -> amplitude_robust m l <-> (m <= k)%nat.
Proof.
  intros R N; split; intros H.
  - destruct (le_lt_dec m k) as [L|L]; auto; exfalso; apply N; eapply flat_less; [|exact H]; lia.
  - eapply flat_less; eauto.
Qed.

Lemma primitive_order w th l a m : 0 < w -> th <> 0 -> acts_as th l ->
  amplitude_robust m (pulses w (map (shift_pulse a) l)) <-> (m <= 0)%nat.
Proof. intros W T A; apply exact_order; [apply flat_0|]; eapply axis_not_robust; eauto. Qed.

Lemma four_pi_dec th : {th = 4 * PI} + {th <> 4 * PI}.
Proof. apply Req_EM_T. Qed.

Lemma bb1_order w th p l a m : 0 < w -> 0 < th <= 4 * PI -> wimperis_angle th p -> acts_as th l ->
  amplitude_robust m (pulses w (map (shift_pulse a) (l ++ bb1_correction p))) <-> (m <= 2)%nat \/ th = 4 * PI.
Proof.
  intros W T P A; destruct (four_pi_dec th) as [E|N].
  - split; auto; intros _; subst th; rewrite (two_turns_angle p P); eapply constant_robust; eauto; intros e; apply bb1_two_turns; auto.
  - assert (O : amplitude_robust m (pulses w (map (shift_pulse a) (l ++ bb1_correction p))) <-> (m <= 2)%nat); [|tauto].
    apply exact_order; [apply amplitude_robust_2; auto; apply (bb1_jet th); auto|].
    eapply bb1_not_robust; eauto; destruct (wimperis_sin th p T P N) as [S C]; rewrite <- cs1.
    apply Rmult_integral_contrapositive; split; [lra|apply Rmult_integral_contrapositive; split; lra].
Qed.
Lemma sk1_order w th p l a m : 0 < w -> 0 < th <= 4 * PI -> wimperis_angle th p -> acts_as th l ->
  amplitude_robust m (pulses w (map (shift_pulse a) (l ++ sk1_correction p))) <-> (m <= 1)%nat \/ th = 4 * PI.
Proof.
  intros W T P A; destruct (four_pi_dec th) as [E|N].
  - split; auto; intros _; subst th; rewrite (two_turns_angle p P); eapply constant_robust; eauto; intros e; apply sk1_two_turns; auto.
  - assert (O : amplitude_robust m (pulses w (map (shift_pulse a) (l ++ sk1_correction p))) <-> (m <= 1)%nat); [|tauto].
    apply exact_order; [apply amplitude_robust_1; auto; apply (sk1_jet th); auto|].
    eapply sk1_not_robust; eauto; destruct (wimperis_sin th p T P N) as [S C].
    apply Rmult_integral_contrapositive; split; lra.
Qed.

Lemma scrofulous_sin th t1 p1 p2 : supported th -> scrofulous_angles th t1 p1 p2 -> sin (p1 - p2) <> 0.
Proof.
  intros S A Z; destruct (scrofulous_facts th t1 p1 p2 S A) as [T1 [_ [C _]]]; assert (P := PI_pos).
  assert (E := cs1 (p1 - p2)); rewrite Z, C in E.
  assert (V : PI / (2 * t1) * (2 * t1) = PI) by (field; lra).
  replace (- PI / (2 * t1)) with (- (PI / (2 * t1))) in E by (field; lra).
  set (v := PI / (2 * t1)) in *; assert (0 < v) by (apply Rdiv_lt_0_compat; lra); assert (v < 1) by nra; nra.
Qed.

Lemma scrofulous_order th w phi name c l m : new_scrofulous_control th w phi name = Ok c -> describes l c ->
  amplitude_robust m l <-> (m <= 1)%nat.
Proof.
  intros B D; apply exact_order; [apply (scrofulous_spec th w phi name c l B D)|].
  destruct (build_inv SCROFULOUS _ _ _ _ _ _ B D) as [[W [T S]] X]; cbn in S; destruct X as [t1 [p1 [p2 [A ->]]]].
  rewrite shift_scrofulous; apply scrofulous_not_robust; auto; eapply scrofulous_sin; eauto.
Qed.

Lemma amplitude_same l l' m : (forall e, -1 < e -> noisy_evolution e 0 l = noisy_evolution e 0 l') -> amplitude_robust m l -> amplitude_robust m l'.
Proof.
  intros E H; eapply flat_ext_loc; [|exact H]; eapply filter_imp; [|apply near_zero_pos]; intros e P; cbv beta in *; apply E; lra.
Qed.

Theorem scheme_amplitude_order s th w phi name c l : build s th w phi name = Ok c -> describes l c ->
  forall m, amplitude_robust m l <-> (m <= amplitude_order s)%nat \/ error_free s th.
Proof.
  intros B D m; destruct (build_inv s _ _ _ _ _ _ B D) as [[W [T A]] X]; destruct s; cbn [amplitude_order error_free accepts design build] in *.
  - subst l; rewrite shift_pulse1.
    change [shift_pulse phi (th, 0)] with (map (shift_pulse phi) [(th, 0)]).
    rewrite (primitive_order w th [(th, 0)] phi m W ltac:(lra) (acts_as_pulse th)); tauto.
  - destruct X as [p [P ->]]; rewrite shift_bb1_pulses; apply bb1_order; auto; apply acts_as_pulse.
  - destruct X as [p [P ->]]; rewrite shift_sk1_pulses; apply sk1_order; auto; apply acts_as_pulse.
  - rewrite (scrofulous_order th w phi name c l m B D); tauto.
  - destruct X as [k [P ->]]; rewrite shift_corpse.
    rewrite (primitive_order w th _ phi m W ltac:(lra) (acts_as_corpse th k)); tauto.
  - destruct X as [p [k [P [K ->]]]]; rewrite shift_corpse, shift_bb1, <- map_app; apply bb1_order; auto; apply acts_as_corpse.
  - destruct X as [p [k [P [K ->]]]]; rewrite shift_corpse, shift_sk1, <- map_app; apply sk1_order; auto; apply acts_as_corpse.
  - destruct (scrofulous_exists _ _ _ _ _ B) as [c' [l' [B' D']]].
    assert (SA := corpse_in_scrofulous_same _ _ _ _ _ _ _ _ _ B D B' D').
    assert (O := scrofulous_order th w phi name c' l' m B' D').
    split; [intros H; left; apply O|intros [H|[]]; apply O in H]; eapply amplitude_same; try exact H; intros e E; [|symmetry]; apply SA; auto.
  - destruct X as [a [b [TB ->]]]; fold (wamf1_segs w phi a b); destruct (wamf1_bounds th a b TB) as [B0 B1].
    assert (O : amplitude_robust m (wamf1_segs w phi a b) <-> (m <= 0)%nat); [|tauto].
    apply exact_order; [apply flat_0|]; intros H.
    apply (planar_not_flat (2 * (a + b)) phi); [lra|].
    eapply flat_ext_loc; [|exact H]; eapply filter_imp; [|apply near_zero_pos]; intros e E; cbv beta in *.
    rewrite noisy_evolution_qmat, wamf1_shift, qevolution_shift, wamf1_amplitude by (auto; lra); reflexivity.
Qed.

(** ** Detuning errors *)

Lemma dephasing_component w l a : 0 < w -> dephasing_robust 1 (pulses w (map (shift_pulse a) l)) -> qd (qtilt w l) = 0.
Proof.
  intros W [_ [_ [_ [_ [_ [_ [_ F]]]]]]]; assert (F1 := F 1%nat (conj (le_n 1) (le_n 1))).
  assert (Q := qtilt_derive w (map (shift_pulse a) l) W); rewrite qtilt_shift in Q.
  destruct (m_derive_qmat _ _ _ Q) as [_ [_ [_ [_ M]]]].
  apply (is_derive_unique (fun t => snd (m11 (noisy_evolution 0 t (pulses w (map (shift_pulse a) l)))))) in F1.
  assert (M' : is_derive (fun t => snd (m11 (noisy_evolution 0 t (pulses w (map (shift_pulse a) l))))) 0 (qd (qtilt w l))).
  { eapply is_derive_ext; [|exact M]; intros t; cbv beta; rewrite noisy_evolution_qmat; reflexivity. }
  apply is_derive_unique in M'; congruence.
Qed.

Lemma pulse_tilt w th : qtilt w [(th, 0)] = Q4 0 0 0 (sin (th / 2) / w).
Proof. cbn [qtilt qpulses fst snd]; rewrite qmul_zero_l, qmul_1_l, qadd_zero_l; reflexivity. Qed.

Lemma tilt_order w th l a : 0 < w -> qtilt w l = Q4 0 0 0 (sin (th / 2) / w) ->
  dephasing_robust 1 (pulses w (map (shift_pulse a) l)) <-> sin (th / 2) = 0.
Proof.
  intros W E; split; intros H.
  - assert (Z := dephasing_component w l a W H); rewrite E in Z; cbn [qd] in Z.
    replace (sin (th / 2)) with (sin (th / 2) / w * w) by (field; lra); rewrite Z; ring.
  - apply dephasing_pulses; auto; rewrite E, H; unfold Rdiv; rewrite Rmult_0_l; reflexivity.
Qed.
Lemma corrected_tilt w th corr : qpulses 0 corr = qone -> qtilt w corr = qzero -> qtilt w ([(th, 0)] ++ corr) = Q4 0 0 0 (sin (th / 2) / w).
Proof. intros E Z; rewrite qtilt_app, E, Z, pulse_tilt, qmul_1_l, qmul_zero_l, qadd_zero_l; reflexivity. Qed.

Lemma scrofulous_tilt w t1 a : 0 < w -> qd (qtilt w (scrofulous_pulses t1 a)) = (1 - 2 * (sin (t1 / 2) * sin (t1 / 2)) * cos a) / w.
Proof.
  intros W; unfold scrofulous_pulses; cbn [qtilt qpulses fst snd]; rewrite !one_plus_0, !qmul_1_l, qmul_zero_l, qadd_zero_l.
  rewrite qplanar_pi, (proj2 half_pi_vals); unfold qplanar, qmul, qadd; cbn [qa qb qc qd]; rewrite cos_0, sin_0, cos_neg.
  assert (E := cs1 (t1 / 2)); set (c := cos (t1 / 2)) in *; set (s := sin (t1 / 2)) in *; clearbody c s.
  transitivity ((c * c + s * s - 2 * (s * s) * cos a) / w); [field; lra|rewrite E; f_equal; ring].
Qed.

Theorem scheme_detuning_order s th w phi name c l : build s th w phi name = Ok c -> describes l c ->
  dephasing_robust 1 l <-> detuning_cancels s th.
Proof.
  intros B D; destruct (build_inv s _ _ _ _ _ _ B D) as [[W [T A]] X]; destruct s; cbn [detuning_cancels accepts design build] in *.
  - subst l; rewrite shift_pulse1; change [shift_pulse phi (th, 0)] with (map (shift_pulse phi) [(th, 0)]).
    apply tilt_order; auto; apply pulse_tilt.
  - destruct X as [p [P ->]]; rewrite shift_bb1_pulses; apply tilt_order; auto; apply corrected_tilt; [apply bb1_correction_0|apply bb1_correction_tilt].
  - destruct X as [p [P ->]]; rewrite shift_sk1_pulses; apply tilt_order; auto; apply corrected_tilt; [apply sk1_correction_0|apply sk1_correction_tilt].
  - destruct X as [t1 [p1 [p2 [SA ->]]]]; rewrite shift_scrofulous; split; [|tauto]; intros H.
    assert (Z := dephasing_component _ _ _ W H); rewrite scrofulous_tilt in Z by auto.
    destruct (scrofulous_facts th t1 p1 p2 A SA) as [T1 [_ [C _]]]; assert (P := PI_pos).
    assert (0 < PI / (2 * t1)) by (apply Rdiv_lt_0_compat; lra).
    replace (- PI / (2 * t1)) with (- (PI / (2 * t1))) in C by (field; lra).
    assert (IW : 0 < / w) by (apply Rinv_0_lt_compat; auto).
    assert (0 <= sin (t1 / 2) * sin (t1 / 2)) by (apply Rle_0_sqr).
    unfold Rdiv in Z; apply Rmult_integral in Z; destruct Z as [Z|Z]; [|lra]; rewrite C in Z; nra.
  - split; [tauto|]; intros _; eapply corpse_robust; eauto.
  - split; [tauto|]; intros _; eapply corpse_in_bb1_spec; eauto.
  - split; [tauto|]; intros _; eapply corpse_in_sk1_spec; eauto.
  - split; [tauto|]; intros _; eapply corpse_in_scrofulous_spec; eauto.
  - eapply wamf1_dephasing; eauto.
Qed.
