(** * First-order sensitivity of sequences with finite pulses *)

From Coq Require Import Lia.
From Verif Require Import L_FinitePulse L_NoiseOrders.
From Verif Require Export Spec_FirstOrder.
Import ListNotations.
Set Bullet Behavior "Strict Subproofs".
Open Scope string_scope.
Open Scope list_scope.
Open Scope R_scope.

Definition qpauli (a : axis) : quat :=
  match a with AX => Q4 0 1 0 0 | AY => Q4 0 0 1 0 | AZ => Q4 0 0 0 1 end.

Lemma qz_derive g : qderive (fun d => qz (d * g)) 0 (Q4 0 0 0 (g / 2)).
Proof.
  split; [|split; [|split]]; unfold qz; cbn [qa qb qc qd]; auto_derive; auto.
  - rewrite !Rmult_0_l, sin_0; field.
  - rewrite !Rmult_0_l, cos_0; field.
Qed.

Lemma qderive_const q x : qderive (fun _ => q) x qzero.
Proof. split; [|split; [|split]]; cbn [qzero qa qb qc qd]; auto_derive; auto. Qed.

Lemma qmul_add_l' C x y : qadd (qmul C x) (qmul C y) = qmul C (qadd x y).
Proof. apply q_eq; cbn [qa qb qc qd qmul qadd]; ring. Qed.

Section Chain.
  Variables (maxr maxd mn T : R).
  Hypothesis Hr : 0 < maxr.
  Hypothesis Hd : 0 < maxd.
  Hypothesis Hmn : 0 <= mn.
  Notation W := (pulse_width maxr maxd mn).
  Notation win := (win maxr maxd mn T).
  Notation pulse_seg := (pulse_seg maxr maxd mn).
  Notation weave := (weave maxr maxd mn T).

  Fixpoint chain (eps delta t0 : R) (ps : list (axis * R)) : quat :=
    match ps with
    | [] => once eps delta (Seg 0 0 0 (T - t0))
    | p :: ps' => qmul (chain eps delta (snd (win (pi_pulse p))) ps')
                       (qmul (once eps delta (pulse_seg (pi_pulse p)))
                             (once eps delta (Seg 0 0 0 (fst (win (pi_pulse p)) - t0))))
    end.
  Fixpoint open (t0 : R) (ps : list (axis * R)) : Prop :=
    match ps with
    | [] => 0 <= T - t0
    | p :: ps' => 0 <= fst (win (pi_pulse p)) - t0 /\ open (snd (win (pi_pulse p))) ps'
    end.

  Lemma idle_width t : W (idle t) = 0.
  Proof. assert (S := small_pos); apply width_idle; cbn [idle e_rabi e_det]; rewrite Rabs_R0; lra. Qed.
  Lemma win_idle t : 0 <= t <= T -> win (idle t) = (t, t).
  Proof.
    intros B; unfold L_Convert.win, window; rewrite idle_width; unfold centre; cbn [idle e_time].
    destruct (Req_EM_T t 0) as [->|]; [f_equal; field|]; destruct (Req_EM_T t T) as [->|]; f_equal; field.
  Qed.
  Lemma once_empty eps delta : once eps delta (Seg 0 0 0 0) = qone.
  Proof. unfold once, lasting; cbn [g_dur]; destruct (ltb 0 0) eqn:Q; auto; apply ltb_true in Q; lra. Qed.
  Lemma seg_idle t : pulse_seg (idle t) = Seg 0 0 0 0.
  Proof.
    assert (S := small_pos); unfold L_Convert.pulse_seg; cbn [idle e_rabi e_det]; rewrite Rabs_R0.
    destruct (Rle_dec 0 (/ 10 ^ 8)); [auto|lra].
  Qed.

  Lemma chain_weave eps delta ps : 0 < T -> forall t0,
    chain eps delta t0 ps =
    qmul (qevolution eps delta (filter lasting (weave (map pi_pulse ps ++ [idle T]))))
         (once eps delta (Seg 0 0 0 (match map pi_pulse ps ++ [idle T] with e :: _ => fst (win e) - t0 | [] => 0 end))).
  Proof.
    intros HT; induction ps as [|p ps IH]; intros t0.
    - cbn [map app chain L_Convert.weave gap_after]; rewrite !filter_once, seg_idle, once_empty, win_idle by lra.
      cbn [filter qevolution fst]; rewrite !qmul_1_l; auto.
    - cbn [chain map app]; rewrite IH.
      cbn [L_Convert.weave]; rewrite !filter_once; unfold gap_after.
      destruct (map pi_pulse ps ++ [idle T]) as [|e F] eqn:Q; [destruct ps; discriminate|].
      rewrite !qmul_assoc; auto.
  Qed.

  Lemma open_gaps ps : 0 < T -> forall e,
    open (snd (win e)) ps <-> (forall g, In g (gaps (map win (e :: map pi_pulse ps ++ [idle T]))) -> 0 <= g).
  Proof.
    intros HT; induction ps as [|p ps IH]; intros e.
    - cbn [open map app]; rewrite win_idle by lra; destruct (win e) as [a b]; cbn [gaps snd]; split.
      + intros H g [<-|[]]; auto.
      + intros H; apply H; left; auto.
    - cbn [open]; specialize (IH (pi_pulse p)); cbn [map app] in *.
      set (l := map win (map pi_pulse ps ++ [idle T])) in *.
      destruct (win e) as [a b], (win (pi_pulse p)) as [x y]; cbn [fst snd] in *.
      change (gaps ((a, b) :: (x, y) :: l)) with ((x - b) :: gaps ((x, y) :: l)); split.
      + intros [H1 H2] g [<-|I]; auto; apply IH; auto.
      + intros H; split; [apply H; left; auto|]; apply IH; intros g I; apply H; right; auto.
  Qed.

  (** widths of the pulses *)
  Definition wr : R := Rmax (PI / maxr) mn.
  Definition wz : R := Rmax (PI / maxd) mn.
  Definition wa (a : axis) : R := match a with AZ => wz | _ => wr end.
  Lemma wr_pos : 0 < wr.
  Proof. unfold wr; assert (P := PI_RGT_0); apply Rlt_le_trans with (2 := Rmax_l _ _); apply Rdiv_lt_0_compat; auto. Qed.
  Lemma wz_pos : 0 < wz.
  Proof. unfold wz; assert (P := PI_RGT_0); apply Rlt_le_trans with (2 := Rmax_l _ _); apply Rdiv_lt_0_compat; auto. Qed.

  Lemma pi_not_small : ~ Rabs PI <= / 10 ^ 8.
  Proof. assert (P := PI2_3_2); rewrite Rabs_pos_eq by lra; assert (/ 10 ^ 8 < 1) by (apply Rmult_lt_reg_r with (10 ^ 8); [apply pow_lt; lra|]; rewrite Rinv_l by (apply pow_nonzero; lra); lra); lra. Qed.

  Lemma pi_width a t : W (pi_pulse (a, t)) = wa a.
  Proof.
    assert (N := pi_not_small); assert (S := small_pos); assert (P := PI_RGT_0).
    unfold pulse_width; destruct a; cbn [pi_pulse e_rabi e_det wa]; unfold wr, wz.
    - destruct (Rle_dec (Rabs PI) (/ 10 ^ 8)); [tauto|auto].
    - destruct (Rle_dec (Rabs PI) (/ 10 ^ 8)); [tauto|auto].
    - rewrite Rabs_R0; destruct (Rle_dec 0 (/ 10 ^ 8)); [|lra]; destruct (Rle_dec (Rabs PI) (/ 10 ^ 8)); [tauto|].
      rewrite Rabs_pos_eq by lra; auto.
  Qed.
  Lemma pi_seg a t : pulse_seg (pi_pulse (a, t)) =
    match a with AX => Seg (PI / wr) 0 0 wr | AY => Seg (PI / wr) (PI / 2) 0 wr | AZ => Seg 0 0 (PI / wz) wz end.
  Proof.
    assert (N := pi_not_small); assert (S := small_pos).
    unfold L_Convert.pulse_seg; rewrite pi_width; destruct a; cbn [pi_pulse e_rabi e_det e_phi wa].
    - destruct (Rle_dec (Rabs PI) (/ 10 ^ 8)); [tauto|auto].
    - destruct (Rle_dec (Rabs PI) (/ 10 ^ 8)); [tauto|auto].
    - rewrite Rabs_R0; destruct (Rle_dec 0 (/ 10 ^ 8)); [|lra]; destruct (Rle_dec (Rabs PI) (/ 10 ^ 8)); [tauto|auto].
  Qed.
  Lemma pi_win a t : win (pi_pulse (a, t)) = (centre T (wa a) t - wa a / 2, centre T (wa a) t + wa a / 2).
  Proof. unfold L_Convert.win, window; rewrite pi_width; destruct a; auto. Qed.
  Lemma centred_cons a t ps : centred maxr maxd mn T ((a, t) :: ps) = (a, centre T (wa a) t) :: centred maxr maxd mn T ps.
  Proof. unfold centred; cbn [map fst snd]; rewrite pi_width; auto. Qed.

  Lemma gap_once eps delta x : 0 <= x -> once eps delta (Seg 0 0 0 x) = qz (delta * x).
  Proof.
    intros [X|<-].
    - unfold once, lasting; cbn [g_dur]; rewrite (proj2 (ltb_true 0 x) X); unfold qnoisy; cbn [g_rabi g_phi g_det g_dur].
      rewrite qseg_exp, !Rmult_0_r, !Rmult_0_l, Rplus_0_l by auto; apply qexp_z.
    - rewrite once_empty, Rmult_0_r, qz_0; auto.
  Qed.

  Lemma pulse_once eps delta a t : once eps delta (pulse_seg (pi_pulse (a, t))) =
    match a with
    | AX => qnoisy eps delta (Seg (PI / wr) 0 0 wr)
    | AY => qnoisy eps delta (Seg (PI / wr) (PI / 2) 0 wr)
    | AZ => qz (PI + delta * wz)
    end.
  Proof.
    assert (WR := wr_pos); assert (WZ := wz_pos).
    rewrite pi_seg; unfold once, lasting; destruct a; cbn [g_dur].
    - rewrite (proj2 (ltb_true 0 wr) WR); auto.
    - rewrite (proj2 (ltb_true 0 wr) WR); auto.
    - rewrite (proj2 (ltb_true 0 wz) WZ); unfold qnoisy; cbn [g_rabi g_phi g_det g_dur].
      rewrite qseg_exp, !Rmult_0_r, !Rmult_0_l by auto; rewrite qexp_z; f_equal; field; lra.
  Qed.

  Lemma pulse_value a t : once 0 0 (pulse_seg (pi_pulse (a, t))) = qpauli a.
  Proof.
    assert (WR := wr_pos); assert (WZ := wz_pos); assert (P := PI_RGT_0).
    assert (Q : 0 < PI / wr) by (apply Rdiv_lt_0_compat; auto).
    rewrite pulse_once; destruct a; cbn [qpauli].
    - rewrite qnoisy_resonant by lra; replace ((1 + 0) * (PI / wr) * wr / 2) with (PI / 2) by (field; lra).
      unfold qplanar; rewrite cos_PI2, sin_PI2, cos_0, sin_0; apply q_eq; cbn; ring.
    - rewrite qnoisy_resonant by lra; replace ((1 + 0) * (PI / wr) * wr / 2) with (PI / 2) by (field; lra).
      unfold qplanar; rewrite cos_PI2, sin_PI2; apply q_eq; cbn; ring.
    - rewrite Rmult_0_l, Rplus_0_r; unfold qz; rewrite cos_PI2, sin_PI2; auto.
  Qed.

  Lemma pulse_detuned a t : qderive (fun d => once 0 d (pulse_seg (pi_pulse (a, t)))) 0
    match a with AZ => Q4 (- wz / 2) 0 0 0 | _ => Q4 0 0 0 (wr / PI) end.
  Proof.
    assert (WR := wr_pos); assert (WZ := wz_pos); assert (P := PI_RGT_0).
    assert (Q : 0 < PI / wr) by (apply Rdiv_lt_0_compat; auto).
    assert (Q1 : Q4 0 0 0 (sin (PI / wr * wr / 2) / (PI / wr)) = Q4 0 0 0 (wr / PI)).
    { replace (PI / wr * wr / 2) with (PI / 2) by (field; lra); rewrite sin_PI2; f_equal; field; lra. }
    destruct a.
    - apply (qderive_ext (fun d => qnoisy 0 d (Seg (PI / wr) 0 0 wr))); [intros d; rewrite pulse_once; auto|].
      rewrite <- Q1; apply qnoisy_detuning; auto.
    - apply (qderive_ext (fun d => qnoisy 0 d (Seg (PI / wr) (PI / 2) 0 wr))); [intros d; rewrite pulse_once; auto|].
      rewrite <- Q1; apply qnoisy_detuning; auto.
    - apply (qderive_ext (fun d => qz (PI + d * wz))); [intros d; rewrite pulse_once; auto|].
      split; [|split; [|split]]; unfold qz; cbn [qa qb qc qd]; auto_derive; auto; rewrite Rmult_0_l, Rplus_0_r.
      + replace (PI * / 2) with (PI / 2) by auto; rewrite sin_PI2; field.
      + replace (PI * / 2) with (PI / 2) by auto; rewrite cos_PI2; field.
  Qed.

  Lemma pulse_amplified a t : qderive (fun e => once e 0 (pulse_seg (pi_pulse (a, t)))) 0
    match a with AZ => qzero | _ => Q4 (- (PI / 2)) 0 0 0 end.
  Proof.
    assert (WR := wr_pos); assert (WZ := wz_pos); assert (P := PI_RGT_0).
    assert (Q : 0 < PI / wr) by (apply Rdiv_lt_0_compat; auto).
    assert (K : forall phi, qderive (fun e => qnoisy e 0 (Seg (PI / wr) phi 0 wr)) 0 (Q4 (- (PI / 2)) 0 0 0)).
    { intros phi; assert (D := planar_derive PI phi 0).
      assert (L : locally 0 (fun e => qplanar ((1 + e) * PI / 2) phi = qnoisy e 0 (Seg (PI / wr) phi 0 wr))).
      { eapply filter_imp; [|exact near_zero_pos]; intros e E; rewrite qnoisy_resonant by auto; f_equal; field; lra. }
      assert (E0 : (1 + 0) * PI / 2 = PI / 2) by field.
      assert (V : L_Quat.qscale (PI / 2) (planar_1 ((1 + 0) * PI / 2) phi) = Q4 (- (PI / 2)) 0 0 0).
      { rewrite E0; unfold L_Quat.qscale, planar_1; rewrite sin_PI2, cos_PI2; apply q_eq; cbn; ring. }
      rewrite V in D; destruct D as [D1 [D2 [D3 D4]]].
      split; [|split; [|split]].
      - eapply is_derive_ext_loc; [|exact D1]; eapply filter_imp; [|exact L]; intros e X; cbn beta; rewrite X; auto.
      - eapply is_derive_ext_loc; [|exact D2]; eapply filter_imp; [|exact L]; intros e X; cbn beta; rewrite X; auto.
      - eapply is_derive_ext_loc; [|exact D3]; eapply filter_imp; [|exact L]; intros e X; cbn beta; rewrite X; auto.
      - eapply is_derive_ext_loc; [|exact D4]; eapply filter_imp; [|exact L]; intros e X; cbn beta; rewrite X; auto. }
    destruct a.
    - eapply qderive_ext; [|apply (K 0)]; intros d; rewrite pulse_once; auto.
    - eapply qderive_ext; [|apply (K (PI / 2))]; intros d; rewrite pulse_once; auto.
    - apply (qderive_ext (fun _ => qz (PI + 0 * wz))); [intros d; rewrite pulse_once; auto|]; apply qderive_const.
  Qed.

  Lemma switched_shift sign t0 s ts : switched_from (fun t => t) sign t0 T ts =
    switched_from (fun t => t) sign s T ts + sign * (s - t0).
  Proof. destruct ts; cbn [switched_from]; ring. Qed.
  Lemma switched_sign sign t0 ts : switched_from (fun t => t) (- sign) t0 T ts = - switched_from (fun t => t) sign t0 T ts.
  Proof. revert sign t0; induction ts as [|t ts IH]; intros sign t0; cbn [switched_from]; [ring|]; rewrite (IH (- sign)); ring. Qed.

  Definition tilt (t0 : R) (ps : list (axis * R)) : quat :=
    Q4 0 (- (wr / PI) * signed_count AY (other_than AX) ps) (wr / PI * signed_count AX (other_than AY) ps)
         (switched_from (fun t => t) 1 t0 T (flip_times (centred maxr maxd mn T ps)) / 2).

  Lemma chain_detuned ps : forall t0, open t0 ps ->
    qderive (fun d => chain 0 d t0 ps) 0 (qmul (chain 0 0 t0 ps) (tilt t0 ps)).
  Proof.
    induction ps as [|[a t] ps IH]; intros t0 O.
    - cbn [chain open] in *; rewrite gap_once by auto.
      apply (qderive_ext (fun d => qz (d * (T - t0)))); [intros d; rewrite gap_once; auto|].
      eapply qderive_eq; [apply qz_derive|]; rewrite Rmult_0_l, qz_0, qmul_1_l.
      unfold tilt; cbn [signed_count centred map flip_times switched_from]; apply q_eq; cbn [qa qb qc qd]; field; apply PI_neq0.
    - destruct O as [O1 O2]; rewrite pi_win in O1, O2; cbn [fst snd] in O1, O2.
      cbn [chain]; rewrite pi_win; cbn [fst snd].
      set (u := centre T (wa a) t) in *; assert (I := IH _ O2).
      eapply qderive_eq.
      + apply qderive_mul; [exact I|]; apply qderive_mul; [apply pulse_detuned|].
        apply (qderive_ext (fun d => qz (d * (u - wa a / 2 - t0)))); [intros d; rewrite gap_once; auto|apply qz_derive].
      + cbn beta; rewrite !gap_once, !Rmult_0_l, !qz_0, !pulse_value, !qmul_1_r by auto.
        set (C := chain 0 0 (u + wa a / 2) ps).
        assert (K : qadd (qmul (tilt (u + wa a / 2) ps) (qpauli a))
                         (qadd match a with AZ => Q4 (- wz / 2) 0 0 0 | _ => Q4 0 0 0 (wr / PI) end
                               (qmul (qpauli a) (Q4 0 0 0 ((u - wa a / 2 - t0) / 2)))) = qmul (qpauli a) (tilt t0 ((a, t) :: ps))).
        { assert (P := PI_neq0); unfold tilt; rewrite centred_cons; fold u; cbn [signed_count].
          destruct a; cbn [flip_times axis_eqb other_than negb switched_from wa].
          - rewrite switched_sign, (switched_shift 1 u (u + wr / 2)); apply q_eq; cbn [qa qb qc qd qmul qadd qpauli]; field; auto.
          - rewrite switched_sign, (switched_shift 1 u (u + wr / 2)); apply q_eq; cbn [qa qb qc qd qmul qadd qpauli]; field; auto.
          - rewrite (switched_shift 1 t0 (u + wz / 2)); apply q_eq; cbn [qa qb qc qd qmul qadd qpauli]; field; auto. }
        rewrite <- (qmul_assoc C (qpauli a)), <- K; clear K; clearbody C; rewrite <- qmul_assoc; apply qmul_add_l'.
  Qed.

  Definition lean (ps : list (axis * R)) : quat :=
    Q4 0 (PI / 2 * signed_count AX (other_than AX) ps) (PI / 2 * signed_count AY (other_than AY) ps) 0.

  Lemma chain_amplified ps : forall t0, open t0 ps ->
    qderive (fun e => chain e 0 t0 ps) 0 (qmul (chain 0 0 t0 ps) (lean ps)).
  Proof.
    induction ps as [|[a t] ps IH]; intros t0 O.
    - cbn [chain open] in *; rewrite gap_once by auto.
      apply (qderive_ext (fun e => qz (0 * (T - t0)))); [intros d; rewrite gap_once; auto|].
      eapply qderive_eq; [apply qderive_const|]; rewrite Rmult_0_l, qz_0, qmul_1_l.
      unfold lean; cbn [signed_count]; apply q_eq; cbn [qa qb qc qd qzero]; field.
    - destruct O as [O1 O2]; rewrite pi_win in O1, O2; cbn [fst snd] in O1, O2.
      cbn [chain]; rewrite pi_win; cbn [fst snd].
      set (u := centre T (wa a) t) in *; assert (I := IH _ O2).
      eapply qderive_eq.
      + apply qderive_mul; [exact I|]; apply qderive_mul; [apply pulse_amplified|].
        apply (qderive_ext (fun d => qz (0 * (u - wa a / 2 - t0)))); [intros d; rewrite gap_once; auto|apply qderive_const].
      + cbn beta; rewrite !gap_once, !Rmult_0_l, !qz_0, !pulse_value, !qmul_1_r by auto.
        set (C := chain 0 0 (u + wa a / 2) ps).
        assert (K : qadd (qmul (lean ps) (qpauli a))
                         (qadd match a with AZ => qzero | _ => Q4 (- (PI / 2)) 0 0 0 end
                               (qmul (qpauli a) qzero)) = qmul (qpauli a) (lean ((a, t) :: ps))).
        { unfold lean; cbn [signed_count].
          destruct a; cbn [axis_eqb other_than negb]; apply q_eq; cbn [qa qb qc qd qmul qadd qpauli qzero]; field. }
        rewrite <- (qmul_assoc C (qpauli a)), <- K; clear K; clearbody C; rewrite <- qmul_assoc; apply qmul_add_l'.
  Qed.

  Lemma unit_chain eps delta ps : forall t0, unit_quat (chain eps delta t0 ps).
  Proof.
    induction ps as [|p ps IH]; intros t0; cbn [chain]; [apply unit_once|].
    repeat apply unit_mul; auto; apply unit_once.
  Qed.
End Chain.

Lemma qmul_zero C v : unit_quat C -> qmul C v = qzero -> v = qzero.
Proof.
  intros U E.
  assert (N : (qa C * qa C + qb C * qb C + qc C * qc C + qd C * qd C) * (qa v * qa v + qb v * qb v + qc v * qc v + qd v * qd v)
     = qa (qmul C v) * qa (qmul C v) + qb (qmul C v) * qb (qmul C v) + qc (qmul C v) * qc (qmul C v) + qd (qmul C v) * qd (qmul C v))
    by (cbn [qmul qa qb qc qd]; ring).
  rewrite E in N; cbn [qzero qa qb qc qd] in N; unfold unit_quat, qnorm2 in U.
  assert (S : qa v * qa v + qb v * qb v + qc v * qc v + qd v * qd v = 0).
  { replace (qa C * qa C + qb C * qb C + qc C * qc C + qd C * qd C) with 1 in N by (rewrite <- U; ring); lra. }
  apply q_eq; cbn [qzero qa qb qc qd]; nra.
Qed.

Lemma flat_iff f C v : unit_quat C -> qderive f 0 (qmul C v) -> flat 1 (fun t => qmat (f t)) <-> v = qzero.
Proof.
  intros U D; split.
  - intros [F1 [F2 [F3 [F4 _]]]]; apply (qmul_zero C); auto.
    destruct D as [D1 [D2 [D3 D4]]].
    assert (K : forall g a, flat_entry 1 g -> is_derive g 0 a -> a = 0).
    { intros g a F G; assert (F' := F 1%nat (conj (le_n _) (le_n _))); cbn in F'.
      apply is_derive_unique in F'; apply is_derive_unique in G; change (Derive g 0 = 0) in F'; congruence. }
    apply (K _ _) in D1; [|exact F1].
    assert (E4 : - qd (qmul C v) = 0) by (apply (K _ _ F2); apply (is_derive_opp (fun t => qd (f t))); auto).
    assert (E3 : - qc (qmul C v) = 0) by (apply (K _ _ F3); apply (is_derive_opp (fun t => qc (f t))); auto).
    assert (E2 : - qb (qmul C v) = 0) by (apply (K _ _ F4); apply (is_derive_opp (fun t => qb (f t))); auto).
    apply q_eq; cbn [qzero qa qb qc qd]; lra.
  - intros ->; apply flat_qderive; eapply qderive_eq; [exact D|]; apply q_eq; cbn; ring.
Qed.

Section Ends.
  Variables (maxr maxd mn T : R).
  Hypothesis HT : 0 < T.
  Notation win := (win maxr maxd mn T).
  Notation weave := (weave maxr maxd mn T).
  Notation pulse_seg := (pulse_seg maxr maxd mn).

  Lemma empty_gap g l : g_dur g = 0 -> filter lasting (g :: l) = filter lasting l.
  Proof. intros H; cbn [filter]; unfold lasting at 1; rewrite H; destruct (ltb 0 0) eqn:Q; auto; apply ltb_true in Q; lra. Qed.

  Lemma weave_end F : forall e, snd (win (last (e :: F) e)) = T ->
    filter lasting (weave ((e :: F) ++ [idle T])) = filter lasting (weave (e :: F)).
  Proof.
    induction F as [|f F IH]; intros e L.
    - cbn [app last L_Convert.weave gap_after] in *; rewrite win_idle by lra; cbn [fst]; rewrite L, Rminus_diag_eq by auto.
      rewrite seg_idle; cbn [filter]; destruct (lasting (pulse_seg e)); destruct (lasting (Seg 0 0 0 0)) eqn:Q; auto;
        unfold lasting in Q; apply ltb_true in Q; cbn in Q; lra.
    - assert (LE : forall d d' : event, last (f :: F) d = last (f :: F) d').
      { clear; intros d d'; revert f; induction F as [|g F IH]; intros f; auto; apply (IH g). }
      change (last (e :: f :: F) e) with (last (f :: F) e) in L; rewrite (LE e f) in L.
      assert (I := IH f L); change ((e :: f :: F) ++ [idle T]) with (e :: (f :: F) ++ [idle T]).
      set (A := (f :: F) ++ [idle T]) in *; cbn [L_Convert.weave].
      assert (G : gap_after maxr maxd mn T A e = gap_after maxr maxd mn T (f :: F) e) by reflexivity.
      rewrite G; fold (weave (f :: F)); set (X := weave A) in *; set (Y := weave (f :: F)) in *; cbn [filter]; rewrite I; auto.
  Qed.

  Lemma gaps_end F : forall e, snd (win (last (e :: F) e)) = T ->
    (forall g, In g (gaps (map win (e :: F))) -> 0 <= g) ->
    forall g, In g (gaps (map win ((e :: F) ++ [idle T]))) -> 0 <= g.
  Proof.
    induction F as [|f F IH]; intros e L H g I.
    - cbn [app last map] in *; rewrite win_idle in I by lra; destruct (win e) as [a b]; cbn [gaps snd In] in *.
      destruct I as [<-|[]]; lra.
    - assert (LE : forall d d' : event, last (f :: F) d = last (f :: F) d').
      { clear; intros d d'; revert f; induction F as [|g F IH]; intros f; auto; apply (IH g). }
      change (last (e :: f :: F) e) with (last (f :: F) e) in L; rewrite (LE e f) in L.
      specialize (IH f L); cbn [map app] in *.
      set (A := map win F) in *; set (B := map win (F ++ [idle T])) in *.
      destruct (win e) as [a b], (win f) as [x y].
      change (gaps ((a, b) :: (x, y) :: A)) with ((x - b) :: gaps ((x, y) :: A)) in H.
      change (gaps ((a, b) :: (x, y) :: B)) with ((x - b) :: gaps ((x, y) :: B)) in I.
      destruct I as [<-|I]; [apply H; left; auto|]; apply IH; auto; intros h G; apply H; right; auto.
  Qed.

  Lemma win_start e : e_time e = 0 -> fst (win e) = 0.
  Proof. intros E; unfold L_Convert.win, window, centre; rewrite E; destruct (Req_EM_T 0 0); cbn [fst]; lra. Qed.
  Lemma win_end e : e_time e = T -> snd (win e) = T.
  Proof.
    intros E; unfold L_Convert.win, window, centre; rewrite E; destruct (Req_EM_T T 0); [lra|].
    destruct (Req_EM_T T T); cbn [snd]; lra.
  Qed.

  Lemma weave_start e F : fst (win e) = 0 -> filter lasting (weave (idle 0 :: e :: F)) = filter lasting (weave (e :: F)).
  Proof.
    intros E; change (weave (idle 0 :: e :: F)) with (pulse_seg (idle 0) :: Seg 0 0 0 (fst (win e) - snd (win (idle 0))) :: weave (e :: F)).
    rewrite seg_idle, win_idle, E by lra; cbn [snd]; rewrite !empty_gap; cbn [g_dur]; auto; lra.
  Qed.

  Lemma full_ends l : filter lasting (weave (with_ends T l)) = filter lasting (weave (idle 0 :: l ++ [idle T])) /\
    ((forall g, In g (gaps (map win (with_ends T l))) -> 0 <= g) ->
     forall g, In g (gaps (map win (idle 0 :: l ++ [idle T]))) -> 0 <= g).
  Proof.
    unfold with_ends; destruct l as [|e l].
    { cbn [app last idle e_time]; destruct (Req_EM_T 0 T); [lra|]; auto. }
    set (post := if Req_EM_T (e_time (last (e :: l) (idle 0))) T then [] else [idle T]).
    assert (P1 : filter lasting (weave ((e :: l) ++ post)) = filter lasting (weave ((e :: l) ++ [idle T])) /\
                 filter lasting (weave ((idle 0 :: e :: l) ++ post)) = filter lasting (weave ((idle 0 :: e :: l) ++ [idle T])) /\
                 ((forall g, In g (gaps (map win ((e :: l) ++ post))) -> 0 <= g) ->
                  forall g, In g (gaps (map win ((e :: l) ++ [idle T]))) -> 0 <= g) /\
                 ((forall g, In g (gaps (map win ((idle 0 :: e :: l) ++ post))) -> 0 <= g) ->
                  forall g, In g (gaps (map win ((idle 0 :: e :: l) ++ [idle T]))) -> 0 <= g)).
    { unfold post; destruct (Req_EM_T (e_time (last (e :: l) (idle 0))) T) as [Q|Q]; [|auto].
      assert (LE : forall d d' : event, last (e :: l) d = last (e :: l) d').
      { clear; intros d d'; revert e; induction l as [|g F IH]; intros f; auto; apply (IH g). }
      apply win_end in Q; rewrite !app_nil_r.
      assert (Q1 : snd (win (last (e :: l) e)) = T) by (rewrite (LE e (idle 0)); auto).
      assert (Q2 : snd (win (last (idle 0 :: e :: l) (idle 0))) = T) by exact Q.
      split; [symmetry; apply weave_end; auto|]; split; [symmetry; apply (weave_end (e :: l)); auto|].
      split; [apply gaps_end; auto|apply (gaps_end (e :: l)); auto]. }
    destruct P1 as [P1 [P2 [P3 P4]]].
    destruct (Req_EM_T (e_time e) 0) as [Q|Q]; [|split; [exact P2|exact P4]].
    apply win_start in Q; cbn [app] in *; split.
    - rewrite P1, weave_start; auto.
    - intros H g I; specialize (P3 H).
      set (B := map win (l ++ [idle T])) in *; cbn [map] in I, P3; fold B in I, P3; rewrite win_idle in I by lra.
      destruct (win e) as [x y]; cbn [fst] in Q; change (gaps ((0, 0) :: (x, y) :: B)) with ((x - 0) :: gaps ((x, y) :: B)) in I.
      destruct I as [<-|I]; [lra|auto].
  Qed.
End Ends.

Section Converted.
  Variables (T : R) (n0 : option string) (ps : list (axis * R)) (maxr maxd mn : R) (name : option string) (c : driven_control) (segs : list seg).
  Hypothesis CS : constructible_sequence (sequence_of T n0 (map pi_pulse ps)).
  Hypothesis LT : / 10 ^ 8 < T.
  Hypothesis E : convert_dds_to_driven_control (sequence_of T n0 (map pi_pulse ps)) maxr maxd mn name = Ok c.
  Hypothesis D' : describes segs c.
  Hypothesis DU : duration c = T.

  Lemma converted_chain : 0 < maxr /\ 0 < maxd /\ 0 <= mn /\ open maxr maxd mn T 0 ps /\
    forall eps delta, noisy_evolution eps delta segs = qmat (chain maxr maxd mn T eps delta 0 ps).
  Proof.
    destruct (conversion_result _ _ _ _ _ _ _ _ CS E) as [HT [B [C [D _]]]].
    assert (segs = converted maxr maxd mn T (map pi_pulse ps)) by (eapply describes_unique; eauto); subst segs.
    destruct (full_ends maxr maxd mn T HT (map pi_pulse ps)) as [WE GE].
    destruct (conversion_duration T n0 _ maxr maxd mn name c CS E) as [_ [_ [L _]]]; specialize (L LT); rewrite DU in L.
    assert (O : overlap (idle_times maxr maxd mn T (map pi_pulse ps)) = 0) by lra.
    assert (O0 := proj1 (no_overlap _) O); clear O; rename O0 into O.
    split; [apply C|]; split; [apply C|]; split; [apply C|].
    assert (W0 : win maxr maxd mn T (idle 0) = (0, 0)) by (apply win_idle; lra).
    split.
    - replace 0 with (snd (win maxr maxd mn T (idle 0))) by (rewrite W0; auto).
      apply open_gaps; auto.
    - intros eps delta; rewrite converted_long, noisy_evolution_qmat by auto; f_equal; rewrite WE.
      change (weave maxr maxd mn T (idle 0 :: map pi_pulse ps ++ [idle T])) with (pulse_seg maxr maxd mn (idle 0) ::
        Seg 0 0 0 (gap_after maxr maxd mn T (map pi_pulse ps ++ [idle T]) (idle 0)) :: weave maxr maxd mn T (map pi_pulse ps ++ [idle T])).
      rewrite !filter_once, seg_idle, once_empty, qmul_1_r; unfold gap_after; rewrite W0; cbn [snd].
      symmetry; apply chain_weave; auto.
  Qed.

  Theorem first_order_detuning : dephasing_robust 1 segs <->
    switched (fun t => t) T (flip_times (centred maxr maxd mn T ps)) = 0 /\
    signed_count AX (other_than AY) ps = 0 /\ signed_count AY (other_than AX) ps = 0.
  Proof.
    destruct converted_chain as [Hr [Hd [Hmn [O H]]]].
    assert (F : dephasing_robust 1 segs <-> flat 1 (fun d => qmat (chain maxr maxd mn T 0 d 0 ps))).
    { unfold dephasing_robust; split; intros X; (eapply flat_ext_loc; [|exact X]); exists (mkposreal 1 Rlt_0_1); intros d _; auto; symmetry; auto. }
    rewrite F, (flat_iff _ _ _ (unit_chain _ _ _ _ _ _ _ _) (chain_detuned maxr maxd mn T Hr Hd ps 0 O)).
    assert (W := wr_pos maxr mn Hr); assert (P := PI_RGT_0); assert (Q : 0 < wr maxr mn / PI) by (apply Rdiv_lt_0_compat; auto).
    unfold tilt; fold (switched (fun t => t) T (flip_times (centred maxr maxd mn T ps))); split.
    - intros X; assert (X1 := f_equal qb X); assert (X2 := f_equal qc X); assert (X3 := f_equal qd X); cbn [qb qc qd qzero] in *.
      split; [lra|]; split; nra.
    - intros [-> [-> ->]]; apply q_eq; cbn; field; lra.
  Qed.

  Theorem first_order_amplitude : amplitude_robust 1 segs <->
    signed_count AX (other_than AX) ps = 0 /\ signed_count AY (other_than AY) ps = 0.
  Proof.
    destruct converted_chain as [Hr [Hd [Hmn [O H]]]].
    assert (F : amplitude_robust 1 segs <-> flat 1 (fun d => qmat (chain maxr maxd mn T d 0 0 ps))).
    { unfold amplitude_robust; split; intros X; (eapply flat_ext_loc; [|exact X]); exists (mkposreal 1 Rlt_0_1); intros d _; auto; symmetry; auto. }
    rewrite F, (flat_iff _ _ _ (unit_chain _ _ _ _ _ _ _ _) (chain_amplified maxr maxd mn T Hr Hd ps 0 O)).
    assert (P := PI_RGT_0); unfold lean; split.
    - intros X; assert (X1 := f_equal qb X); assert (X2 := f_equal qc X); cbn [qb qc qd qzero] in *; split; nra.
    - intros [-> ->]; apply q_eq; cbn; field.
  Qed.
End Converted.
