(** * Converted sequences under noise that varies in time *)

From Coq Require Import Lia.
From Verif Require Export L_DriveControl.
From Verif Require L_FloatPipeline.
Import ListNotations.
Open Scope string_scope.
Open Scope list_scope.
Open Scope R_scope.

(** ** Segments that last *)

Definition ran (eps beta : R -> R) (t0 : R) (g : seg) (V : M2) : Prop :=
  (0 < g_dur g /\ driven eps beta g t0 (t0 + g_dur g) V) \/ (g_dur g = 0 /\ V = mone).

Lemma control_filter eps beta t0 g l V : 0 <= g_dur g -> noisy_control eps beta t0 (filter lasting (g :: l)) V ->
  exists V1 V2, ran eps beta t0 g V1 /\ noisy_control eps beta (t0 + g_dur g) (filter lasting l) V2 /\ V = mmul V2 V1.
Proof.
  intros P N; cbn [filter] in N; unfold lasting in N at 1; destruct (ltb 0 (g_dur g)) eqn:L.
  - apply ltb_true in L; cbn [noisy_control] in N; destruct N as [V1 [V2 [D [N ->]]]].
    exists V1, V2; split; auto; left; auto.
  - apply ltb_false in L; exists mone, V; rewrite mmul_1_r.
    assert (Z : g_dur g = 0) by lra; rewrite Z, Rplus_0_r; split; auto; right; auto.
Qed.

Section Pulses.
  Variables (maxr maxd mn T : R) (eps beta : R -> R) (E M : R).
  Hypothesis Hr : 0 < maxr.
  Hypothesis Hd : 0 < maxd.
  Hypothesis Hmn : 0 <= mn.
  Hypothesis HE : bounded_by eps E 0 T.
  Hypothesis HM : bounded_by beta M 0 T.
  Hypothesis HC : forall t, continuous beta t.
  Notation W := (pulse_width maxr maxd mn).
  Notation win := (win maxr maxd mn T).
  Notation pulse_seg := (pulse_seg maxr maxd mn).
  Notation weave := (weave maxr maxd mn T).
  Notation B := (fun t => RInt beta 0 t).

  Lemma integral_bound a b : 0 <= a -> a <= b -> b <= T -> Rabs (B b - B a) <= M * (b - a).
  Proof.
    intros A AB BT.
    assert (IB : forall u v, ex_RInt beta u v) by (intros; apply (ex_RInt_continuous beta); intros; apply HC).
    assert (CH : B b = B a + RInt beta a b) by (symmetry; apply (RInt_Chasles beta 0 a b); auto).
    cbv beta in *; replace (RInt beta 0 b - RInt beta 0 a) with (RInt beta a b) by lra.
    rewrite Rmult_comm; apply (abs_RInt_le_const beta a b M); auto.
    intros t I; apply HM; lra.
  Qed.

  Lemma ran_idle t0 w V : ran eps beta t0 (Seg 0 0 0 w) V -> V = qmat (qz (B (t0 + w) - B t0)).
  Proof.
    intros [[P D]|[Z ->]]; cbn [g_dur] in *.
    - eapply driven_idle; eauto.
    - subst w; rewrite Rplus_0_r, Rminus_diag_eq, qz_0, qmat_one; auto.
  Qed.

  Lemma qpul_idle e : e_rabi e = 0 -> qpul e = qz (e_det e).
  Proof. intros Z; unfold qpul; rewrite Z, !Rmult_0_l, qseg_exp, Rmult_0_l, Rmult_1_r by lra; apply qexp_z. Qed.

  Lemma ran_pulse e ta tm tb V : clean e -> 0 <= e_rabi e -> 0 <= ta -> ta <= tm -> tm <= tb -> tb = ta + W e -> tb <= T ->
    ran eps beta ta (pulse_seg e) V ->
    exists v, V = qmat v /\ unit_quat v /\
      qnear (M * W e + E * e_rabi e / 2) v (qmul (qz (B tb - B tm)) (qmul (qpul e) (qz (B tm - B ta)))).
  Proof.
    intros K P TA TM TB EB BT Rn.
    assert (S0 : 0 < / 10 ^ 8) by (apply Rinv_0_lt_compat, pow_lt; lra).
    assert (QE : 0 < W e -> exists s, pulse_seg e = s /\ g_dur s = W e /\ 0 <= g_rabi s /\ g_rabi s * W e = e_rabi e /\
      qseg (g_rabi s * cos (g_phi s)) (g_rabi s * sin (g_phi s)) (g_det s) (W e) = qpul e).
    { intros WP; exists (pulse_seg e); split; auto; split; [apply pulse_seg_dur; auto|].
      unfold L_Convert.pulse_seg.
      destruct (Rle_dec (Rabs (e_rabi e)) (/ 10 ^ 8)) as [SR|SR].
      - assert (R0 : e_rabi e = 0).
        { destruct K as [[_ [K|K]]|[K _]]; auto; unfold negligible in K; lra. }
        destruct (Rle_dec (Rabs (e_det e)) (/ 10 ^ 8)) as [SD|SD].
        + rewrite (width_idle maxr maxd mn e SR SD) in WP; lra.
        + cbn [g_rabi g_phi g_det g_dur]; split; [lra|split; [rewrite R0; ring|]].
          rewrite qpul_idle, qseg_exp, !Rmult_0_l by auto; rewrite qexp_z; f_equal; field; lra.
      - assert (D : e_det e = 0).
        { destruct K as [[K _]|[K _]]; auto; rewrite K, Rabs_R0 in SR; lra. }
        cbn [g_rabi g_phi g_det g_dur]; split; [apply Rdiv_le_0_compat; lra|split; [field; lra|]].
        unfold qpul; rewrite !qseg_exp by lra; f_equal; [field; lra|field; lra|rewrite D; ring]. }
    destruct Rn as [[WP D]|[WZ ->]].
    - rewrite pulse_seg_dur in WP by auto; destruct (QE WP) as [s [ES [DS [RS [RW QS]]]]].
      rewrite ES, DS in D.
      destruct (driven_near eps beta s ta (W e) V E M ltac:(lra) RS D) as [v [-> [U N]]].
      { intros t I; apply HE; lra. }
      { intros t I; apply HM; lra. }
      rewrite QS, RW in N; exists v; split; auto; split; auto.
      assert (I1 := integral_bound ta tm TA TM ltac:(lra)); assert (I2 := integral_bound tm tb ltac:(lra) TB BT).
      eapply qnear_mono; [|eapply qnear_trans; [exact N|]].
      2:{ set (q := qpul e).
          replace q with (qmul (qz 0) (qmul q (qz 0))) at 1 by (rewrite qz_0, qmul_1_r, qmul_1_l; auto).
          assert (UQ : unit_quat q) by apply unit_qseg.
          apply qnear_mul; [apply unit_qz|apply unit_mul; [auto|apply unit_qz]|apply qz_near|].
          apply qnear_left; auto; apply qz_near. }
      rewrite !Rminus_0_l, !Rabs_Ropp; subst tb; lra.
    - rewrite pulse_seg_dur in WZ by auto.
      assert (ET : tm = ta /\ tb = ta) by lra; destruct ET as [-> EB']; rewrite EB'.
      assert (QP : e_rabi e = 0 /\ qpul e = qone).
      { destruct (Rle_dec (Rabs (e_rabi e)) (/ 10 ^ 8)) as [SR|SR].
        - assert (R0 : e_rabi e = 0).
          { destruct K as [[_ [K|K]]|[K _]]; auto; unfold negligible in K; lra. }
          split; auto; rewrite qpul_idle by auto.
          destruct (Rle_dec (Rabs (e_det e)) (/ 10 ^ 8)) as [SD|SD].
          + assert (D : e_det e = 0).
            { destruct K as [[K _]|[_ K]]; auto; unfold negligible in K; lra. }
            rewrite D; apply qz_0.
          + destruct (width_det maxr maxd mn Hd e ltac:(lra) ltac:(lra)); lra.
        - destruct (width_rabi maxr maxd mn Hr e P ltac:(lra)); lra. }
      destruct QP as [R0 QP]; exists qone; split; [symmetry; apply qmat_one|]; split; [apply unit_one|].
      rewrite QP, R0, WZ, Rminus_diag_eq, qz_0, !qmul_1_l by auto.
      replace (M * 0 + E * 0 / 2) with 0 by field; apply qnear_refl.
  Qed.

  Definition dcost (e : event) : R := M * W e + E * e_rabi e / 2.

  Lemma weave_driven F : forall e V, (forall f, In f (e :: F) -> clean f /\ 0 <= e_rabi f /\ 0 <= e_time f <= T) ->
    snd (win (last (e :: F) e)) = T -> 0 <= fst (win e) -> (forall g, In g (gaps (map win (e :: F))) -> 0 <= g) ->
    noisy_control eps beta (fst (win e)) (filter lasting (weave (e :: F))) V ->
    exists v, V = qmat v /\ unit_quat v /\ qnear (total (map dcost (e :: F))) v (qfrom B (fst (win e)) T (e :: F)).
  Proof.
    induction F as [|f F IH]; intros e V H L P G N.
    - destruct (H e (or_introl eq_refl)) as [K [R0 BT]]; assert (WT := window_time maxr maxd mn T Hmn e BT).
      assert (WW := win_width maxr maxd mn T e); cbn [last] in L.
      cbn [L_Convert.weave gap_after] in N; apply control_filter in N;
        [|rewrite pulse_seg_dur by auto; apply width_nonneg; auto].
      destruct N as [V1 [V2 [R1 [N ->]]]]; apply control_filter in N; [|cbn; lra].
      destruct N as [V3 [V4 [[[Q _]|[_ ->]] [N ->]]]]; [cbn in Q; lra|].
      cbn in N; subst V4; rewrite !mmul_1_l.
      destruct (ran_pulse e (fst (win e)) (e_time e) (snd (win e)) V1) as [v [-> [U NV]]]; auto; try lra.
      exists v; split; auto; split; auto; cbn [map total qfrom]; rewrite Rplus_0_r; rewrite L in NV; exact NV.
    - destruct (H e (or_introl eq_refl)) as [K [R0 BT]]; assert (WT := window_time maxr maxd mn T Hmn e BT).
      destruct (H f (or_intror (or_introl eq_refl))) as [_ [_ BF]]; assert (WF := window_time maxr maxd mn T Hmn f BF).
      assert (WW := win_width maxr maxd mn T e).
      assert (LE : forall d d' : event, last (f :: F) d = last (f :: F) d').
      { clear; intros d d'; revert f; induction F as [|g F IH]; intros f; auto; apply (IH g). }
      change (last (e :: f :: F) e) with (last (f :: F) e) in L; rewrite (LE e f) in L.
      set (g := fst (win f) - snd (win e)) in *.
      assert (GG : gaps (map win (e :: f :: F)) = g :: gaps (map win (f :: F))).
      { unfold g; cbn [map gaps]; destruct (win e), (win f); reflexivity. }
      rewrite GG in G; assert (G0 : 0 <= g) by (apply G; left; auto).
      change (weave (e :: f :: F)) with (pulse_seg e :: Seg 0 0 0 g :: weave (f :: F)) in N.
      apply control_filter in N; [|rewrite pulse_seg_dur by auto; apply width_nonneg; auto].
      destruct N as [V1 [V2 [R1 [N ->]]]]; apply control_filter in N; [|cbn; lra].
      destruct N as [V3 [V4 [R3 [N ->]]]].
      rewrite pulse_seg_dur, <- WW in R3, N by auto; cbn [g_dur] in N; apply ran_idle in R3.
      replace (snd (win e) + g) with (fst (win f)) in R3, N by (unfold g; ring).
      destruct (IH f V4 (fun h I => H h (or_intror I)) L ltac:(unfold g in *; lra) (fun h I => G h (or_intror I)) N) as [v4 [-> [U4 N4]]].
      destruct (ran_pulse e (fst (win e)) (e_time e) (snd (win e)) V1) as [v1 [-> [U1 N1]]]; auto; try (unfold g in *; lra).
      subst V3; exists (qmul (qmul v4 (qz (B (fst (win f)) - B (snd (win e))))) v1).
      split; [rewrite !qmat_mul; auto|]; split; [repeat apply unit_mul; auto; apply unit_qz|].
      change (map dcost (e :: f :: F)) with (dcost e :: map dcost (f :: F)).
      change (total (dcost e :: map dcost (f :: F))) with (dcost e + total (map dcost (f :: F))).
      change (qfrom B (fst (win e)) T (e :: f :: F)) with
        (qmul (qfrom B (e_time e) T (f :: F)) (qmul (qpul e) (qz (B (e_time e) - B (fst (win e)))))).
      assert (SH : qfrom B (e_time e) T (f :: F) = qmul (qfrom B (fst (win f)) T (f :: F)) (qz (B (fst (win f)) - B (e_time e)))).
      { cbn [qfrom]; rewrite <- !qmul_assoc, qz_add; do 3 f_equal; ring. }
      rewrite SH; replace (qz (B (fst (win f)) - B (e_time e))) with
        (qmul (qz (B (fst (win f)) - B (snd (win e)))) (qz (B (snd (win e)) - B (e_time e))))
        by (rewrite qz_add; f_equal; ring).
      rewrite (Rplus_comm (dcost e)), (qmul_assoc (qfrom _ _ _ _)), <- (qmul_assoc _ (qz (B (snd (win e)) - B (e_time e)))).
      apply qnear_mul; [apply unit_mul; [apply unit_qfrom|apply unit_qz]|auto| |exact N1].
      apply qnear_right; [apply unit_qz|exact N4].
  Qed.

  Lemma dcost_total l : total (map dcost l) = M * total (map W l) + E * total (map e_rabi l) / 2.
  Proof. induction l as [|e l IH]; cbn [map total]; [field|]; rewrite IH; unfold dcost; field. Qed.
End Pulses.

Lemma overlap_none l : overlap l = 0 -> forall g, In g l -> 0 <= g.
Proof.
  assert (P : forall m, 0 <= overlap m).
  { induction m as [|x m IH]; unfold overlap in *; cbn [map total]; [lra|]; assert (H := Rmax_l 0 (- x)); lra. }
  induction l as [|x l IH]; intros Z g I; [destruct I|].
  assert (Q := P l); unfold overlap in Z, Q, IH; cbn [map total] in Z.
  assert (A := Rmax_l 0 (- x)); assert (A' := Rmax_r 0 (- x)); destruct I as [->|I]; [lra|apply IH; auto; lra].
Qed.

Theorem varying_pulses T n0 l maxr maxd mn name c segs eps beta E M V X :
  constructible_sequence (sequence_of T n0 l) -> / 10 ^ 8 < T -> (forall e, In e l -> clean e) ->
  convert_dds_to_driven_control (sequence_of T n0 l) maxr maxd mn name = Ok c -> describes segs c -> duration c = T ->
  (forall t, continuous beta t) -> bounded_by eps E 0 T -> bounded_by beta M 0 T ->
  noisy_control eps beta 0 segs V -> noisy_sequence beta 0 T l X ->
  close_to (M * total (map (pulse_width maxr maxd mn) l) + E * total (map e_rabi l) / 2) V X.
Proof.
  intros CS LT K EC D' DU HC HE HM N NS; assert (S0 : 0 < / 10 ^ 8) by (apply Rinv_0_lt_compat, pow_lt; lra).
  destruct (conversion_duration T n0 l maxr maxd mn name c CS EC) as [_ [_ [OV _]]]; assert (OV' := OV LT).
  destruct (conversion_result _ _ _ _ _ _ _ _ CS EC) as [HT [B [C [D _]]]].
  assert (segs = converted maxr maxd mn T l) by (eapply describes_unique; eauto); subst segs.
  rewrite converted_long in N by auto; apply schroedinger_dephasing in NS; auto.
  rewrite <- with_ends_evolution in NS.
  destruct (first_last maxr maxd mn T l C HT B) as [e0 [F [S [A Z]]]].
  assert (Q := weave_driven maxr maxd mn T eps beta E M (proj1 C) (proj1 (proj2 C)) (proj1 (proj2 (proj2 C))) HE HM HC F e0 V).
  unfold dephased_evolution in NS; rewrite evolution_qfrom, S in NS; rewrite A in Q; rewrite S in N.
  destruct Q as [v [-> [_ Q]]]; auto.
  - rewrite <- S; intros f I; split; [|split].
    + apply with_ends_in in I; destruct I as [I|[->| ->]]; auto; apply clean_idle.
    + apply (rabi_pos maxr maxd mn T l C); auto.
    + apply with_ends_in in I; destruct I as [I|[->| ->]]; auto; cbn; lra.
  - lra.
  - rewrite <- S; apply overlap_none; fold (idle_times maxr maxd mn T l); unfold idle_times in OV'.
    change (map (fun e => window T (pulse_width maxr maxd mn e) (e_time e)) (with_ends T l))
      with (map (win maxr maxd mn T) (with_ends T l)) in OV'; lra.
  - rewrite NS; apply qnear_close; rewrite <- S in Q |- *.
    rewrite with_ends_total, dcost_total in Q; [exact Q|].
    intros t; unfold dcost; rewrite width_idle; cbn [idle e_rabi e_det]; [field| |]; rewrite Rabs_R0; lra.
Qed.

(** ** Predefined sequences *)

Theorem varying_suppression n T n0 l maxr maxd mn name c segs eps beta E M K V :
  constructible_sequence (sequence_of T n0 l) -> / 10 ^ 8 < T -> (forall e, In e l -> clean e) ->
  suppresses n (sequence_of T n0 l) ->
  convert_dds_to_driven_control (sequence_of T n0 l) maxr maxd mn name = Ok c -> describes segs c -> duration c = T ->
  smooth_detuning beta n K T -> bounded_by eps E 0 T -> bounded_by beta M 0 T ->
  noisy_control eps beta 0 segs V ->
  close_to (M * total (map (pulse_width maxr maxd mn) l) + E * total (map e_rabi l) / 2 +
            K * T ^ (n + 1) / (2 * INR (fact (n + 1)))) V (pulse_product l).
Proof.
  intros CS LT CL SU EC D DU SM HE HM N.
  assert (NS : noisy_sequence beta 0 T l (dephased_evolution (fun t => RInt beta 0 t) T l)) by (apply schroedinger_dephasing; [apply SM|auto]).
  eapply L_FloatPipeline.close_trans; [eapply varying_pulses; eauto; apply SM|].
  exact (SU beta K l _ SM eq_refl NS).
Qed.
