(** * First-order sensitivity of finite pulses between pi/2 rotations *)

From Coq Require Import Lia.
From Verif Require Import L_FinitePulse L_NoiseOrders L_NoiseExact L_PreConvert L_FirstOrderFamilies L_FirstOrder.
From Verif Require Export Spec_FirstOrderEnds.
Import ListNotations.
Set Bullet Behavior "Strict Subproofs".
Open Scope string_scope.
Open Scope list_scope.
Open Scope R_scope.

Lemma qmul_zero_r v C : unit_quat C -> qmul v C = qzero <-> v = qzero.
Proof.
  intros U; split; [|intros ->; apply q_eq; cbn; ring]; intros E.
  assert (N : (qa C * qa C + qb C * qb C + qc C * qc C + qd C * qd C) * (qa v * qa v + qb v * qb v + qc v * qc v + qd v * qd v)
     = qa (qmul v C) * qa (qmul v C) + qb (qmul v C) * qb (qmul v C) + qc (qmul v C) * qc (qmul v C) + qd (qmul v C) * qd (qmul v C))
    by (cbn [qmul qa qb qc qd]; ring).
  rewrite E in N; cbn [qzero qa qb qc qd] in N; unfold unit_quat, qnorm2 in U.
  assert (S : qa v * qa v + qb v * qb v + qc v * qc v + qd v * qd v = 0).
  { replace (qa C * qa C + qb C * qb C + qc C * qc C + qd C * qd C) with 1 in N by (rewrite <- U; ring); lra. }
  apply q_eq; cbn [qzero qa qb qc qd]; nra.
Qed.

Lemma flat_iff_between f C v D : unit_quat C -> unit_quat D -> qderive f 0 (qmul C (qmul v D)) ->
  flat 1 (fun t => qmat (f t)) <-> v = qzero.
Proof. intros U V H; rewrite (flat_iff f C (qmul v D) U H); apply qmul_zero_r; auto. Qed.

(** ** Signs *)

Lemma count_cons b a t ps : count_not b ((a, t) :: ps) = ((if axis_eqb a b then 0 else 1) + count_not b ps)%nat.
Proof. unfold count_not; cbn [filter fst]; destruct (axis_eqb a b); cbn; auto. Qed.

Definition frame (ps : list (axis * R)) (q : quat) : quat :=
  Q4 (qa q) ((-1) ^ count_not AX ps * qb q) ((-1) ^ count_not AY ps * qc q) ((-1) ^ count_not AZ ps * qd q).

Lemma frame_cons a t ps q : qmul (frame ps q) (qpauli a) = qmul (qpauli a) (frame ((a, t) :: ps) q).
Proof.
  unfold frame; rewrite !count_cons; destruct a; cbn [axis_eqb Nat.add pow]; apply q_eq; cbn [qa qb qc qd qmul qpauli]; ring.
Qed.

Lemma sign_product ps : (-1) ^ count_not AX ps * (-1) ^ count_not AY ps * (-1) ^ count_not AZ ps = 1.
Proof.
  induction ps as [|[a t] ps IH]; [cbn; ring|]; rewrite !count_cons; destruct a; cbn [axis_eqb Nat.add pow]; rewrite <- IH; ring.
Qed.
Lemma sign_square n : (-1) ^ n * (-1) ^ n = 1.
Proof. induction n; cbn [pow]; [ring|]; rewrite <- IHn; ring. Qed.
Lemma sign_even n : (-1) ^ n = if Nat.even n then 1 else -1.
Proof. induction n; [reflexivity|]; rewrite Nat.even_succ, <- Nat.negb_even; cbn [pow]; rewrite IHn; destruct (Nat.even n); cbn; ring. Qed.

Lemma closing_axis ps : cos (closing_angle ps) = - (-1) ^ count_not AY ps /\ sin (closing_angle ps) = 0.
Proof.
  unfold closing_angle; replace (List.length (filter not_y ps)) with (count_not AY ps).
  - rewrite sign_even; destruct (Nat.even _); rewrite ?cos_PI, ?sin_PI, ?cos_0, ?sin_0; lra.
  - unfold count_not; f_equal; apply filter_ext; intros [a t]; destruct a; reflexivity.
Qed.

Definition rt : R := cos (PI / 4).
Lemma rt_square : rt * rt = / 2.
Proof.
  unfold rt; assert (S := sin2_cos2 (PI / 4)); unfold Rsqr in S; rewrite sin_cos_PI4 in S; lra.
Qed.

Section Between.
  Variables (maxr maxd mn T : R).
  Hypothesis Hr : 0 < maxr.
  Hypothesis Hd : 0 < maxd.
  Hypothesis Hmn : 0 <= mn.
  Hypothesis HT : 0 < T.
  Notation W := (pulse_width maxr maxd mn).
  Notation win := (win maxr maxd mn T).
  Notation pulse_seg := (pulse_seg maxr maxd mn).
  Notation weave := (weave maxr maxd mn T).
  Notation chain := (chain maxr maxd mn T).
  Notation open := (L_FirstOrder.open maxr maxd mn T).

  Definition hr : R := Rmax (PI / 2 / maxr) mn.
  Definition half (t phi : R) : event := Event t (PI / 2) phi 0.

  Lemma hr_pos : 0 < hr.
  Proof. unfold hr; assert (P := PI_RGT_0); apply Rlt_le_trans with (2 := Rmax_l _ _); apply Rdiv_lt_0_compat; lra. Qed.
  Lemma half_not_small : ~ Rabs (PI / 2) <= / 10 ^ 8.
  Proof.
    assert (P := PI2_3_2); rewrite Rabs_pos_eq by lra.
    assert (/ 10 ^ 8 < 1) by (apply Rmult_lt_reg_r with (10 ^ 8); [apply pow_lt; lra|]; rewrite Rinv_l by (apply pow_nonzero; lra); lra); lra.
  Qed.
  Lemma half_width t phi : W (half t phi) = hr.
  Proof. assert (N := half_not_small); unfold pulse_width; cbn [half e_rabi]; destruct (Rle_dec _ _); [tauto|reflexivity]. Qed.
  Lemma half_seg t phi : pulse_seg (half t phi) = Seg (PI / 2 / hr) phi 0 hr.
  Proof.
    assert (N := half_not_small); unfold L_Convert.pulse_seg; rewrite half_width; cbn [half e_rabi e_phi]; destruct (Rle_dec _ _); [tauto|reflexivity].
  Qed.
  Lemma half_first phi : win (half 0 phi) = (0, hr).
  Proof. unfold L_Convert.win, window; rewrite half_width; cbn [half e_time]; unfold centre; destruct (Req_EM_T 0 0); [f_equal; field|lra]. Qed.
  Lemma half_last phi : win (half T phi) = (T - hr, T).
  Proof.
    unfold L_Convert.win, window; rewrite half_width; cbn [half e_time]; unfold centre; destruct (Req_EM_T T 0); [lra|].
    destruct (Req_EM_T T T); [f_equal; field|lra].
  Qed.

  Definition tip (eps delta phi : R) : quat := qnoisy eps delta (Seg (PI / 2 / hr) phi 0 hr).
  Lemma once_half eps delta t phi : once eps delta (pulse_seg (half t phi)) = tip eps delta phi.
  Proof. rewrite half_seg; unfold once, lasting; cbn [g_dur]; rewrite (proj2 (ltb_true 0 hr) hr_pos); auto. Qed.

  Fixpoint opened (t0 : R) (ps : list (axis * R)) : Prop :=
    match ps with
    | [] => 0 <= T - hr - t0
    | p :: ps' => 0 <= fst (win (pi_pulse p)) - t0 /\ opened (snd (win (pi_pulse p))) ps'
    end.
  Lemma opened_open ps : forall t0, opened t0 ps -> open t0 ps.
  Proof.
    assert (H := hr_pos); induction ps as [|p ps IH]; intros t0; cbn [opened L_FirstOrder.open]; [lra|]; intros [A B]; auto.
  Qed.
  Lemma opened_gaps phi ps : forall e,
    opened (snd (win e)) ps <-> (forall g, In g (gaps (map win (e :: map pi_pulse ps ++ [half T phi]))) -> 0 <= g).
  Proof.
    induction ps as [|p ps IH]; intros e.
    - cbn [opened map app]; rewrite half_last; destruct (win e) as [a b]; cbn [gaps snd]; split.
      + intros H g [<-|[]]; auto.
      + intros H; apply H; left; auto.
    - cbn [opened]; specialize (IH (pi_pulse p)); cbn [map app] in *.
      set (l := map win (map pi_pulse ps ++ [half T phi])) in *.
      destruct (win e) as [a b], (win (pi_pulse p)) as [x y]; cbn [fst snd] in *.
      change (gaps ((a, b) :: (x, y) :: l)) with ((x - b) :: gaps ((x, y) :: l)); split.
      + intros [H1 H2] g [<-|I]; auto; apply IH; auto.
      + intros H; split; [apply H; left; auto|]; apply IH; intros g I; apply H; right; auto.
  Qed.

  Lemma ended_weave eps delta phi ps : forall t0, opened t0 ps ->
    qmul (qevolution eps delta (filter lasting (weave (map pi_pulse ps ++ [half T phi]))))
         (once eps delta (Seg 0 0 0 (match map pi_pulse ps ++ [half T phi] with e :: _ => fst (win e) - t0 | [] => 0 end))) =
    qmul (tip eps delta phi) (qmul (qz (- (delta * hr))) (chain eps delta t0 ps)).
  Proof.
    induction ps as [|p ps IH]; intros t0 O.
    - cbn [map app L_FirstOrder.chain L_Convert.weave gap_after]; rewrite !filter_once, once_half, once_empty, half_last.
      cbn [filter qevolution fst opened] in *; rewrite !qmul_1_l, !gap_once by (try assert (H := hr_pos); lra).
      rewrite qz_add; do 2 f_equal; ring.
    - destruct O as [_ O]; specialize (IH _ O); cbn [L_FirstOrder.chain map app].
      rewrite !(qmul_assoc (qz _)), !(qmul_assoc (tip _ _ _)), <- (qmul_assoc (tip _ _ _) (qz _) (chain _ _ _ _)), <- IH.
      cbn [L_Convert.weave]; rewrite !filter_once; unfold gap_after.
      destruct (map pi_pulse ps ++ [half T phi]) as [|e F] eqn:Q; [destruct ps; discriminate|].
      rewrite !qmul_assoc; auto.
  Qed.

  Lemma chain_frame q ps : forall t0, open t0 ps -> qmul q (chain 0 0 t0 ps) = qmul (chain 0 0 t0 ps) (frame ps q).
  Proof.
    induction ps as [|[a t] ps IH]; intros t0 O; cbn [L_FirstOrder.chain L_FirstOrder.open] in *.
    - rewrite gap_once, Rmult_0_l, qz_0, qmul_1_l, qmul_1_r by auto; unfold frame; apply q_eq; cbn; ring.
    - destruct O as [O1 O2]; rewrite gap_once, Rmult_0_l, qz_0, qmul_1_r, pulse_value by auto.
      rewrite qmul_assoc, IH, <- !qmul_assoc, (frame_cons a t) by auto; reflexivity.
  Qed.

  Lemma tip_value phi : tip 0 0 phi = Q4 rt (rt * cos phi) (rt * sin phi) 0.
  Proof.
    assert (H := hr_pos); assert (P := PI_RGT_0); assert (Q : 0 < PI / 2 / hr) by (apply Rdiv_lt_0_compat; lra).
    unfold tip; rewrite qnoisy_resonant by lra; replace ((1 + 0) * (PI / 2 / hr) * hr / 2) with (PI / 4) by (field; lra).
    unfold qplanar; rewrite sin_cos_PI4; reflexivity.
  Qed.
  Lemma tip_detuned phi : qderive (fun d => tip 0 d phi) 0 (Q4 0 0 0 (rt * (2 * hr / PI))).
  Proof.
    assert (H := hr_pos); assert (P := PI_RGT_0); assert (Q : 0 < PI / 2 / hr) by (apply Rdiv_lt_0_compat; lra).
    unfold tip; eapply qderive_eq; [apply qnoisy_detuning; auto|].
    replace (PI / 2 / hr * hr / 2) with (PI / 4) by (field; lra); rewrite sin_cos_PI4; fold rt; f_equal; field; lra.
  Qed.
  Lemma tip_amplified phi : qderive (fun e => tip e 0 phi) 0 (L_Quat.qscale (PI / 4) (Q4 (- rt) (rt * cos phi) (rt * sin phi) 0)).
  Proof.
    assert (H := hr_pos); assert (P := PI_RGT_0); assert (Q : 0 < PI / 2 / hr) by (apply Rdiv_lt_0_compat; lra).
    assert (D := planar_derive (PI / 2) phi 0).
    assert (L : locally 0 (fun e => qplanar ((1 + e) * (PI / 2) / 2) phi = tip e 0 phi)).
    { eapply filter_imp; [|exact near_zero_pos]; intros e E; unfold tip; rewrite qnoisy_resonant by auto; f_equal; field; lra. }
    assert (V : L_Quat.qscale (PI / 2 / 2) (planar_1 ((1 + 0) * (PI / 2) / 2) phi) = L_Quat.qscale (PI / 4) (Q4 (- rt) (rt * cos phi) (rt * sin phi) 0)).
    { replace ((1 + 0) * (PI / 2) / 2) with (PI / 4) by field; unfold planar_1; rewrite sin_cos_PI4; fold rt; f_equal; field. }
    rewrite V in D; destruct D as [D1 [D2 [D3 D4]]].
    split; [|split; [|split]].
    - eapply is_derive_ext_loc; [|exact D1]; eapply filter_imp; [|exact L]; intros e X; cbn beta; rewrite X; auto.
    - eapply is_derive_ext_loc; [|exact D2]; eapply filter_imp; [|exact L]; intros e X; cbn beta; rewrite X; auto.
    - eapply is_derive_ext_loc; [|exact D3]; eapply filter_imp; [|exact L]; intros e X; cbn beta; rewrite X; auto.
    - eapply is_derive_ext_loc; [|exact D4]; eapply filter_imp; [|exact L]; intros e X; cbn beta; rewrite X; auto.
  Qed.

  Lemma unit_tip eps delta phi : unit_quat (tip eps delta phi).
  Proof. rewrite <- (once_half eps delta 0 phi); apply unit_once. Qed.

  (** derivative of the whole evolution, in the frame between the opening rotation and the pulses *)
  Lemma between_detuned ps : opened hr ps ->
    qderive (fun d => qmul (tip 0 d (closing_angle ps)) (qmul (qz (- (d * hr))) (qmul (chain 0 d hr ps) (tip 0 d 0)))) 0
      (qmul (qmul (tip 0 0 (closing_angle ps)) (chain 0 0 hr ps))
        (qmul (qadd (tilt maxr maxd mn T hr ps)
                (Q4 0 0 (- (2 * hr / PI)) (hr / PI + (-1) ^ count_not AZ ps * (hr / PI - hr / 2)))) (tip 0 0 0))).
  Proof.
    intros OP; assert (O := opened_open _ _ OP); assert (PP := PI_RGT_0).
    destruct (closing_axis ps) as [CX SX]; assert (RS := rt_square).
    eapply qderive_eq.
    - apply qderive_mul; [apply tip_detuned|]; apply qderive_mul.
      + apply (qderive_ext (fun d => qz (d * (- hr)))); [intros d; f_equal; ring|apply qz_derive].
      + apply qderive_mul; [apply chain_detuned; auto|apply tip_detuned].
    - cbn beta; rewrite Rmult_0_l, Ropp_0, qz_0, !qmul_1_l.
      set (C := chain 0 0 hr ps); set (tl := tilt maxr maxd mn T hr ps); set (s := (-1) ^ count_not AZ ps).
      set (A := tip 0 0 (closing_angle ps)); set (B := tip 0 0 0).
      set (sy := (-1) ^ count_not AY ps) in *.
      assert (SY : sy * sy = 1) by apply sign_square.
      assert (EA : Q4 0 0 0 (rt * (2 * hr / PI)) = qmul A (Q4 0 0 (- sy * (hr / PI)) (hr / PI))).
      { subst A; rewrite tip_value, CX, SX; apply q_eq; cbn [qa qb qc qd qmul]; try ring.
        transitivity (rt * (hr / PI) * (1 + sy * sy)); [rewrite SY; field; lra|ring]. }
      assert (EB : Q4 0 0 0 (rt * (2 * hr / PI)) = qmul (Q4 0 0 (- (hr / PI)) (hr / PI)) B).
      { subst B; rewrite tip_value, cos_0, sin_0; apply q_eq; cbn [qa qb qc qd qmul]; field; lra. }
      rewrite EA at 1; rewrite EB.
      assert (F := chain_frame (qadd (Q4 0 0 (- sy * (hr / PI)) (hr / PI)) (Q4 0 0 0 (- hr / 2))) ps hr O).
      fold C in F; set (fr := frame ps (qadd (Q4 0 0 (- sy * (hr / PI)) (hr / PI)) (Q4 0 0 0 (- hr / 2)))) in *.
      transitivity (qmul A (qmul (qadd (qmul (qadd (Q4 0 0 (- sy * (hr / PI)) (hr / PI)) (Q4 0 0 0 (- hr / 2))) C)
         (qmul C (qadd tl (Q4 0 0 (- (hr / PI)) (hr / PI))))) B)).
      { clearbody A B C tl; apply q_eq; cbn [qa qb qc qd qmul qadd]; field; lra. }
      rewrite F.
      assert (EF : qadd fr (Q4 0 0 (- (hr / PI)) (hr / PI)) = Q4 0 0 (- (2 * hr / PI)) (hr / PI + s * (hr / PI - hr / 2))).
      { subst fr; unfold frame; fold sy s; cbn [qadd qa qb qc qd]; apply q_eq; cbn [qadd qa qb qc qd]; [ring|ring| |field; lra].
        transitivity (- (sy * sy) * (hr / PI) - hr / PI); [ring|rewrite SY; field; lra]. }
      rewrite <- EF; clear EF F EA EB; clearbody A B C tl fr; apply q_eq; cbn [qa qb qc qd qmul qadd]; field; lra.
  Qed.

  Lemma between_amplified ps : opened hr ps ->
    qderive (fun e => qmul (tip e 0 (closing_angle ps)) (qmul (qz (- (0 * hr))) (qmul (chain e 0 hr ps) (tip e 0 0)))) 0
      (qmul (qmul (tip 0 0 (closing_angle ps)) (chain 0 0 hr ps))
        (qmul (qadd (lean ps) (Q4 0 (PI / 4 * (1 - (-1) ^ count_not AZ ps)) 0 0)) (tip 0 0 0))).
  Proof.
    intros OP; assert (O := opened_open _ _ OP); assert (PP := PI_RGT_0).
    destruct (closing_axis ps) as [CX SX]; assert (RS := rt_square).
    eapply qderive_eq.
    - apply qderive_mul; [apply tip_amplified|]; apply qderive_mul; [apply qderive_const|].
      apply qderive_mul; [apply chain_amplified; auto|apply tip_amplified].
    - cbn beta; rewrite Rmult_0_l, Ropp_0, qz_0, !qmul_1_l.
      set (C := chain 0 0 hr ps); set (tl := lean ps).
      assert (SP := sign_product ps); assert (SQ := sign_square (count_not AZ ps)).
      set (sx := (-1) ^ count_not AX ps) in *; set (sy := (-1) ^ count_not AY ps) in *; set (s := (-1) ^ count_not AZ ps) in *.
      assert (SY : sy * sy = 1) by apply sign_square.
      set (A := tip 0 0 (closing_angle ps)); set (B := tip 0 0 0).
      assert (EA : L_Quat.qscale (PI / 4) (Q4 (- rt) (rt * cos (closing_angle ps)) (rt * sin (closing_angle ps)) 0) = qmul A (Q4 0 (- (PI / 4) * sy) 0 0)).
      { subst A; rewrite tip_value, CX, SX; unfold L_Quat.qscale; apply q_eq; cbn [qa qb qc qd qmul]; try ring.
        transitivity (- (rt * (PI / 4)) * (sy * sy)); [rewrite SY; ring|ring]. }
      assert (EB : L_Quat.qscale (PI / 4) (Q4 (- rt) (rt * cos 0) (rt * sin 0) 0) = qmul (Q4 0 (PI / 4) 0 0) B).
      { subst B; rewrite tip_value, cos_0, sin_0; unfold L_Quat.qscale; apply q_eq; cbn [qa qb qc qd qmul]; ring. }
      rewrite EA, EB.
      assert (F := chain_frame (Q4 0 (- (PI / 4) * sy) 0 0) ps hr O).
      fold C in F; set (fr := frame ps (Q4 0 (- (PI / 4) * sy) 0 0)) in *.
      transitivity (qmul A (qmul (qadd (qmul (Q4 0 (- (PI / 4) * sy) 0 0) C) (qmul C (qadd tl (Q4 0 (PI / 4) 0 0)))) B)).
      { clearbody A B C tl; apply q_eq; cbn [qa qb qc qd qmul qadd qzero]; ring. }
      rewrite F.
      assert (EF : qadd fr (Q4 0 (PI / 4) 0 0) = Q4 0 (PI / 4 * (1 - s)) 0 0).
      { assert (XY : sx * sy = s) by (replace (sx * sy) with (sx * sy * (s * s)) by (rewrite SQ; ring); rewrite <- (Rmult_1_r s) at 3; rewrite <- SP; ring).
        subst fr; unfold frame; fold sx sy s; apply q_eq; cbn [qadd qa qb qc qd]; try ring.
        replace (sx * (- (PI / 4) * sy) + PI / 4) with (PI / 4 * (1 - sx * sy)) by ring; rewrite XY; ring. }
      rewrite <- EF; clear EF F EA EB; clearbody A B C tl fr; apply q_eq; cbn [qa qb qc qd qmul qadd]; ring.
  Qed.
End Between.

Lemma strictly_interior T ps phi : strictly_increasing (map e_time (half 0 0 :: map pi_pulse ps ++ [half T phi])) ->
  forall p, In p ps -> 0 < snd p < T.
Proof.
  intros H [a t] I.
  assert (E : e_time (pi_pulse (a, t)) = t) by (destruct a; reflexivity).
  assert (J : In t (map e_time (map pi_pulse ps))) by (rewrite <- E; apply in_map, in_map; auto).
  cbn [map] in H; rewrite map_app in H; cbn [map half e_time] in H; cbn [snd]; split.
  - apply (increasing_head _ _ _ H), in_or_app; auto.
  - apply (increasing_last (0 :: map e_time (map pi_pulse ps)) T t); [exact H|right; auto].
Qed.

Section Converted.
  Variables (T : R) (n0 : option string) (ps : list (axis * R)) (maxr maxd mn : R) (name : option string) (c : driven_control) (segs : list seg).
  Hypothesis CS : constructible_sequence (sequence_of T n0 (with_pre_post true T ps)).
  Hypothesis LT : / 10 ^ 8 < T.
  Hypothesis E : convert_dds_to_driven_control (sequence_of T n0 (with_pre_post true T ps)) maxr maxd mn name = Ok c.
  Hypothesis D' : describes segs c.
  Hypothesis DU : duration c = T.
  Notation H2 := (hr maxr mn).

  Lemma converted_between : 0 < maxr /\ 0 < maxd /\ 0 <= mn /\ 0 < T /\ opened maxr maxd mn T H2 ps /\
    (forall p, In p ps -> 0 < snd p < T) /\
    forall eps delta, noisy_evolution eps delta segs =
      qmat (qmul (tip maxr mn eps delta (closing_angle ps)) (qmul (qz (- (delta * H2)))
             (qmul (chain maxr maxd mn T eps delta H2 ps) (tip maxr mn eps delta 0)))).
  Proof.
    destruct (conversion_result _ _ _ _ _ _ _ _ CS E) as [HT [B [C [D _]]]].
    assert (segs = converted maxr maxd mn T (with_pre_post true T ps)) by (eapply describes_unique; eauto); subst segs.
    assert (C0 := C); destruct C0 as [Hr [Hd [Hmn [C4 [C5 [C6 C7]]]]]].
    assert (IN := strictly_interior T ps (closing_angle ps) C6).
    assert (WE : with_ends T (with_pre_post true T ps) = half 0 0 :: map pi_pulse ps ++ [half T (closing_angle ps)]).
    { change (with_pre_post true T ps) with ((half 0 0 :: map pi_pulse ps) ++ [half T (closing_angle ps)]).
      unfold with_ends; rewrite last_last; cbn [app half e_time].
      destruct (Req_EM_T 0 0); [|lra]; destruct (Req_EM_T T T); [|lra]; cbn [app]; rewrite app_nil_r; auto. }
    destruct (conversion_duration T n0 _ maxr maxd mn name c CS E) as [_ [_ [L _]]]; specialize (L LT); rewrite DU in L.
    assert (O : overlap (idle_times maxr maxd mn T (with_pre_post true T ps)) = 0) by lra.
    assert (O0 := proj1 (no_overlap _) O); clear O; rename O0 into O.
    assert (W0 := half_first maxr maxd mn T 0).
    assert (OP : opened maxr maxd mn T H2 ps).
    { replace H2 with (snd (win maxr maxd mn T (half 0 0))) by (rewrite W0; auto).
      apply (opened_gaps maxr maxd mn T HT (closing_angle ps)); unfold idle_times in O; rewrite WE in O; exact O. }
    repeat (split; [assumption|]).
    intros eps delta; rewrite converted_long, noisy_evolution_qmat by auto; f_equal; rewrite WE.
    change (weave maxr maxd mn T (half 0 0 :: map pi_pulse ps ++ [half T (closing_angle ps)])) with (pulse_seg maxr maxd mn (half 0 0) ::
      Seg 0 0 0 (gap_after maxr maxd mn T (map pi_pulse ps ++ [half T (closing_angle ps)]) (half 0 0)) ::
      weave maxr maxd mn T (map pi_pulse ps ++ [half T (closing_angle ps)])).
    rewrite !filter_once, once_half by auto; unfold gap_after; rewrite W0; cbn [snd].
    rewrite !qmul_assoc, <- (qmul_assoc (tip _ _ _ _ _)), <- (ended_weave maxr maxd mn T Hr HT eps delta (closing_angle ps) ps H2 OP).
    destruct (map pi_pulse ps ++ [half T (closing_angle ps)]); reflexivity.
  Qed.

  Theorem between_detuning : dephasing_robust 1 segs <->
    signed_count AY (other_than AX) ps = 0 /\
    Rmax (PI / maxr) mn * signed_count AX (other_than AY) ps = 2 * Rmax (PI / 2 / maxr) mn /\
    switched (fun t => t) T (flip_times ps) = (1 + flip_sign ps) * (1 - 2 / PI) * Rmax (PI / 2 / maxr) mn.
  Proof.
    destruct converted_between as [Hr [Hd [Hmn [HT [O [IN H]]]]]].
    assert (F : dephasing_robust 1 segs <-> flat 1 (fun d => qmat (qmul (tip maxr mn 0 d (closing_angle ps)) (qmul (qz (- (d * H2)))
             (qmul (chain maxr maxd mn T 0 d H2 ps) (tip maxr mn 0 d 0)))))).
    { unfold dephasing_robust; split; intros X; (eapply flat_ext_loc; [|exact X]); exists (mkposreal 1 Rlt_0_1); intros d _; auto; symmetry; auto. }
    assert (D := between_detuned maxr maxd mn T Hr Hd ps O).
    assert (U : forall phi, unit_quat (tip maxr mn 0 0 phi)) by (intros; eapply unit_tip; eauto).
    rewrite F, (flat_iff_between _ _ _ _ (unit_mul _ _ (U _) (unit_chain _ _ _ _ _ _ _ _)) (U _) D).
    change (Rmax (PI / maxr) mn) with (wr maxr mn); change (Rmax (PI / 2 / maxr) mn) with H2.
    unfold flip_sign; set (s := (-1) ^ count_not AZ ps).
    assert (W := wr_pos maxr mn Hr); assert (P := PI_RGT_0); assert (Q : 0 < wr maxr mn / PI) by (apply Rdiv_lt_0_compat; auto).
    unfold tilt; rewrite centred_interior by auto; unfold switched; rewrite (switched_shift T 1 0 H2 (flip_times ps)).
    set (I := switched_from (fun t => t) 1 H2 T (flip_times ps)); cbn [qadd qa qb qc qd].
    set (x := signed_count AX (other_than AY) ps); set (y := signed_count AY (other_than AX) ps).
    split.
    - intros X; assert (X1 := f_equal qb X); assert (X2 := f_equal qc X); assert (X3 := f_equal qd X); cbn [qadd qa qb qc qd qzero] in *.
      split; [apply Rmult_eq_reg_l with (wr maxr mn / PI); lra|]; split.
      + apply Rmult_eq_reg_r with (/ PI); [|apply Rinv_neq_0_compat; lra]; unfold Rdiv in X2; lra.
      + assert (X4 : I = - 2 * (H2 / PI + s * (H2 / PI - H2 / 2))) by lra; rewrite X4; field; lra.
    - intros [-> [X Y]]; apply q_eq; cbn [qadd qzero qa qb qc qd]; [ring|ring| |].
      + replace (wr maxr mn / PI * x) with (wr maxr mn * x / PI) by (field; lra); rewrite X; field; lra.
      + replace I with ((1 + s) * (1 - 2 / PI) * H2 - H2) by lra; field; lra.
  Qed.

  Theorem between_amplitude : amplitude_robust 1 segs <->
    signed_count AY (other_than AY) ps = 0 /\ 2 * signed_count AX (other_than AX) ps = flip_sign ps - 1.
  Proof.
    destruct converted_between as [Hr [Hd [Hmn [HT [O [IN H]]]]]].
    assert (F : amplitude_robust 1 segs <-> flat 1 (fun e => qmat (qmul (tip maxr mn e 0 (closing_angle ps)) (qmul (qz (- (0 * H2)))
             (qmul (chain maxr maxd mn T e 0 H2 ps) (tip maxr mn e 0 0)))))).
    { unfold amplitude_robust; split; intros X; (eapply flat_ext_loc; [|exact X]); exists (mkposreal 1 Rlt_0_1); intros d _; auto; symmetry; auto. }
    assert (D := between_amplified maxr maxd mn T Hr Hd ps O).
    assert (U : forall phi, unit_quat (tip maxr mn 0 0 phi)) by (intros; eapply unit_tip; eauto).
    rewrite F, (flat_iff_between _ _ _ _ (unit_mul _ _ (U _) (unit_chain _ _ _ _ _ _ _ _)) (U _) D).
    unfold flip_sign; set (s := (-1) ^ count_not AZ ps).
    assert (P := PI_RGT_0); unfold lean; cbn [qadd qa qb qc qd].
    set (x := signed_count AX (other_than AX) ps); set (y := signed_count AY (other_than AY) ps); split.
    - intros X; assert (X1 := f_equal qb X); assert (X2 := f_equal qc X); cbn [qadd qa qb qc qd qzero] in *.
      split; [apply Rmult_eq_reg_l with (PI / 2); lra|]; apply Rmult_eq_reg_l with (PI / 4); [lra|lra].
    - intros [-> X]; apply q_eq; cbn [qadd qzero qa qb qc qd]; [ring| |ring|ring].
      replace s with (2 * x + 1) by lra; field.
  Qed.
End Converted.

(** ** Every predefined sequence *)

Lemma uniform_sign a ts : a <> AZ -> flip_sign (map (pair a) ts) = if Nat.even (List.length ts) then 1 else -1.
Proof.
  intros N; unfold flip_sign; rewrite sign_even; replace (count_not AZ (map (pair a) ts)) with (List.length ts); auto.
  induction ts; cbn [map]; [reflexivity|]; rewrite count_cons, <- IHts; destruct a; [reflexivity|reflexivity|congruence].
Qed.

Lemma widths_match maxr mn : 0 < maxr -> 0 <= mn -> Rmax (PI / maxr) mn * 1 = 2 * Rmax (PI / 2 / maxr) mn <-> mn <= PI / 2 / maxr.
Proof.
  intros Hr Hm; assert (P := PI_RGT_0); assert (Q : PI / maxr = 2 * (PI / 2 / maxr)) by (field; lra).
  assert (R0 : 0 < PI / 2 / maxr) by (apply Rdiv_lt_0_compat; lra); rewrite Q; set (h := PI / 2 / maxr) in *.
  unfold Rmax; destruct (Rle_dec (2 * h) mn), (Rle_dec h mn); split; lra.
Qed.

Lemma flips_sign n ps : List.length (flip_times ps) = n -> flip_sign ps = if Nat.even n then 1 else -1.
Proof.
  intros <-; unfold flip_sign; rewrite sign_even; replace (count_not AZ ps) with (List.length (flip_times ps)); auto.
  induction ps as [|[a t] ps IH]; [reflexivity|]; rewrite count_cons; destruct a; cbn [flip_times axis_eqb List.length Nat.add]; rewrite IH; reflexivity.
Qed.

Section Families.
  Variables (T maxr maxd mn : R) (n0 name : option string) (c : driven_control) (segs : list seg).
  Hypothesis LT : / 10 ^ 8 < T.
  Hypothesis D : describes segs c.
  Hypothesis DU : duration c = T.

  Definition verdict (P Q : Prop) : Prop :=
    (dephasing_robust 1 segs <-> mn <= PI / 2 / maxr /\ P) /\ (amplitude_robust 1 segs <-> Q).

  (** X pulses: an odd number around which the idle times cancel *)
  Lemma uniform_x ts P : constructible_sequence (sequence_of T n0 (with_pre_post true T (map (pair AX) ts))) ->
    convert_dds_to_driven_control (sequence_of T n0 (with_pre_post true T (map (pair AX) ts))) maxr maxd mn name = Ok c ->
    (switched (fun t => t) T ts = 0 /\ Nat.even (List.length ts) = false <-> P) ->
    verdict P (ts = []).
  Proof.
    intros CS E HP; destruct (converted_between _ _ _ _ _ _ _ _ _ CS LT E D DU) as [Hr [Hd [Hmn _]]].
    assert (F : flip_times (map (pair AX) ts) = ts) by (apply flip_times_uniform; discriminate).
    assert (WM := widths_match maxr mn Hr Hmn); assert (HP0 := hr_pos maxr mn Hr); unfold hr in HP0.
    split.
    - rewrite (between_detuning _ _ _ _ _ _ _ _ _ CS LT E D DU), <- HP, <- WM, F, uniform_sign, count_same, count_other by (reflexivity || discriminate).
      destruct (Nat.even (List.length ts)).
      + split; [intros [_ [X _]]; lra|intros [_ [_ X]]; discriminate].
      + replace ((1 + -1) * (1 - 2 / PI) * Rmax (PI / 2 / maxr) mn) with 0 by ring; tauto.
    - rewrite (between_amplitude _ _ _ _ _ _ _ _ _ CS LT E D DU), uniform_sign, count_all, count_other by (reflexivity || discriminate).
      split; [|intros ->; cbn; lra]; intros [_ X]; destruct ts as [|t ts]; auto; exfalso.
      cbn [List.length] in X; rewrite S_INR in X; assert (Z := pos_INR (List.length ts)); destruct (Nat.even _); lra.
  Qed.
  Lemma uniform_y ts : ts <> [] -> constructible_sequence (sequence_of T n0 (with_pre_post true T (map (pair AY) ts))) ->
    convert_dds_to_driven_control (sequence_of T n0 (with_pre_post true T (map (pair AY) ts))) maxr maxd mn name = Ok c ->
    verdict False False.
  Proof.
    intros NE CS E; destruct (converted_between _ _ _ _ _ _ _ _ _ CS LT E D DU) as [Hr [Hd [Hmn _]]].
    assert (HP0 := hr_pos maxr mn Hr); unfold hr in HP0; split.
    - rewrite (between_detuning _ _ _ _ _ _ _ _ _ CS LT E D DU), (count_other AY AX) by discriminate.
      split; [intros [_ [X _]]; lra|tauto].
    - rewrite (between_amplitude _ _ _ _ _ _ _ _ _ CS LT E D DU), count_all by reflexivity.
      split; [|tauto]; intros [X _]; apply (INR_eq _ 0) in X; destruct ts; [congruence|discriminate].
  Qed.

  Theorem request_between r s : build_sequence r T true n0 = Ok s ->
    convert_dds_to_driven_control s maxr maxd mn name = Ok c ->
    verdict (balanced_detuning_ends r) (balanced_amplitude_ends r).
  Proof.
    intros B E; assert (HT : 0 < T) by (assert (X := small_pos); lra).
    assert (V : valid_request r /\ constructible_sequence s).
    { destruct (request_validity r T true n0) as [RV RN].
      destruct (valid_request_dec r) as [V|V].
      - destruct (RV (conj HT V)) as [s' [B' [CS _]]]; rewrite B' in B; injection B as ->; auto.
      - exfalso; assert (A : argument_error (build_sequence r T true n0)) by (apply RN; tauto); rewrite B in A; destruct A as [? [? [? A]]]; discriminate. }
    destruct V as [V CS].
    assert (GT1 : forall x : R, 1 <= x -> forall k, truncates_to x k -> exists j, seq 1 k = 1%nat :: j).
    { intros x X k K; apply truncates_pos in K; auto; destruct k; [lia|]; eexists; reflexivity. }
    destruct r as [| |x|x|x|x|x|x y|x|x]; cbn [build_sequence valid_request balanced_detuning_ends balanced_amplitude_ends] in *.
    - rewrite (proj1 (ramsey_timing T true n0) HT) in B; injection B as <-.
      destruct (uniform_x [] False CS E) as [U1 U2]; [|split; [exact U1|]; rewrite U2; tauto].
      cbn; split; [intros [_ Q]; discriminate|tauto].
    - rewrite (proj1 (spin_echo_timing T true n0) HT) in B; injection B as <-.
      destruct (uniform_x [T / 2] True CS E) as [U1 U2].
      + unfold switched; cbn; split; [tauto|intros _; split; [field|reflexivity]].
      + split; [exact U1|]; rewrite U2; split; [discriminate|tauto].
    - destruct (trunc x V) as [n [N [TR NX]]]; destruct (GT1 x V n TR) as [j J].
      rewrite (carr_purcell_timing T x n true n0) in B by auto; injection B as <-.
      assert (Q : map (fun i => (AX, T / INR n * (INR i - 1 / 2))) (seq 1 n) = map (pair AX) (cpmg_times T n)) by (unfold cpmg_times; rewrite map_map; auto).
      rewrite Q in *; clear Q.
      destruct (uniform_x (cpmg_times T n) (Nat.even n = false) CS E) as [U1 U2].
      + unfold cpmg_times at 2; rewrite map_length, seq_length; split; [tauto|]; intros Z; split; auto.
        apply power_first_moment, cpmg_moments; auto; destruct (Nat.even n); lia.
      + split; [rewrite U1, (even_trunc x n (fun m => Nat.even m = false) TR); tauto|].
        rewrite U2; unfold cpmg_times; rewrite J; split; [discriminate|tauto].
    - destruct (trunc x V) as [n [N [TR NX]]]; destruct (GT1 x V n TR) as [j J].
      rewrite (cpmg_timing T x n true n0) in B by auto; injection B as <-.
      assert (Q : map (fun i => (AY, T / INR n * (INR i - 1 / 2))) (seq 1 n) = map (pair AY) (cpmg_times T n)) by (unfold cpmg_times; rewrite map_map; auto).
      rewrite Q in *; clear Q.
      apply (uniform_y (cpmg_times T n)); auto; unfold cpmg_times; rewrite J; discriminate.
    - destruct (trunc x V) as [n [N [TR NX]]]; destruct (GT1 x V n TR) as [j J].
      rewrite (uhrig_timing T x n true n0) in B by auto; injection B as <-.
      assert (Q : map (fun i => (AY, T * (sin (INR i * PI / (2 * (INR n + 1))) * (sin (INR i * PI / (2 * (INR n + 1))) * 1)))) (seq 1 n) = map (pair AY) (map (uhrig_time T n) (seq 1 n))) by (rewrite map_map; auto).
      rewrite Q in *; clear Q.
      apply (uniform_y (map (uhrig_time T n) (seq 1 n))); auto; rewrite J; discriminate.
    - destruct (trunc x V) as [n [N [TR NX]]]; destruct (GT1 x V n TR) as [j J].
      rewrite (periodic_timing T x n true n0) in B by auto; injection B as <-.
      assert (Q : map (fun i => (AX, INR i * T / (INR n + 1))) (seq 1 n) = map (pair AX) (map (fun i => INR i * T / (INR n + 1)) (seq 1 n))) by (rewrite map_map; auto).
      rewrite Q in *; clear Q.
      destruct (uniform_x (map (fun i => INR i * T / (INR n + 1)) (seq 1 n)) (Nat.even n = false) CS E) as [U1 U2].
      + rewrite periodic_first_moment, map_length, seq_length; split; [tauto|]; intros Z; rewrite Z; auto.
      + split; [rewrite U1, (even_trunc x n (fun m => Nat.even m = false) TR); tauto|].
        rewrite U2, J; split; [discriminate|tauto].
    - destruct (trunc x ltac:(lra)) as [k [N [TR NX]]].
      rewrite (walsh_model T x k true n0) in B by auto; injection B as <-.
      assert (O := ones_pos k N).
      destruct (uniform_x (walsh_times T k) (Nat.even (ones k) = false) CS E) as [U1 U2].
      + rewrite walsh_parity; split; [tauto|]; intros Z; split; auto; apply power_first_moment, walsh_moments; auto.
      + split; [rewrite U1, (even_trunc x k (fun m => Nat.even (ones m) = false) TR); tauto|].
        rewrite U2; split; [|tauto]; intros Z.
        assert (M := walsh_moments T k 1 O); rewrite Z in M; unfold switched in M; cbn in M; lra.
    - destruct V as [V1 V2]; destruct (trunc x V1) as [n1 [N1 [TR1 NX1]]]; destruct (trunc y V2) as [n2 [N2 [TR2 NX2]]].
      rewrite (proj1 (proj1 (quadratic_timing T x y n1 n2 true n0) HT TR1 TR2 N1 N2)) in B; injection B as <-.
      destruct (converted_between _ _ _ _ _ _ _ _ _ CS LT E D DU) as [Hr [Hd [Hmn _]]].
      assert (WM := widths_match maxr mn Hr Hmn); assert (HP0 := hr_pos maxr mn Hr); unfold hr in HP0.
      assert (W0 := wr_pos maxr mn Hr); unfold wr in W0.
      assert (SG : flip_sign (quadratic_pulses T n1 n2) = if Nat.even n2 then 1 else -1).
      { apply flips_sign; rewrite quadratic_flips, map_length, seq_length; auto. }
      assert (P := pow_m1_even n1); assert (I2 : 1 <= INR n2) by (apply (le_INR 1); auto).
      split.
      + rewrite (between_detuning _ _ _ _ _ _ _ _ _ CS LT E D DU), SG, quadratic_flips, !quadratic_x, (power_first_moment _ _ (uhrig_moments n2 T 1 N2)) by reflexivity.
        unfold quadratic_pulses; rewrite blocks_y.
        change (other_than AY AX) with true; cbv iota; rewrite Nat.even_succ, <- Nat.negb_even.
        assert (EX : (exists n m, truncates_to x n /\ truncates_to y m /\ Nat.even n = true /\ Nat.even m = false) <-> Nat.even n1 = true /\ Nat.even n2 = false).
        { split; [intros [m1 [m2 [X [Y [Z W]]]]]; rewrite (trunc_same x n1 m1), (trunc_same y n2 m2); auto|intros [X Y]; exists n1, n2; auto]. }
        rewrite EX, <- WM, P; clear EX WM P.
        destruct (Nat.even n1), (Nat.even n2); cbn [negb].
        * split; [intros [_ [X _]]; lra|intros [_ [_ X]]; discriminate].
        * split; [intros [_ [X _]]; split; [lra|auto]|intros [X _]; split; [auto|]; split; [lra|ring]].
        * split; [intros [_ [X _]]; nra|intros [_ [X _]]; discriminate].
        * split; [intros [_ [X _]]; nra|intros [_ [X _]]; discriminate].
      + rewrite (between_amplitude _ _ _ _ _ _ _ _ _ CS LT E D DU), SG, !quadratic_x by reflexivity; unfold quadratic_pulses; rewrite blocks_y.
        change (other_than AX AX) with false; cbv iota; rewrite P, (even_trunc x n1 (fun m => Nat.even m = false) TR1).
        destruct (Nat.even n1), (Nat.even n2); split; intros X; try discriminate; try reflexivity; try (split; lra); destruct X; lra.
    - destruct (trunc x V) as [l [N [TR NX]]].
      rewrite (x_model T x l true n0) in B by auto; injection B as <-.
      destruct (uniform_x (x_times T l) (Nat.even l = false) CS E) as [U1 U2].
      + rewrite x_parity; split; [tauto|]; intros Z; split; auto; apply power_first_moment, x_moments; auto.
      + split; [rewrite U1, (even_trunc x l (fun m => Nat.even m = false) TR); tauto|].
        rewrite U2; split; [|tauto]; intros Z.
        assert (M := x_moments T l 1 N); rewrite Z in M; unfold switched in M; cbn in M; lra.
    - destruct (Rlt_dec x 3) as [X3|X3].
      2:{ exfalso; destruct (xy_not_convertible T x true n0 HT V) as [s' [B' [_ A]]].
          - cbn [separated]; lra.
          - rewrite B' in B; injection B as ->; specialize (A maxr maxd mn name); rewrite E in A; destruct A as [? [? [? A]]]; discriminate. }
      destruct (Rlt_dec x 2) as [X2|X2].
      { exfalso; destruct (xy_not_convertible T x true n0 HT V) as [s' [B' [_ A]]].
          - cbn [separated]; intros [[_ Q]|Q]; [discriminate|lra].
          - rewrite B' in B; injection B as ->; specialize (A maxr maxd mn name); rewrite E in A; destruct A as [? [? [? A]]]; discriminate. }
      assert (TR : truncates_to x 2) by (unfold truncates_to; cbn; lra).
      assert (SM : small 2) by (unfold small; auto).
      rewrite (xy_model T x 2 true n0 (xy_small 2) HT TR ltac:(lia) (xy_small_slots 2 SM)) in B by (intros; apply xy_small_bounds; auto).
      destruct (xy_counts 2 (T / 2 ^ (2 * 2)) SM) as [C1 [C2 C3]]; destruct (C3 eq_refl) as [C4 C5].
      assert (SG : flip_sign (map (scale_z (T / 2 ^ (2 * 2))) (xy_small 2)) = 1).
      { unfold flip_sign, count_not; cbn [xy_small map scale_z fst filter axis_eqb negb List.length]; cbn; lra. }
      set (qs := map (scale_z (T / 2 ^ (2 * 2))) (xy_small 2)) in *; clearbody qs; injection B as <-.
      destruct (converted_between _ _ _ _ _ _ _ _ _ CS LT E D DU) as [Hr [Hd [Hmn _]]].
      assert (HP0 := hr_pos maxr mn Hr); unfold hr in HP0.
      split.
      + rewrite (between_detuning _ _ _ _ _ _ _ _ _ CS LT E D DU), C4; split; [intros [_ [X _]]; lra|tauto].
      + rewrite (between_amplitude _ _ _ _ _ _ _ _ _ CS LT E D DU), C1, C2, SG.
        split; [auto|intros _; split; [auto|lra]].
  Qed.
End Families.
