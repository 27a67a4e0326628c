(** * Acceptance domain and segment tables of the predefined controls *)

From Verif Require Export L_Quat L_Trig L_DrivenControl Spec_Predefined.
Import ListNotations.
Open Scope string_scope.
Open Scope list_scope.
Open Scope R_scope.

Lemma PI_pos : 0 < PI.
Proof. exact PI_RGT_0. Qed.

Lemma isclose_near a b : np_isclose a b = true <-> near a b.
Proof.
  unfold np_isclose, np_isclose_tol, near; rewrite leb_true.
  replace (1 / 10 ^ 8) with (/ 100000000) by field; replace (1 / 10 ^ 5) with (/ 100000) by field.
  tauto.
Qed.
Lemma isclose_near_false a b : np_isclose a b = false <-> ~ near a b.
Proof.
  rewrite <- isclose_near; destruct (np_isclose a b); split; intros; congruence.
Qed.

(** ** The common constructor *)

Lemma constant_rate_ok w (l : list (R * R)) name :
  0 < w -> (forall p, In p l -> 0 < fst p) ->
  exists c, constant_rate_control (map fst l) (map snd l) w name = Ok c /\
            describes (pulses w l) c /\ dc_name c = name.
Proof.
  intros W P; unfold constant_rate_control.
  destruct (segments_constructible (pulses w l) name) as [c [E D]].
  - intros g Hg; unfold pulses in Hg; apply in_map_iff in Hg; destruct Hg as [p [<- Hp]]; cbn.
    split; [|lra]. apply Rdiv_lt_0_compat; auto.
  - exists c; rewrite <- E; split; [|exact D].
    unfold pulses; rewrite !map_map, map_length; cbn [g_dur g_rabi g_phi g_det].
    assert (X : forall v : R, map (fun _ : R * R => v) l = repeat v (List.length l)).
    { intros v; clear; induction l; simpl; [|rewrite IHl]; reflexivity. }
    rewrite !X; reflexivity.
Qed.

Lemma constant_rate_raise w (l : list (R * R)) name :
  0 < w -> (exists p, In p l /\ fst p <= 0) ->
  exists s, constant_rate_control (map fst l) (map snd l) w name =
            Raise (ArgumentsValueError s ["durations"] []).
Proof.
  intros W [p [Hp Np]]; unfold constant_rate_control, DrivenControl.
  rewrite check_false; [eexists; reflexivity|].
  apply (forallb_false_Exists _ (fun d => d <= 0)).
  - intros x; apply ltb_false.
  - apply Exists_exists; exists (fst p / w); split.
    + apply in_map_iff; exists (fst p); split; auto; apply in_map; auto.
    + apply (Rmult_le_reg_r w); auto. unfold Rdiv; rewrite Rmult_assoc, Rinv_l by lra; lra.
Qed.

Lemma validate_ok th w : 0 < w -> th <> 0 -> validate_rabi_parameters th w = Ok tt.
Proof.
  intros W T; unfold validate_rabi_parameters.
  rewrite check_true by (apply ltb_true; auto); cbn [bind].
  apply check_true, neqb_true; auto.
Qed.
Lemma validate_bad_rate th w : w <= 0 ->
  exists s, validate_rabi_parameters th w = Raise (ArgumentsValueError s ["maximum_rabi_rate"] []).
Proof.
  intros W; unfold validate_rabi_parameters.
  rewrite check_false by (apply ltb_false; auto); eexists; reflexivity.
Qed.
Lemma validate_zero th w : 0 < w -> th = 0 ->
  exists s, validate_rabi_parameters th w = Raise (ArgumentsValueError s ["rabi_rotation"] []).
Proof.
  intros W T; unfold validate_rabi_parameters.
  rewrite check_true by (apply ltb_true; auto); cbn [bind].
  rewrite check_false by (apply neqb_false; auto); eexists; reflexivity.
Qed.

(** ** Auxiliary angles *)

Lemma wimperis_ok th : 0 < th <= 4 * PI ->
  exists p, get_transformed_rabi_rotation_wimperis th = Ok p /\ wimperis_angle th p.
Proof.
  intros H; assert (P := PI_pos); exists (acos (- th / (4 * PI))).
  unfold get_transformed_rabi_rotation_wimperis.
  rewrite check_true; [split; [reflexivity|]|apply andb_true_iff; split; apply leb_true; lra].
  split; [apply acos_bound|].
  apply cos_acos.
  assert (E : - th / (4 * PI) * (4 * PI) = - th) by (field; lra).
  split; apply (Rmult_le_reg_r (4 * PI)); lra.
Qed.

Lemma wimperis_raise th : 4 * PI < th ->
  exists s, get_transformed_rabi_rotation_wimperis th = Raise (ArgumentsValueError s ["rabi_rotation"] []).
Proof.
  intros H; unfold get_transformed_rabi_rotation_wimperis.
  rewrite check_false; [eexists; reflexivity|].
  apply andb_false_iff; right; apply leb_false; auto.
Qed.

Lemma corpse_k_angle th : corpse_angle th (corpse_k th).
Proof.
  unfold corpse_angle, corpse_k; split; [apply asin_bound|apply sin_asin].
  generalize (SIN_bound (th / 2)); lra.
Qed.

Lemma corpse_bound th k : corpse_angle th k -> - (PI / 6) <= k <= PI / 6.
Proof.
  intros [B E]; assert (P := PI_pos); assert (S := SIN_bound (th / 2)).
  split.
  - apply Rnot_lt_le; intros H.
    assert (sin k < sin (- (PI / 6))) by (apply sin_increasing_1; lra).
    rewrite sin_neg, sin_PI6 in H0; lra.
  - apply Rnot_lt_le; intros H.
    assert (sin (PI / 6) < sin k) by (apply sin_increasing_1; lra).
    rewrite sin_PI6 in H0; lra.
Qed.

Lemma corpse_below th k : corpse_angle th k -> 0 < th -> k < th / 2.
Proof.
  intros C T; assert (P := PI_pos); destruct (corpse_bound th k C) as [_ U].
  destruct C as [B E].
  destruct (Rlt_dec (PI / 6) (th / 2)) as [L|L]; [lra|].
  apply Rnot_le_lt; intros H.
  assert (S0 : 0 < sin (th / 2)) by (apply sin_gt_0; lra).
  assert (sin (th / 2) <= sin k); [|lra].
  destruct (Rle_lt_or_eq_dec _ _ H) as [H'|H'].
  - apply Rlt_le, sin_increasing_1; lra.
  - rewrite H'; lra.
Qed.

Lemma corpse_above th k : corpse_angle th k -> th < 0 -> th / 2 < k.
Proof.
  intros [B E] T.
  assert (C : corpse_angle (- th) (- k)).
  { split; [lra|]. replace (- th / 2) with (- (th / 2)) by field; rewrite !sin_neg; lra. }
  generalize (corpse_below _ _ C); lra.
Qed.

Lemma corpse_pulses_pos th phi k :
  corpse_angle th k -> 0 < th -> forall p, In p (corpse_pulses th phi k) -> 0 < fst p.
Proof.
  intros C T p Hp; assert (B := corpse_bound th k C); assert (L := corpse_below th k C T).
  assert (P := PI_pos).
  destruct Hp as [<-|[<-|[<-|[]]]]; cbn; lra.
Qed.

(** supported rotations are positive and not too large *)
Lemma near_bounds th b : 0 < b -> near th b -> b * (1 - / 100000) - / 100000000 <= th <= b * (1 + / 100000) + / 100000000.
Proof.
  unfold near; intros P H; rewrite (Rabs_right b) in H by lra.
  apply Rabs_le_between in H; lra.
Qed.

Lemma supported_bounds th : supported th -> PI / 5 < th < PI + / 1000.
Proof.
  assert (P := PI_bounds).
  intros [H|[H|H]]; apply near_bounds in H; lra.
Qed.

(** [sin (theta/2)] for a supported rotation *)
Lemma sin_half_lower th : supported th -> / 4 < sin (th / 2).
Proof.
  intros H; assert (B := supported_bounds th H); assert (P := PI_bounds).
  destruct (Rle_dec (th / 2) (PI / 2)) as [L|L].
  - apply Rlt_le_trans with (sin (PI / 10)).
    + assert (C := sin_ge_cubic (PI / 10)).
      assert (X : (PI / 10) ^ 3 <= (0.315) ^ 3) by (apply pow_incr; lra).
      lra.
    + destruct (Rle_lt_or_eq_dec (PI / 10) (th / 2)) as [H'|H']; [lra| |rewrite H'; lra].
      apply Rlt_le, sin_increasing_1; lra.
  - assert (C := sin_lipschitz (th / 2) (PI / 2)); rewrite sin_PI2 in C.
    assert (Rabs (th / 2 - PI / 2) <= / 1000) by (apply Rabs_le; lra).
    assert (A : Rabs (sin (th / 2) - 1) <= / 1000) by lra.
    apply Rabs_le_between in A; lra.
Qed.

Lemma sin_half_lower_2 th : near th (PI / 2) -> / 2 < sin (th / 2).
Proof.
  assert (P := PI_bounds); intros H; apply near_bounds in H; [|lra].
  apply Rle_lt_trans with (sin (PI / 6)); [rewrite sin_PI6; lra|]; apply sin_increasing_1; lra.
Qed.

Lemma scrofulous_theta_1_table th :
  supported th -> scrofulous_table th (scrofulous_theta_1 th).
Proof.
  intros H; unfold scrofulous_theta_1, scrofulous_table, degrees_to_radians.
  replace (5 / 10 * PI) with (PI / 2) by field.
  destruct (np_isclose th PI) eqn:E1.
  - apply isclose_near in E1; left; split; auto; field.
  - apply isclose_near_false in E1; right.
    destruct (np_isclose th (PI / 2)) eqn:E2.
    + apply isclose_near in E2; left; repeat split; auto; field.
    + apply isclose_near_false in E2; right; repeat split; auto; field.
Qed.

Lemma scrofulous_theta_1_bounds th t1 :
  scrofulous_table th t1 -> PI / 2 < t1 <= PI.
Proof. assert (P := PI_pos); intros [[_ ->]|[[_ [_ ->]]|[_ [_ ->]]]]; lra. Qed.

Lemma ratio_bound x y : 0 < y -> - y <= x <= y -> -1 <= x / y <= 1.
Proof.
  intros Y H; assert (E : x / y * y = x) by (field; lra).
  split; apply (Rmult_le_reg_r y); lra.
Qed.

Lemma scrofulous_angles_ok th :
  supported th ->
  let t1 := scrofulous_theta_1 th in
  let p1 := scrofulous_phi_1 t1 th in
  scrofulous_angles th t1 p1 (scrofulous_phi_2 t1 p1).
Proof.
  intros H; cbv zeta.
  assert (T := scrofulous_theta_1_table th H); set (t1 := scrofulous_theta_1 th) in *; clearbody t1.
  assert (B := scrofulous_theta_1_bounds th t1 T); assert (P := PI_bounds).
  assert (S := sin_half_lower th H).
  assert (A1 : -1 <= - PI * cos t1 / (2 * t1 * sin (th / 2)) <= 1).
  { apply ratio_bound; [apply Rmult_lt_0_compat; lra|].
    assert (K : PI * / 4 <= 2 * t1 * sin (th / 2)).
    { apply Rmult_le_compat; lra. }
    destruct T as [[N ->]|[[N1 [N2 ->]]|[N1 [N2 ->]]]].
    - rewrite cos_PI.
      assert (SL : / 2 < sin (th / 2)).
      { apply near_bounds in N; [|lra].
        assert (C := sin_lipschitz (th / 2) (PI / 2)); rewrite sin_PI2 in C.
        assert (Rabs (th / 2 - PI / 2) <= / 1000) by (apply Rabs_le; lra).
        assert (A : Rabs (sin (th / 2) - 1) <= / 1000) by lra.
        apply Rabs_le_between in A; lra. }
      nra.
    - assert (SL := sin_half_lower_2 th N2).
      replace (PI * (1152 / 1800)) with (PI / 2 + PI * (7 / 50)) in * by field.
      rewrite cos_plus, cos_PI2, sin_PI2, Rmult_0_l, Rmult_1_l, Rminus_0_l.
      assert (X1 : 0 < sin (PI * (7 / 50))) by (apply sin_gt_0; lra).
      assert (X2 := sin_lt_x (PI * (7 / 50))). 
      assert (X3 : sin (PI * (7 / 50)) < 1 / 2) by lra.
      nra.
    - replace (PI * (967 / 1800)) with (PI / 2 + PI * (67 / 1800)) in * by field.
      rewrite cos_plus, cos_PI2, sin_PI2, Rmult_0_l, Rmult_1_l, Rminus_0_l.
      assert (X1 : 0 < sin (PI * (67 / 1800))) by (apply sin_gt_0; lra).
      assert (X2 := sin_lt_x (PI * (67 / 1800))).
      assert (X3 : sin (PI * (67 / 1800)) < 1 / 4) by lra.
      nra. }
  assert (A2 : -1 <= - PI / (2 * t1) <= 1) by (apply ratio_bound; lra).
  unfold scrofulous_angles, scrofulous_phi_1, scrofulous_phi_2.
  replace (- PI * cos t1 / 2 / t1 / sin (th / 2)) with (- PI * cos t1 / (2 * t1 * sin (th / 2)))
    by (field; lra).
  replace (- PI / 2 / t1) with (- PI / (2 * t1)) by (field; lra).
  set (p1 := acos (- PI * cos t1 / (2 * t1 * sin (th / 2)))).
  replace (p1 - (p1 - acos (- PI / (2 * t1)))) with (acos (- PI / (2 * t1))) by ring.
  split; [exact T|].
  split; [apply acos_bound|]. split; [apply cos_acos; auto|].
  split; [apply acos_bound|apply cos_acos; auto].
Qed.

Lemma check_supported_ok th : supported th -> check_supported_rotation th = Ok tt.
Proof.
  intros H; unfold check_supported_rotation; apply check_true.
  unfold np_any; cbn [existsb]; rewrite !orb_true_iff, !isclose_near.
  destruct H as [H|[H|H]]; auto.
Qed.
Lemma check_supported_raise th : ~ supported th ->
  exists s, check_supported_rotation th = Raise (ArgumentsValueError s ["rabi_rotation"] []).
Proof.
  intros H; unfold check_supported_rotation; rewrite check_false; [eexists; reflexivity|].
  unfold np_any; cbn [existsb]; rewrite !orb_false_iff, !isclose_near_false.
  unfold supported in H; tauto.
Qed.

Lemma wamf1_thetas_table th :
  supported th -> wamf1_table th (fst (wamf1_thetas th)) (snd (wamf1_thetas th)).
Proof.
  intros H; unfold wamf1_thetas, wamf1_table.
  replace (5 / 10 * PI) with (PI / 2) by field.
  destruct (np_isclose th PI) eqn:E1.
  - apply isclose_near in E1; left; auto.
  - apply isclose_near_false in E1; right.
    destruct (np_isclose th (PI / 2)) eqn:E2.
    + apply isclose_near in E2; left; cbn [fst snd]; repeat split; auto; field.
    + apply isclose_near_false in E2; right; cbn [fst snd]; repeat split; auto; field.
Qed.

Lemma wamf1_bounds th a b : wamf1_table th a b -> 0 < b /\ b < a.
Proof.
  assert (P := PI_pos); intros [[_ [-> ->]]|[[_ [_ [-> ->]]]|[_ [_ [-> ->]]]]]; lra.
Qed.

(** ** C23/C24: every accepted input gives the documented table *)

Ltac table l :=
  match goal with
  | |- exists c, constant_rate_control ?a ?b ?w ?n = Ok c /\ _ =>
      change a with (map fst l); change b with (map snd l)
  end.

Theorem build_accepts s th w phi name :
  accepts s th w ->
  exists c l, build s th w phi name = Ok c /\ describes l c /\ design s th w phi l /\ dc_name c = name.
Proof.
  intros [W [T A]].
  assert (V : validate_rabi_parameters th w = Ok tt) by (apply validate_ok; lra).
  assert (P := PI_pos).
  assert (G : forall l, (forall p, In p l -> 0 < fst p) -> design s th w phi (pulses w l) ->
              build s th w phi name = constant_rate_control (map fst l) (map snd l) w name ->
              exists c l, build s th w phi name = Ok c /\ describes l c /\ design s th w phi l /\ dc_name c = name).
  { intros l Hl Hd E; destruct (constant_rate_ok w l name W Hl) as [c [Hc [D N]]].
    exists c, (pulses w l); rewrite E; auto. }
  destruct s; cbn [accepts] in A.
  - apply (G [(th, phi)]).
    + intros p [<-|[]]; auto.
    + reflexivity.
    + cbn [build]; unfold new_primitive_control; rewrite V; reflexivity.
  - destruct (wimperis_ok th) as [p [E Hp]]; [lra|].
    apply (G [(th, phi); (PI, phi + p); (2 * PI, phi + 3 * p); (PI, phi + p)]).
    + intros q [<-|[<-|[<-|[<-|[]]]]]; cbn; lra.
    + exists p; auto.
    + cbn [build]; unfold new_bb1_control; rewrite V, E; reflexivity.
  - destruct (wimperis_ok th) as [p [E Hp]]; [lra|].
    apply (G [(th, phi); (2 * PI, phi - p); (2 * PI, phi + p)]).
    + intros q [<-|[<-|[<-|[]]]]; cbn; lra.
    + exists p; auto.
    + cbn [build]; unfold new_sk1_control; rewrite V, E; reflexivity.
  - assert (SA := scrofulous_angles_ok th A); cbv zeta in SA.
    set (t1 := scrofulous_theta_1 th) in *; set (p1 := scrofulous_phi_1 t1 th) in *;
      set (p2 := scrofulous_phi_2 t1 p1) in *.
    apply (G [(t1, phi + p1); (PI, phi + p2); (t1, phi + p1)]).
    + assert (B := scrofulous_theta_1_bounds th t1 (proj1 SA)).
      intros q [<-|[<-|[<-|[]]]]; cbn; lra.
    + exists t1, p1, p2; auto.
    + cbn [build]; unfold new_scrofulous_control; rewrite V, (check_supported_ok th A); reflexivity.
  - apply (G (corpse_pulses th phi (corpse_k th))).
    + apply corpse_pulses_pos; auto; apply corpse_k_angle.
    + exists (corpse_k th); split; auto; apply corpse_k_angle.
    + cbn [build]; unfold new_corpse_control; rewrite V; cbn [bind map corpse_pulses fst snd].
      replace (th / 2 + 2 * PI - corpse_k th) with (2 * PI + th / 2 - corpse_k th) by ring.
      reflexivity.
  - destruct (wimperis_ok th) as [p [E Hp]]; [lra|].
    assert (K := corpse_k_angle th).
    apply (G (corpse_pulses th phi (corpse_k th) ++
              [(PI, phi + p); (2 * PI, phi + 3 * p); (PI, phi + p)])).
    + intros q Hq; apply in_app_or in Hq; destruct Hq as [Hq|Hq].
      * eapply corpse_pulses_pos; eauto.
      * destruct Hq as [<-|[<-|[<-|[]]]]; cbn; lra.
    + exists p, (corpse_k th); auto.
    + cbn [build]; unfold new_corpse_in_bb1_control; rewrite V, E; reflexivity.
  - destruct (wimperis_ok th) as [p [E Hp]]; [lra|].
    assert (K := corpse_k_angle th).
    apply (G (corpse_pulses th phi (corpse_k th) ++ [(2 * PI, phi - p); (2 * PI, phi + p)])).
    + intros q Hq; apply in_app_or in Hq; destruct Hq as [Hq|Hq].
      * eapply corpse_pulses_pos; eauto.
      * destruct Hq as [<-|[<-|[]]]; cbn; lra.
    + exists p, (corpse_k th); auto.
    + cbn [build]; unfold new_corpse_in_sk1_control; rewrite V, E; reflexivity.
  - assert (SA := scrofulous_angles_ok th A); cbv zeta in SA.
    set (t1 := scrofulous_theta_1 th) in *; set (p1 := scrofulous_phi_1 t1 th) in *;
      set (p2 := scrofulous_phi_2 t1 p1) in *.
    assert (B := scrofulous_theta_1_bounds th t1 (proj1 SA)).
    apply (G (corpse_pulses t1 (phi + p1) (corpse_k t1) ++ corpse_pulses PI (phi + p2) (corpse_k PI)
              ++ corpse_pulses t1 (phi + p1) (corpse_k t1))).
    + intros q Hq; rewrite !in_app_iff in Hq; destruct Hq as [Hq|[Hq|Hq]];
        eapply corpse_pulses_pos; try apply Hq; try apply corpse_k_angle; lra.
    + exists t1, p1, p2, (corpse_k t1), (corpse_k PI); repeat split; try apply SA;
        try apply corpse_k_angle.
    + cbn [build]; unfold new_corpse_in_scrofulous_control; rewrite V, (check_supported_ok th A).
      cbn [bind]; cbv zeta; fold t1; fold p1; fold p2.
      cbn [combine flat_map corpse_rows app map fst snd corpse_pulses].
      replace (p1 + phi) with (phi + p1) by ring; replace (p2 + phi) with (phi + p2) by ring.
      replace (PI + p1 + phi) with (phi + p1 + PI) by ring;
        replace (PI + p2 + phi) with (phi + p2 + PI) by ring.
      reflexivity.
  - assert (TB := wamf1_thetas_table th A).
    destruct (wamf1_thetas th) as [a b] eqn:EW; cbn [fst snd] in TB.
    destruct (wamf1_bounds th a b TB) as [B0 B1].
    assert (Q : 0 < b / a) by (apply Rdiv_lt_0_compat; lra).
    assert (Q2 : 0 < a / w) by (apply Rdiv_lt_0_compat; lra).
    set (l := [Seg w phi 0 (a / w); Seg (w * (b / a)) phi 0 (a / w);
               Seg (w * (b / a)) phi 0 (a / w); Seg w phi 0 (a / w)]).
    destruct (segments_constructible l name) as [c [Hc [D N]]].
    { assert (0 < w * (b / a)) by (apply Rmult_lt_0_compat; auto).
      intros g [<-|[<-|[<-|[<-|[]]]]]; cbn; lra. }
    exists c, l; split; [|split; [auto|split; auto]].
    + cbn [build]; unfold new_wamf1_control; rewrite V, (check_supported_ok th A); cbn [bind].
      rewrite EW, <- Hc; cbv zeta; cbn [map l g_dur g_rabi g_phi g_det repeat].
      replace (a / (a / w)) with w by (field; lra).
      replace (b / (a / w)) with (w * (b / a)) by (field; lra).
      reflexivity.
    + exists a, b; auto.
Qed.

Theorem build_rejects s th w phi name :
  ~ accepts s th w ->
  exists d args, build s th w phi name = Raise (ArgumentsValueError d args []) /\
    (w <= 0 -> args = ["maximum_rabi_rate"]) /\
    (0 < w -> th = 0 -> args = ["rabi_rotation"]) /\
    (args = ["maximum_rabi_rate"] \/ args = ["rabi_rotation"] \/ args = ["durations"]).
Proof.
  intros A.
  destruct (Rle_dec w 0) as [W|W].
  { destruct (validate_bad_rate th w W) as [d E].
    exists d, ["maximum_rabi_rate"]; split; [|split; [auto|split; [lra|auto]]].
    destruct s; cbn [build]; unfold new_primitive_control, new_bb1_control, new_sk1_control,
      new_scrofulous_control, new_corpse_control, new_corpse_in_bb1_control,
      new_corpse_in_sk1_control, new_corpse_in_scrofulous_control, new_wamf1_control;
      rewrite E; reflexivity. }
  assert (W' : 0 < w) by lra.
  destruct (Req_dec th 0) as [Z|Z].
  { destruct (validate_zero th w W' Z) as [d E].
    exists d, ["rabi_rotation"]; split; [|split; [lra|split; [auto|auto]]].
    destruct s; cbn [build]; unfold new_primitive_control, new_bb1_control, new_sk1_control,
      new_scrofulous_control, new_corpse_control, new_corpse_in_bb1_control,
      new_corpse_in_sk1_control, new_corpse_in_scrofulous_control, new_wamf1_control;
      rewrite E; reflexivity. }
  assert (V : validate_rabi_parameters th w = Ok tt) by (apply validate_ok; auto).
  assert (G : forall l, (exists p, In p l /\ fst p <= 0) ->
              build s th w phi name = constant_rate_control (map fst l) (map snd l) w name ->
              exists d args, build s th w phi name = Raise (ArgumentsValueError d args []) /\
                (w <= 0 -> args = ["maximum_rabi_rate"]) /\
                (0 < w -> th = 0 -> args = ["rabi_rotation"]) /\
                (args = ["maximum_rabi_rate"] \/ args = ["rabi_rotation"] \/ args = ["durations"])).
  { intros l Hl E; destruct (constant_rate_raise w l name W' Hl) as [d Hd].
    exists d, ["durations"]; rewrite E, Hd; repeat split; auto; lra. }
  assert (G2 : forall d, build s th w phi name = Raise (ArgumentsValueError d ["rabi_rotation"] []) ->
              exists d args, build s th w phi name = Raise (ArgumentsValueError d args []) /\
                (w <= 0 -> args = ["maximum_rabi_rate"]) /\
                (0 < w -> th = 0 -> args = ["rabi_rotation"]) /\
                (args = ["maximum_rabi_rate"] \/ args = ["rabi_rotation"] \/ args = ["durations"])).
  { intros d E; exists d, ["rabi_rotation"]; rewrite E; repeat split; auto; lra. }
  assert (WM : forall f, th < 0 \/ 4 * PI < th ->
     build s th w phi name = (let* p := get_transformed_rabi_rotation_wimperis th in
                              constant_rate_control (map fst (f p)) (map snd (f p)) w name) ->
     (th < 0 -> forall p, exists q, In q (f p) /\ fst q <= 0) ->
              exists d args, build s th w phi name = Raise (ArgumentsValueError d args []) /\
                (w <= 0 -> args = ["maximum_rabi_rate"]) /\
                (0 < w -> th = 0 -> args = ["rabi_rotation"]) /\
                (args = ["maximum_rabi_rate"] \/ args = ["rabi_rotation"] \/ args = ["durations"])).
  { intros f [H|H] E F.
    - destruct (get_transformed_rabi_rotation_wimperis th) as [p|e] eqn:EW.
      + apply (G (f p)); auto.
      + unfold get_transformed_rabi_rotation_wimperis in EW.
        destruct (leb (- (4) * PI) th && leb th (4 * PI))%bool; cbn in EW; [discriminate|].
        injection EW as <-; eapply G2; rewrite E; reflexivity.
    - destruct (wimperis_raise th H) as [d EW]; apply (G2 d); rewrite E, EW; reflexivity. }
  assert (CN : th < 0 -> th / 2 - corpse_k th <= 0).
  { intros N; generalize (corpse_above th _ (corpse_k_angle th) N); lra. }
  assert (SP : supported th -> 0 < th).
  { intros S; generalize (supported_bounds th S) PI_pos; lra. }
  unfold accepts in A.
  destruct s.
  - apply (G [(th, phi)]).
    + exists (th, phi); split; [left; auto|cbn]. destruct (Rle_dec th 0); auto; exfalso; apply A; repeat split; auto; lra.
    + cbn [build]; unfold new_primitive_control; rewrite V; reflexivity.
  - apply (WM (fun p => [(th, phi); (PI, phi + p); (2 * PI, phi + 3 * p); (PI, phi + p)])).
    + destruct (Rlt_dec th 0); auto; right; apply Rnot_le_lt; intros L; apply A; repeat split; auto; lra.
    + cbn [build]; unfold new_bb1_control; rewrite V; reflexivity.
    + intros N p; exists (th, phi); split; [left; auto|cbn; lra].
  - apply (WM (fun p => [(th, phi); (2 * PI, phi - p); (2 * PI, phi + p)])).
    + destruct (Rlt_dec th 0); auto; right; apply Rnot_le_lt; intros L; apply A; repeat split; auto; lra.
    + cbn [build]; unfold new_sk1_control; rewrite V; reflexivity.
    + intros N p; exists (th, phi); split; [left; auto|cbn; lra].
  - destruct (check_supported_raise th) as [d ES]; [intros S; apply A; auto|]; apply (G2 d).
    cbn [build]; unfold new_scrofulous_control; rewrite V; cbn [bind]; rewrite ES; reflexivity.
  - apply (G (corpse_pulses th phi (corpse_k th))).
    + exists (th / 2 - corpse_k th, phi); split; [right; right; left; auto|cbn; apply CN].
      destruct (Rlt_dec th 0); auto; exfalso; apply A; repeat split; auto; lra.
    + cbn [build]; unfold new_corpse_control; rewrite V; cbn [bind map corpse_pulses fst snd].
      replace (th / 2 + 2 * PI - corpse_k th) with (2 * PI + th / 2 - corpse_k th) by ring.
      reflexivity.
  - apply (WM (fun p => corpse_pulses th phi (corpse_k th) ++
              [(PI, phi + p); (2 * PI, phi + 3 * p); (PI, phi + p)])).
    + destruct (Rlt_dec th 0); auto; right; apply Rnot_le_lt; intros L; apply A; repeat split; auto; lra.
    + cbn [build]; unfold new_corpse_in_bb1_control; rewrite V; reflexivity.
    + intros N p; exists (th / 2 - corpse_k th, phi); split; [right; right; left; auto|cbn; apply CN; auto].
  - apply (WM (fun p => corpse_pulses th phi (corpse_k th) ++ [(2 * PI, phi - p); (2 * PI, phi + p)])).
    + destruct (Rlt_dec th 0); auto; right; apply Rnot_le_lt; intros L; apply A; repeat split; auto; lra.
    + cbn [build]; unfold new_corpse_in_sk1_control; rewrite V; reflexivity.
    + intros N p; exists (th / 2 - corpse_k th, phi); split; [right; right; left; auto|cbn; apply CN; auto].
  - destruct (check_supported_raise th) as [d ES]; [intros S; apply A; auto|]; apply (G2 d).
    cbn [build]; unfold new_corpse_in_scrofulous_control; rewrite V; cbn [bind]; rewrite ES; reflexivity.
  - destruct (check_supported_raise th) as [d ES]; [intros S; apply A; auto|]; apply (G2 d).
    cbn [build]; unfold new_wamf1_control; rewrite V; cbn [bind]; rewrite ES; reflexivity.
Qed.
