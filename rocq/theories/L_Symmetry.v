(** * Rates, durations and symmetries of the predefined controls *)

From Verif Require Export L_Wamf L_DrivenExport.
From Coq Require Import Lia.
Import ListNotations.
Open Scope string_scope.
Open Scope list_scope.
Open Scope R_scope.

Theorem build_iff s th w phi name :
  (accepts s th w <-> exists c, build s th w phi name = Ok c) /\
  (accepts s th w -> exists c l, build s th w phi name = Ok c /\ describes l c /\
     design s th w phi l /\ dc_name c = name) /\
  (~ accepts s th w ->
     exists d args, build s th w phi name = Raise (ArgumentsValueError d args []) /\
       (w <= 0 -> args = ["maximum_rabi_rate"]) /\
       (0 < w -> th = 0 -> args = ["rabi_rotation"]) /\
       (args = ["maximum_rabi_rate"] \/ args = ["rabi_rotation"] \/ args = ["durations"])).
Proof.
  split; [|split; [apply build_accepts|apply build_rejects]].
  split.
  - intros A; destruct (build_accepts s th w phi name A) as [c [l [B _]]]; eauto.
  - intros [c B]; destruct (accepts_dec s th w) as [A|A]; auto.
    destruct (build_rejects s th w phi name A) as [d [args [E _]]]; congruence.
Qed.

(** ** C24 *)

Lemma pulses_rates w l : 0 < w ->
  forall g, In g (pulses w l) -> 0 < g_rabi g <= w /\ g_det g = 0.
Proof.
  intros W g Hg; apply in_map_iff in Hg; destruct Hg as [p [<- _]]; cbn; lra.
Qed.

Lemma pulses_total w l : 0 < w -> total (map g_dur (pulses w l)) = total (map fst l) / w.
Proof.
  intros W; induction l as [|p l IH]; cbn [pulses map total].
  - field; lra.
  - fold (pulses w l); rewrite IH; cbn [g_dur]; field; lra.
Qed.

Lemma build_constructible s th w phi name c : build s th w phi name = Ok c -> constructible c.
Proof.
  intros B; destruct s; cbn [build] in B;
    unfold new_primitive_control, new_bb1_control, new_sk1_control, new_scrofulous_control,
      new_corpse_control, new_corpse_in_bb1_control, new_corpse_in_sk1_control,
      new_corpse_in_scrofulous_control, new_wamf1_control, constant_rate_control in B;
    destruct (validate_rabi_parameters th w); cbn [bind] in B; try discriminate;
    try (destruct (get_transformed_rabi_rotation_wimperis th); cbn [bind] in B; try discriminate);
    try (destruct (check_supported_rotation th); cbn [bind] in B; try discriminate);
    try (destruct (wamf1_thetas th)); cbv zeta in B;
    do 5 eexists; exact B.
Qed.

Lemma pulses_max w p l : 0 < w -> is_maximum w (map g_rabi (pulses w (p :: l))).
Proof.
  intros W; split; [left; reflexivity|].
  intros x Hx; apply in_map_iff in Hx; destruct Hx as [g [<- Hg]].
  apply (pulses_rates w (p :: l) W g Hg).
Qed.

Lemma total_corpse th phi k : total (map fst (corpse_pulses th phi k)) = th + 4 * PI - 4 * k.
Proof. cbn; field. Qed.

Theorem rates_and_duration s th w phi name c l :
  build s th w phi name = Ok c -> describes l c ->
  maximum_rabi_rate c = Ok w /\
  (forall g, In g l -> 0 < g_rabi g <= w /\ g_det g = 0 /\ 0 < g_dur g) /\
  duration c = total (map g_dur l) /\
  scheme_duration s th w (duration c).
Proof.
  intros B D; destruct (build_inv s _ _ _ _ _ _ B D) as [[W [T A]] X].
  assert (P := PI_pos).
  assert (DU : duration c = total (map g_dur l)).
  { unfold duration; rewrite np_sum_total; destruct D as [_ [_ [_ E]]]; rewrite E; reflexivity. }
  destruct (constructible_segments c (build_constructible _ _ _ _ _ _ B)) as [l' [D' [_ PS]]].
  rewrite (describes_unique _ _ _ D' D) in PS.
  assert (G : forall ps, ps <> [] -> l = pulses w ps -> scheme_duration s th w (total (map fst ps) / w) ->
     maximum_rabi_rate c = Ok w /\
     (forall g, In g l -> 0 < g_rabi g <= w /\ g_det g = 0 /\ 0 < g_dur g) /\
     duration c = total (map g_dur l) /\ scheme_duration s th w (duration c)).
  { intros ps N E S; split; [|split; [|split; [exact DU|]]].
    - apply (desc_max l c w D); rewrite E; destruct ps; [congruence|apply pulses_max; auto].
    - intros g Hg; assert (Hg' := Hg); rewrite E in Hg'.
      destruct (pulses_rates w ps W g Hg') as [? ?]; destruct (PS g Hg); auto.
    - rewrite DU, E, pulses_total by auto; exact S. }
  destruct s; cbn [design accepts] in X, A.
  - apply (G _) in X; auto; [discriminate|]. cbn; field; lra.
  - destruct X as [p [_ X]]; apply (G _) in X; auto; [discriminate|]. cbn; field; lra.
  - destruct X as [p [_ X]]; apply (G _) in X; auto; [discriminate|]. cbn; field; lra.
  - destruct X as [t1 [p1 [p2 [SA X]]]]; apply (G _) in X; auto; [discriminate|].
    exists t1; split; [apply SA|cbn; field; lra].
  - destruct X as [k [K X]]; apply (G _) in X; auto; [discriminate|].
    exists k; split; auto; cbn; field; lra.
  - destruct X as [p [k [_ [K X]]]]; apply (G _) in X; auto; [discriminate|].
    exists k; split; auto; cbn; field; lra.
  - destruct X as [p [k [_ [K X]]]]; apply (G _) in X; auto; [discriminate|].
    exists k; split; auto; cbn; field; lra.
  - destruct X as [t1 [p1 [p2 [k1 [k2 [SA [K1 [K2 X]]]]]]]]; apply (G _) in X; auto; [discriminate|].
    exists t1, k1, k2; split; [apply SA|split; [auto|split; auto]]; cbn; field; lra.
  - destruct X as [a [b [TB X]]]; destruct (wamf1_bounds _ _ _ TB) as [B0 B1].
    assert (Q : 0 < b / a < 1).
    { split; [apply Rdiv_lt_0_compat; lra|].
      apply (Rmult_lt_reg_r a); [lra|]. replace (b / a * a) with b by (field; lra); lra. }
    assert (Q2 : 0 < w * (b / a) <= w).
    { split; [apply Rmult_lt_0_compat; lra|]. rewrite <- (Rmult_1_r w) at 2; apply Rmult_le_compat_l; lra. }
    split; [|split; [|split; [exact DU|]]].
    + apply (desc_max l c w D); rewrite X; split; [left; reflexivity|].
      intros x [<-|[<-|[<-|[<-|[]]]]]; cbn; lra.
    + intros g Hg; assert (Hg' := Hg); rewrite X in Hg'; destruct (PS g Hg) as [PD _].
      destruct Hg' as [<-|[<-|[<-|[<-|[]]]]]; cbn in *; lra.
    + exists a, b; split; auto; rewrite DU, X; cbn; field; lra.
Qed.

(** ** C25: azimuthal covariance *)

Lemma wimperis_unique th p q : wimperis_angle th p -> wimperis_angle th q -> p = q.
Proof. intros [A B] [C D]; apply cos_inj; try lra; congruence. Qed.
Lemma corpse_unique th p q : corpse_angle th p -> corpse_angle th q -> p = q.
Proof. intros [A B] [C D]; apply sin_inj; try lra; congruence. Qed.
Lemma wamf1_unique th a b a' b' : wamf1_table th a b -> wamf1_table th a' b' -> a = a' /\ b = b'.
Proof.
  intros [[N [-> ->]]|[[N [M [-> ->]]]|[N [M [-> ->]]]]]
         [[N' [-> ->]]|[[N' [M' [-> ->]]]|[N' [M' [-> ->]]]]]; try tauto; auto.
Qed.

(** a scheme determines its segments *)
Lemma design_unique s th w phi l l' : design s th w phi l -> design s th w phi l' -> l = l'.
Proof.
  destruct s; cbn [design].
  - congruence.
  - intros [p [P ->]] [q [Q ->]]; rewrite (wimperis_unique _ _ _ P Q); reflexivity.
  - intros [p [P ->]] [q [Q ->]]; rewrite (wimperis_unique _ _ _ P Q); reflexivity.
  - intros [t [p [q [A ->]]]] [t' [p' [q' [A' ->]]]].
    destruct (scrofulous_unique _ _ _ _ _ _ _ A A') as [<- [<- <-]]; reflexivity.
  - intros [p [P ->]] [q [Q ->]]; rewrite (corpse_unique _ _ _ P Q); reflexivity.
  - intros [p [k [P [K ->]]]] [p' [k' [P' [K' ->]]]].
    rewrite (wimperis_unique _ _ _ P P'), (corpse_unique _ _ _ K K'); reflexivity.
  - intros [p [k [P [K ->]]]] [p' [k' [P' [K' ->]]]].
    rewrite (wimperis_unique _ _ _ P P'), (corpse_unique _ _ _ K K'); reflexivity.
  - intros [t [p [q [k1 [k2 [A [K1 [K2 ->]]]]]]]] [t' [p' [q' [k1' [k2' [A' [K1' [K2' ->]]]]]]]].
    destruct (scrofulous_unique _ _ _ _ _ _ _ A A') as [<- [<- <-]].
    rewrite (corpse_unique _ _ _ K1 K1'), (corpse_unique _ _ _ K2 K2'); reflexivity.
  - intros [a [b [T ->]]] [a' [b' [T' ->]]].
    destruct (wamf1_unique _ _ _ _ _ T T') as [<- <-]; reflexivity.
Qed.

Lemma rotate_axes_shift a l : rotate_axes a l = map (shift_seg a) l.
Proof. reflexivity. Qed.


Lemma design_rotate s th w phi a l : design s th w phi l -> design s th w (phi + a) (rotate_axes a l).
Proof.
  rewrite rotate_axes_shift.
  assert (E : forall x, x + phi + a = x + (phi + a)) by (intros; ring).
  destruct s; cbn [design].
  - intros ->; rewrite shift_pulses; reflexivity.
  - intros [p [P ->]]; exists p; split; auto; rewrite shift_pulses; unfold shift_pulse; cbn [map fst snd].
    replace (phi + p + a) with (phi + a + p) by ring.
    replace (phi + 3 * p + a) with (phi + a + 3 * p) by ring; reflexivity.
  - intros [p [P ->]]; exists p; split; auto; rewrite shift_pulses; unfold shift_pulse; cbn [map fst snd].
    replace (phi + p + a) with (phi + a + p) by ring.
    replace (phi - p + a) with (phi + a - p) by ring; reflexivity.
  - intros [t [p [q [A ->]]]]; exists t, p, q; split; auto; rewrite shift_pulses; unfold shift_pulse; cbn [map fst snd].
    replace (phi + p + a) with (phi + a + p) by ring.
    replace (phi + q + a) with (phi + a + q) by ring; reflexivity.
  - intros [k [K ->]]; exists k; split; auto; rewrite shift_pulses, <- shift_corpse_at, (Rplus_comm a phi).
    reflexivity.
  - intros [p [k [P [K ->]]]]; exists p, k; split; auto; split; auto.
    rewrite shift_pulses, map_app, <- shift_corpse_at, (Rplus_comm a phi); unfold shift_pulse; cbn [map fst snd].
    replace (phi + p + a) with (phi + a + p) by ring.
    replace (phi + 3 * p + a) with (phi + a + 3 * p) by ring; reflexivity.
  - intros [p [k [P [K ->]]]]; exists p, k; split; auto; split; auto.
    rewrite shift_pulses, map_app, <- shift_corpse_at, (Rplus_comm a phi); unfold shift_pulse; cbn [map fst snd].
    replace (phi + p + a) with (phi + a + p) by ring.
    replace (phi - p + a) with (phi + a - p) by ring; reflexivity.
  - intros [t [p [q [k1 [k2 [A [K1 [K2 ->]]]]]]]]; exists t, p, q, k1, k2; repeat (split; auto); try apply A;
      try apply K1; try apply K2.
    rewrite shift_pulses, !map_app, <- !shift_corpse_at.
    replace (a + (phi + p)) with (phi + a + p) by ring.
    replace (a + (phi + q)) with (phi + a + q) by ring; reflexivity.
  - intros [x [y [T ->]]]; exists x, y; split; auto.
Qed.

Theorem azimuthal_covariance s th w phi a name name' c l c' l' :
  build s th w phi name = Ok c -> describes l c ->
  build s th w (phi + a) name' = Ok c' -> describes l' c' ->
  l' = rotate_axes a l /\
  forall e d, noisy_evolution e d l' =
              mmul (z_rotation a) (mmul (noisy_evolution e d l) (z_rotation (- a))).
Proof.
  intros B D B' D'.
  destruct (build_inv s _ _ _ _ _ _ B D) as [_ X]; destruct (build_inv s _ _ _ _ _ _ B' D') as [_ X'].
  assert (E : l' = rotate_axes a l) by (eapply design_unique; [exact X'|apply design_rotate; auto]).
  split; auto; intros e d; rewrite E, rotate_axes_shift, !noisy_evolution_qmat, qevolution_shift.
  apply rotz_conj.
Qed.

Theorem azimuthal_exists s th w phi a name name' c :
  build s th w phi name = Ok c -> exists c', build s th w (phi + a) name' = Ok c'.
Proof.
  intros B; apply build_iff; apply (build_iff s th w phi name); eauto.
Qed.

(** ** C26: rate/time scaling *)

Lemma speed_up_pulses k w l : 0 < w -> 0 < k -> speed_up k (pulses w l) = pulses (k * w) l.
Proof.
  intros W K; unfold speed_up, pulses; rewrite map_map; apply map_ext; intros [x y]; cbn.
  f_equal; [ring|field; lra].
Qed.

Lemma design_speed_up s th w phi k l :
  0 < w -> 0 < k -> design s th w phi l -> design s th (k * w) phi (speed_up k l).
Proof.
  intros W K.
  destruct s; cbn [design].
  - intros ->; apply speed_up_pulses; auto.
  - intros [p [P ->]]; exists p; split; auto; apply speed_up_pulses; auto.
  - intros [p [P ->]]; exists p; split; auto; apply speed_up_pulses; auto.
  - intros [t [p [q [A ->]]]]; exists t, p, q; split; auto; apply speed_up_pulses; auto.
  - intros [x [X ->]]; exists x; split; auto; apply speed_up_pulses; auto.
  - intros [p [x [P [X ->]]]]; exists p, x; split; auto; split; auto; apply speed_up_pulses; auto.
  - intros [p [x [P [X ->]]]]; exists p, x; split; auto; split; auto; apply speed_up_pulses; auto.
  - intros [t [p [q [k1 [k2 [A [K1 [K2 ->]]]]]]]]; exists t, p, q, k1, k2; repeat (split; auto); try apply A;
      try apply K1; try apply K2; apply speed_up_pulses; auto.
  - intros [x [y [T ->]]]; exists x, y; split; auto; unfold speed_up; cbn.
    assert (E1 : x / w / k = x / (k * w)) by (field; lra); rewrite E1.
    assert (E2 : k * (w * (y / x)) = k * w * (y / x)) by ring; rewrite E2.
    rewrite Rmult_0_r; reflexivity.
Qed.

Lemma qseg_scale k x y z t : 0 < k -> qseg (k * x) (k * y) (k * z) (t / k) = qseg x y z t.
Proof.
  intros K; unfold qseg.
  replace ((k * x) ^ 2 + (k * y) ^ 2 + (k * z) ^ 2) with (k ^ 2 * (x ^ 2 + y ^ 2 + z ^ 2)) by ring.
  assert (N : 0 <= x ^ 2 + y ^ 2 + z ^ 2) by nra.
  rewrite sqrt_mult by (try nra; auto).
  replace (sqrt (k ^ 2)) with k by (symmetry; replace (k ^ 2) with (k * k) by ring; apply sqrt_square; lra).
  set (v := sqrt (x ^ 2 + y ^ 2 + z ^ 2)).
  replace (k * v * (t / k)) with (v * t) by (field; lra).
  destruct (Req_dec v 0) as [Z|Z].
  - apply sqrt_eq_0 in Z; auto.
    assert (X : x = 0) by nra. assert (Y : y = 0) by nra. assert (Z' : z = 0) by nra.
    rewrite X, Y, Z'; unfold Rdiv; apply q_eq; cbn [qa qb qc qd]; ring.
  - apply q_eq; cbn [qa qb qc qd]; auto; f_equal; field; lra.
Qed.

Lemma noisy_speed_up k e d l : 0 < k -> noisy_evolution e (k * d) (speed_up k l) = noisy_evolution e d l.
Proof.
  intros K; rewrite !noisy_evolution_qmat; f_equal.
  induction l as [|g l IH]; [reflexivity|].
  cbn [speed_up map qevolution]; fold (speed_up k l); rewrite IH; f_equal.
  unfold qnoisy; cbn [g_rabi g_phi g_det g_dur].
  rewrite <- (qseg_scale k ((1 + e) * g_rabi g * cos (g_phi g)) _ _ _ K); f_equal; ring.
Qed.

Theorem rate_scaling s th w k phi name name' c l :
  0 < k ->
  build s th w phi name = Ok c -> describes l c ->
  exists c', build s th (k * w) phi name' = Ok c' /\ describes (speed_up k l) c' /\
    (forall e d, noisy_evolution e (k * d) (speed_up k l) = noisy_evolution e d l) /\
    evolution (speed_up k l) = evolution l.
Proof.
  intros K B D; destruct (build_inv s _ _ _ _ _ _ B D) as [A X].
  assert (A' : accepts s th (k * w)).
  { destruct A as [W [T A]]; split; [apply Rmult_lt_0_compat; auto|split; auto]. }
  destruct (build_accepts s th (k * w) phi name' A') as [c' [l' [B' [D' [X' _]]]]].
  exists c'; split; auto.
  assert (E : l' = speed_up k l).
  { eapply design_unique; [exact X'|apply design_speed_up; auto; apply A]. }
  rewrite <- E at 1; split; auto.
  split; [intros; apply noisy_speed_up; auto|].
  unfold evolution; rewrite <- (noisy_speed_up k 0 0 l K), Rmult_0_r; reflexivity.
Qed.

(** ** Witnesses *)

Lemma supported_pi : supported PI.
Proof. left; apply near_refl, PI_pos. Qed.
Lemma supported_pi2 : supported (PI / 2).
Proof. right; left; apply near_refl; generalize PI_pos; lra. Qed.
Lemma supported_pi4 : supported (PI / 4).
Proof. right; right; apply near_refl; generalize PI_pos; lra. Qed.

Theorem scrofulous_refuted th w phi name :
  th = PI / 2 \/ th = PI / 4 -> 0 < w ->
  exists c l, new_scrofulous_control th w phi name = Ok c /\ describes l c /\
    ~ phase_equiv (evolution l) (rotation th phi).
Proof.
  assert (P := PI_pos); intros T W.
  destruct (build_accepts SCROFULOUS th w phi name) as [c [l [B [D _]]]].
  { split; auto; split; [lra|]; destruct T as [->| ->]; [apply supported_pi2|apply supported_pi4]. }
  exists c, l; split; auto; split; auto; intros E.
  apply (scrofulous_spec th w phi name c l) in E; auto; lra.
Qed.

Theorem wamf1_refuted th w phi name :
  th = PI / 2 \/ th = PI / 4 -> 0 < w ->
  exists c l, new_wamf1_control th w phi name = Ok c /\ describes l c /\ ~ dephasing_robust 1 l.
Proof.
  assert (P := PI_bounds); intros T W.
  destruct (build_accepts WAMF1 th w phi name) as [c [l [B [D _]]]].
  { split; auto; split; [lra|]; destruct T as [->| ->]; [apply supported_pi2|apply supported_pi4]. }
  exists c, l; split; auto; split; auto; intros E.
  apply (wamf1_dephasing th w phi name c l) in E; auto.
  apply near_bounds in E; lra.
Qed.

(** every scheme has a control for the rotation by pi *)
Lemma demo_build s : exists c l, build s PI 1 0 None = Ok c /\ describes l c /\ l <> [].
Proof.
  assert (P := PI_pos).
  destruct (build_accepts s PI 1 0 None) as [c [l [B [D [X _]]]]].
  - split; [lra|split; [lra|]]; destruct s; auto; try lra; apply supported_pi.
  - exists c, l; split; auto; split; auto.
    intros ->; destruct s; cbn [design] in X;
      repeat match type of X with ex _ => destruct X as [? X] | _ /\ _ => destruct X as [_ X] end;
      discriminate.
Qed.
