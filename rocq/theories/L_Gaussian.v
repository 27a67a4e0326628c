(** * The modulated Gaussian control *)

From Verif Require Export L_Symmetry Spec_Gaussian.
From Coq Require Import Lia.
Import ListNotations.
Open Scope string_scope.
Open Scope list_scope.
Open Scope R_scope.

Lemma np_ceil_spec x : 0 < x -> is_ceiling x (Z.to_nat (np_ceil x)) /\ (1 < x -> (2 <= Z.to_nat (np_ceil x))%nat).
Proof.
  intros H; unfold np_ceil, is_ceiling.
  destruct (base_Int_part (- x)) as [A B].
  set (k := Int_part (- x)) in *.
  assert (K : (k < 0)%Z) by (apply lt_IZR; lra).
  rewrite INR_IZR_INZ, Z2Nat.id by lia; rewrite opp_IZR.
  split; [lra|]. intros X.
  assert (K1 : (k < -1)%Z) by (apply lt_IZR; lra). lia.
Qed.

(** ** Sampling *)

Lemma midpoint_mirror T n i : (i < n)%nat -> midpoint T n (n - 1 - i) = T - midpoint T n i.
Proof.
  intros H; unfold midpoint.
  assert (N : INR n <> 0) by (apply not_0_INR; lia).
  rewrite !minus_INR by lia; simpl (INR 1); field; auto.
Qed.

Lemma signal_mirror f T t : T <> 0 -> signal f T (T - t) = - signal f T t.
Proof.
  intros H; unfold signal.
  replace (2 * PI * f * (T - t - T / 2)) with (- (2 * PI * f * (t - T / 2))) by field.
  rewrite sin_neg; unfold envelope.
  replace ((T - t) / T - 1 / 2) with (- (t / T - 1 / 2)) by (field; auto).
  replace ((- (t / T - 1 / 2)) ^ 2) with ((t / T - 1 / 2) ^ 2) by ring; ring.
Qed.

Lemma envelope_pos T t : 0 < envelope T t.
Proof. apply exp_pos. Qed.

Lemma seq_mirror n : rev (seq 0 n) = map (fun i => (n - 1 - i)%nat) (seq 0 n).
Proof.
  apply nth_ext with (d := O) (d' := O); [rewrite rev_length, map_length, seq_length; auto|].
  rewrite rev_length, seq_length; intros i H.
  rewrite rev_nth by (rewrite seq_length; auto).
  rewrite (nth_indep (map _ _) O ((fun i => (n - 1 - i)%nat) O)) by (rewrite map_length, seq_length; auto).
  rewrite map_nth, seq_length, !seq_nth by lia; simpl; lia.
Qed.

Lemma total_rev l : total (rev l) = total l.
Proof.
  induction l; simpl; [auto|rewrite total_app, IHl; simpl; ring].
Qed.

Lemma total_map_opp l : total (map Ropp l) = - total l.
Proof. induction l; simpl; [ring|rewrite IHl; ring]. Qed.
Lemma total_map_scale k l : total (map (fun x => k * x) l) = k * total l.
Proof. induction l; simpl; [ring|rewrite IHl; ring]. Qed.

Lemma samples_mirror g T n :
  (forall t, g (T - t) = - g t) -> rev (samples g T n) = map Ropp (samples g T n).
Proof.
  intros H; unfold samples; rewrite <- map_rev, seq_mirror, !map_map.
  apply map_ext_in; intros i Hi; apply in_seq in Hi.
  rewrite midpoint_mirror by lia; apply H.
Qed.

Lemma samples_balanced g T n : (forall t, g (T - t) = - g t) -> total (samples g T n) = 0.
Proof.
  intros H; assert (E := samples_mirror g T n H).
  apply (f_equal total) in E; rewrite total_rev, total_map_opp in E; lra.
Qed.

Lemma samples_bounded g T n m : (forall t, g (T - t) = - g t) ->
  is_maximum m (samples g T n) -> forall x, In x (samples g T n) -> Rabs x <= m.
Proof.
  intros H [_ M] x Hx; apply Rabs_le; split; [|apply M; auto].
  assert (In (- x) (samples g T n)); [|assert (- x <= m) by auto; lra].
  apply in_rev; rewrite samples_mirror by auto; apply in_map; auto.
Qed.

(** ** Evolution of pulses along the X axis *)

Lemma qevolution_signed e dt vs :
  -1 < e -> qevolution e 0 (map (signed_seg dt) vs) = qplanar ((1 + e) * (dt * total vs) / 2) 0.
Proof.
  intros E; induction vs as [|v vs IH].
  - cbn [map qevolution total]; unfold qplanar; rewrite !Rmult_0_r; replace (0 / 2) with 0 by field.
    rewrite cos_0, sin_0; apply q_eq; simpl; ring.
  - cbn [map qevolution total]; rewrite IH.
    assert (X : qnoisy e 0 (signed_seg dt v) = qplanar ((1 + e) * (dt * v) / 2) 0).
    { unfold signed_seg; destruct (Req_dec v 0) as [->|Z].
      - rewrite Rabs_R0; destruct (Rle_dec 0 0); [|lra].
        unfold qnoisy, qseg; cbn [g_rabi g_phi g_det g_dur].
        replace (((1 + e) * 0 * cos 0) ^ 2 + ((1 + e) * 0 * sin 0) ^ 2 + (0 + 0) ^ 2) with 0 by ring.
        rewrite sqrt_0; unfold qplanar; rewrite !Rmult_0_r, Rmult_0_l.
        replace (0 / 2) with 0 by field; rewrite sin_0, cos_0; apply q_eq; simpl; ring.
      - rewrite qnoisy_resonant; [|apply Rabs_pos_lt; auto|lra].
        destruct (Rle_dec 0 v).
        + rewrite Rabs_right by lra; f_equal; field.
        + rewrite Rabs_left by lra. rewrite <- (Rplus_0_l PI), qplanar_back; f_equal; field. }
    rewrite X, qplanar_add; f_equal; field.
Qed.

(** ** The model *)

Lemma gaussian_base_envelope T t : T <> 0 -> gaussian_base T t = envelope T t.
Proof. intros H; unfold gaussian_base, envelope; f_equal; field; auto. Qed.

Lemma gaussian_samples (h g : R -> R) T n :
  (0 < n)%nat -> (forall t, h t = g t) ->
  map h (gaussian_midpoints n (T / INR n)) = samples g T n.
Proof.
  intros N E; unfold gaussian_midpoints, samples, range; rewrite map_map; apply map_ext; intros i.
  rewrite E; f_equal; unfold midpoint; field; apply not_0_INR; lia.
Qed.

Lemma all_finite_map {A} (f : A -> R) l : all_finite (map (fun x => Fin (f x)) l) = Some (map f l).
Proof. induction l; simpl; [auto|rewrite IHl; auto]. Qed.

Lemma signed_construct dt (vs : list R) :
  0 < dt ->
  exists c, DrivenControl (repeat dt (List.length vs)) (Some (map Rabs vs))
              (Some (map (fun v => if leb 0 v then 0 else PI) vs))
              (Some (np_zeros (List.length vs))) None = Ok c /\
            describes (map (signed_seg dt) vs) c.
Proof.
  intros D.
  destruct (segments_constructible (map (signed_seg dt) vs) None) as [c [E [X _]]].
  - intros g Hg; apply in_map_iff in Hg; destruct Hg as [v [<- _]]; cbn; split; auto; apply Rabs_pos.
  - exists c; split; auto; rewrite <- E, !map_map; cbn [signed_seg g_dur g_rabi g_phi g_det].
    assert (C : forall k : R, map (fun _ : R => k) vs = repeat k (List.length vs)).
    { intros k; clear; induction vs; simpl; [|rewrite IHvs]; reflexivity. }
    rewrite !C; f_equal; unfold leb; f_equal; apply map_ext; intros v; destruct (Rle_dec 0 v); reflexivity.
Qed.

Lemma gaussian_required T : 0 < T -> sqrt (2 * PI) / (1 / 10 * T) = 10 * sqrt (2 * PI) / T.
Proof. intros H; field; lra. Qed.

Lemma gaussian_inputs_ok omega m T f :
  gaussian_inputs omega m T ->
  let n := gaussian_segment_count T m in
  is_ceiling (T / m) n /\ (2 <= n)%nat /\
  new_modulated_gaussian_control omega m T f =
  (let* segments := gaussian_segments omega T f (T / INR n) (gaussian_midpoints n (T / INR n)) in
   match all_finite segments with
   | None => Raise (ArgumentsValueError "All rabi rates must be greater than zero." ["rabi_rates"] [])
   | Some segs =>
       DrivenControl (repeat (T / INR n) n) (Some (map Rabs segs))
         (Some (map (fun v => if leb 0 v then 0 else PI) segs)) (Some (np_zeros n)) None
   end).
Proof.
  intros [W [M [L B]]] n.
  assert (X : 1 < T / m).
  { apply (Rmult_lt_reg_r m); auto. unfold Rdiv; rewrite Rmult_assoc, Rinv_l by lra; lra. }
  destruct (np_ceil_spec (T / m)) as [C C2]; [lra|].
  split; [exact C|split; [apply C2; auto|]].
  unfold new_modulated_gaussian_control.
  rewrite check_true by (apply ltb_true; auto); cbn [bind].
  rewrite check_true by (apply ltb_true; auto); cbn [bind].
  rewrite check_true by (apply ltb_true; auto); cbn [bind].
  rewrite check_true; [reflexivity|].
  apply leb_true; rewrite gaussian_required by lra.
  apply (Rmult_le_reg_r T); [lra|]. unfold Rdiv; rewrite Rmult_assoc, Rinv_l by lra; lra.
Qed.

Lemma gaussian_inputs_bad omega m T f :
  ~ gaussian_inputs omega m T ->
  exists s args ex, new_modulated_gaussian_control omega m T f = Raise (ArgumentsValueError s args ex).
Proof.
  intros H; unfold new_modulated_gaussian_control.
  destruct (Rlt_dec 0 omega) as [W|W];
    [rewrite check_true by (apply ltb_true; auto); cbn [bind]
    |rewrite check_false by (apply ltb_false; lra); do 3 eexists; reflexivity].
  destruct (Rlt_dec 0 m) as [M|M];
    [rewrite check_true by (apply ltb_true; auto); cbn [bind]
    |rewrite check_false by (apply ltb_false; lra); do 3 eexists; reflexivity].
  destruct (Rlt_dec m T) as [L|L];
    [rewrite check_true by (apply ltb_true; auto); cbn [bind]
    |rewrite check_false by (apply ltb_false; lra); do 3 eexists; reflexivity].
  rewrite check_false; [do 3 eexists; reflexivity|].
  apply leb_false; rewrite gaussian_required by lra.
  apply Rnot_le_lt; intros B; apply H; split; auto; split; auto; split; auto.
  apply (Rmult_le_compat_r T) in B; [|lra].
  unfold Rdiv in B; rewrite Rmult_assoc, Rinv_l in B by lra; lra.
Qed.

Lemma samples_nonempty g T n : (0 < n)%nat -> samples g T n <> [].
Proof. intros H E; apply (f_equal (@List.length R)) in E; unfold samples in E;
  rewrite map_length, seq_length in E; simpl in E; lia. Qed.

(** non-zero frequency *)
Lemma gaussian_modulated_ok omega m T f :
  gaussian_inputs omega m T -> f <> 0 ->
  exists n peak, is_ceiling (T / m) n /\ (2 <= n)%nat /\ is_maximum peak (samples (signal f T) T n) /\
    ((0 < peak /\ exists c, new_modulated_gaussian_control omega m T f = Ok c /\
        describes (map (signed_seg (T / INR n)) (map (fun v => omega * v / peak) (samples (signal f T) T n))) c)
     \/
     (peak = 0 /\ (forall x, In x (samples (signal f T) T n) -> x = 0) /\
      exists s args, new_modulated_gaussian_control omega m T f = Raise (ArgumentsValueError s args []))).
Proof.
  intros V F; destruct (gaussian_inputs_ok omega m T f V) as [C [N E]]; cbv zeta in E.
  set (n := gaussian_segment_count T m) in *; clearbody n.
  destruct V as [W [M [L B]]].
  assert (T0 : T <> 0) by lra.
  assert (SM : forall t, signal f T (T - t) = - signal f T t) by (intros; apply signal_mirror; auto).
  rewrite E; unfold gaussian_segments; rewrite (proj2 (neqb_true f 0) F).
  rewrite (gaussian_samples _ (signal f T)); [|lia|].
  2:{ intros t; unfold gaussian_modulated, signal; rewrite gaussian_base_envelope by auto; reflexivity. }
  destruct (np_amax_ok (samples (signal f T) T n)) as [peak PK]; [apply samples_nonempty; lia|].
  rewrite PK; cbn [bind]; apply amax_is_maximum in PK.
  exists n, peak; split; auto; split; auto; split; auto.
  assert (P0 : 0 <= peak).
  { destruct PK as [I U]. assert (A := samples_bounded _ T n peak SM (conj I U) peak I).
    generalize (Rabs_pos peak); lra. }
  assert (DT : 0 < T / INR n) by (apply Rdiv_lt_0_compat; [lra|apply lt_0_INR; lia]).
  assert (LN : List.length (samples (signal f T) T n) = n)
    by (unfold samples; rewrite map_length, seq_length; auto).
  destruct (Req_dec peak 0) as [Z|Z].
  - right; split; auto.
    assert (Z0 : forall x, In x (samples (signal f T) T n) -> x = 0).
    { intros x Hx; assert (A := samples_bounded _ T n peak SM PK x Hx); rewrite Z in A.
      destruct (Req_dec x 0); auto; apply Rabs_no_R0 in H; generalize (Rabs_pos x); lra. }
    split; auto.
    destruct (samples (signal f T) T n) as [|x xs] eqn:ES; [simpl in LN; lia|].
    cbn [map all_finite]; unfold xdiv at 1; rewrite (proj2 (eqb_true peak 0) Z).
    destruct (eqb (omega * x) 0); eexists; eexists; reflexivity.
  - left; split; [lra|].
    assert (X : map (fun v => xdiv (omega * v) peak) (samples (signal f T) T n) =
                map (fun v => Fin (omega * v / peak)) (samples (signal f T) T n)).
    { apply map_ext; intros v; unfold xdiv; rewrite (proj2 (eqb_false peak 0) Z); reflexivity. }
    rewrite X, all_finite_map.
    set (vs := map (fun v => omega * v / peak) (samples (signal f T) T n)).
    assert (LV : List.length vs = n) by (unfold vs; rewrite map_length; auto).
    destruct (signed_construct (T / INR n) vs DT) as [c [HC D]]; rewrite LV in HC.
    exists c; auto.
Qed.

(** zero frequency *)
Lemma full_rotation x : 0 < x ->
  exists k : nat, (1 <= k)%nat /\
    py_max (x - py_mod x (2 * PI)) (2 * PI) = 2 * PI * INR k /\
    (2 * PI <= x -> 2 * PI * INR k <= x < 2 * PI * INR (S k)) /\ (x < 2 * PI -> k = 1%nat).
Proof.
  intros X; assert (P := PI_pos); unfold py_mod.
  destruct (base_Int_part (x / (2 * PI))) as [A B].
  set (z := Int_part (x / (2 * PI))) in *; clearbody z.
  assert (E : x = 2 * PI * (x / (2 * PI))) by (field; lra).
  set (r := x / (2 * PI)) in *; clearbody r.
  assert (R0 : 0 < r) by nra.
  replace (x - (x - 2 * PI * IZR z)) with (2 * PI * IZR z) by ring.
  rewrite py_max_Rmax.
  assert (Z0 : (0 <= z)%Z).
  { assert (-1 < z)%Z; [apply lt_IZR; lra|lia]. }
  exists (Nat.max 1 (Z.to_nat z)); split; [lia|].
  destruct (Z_lt_le_dec z 1) as [L|L].
  - assert (z = 0%Z) by lia; subst z; simpl Z.to_nat; simpl Nat.max; cbn [INR].
    rewrite Rmax_right by lra.
    split; [ring|split; [|auto]].
    intros H; exfalso; assert (1 <= r) by nra. lra.
  - assert (M : Nat.max 1 (Z.to_nat z) = Z.to_nat z) by lia; rewrite M, S_INR.
    assert (I : INR (Z.to_nat z) = IZR z) by (rewrite INR_IZR_INZ, Z2Nat.id by lia; auto).
    assert (L' : 1 <= IZR z) by (apply IZR_le; auto).
    rewrite I, Rmax_left by nra.
    split; auto; split; [intros _; rewrite E; nra|intros H; exfalso; nra].
Qed.

Lemma gaussian_zero_ok omega m T :
  gaussian_inputs omega m T ->
  exists n peak k c, is_ceiling (T / m) n /\ (2 <= n)%nat /\ is_maximum peak (samples (envelope T) T n) /\
    0 < peak /\ (1 <= k)%nat /\
    (2 * PI <= available_rotation omega T n peak ->
       2 * PI * INR k <= available_rotation omega T n peak < 2 * PI * INR (S k)) /\
    (available_rotation omega T n peak < 2 * PI -> k = 1%nat) /\ 0 < available_rotation omega T n peak /\
    new_modulated_gaussian_control omega m T 0 = Ok c /\
    describes (map (signed_seg (T / INR n))
      (map (fun v => omega * (v / peak) * (2 * PI * INR k / available_rotation omega T n peak))
           (samples (envelope T) T n))) c.
Proof.
  intros V; destruct (gaussian_inputs_ok omega m T 0 V) as [C [N E]]; cbv zeta in E.
  set (n := gaussian_segment_count T m) in *; clearbody n.
  destruct V as [W [M [L B]]].
  assert (T0 : T <> 0) by lra.
  rewrite E; unfold gaussian_segments; rewrite (proj2 (neqb_false 0 0) eq_refl).
  rewrite (gaussian_samples _ (envelope T)); [|lia|intros; apply gaussian_base_envelope; auto].
  destruct (np_amax_ok (samples (envelope T) T n)) as [peak PK]; [apply samples_nonempty; lia|].
  rewrite PK; cbn [bind]; apply amax_is_maximum in PK.
  assert (AP : forall x, In x (samples (envelope T) T n) -> 0 < x).
  { intros x Hx; unfold samples in Hx; apply in_map_iff in Hx; destruct Hx as [i [<- _]]; apply envelope_pos. }
  assert (P0 : 0 < peak) by (apply AP, PK).
  assert (DT : 0 < T / INR n) by (apply Rdiv_lt_0_compat; [lra|apply lt_0_INR; lia]).
  assert (LN : List.length (samples (envelope T) T n) = n)
    by (unfold samples; rewrite map_length, seq_length; auto).
  assert (TP : 0 < total (samples (envelope T) T n)).
  { destruct (samples (envelope T) T n) as [|x xs]; [simpl in LN; lia|].
    assert (Z : forall l, (forall x, In x l -> 0 < x) -> 0 <= total l).
    { clear; induction l; simpl; intros H; [lra|].
      assert (0 < a) by auto; assert (0 <= total l) by auto; lra. }
    cbn [total]; assert (0 < x) by (apply AP; left; auto).
    assert (0 <= total xs) by (apply Z; intros; apply AP; right; auto); lra. }
  rewrite np_sum_map_div, np_sum_total.
  replace (T / INR n * (total (samples (envelope T) T n) / peak) * omega)
    with (available_rotation omega T n peak) by (unfold available_rotation; ring).
  assert (AV : 0 < available_rotation omega T n peak).
  { unfold available_rotation; apply Rmult_lt_0_compat; [apply Rmult_lt_0_compat; auto|].
    apply Rdiv_lt_0_compat; auto. }
  destruct (full_rotation _ AV) as [k [K1 [K2 [K3 K4]]]].
  rewrite K2, map_map, all_finite_map.
  assert (V : map (fun x => x / peak * omega * (2 * PI * INR k / available_rotation omega T n peak))
                  (samples (envelope T) T n) =
              map (fun v => omega * (v / peak) * (2 * PI * INR k / available_rotation omega T n peak))
                  (samples (envelope T) T n)) by (apply map_ext; intros; ring).
  rewrite V; clear V; set (vs := map _ (samples (envelope T) T n)).
  assert (LV : List.length vs = n) by (unfold vs; rewrite map_length; auto).
  destruct (signed_construct (T / INR n) vs DT) as [c [HC D]]; rewrite LV in HC.
  exists n, peak, k, c.
  repeat (split; [assumption|]); exact D.
Qed.

(** ** Consequences *)

Lemma ceiling_unique x a b : is_ceiling x a -> is_ceiling x b -> a = b.
Proof.
  unfold is_ceiling; intros [A1 A2] [B1 B2].
  assert (INR a < INR (S b)) by (rewrite S_INR; lra).
  assert (INR b < INR (S a)) by (rewrite S_INR; lra).
  apply INR_lt in H, H0; lia.
Qed.

Lemma describes_fun l1 l2 c : describes l1 c -> describes l2 c -> l1 = l2.
Proof.
  intros [A [B [C D]]] [A' [B' [C' D']]].
  rewrite A in A'; rewrite B in B'; rewrite C in C'; rewrite D in D'; clear - A' B' C' D'.
  revert l2 A' B' C' D'; induction l1 as [|g l1 IH]; intros [|h l2]; cbn; try discriminate; auto.
  intros; destruct g, h; cbn in *; f_equal; [f_equal; congruence|].
  injection A'; injection B'; injection C'; injection D'; intros; apply IH; auto.
Qed.

Lemma gaussian_inputs_dec omega m T : gaussian_inputs omega m T \/ ~ gaussian_inputs omega m T.
Proof.
  unfold gaussian_inputs.
  destruct (Rlt_dec 0 omega), (Rlt_dec 0 m), (Rlt_dec m T), (Rle_dec (10 * sqrt (2 * PI)) (omega * T)); tauto.
Qed.

Lemma in_samples g T n x : In x (samples g T n) <-> exists i, (i < n)%nat /\ x = g (midpoint T n i).
Proof.
  unfold samples; rewrite in_map_iff; split.
  - intros [i [<- H]]; apply in_seq in H; exists i; split; [lia|auto].
  - intros [i [H ->]]; exists i; split; auto; apply in_seq; lia.
Qed.

Lemma gaussian_accepts omega m T f :
  ((exists c, new_modulated_gaussian_control omega m T f = Ok c) <->
   gaussian_inputs omega m T /\ has_signal m T f) /\
  (~ (gaussian_inputs omega m T /\ has_signal m T f) ->
   exists s args ex, new_modulated_gaussian_control omega m T f = Raise (ArgumentsValueError s args ex)).
Proof.
  destruct (gaussian_inputs_dec omega m T) as [V|V].
  2:{ destruct (gaussian_inputs_bad omega m T f V) as [s [a [e E]]].
      split; [split; [intros [c X]; congruence|intros [? _]; contradiction]|eauto]. }
  destruct (Req_dec f 0) as [->|F].
  { destruct (gaussian_zero_ok omega m T V) as [n [p [k [c X]]]].
    split; [split; [intros _; split; auto; left; auto|intros _; exists c; apply X]|].
    intros H; exfalso; apply H; split; auto; left; auto. }
  destruct (gaussian_modulated_ok omega m T f V F) as [n [p [C [N [PK [[P [c [E D]]]|[P [Z [s [a E]]]]]]]]]].
  - assert (HS : has_signal m T f).
    { right; destruct PK as [I _]; apply in_samples in I; destruct I as [i [I X]].
      exists n, i; split; auto; split; auto; intros Z; lra. }
    split; [split; [intros _; auto|intros _; eauto]|intros H; exfalso; apply H; auto].
  - split; [|eauto]. split; [intros [c X]; congruence|].
    intros [_ [?|[n' [i [C' [I X]]]]]]; [contradiction|].
    exfalso; apply X; apply Z; rewrite (ceiling_unique _ _ _ C' C) in *; apply in_samples; eauto.
Qed.

(** shape shared by the two regimes *)
Lemma gaussian_shape omega m T f c :
  new_modulated_gaussian_control omega m T f = Ok c ->
  gaussian_inputs omega m T /\
  exists n vs, is_ceiling (T / m) n /\ (2 <= n)%nat /\ List.length vs = n /\
    describes (map (signed_seg (T / INR n)) vs) c /\
    (f <> 0 -> exists peak, 0 < peak /\ is_maximum peak (samples (signal f T) T n) /\
       vs = map (fun v => omega * v / peak) (samples (signal f T) T n)) /\
    (f = 0 -> exists peak k, 0 < peak /\ is_maximum peak (samples (envelope T) T n) /\ (1 <= k)%nat /\
       0 < available_rotation omega T n peak /\
       (2 * PI <= available_rotation omega T n peak ->
         2 * PI * INR k <= available_rotation omega T n peak < 2 * PI * INR (S k)) /\
       (available_rotation omega T n peak < 2 * PI -> k = 1%nat) /\
       vs = map (fun v => omega * (v / peak) * (2 * PI * INR k / available_rotation omega T n peak))
                (samples (envelope T) T n)).
Proof.
  intros E.
  assert (V : gaussian_inputs omega m T) by (apply (gaussian_accepts omega m T f); eauto).
  split; auto.
  destruct (Req_dec f 0) as [->|F].
  - destruct (gaussian_zero_ok omega m T V) as [n [p [k [c' [A1 [A2 [A3 [A4 [A5 [A6 [A7 [A8 [A9 A10]]]]]]]]]]]]].
    assert (c' = c) by congruence; subst c'.
    exists n; eexists; split; [exact A1|split; [exact A2|split; [|split; [exact A10|]]]].
    + unfold samples; rewrite !map_length, seq_length; auto.
    + split; [intros X; lra|intros _]. exists p, k; repeat (split; [assumption|]); reflexivity.
  - destruct (gaussian_modulated_ok omega m T f V F) as [n [p [C [N [PK [[P [c' [E' D]]]|[P [Z [s [a E']]]]]]]]]];
      [|congruence].
    assert (c' = c) by congruence; subst c'.
    exists n; eexists; split; [exact C|split; [exact N|split; [|split; [exact D|]]]].
    + unfold samples; rewrite !map_length, seq_length; auto.
    + split; [intros _|intros X; lra]. exists p; repeat (split; [assumption|]); reflexivity.
Qed.

Lemma total_gaussian_zero omega T n peak k :
  0 < peak -> 0 < available_rotation omega T n peak ->
  T / INR n * total (map (fun v => omega * (v / peak) * (2 * PI * INR k / available_rotation omega T n peak))
                (samples (envelope T) T n)) = 2 * PI * INR k.
Proof.
  intros P A.
  replace (map _ _) with (map (fun v => omega * (2 * PI * INR k / available_rotation omega T n peak) / peak * v)
    (samples (envelope T) T n)) by (apply map_ext; intros; field; lra).
  rewrite total_map_scale.
  assert (X : 2 * PI * INR k = 2 * PI * INR k / available_rotation omega T n peak * available_rotation omega T n peak)
    by (field; lra).
  rewrite X at 2; set (q := 2 * PI * INR k / available_rotation omega T n peak).
  unfold available_rotation, Rdiv; ring.
Qed.

Lemma total_gaussian_modulated omega f T n peak :
  T <> 0 -> 0 < peak -> total (map (fun v => omega * v / peak) (samples (signal f T) T n)) = 0.
Proof.
  intros Z P.
  replace (map _ _) with (map (fun v => omega / peak * v) (samples (signal f T) T n))
    by (apply map_ext; intros; field; lra).
  rewrite total_map_scale, samples_balanced; [ring|intros; apply signal_mirror; auto].
Qed.

Lemma durations_signed dt vs : map g_dur (map (signed_seg dt) vs) = repeat dt (List.length vs).
Proof. induction vs; simpl; [auto|rewrite IHvs; auto]. Qed.
Lemma total_repeat x n : total (repeat x n) = INR n * x.
Proof. induction n; [simpl; ring|rewrite S_INR; simpl; rewrite IHn; ring]. Qed.

(** C27 *)
Theorem gaussian_segmentation omega m T f c :
  new_modulated_gaussian_control omega m T f = Ok c ->
  constructible c /\
  exists n, is_ceiling (T / m) n /\ (2 <= n)%nat /\
    durations c = repeat (T / INR n) n /\ total (durations c) = T /\
    List.length (rabi_rates c) = n /\
    detunings c = repeat 0 n /\
    List.length (azimuthal_angles c) = n /\
    (forall phi, In phi (azimuthal_angles c) -> phi = 0 \/ phi = PI).
Proof.
  intros E; destruct (gaussian_shape _ _ _ _ _ E) as [V [n [vs [C [N [L [D _]]]]]]].
  assert (NN : INR n <> 0) by (apply not_0_INR; lia).
  assert (DT : 0 < T / INR n).
  { apply Rdiv_lt_0_compat; [unfold gaussian_inputs in V; lra|apply lt_0_INR; lia]. }
  split.
  - destruct (signed_construct (T / INR n) vs DT) as [c' [HC _]].
    destruct V as [W [M [LT B]]].
    destruct (gaussian_inputs_ok omega m T f) as [_ [_ X]]; [unfold gaussian_inputs; auto|].
    cbv zeta in X; rewrite E in X.
    destruct (gaussian_segments _ _ _ _ _) as [segs|]; cbn [bind] in X; [|discriminate].
    destruct (all_finite segs); [|discriminate].
    do 5 eexists; symmetry; exact X.
  - destruct D as [D1 [D2 [D3 D4]]].
    exists n; split; auto; split; auto.
    rewrite D1, D2, D3, D4, durations_signed, L, total_repeat, !map_length, L.
    split; [auto|split; [field; auto|split; [auto|split; [|split; [auto|]]]]].
    + rewrite map_map; cbn [signed_seg g_det]; clear - L; subst n.
      induction vs; simpl; [auto|rewrite IHvs; auto].
    + rewrite map_map; intros phi H; apply in_map_iff in H; destruct H as [v [<- _]].
      cbn [signed_seg g_phi]; destruct (Rle_dec 0 v); auto.
Qed.

(** C28 *)
Theorem gaussian_rates omega m T f c l :
  new_modulated_gaussian_control omega m T f = Ok c -> describes l c ->
  (f <> 0 -> is_maximum omega (rabi_rates c)) /\
  (f = 0 -> exists n peak k,
     is_ceiling (T / m) n /\ is_maximum peak (samples (envelope T) T n) /\ (1 <= k)%nat /\
     total (map (fun g => g_rabi g * g_dur g) l) = 2 * PI * INR k /\
     (available_rotation omega T n peak < 2 * PI -> k = 1%nat) /\
     (2 * PI <= available_rotation omega T n peak ->
        2 * PI * INR k <= available_rotation omega T n peak < 2 * PI * INR (S k) /\
        forall r, In r (rabi_rates c) -> 0 < r <= omega)).
Proof.
  intros E DL; destruct (gaussian_shape _ _ _ _ _ E) as [V [n [vs [C [N [L [D [F1 F0]]]]]]]].
  assert (l = map (signed_seg (T / INR n)) vs) by (eapply describes_fun; eauto); subst l.
  destruct V as [W [M [LT B]]].
  destruct D as [D1 [D2 [D3 D4]]].
  split; intros F.
  - destruct (F1 F) as [p [P [PK ->]]].
    assert (SM : forall t, signal f T (T - t) = - signal f T t) by (intros; apply signal_mirror; lra).
    rewrite D1, !map_map; cbn [signed_seg g_rabi]; split.
    + apply in_map_iff; exists p; split; [|apply PK].
      replace (omega * p / p) with omega by (field; lra); apply Rabs_right; lra.
    + intros x H; apply in_map_iff in H; destruct H as [v [<- H]].
      apply (samples_bounded _ T n p SM PK) in H.
      replace (omega * v / p) with (omega / p * v) by (field; lra).
      rewrite Rabs_mult, Rabs_right by (apply Rle_ge, Rlt_le, Rdiv_lt_0_compat; lra).
      apply Rle_trans with (omega / p * p); [|right; field; lra].
      apply Rmult_le_compat_l; auto; apply Rlt_le, Rdiv_lt_0_compat; lra.
  - destruct (F0 F) as [p [k [P [PK [K1 [AV [A1 [A2 EV]]]]]]]].
    assert (KP : 0 < INR k) by (apply lt_0_INR; lia).
    assert (PP := PI_pos).
    assert (VP : forall v, In v vs -> exists s, In s (samples (envelope T) T n) /\ 0 < s <= p /\
       v = omega * (s / p) * (2 * PI * INR k / available_rotation omega T n p)).
    { intros v H; rewrite EV in H; apply in_map_iff in H; destruct H as [s [<- H]].
      exists s; split; auto; split; auto; split; [|apply PK; auto].
      apply in_samples in H; destruct H as [i [_ ->]]; apply envelope_pos. }
    assert (VP0 : forall v, In v vs -> 0 < v).
    { intros v H; destruct (VP v H) as [s [_ [S ->]]].
      apply Rmult_lt_0_compat; [apply Rmult_lt_0_compat; auto; apply Rdiv_lt_0_compat; lra|].
      apply Rdiv_lt_0_compat; auto; apply Rmult_lt_0_compat; lra. }
    exists n, p, k; split; auto; split; auto; split; auto; split; [|split; auto].
    + assert (X : map (fun g => g_rabi g * g_dur g) (map (signed_seg (T / INR n)) vs) =
                  map (fun v => T / INR n * v) vs).
      { rewrite map_map; apply map_ext_in; intros v H; cbn [signed_seg g_rabi g_dur].
        rewrite Rabs_right; [ring|apply Rle_ge, Rlt_le, VP0; auto]. }
      rewrite X, total_map_scale, EV; apply total_gaussian_zero; auto.
    + intros A; split; auto; rewrite D1, !map_map; cbn [signed_seg g_rabi].
      intros r H; apply in_map_iff in H; destruct H as [v [<- H]].
      assert (V0 := VP0 v H); rewrite Rabs_right by lra; split; auto.
      destruct (VP v H) as [s [_ [S ->]]].
      apply A1 in A. apply Rle_trans with (omega * 1); [|lra].
      replace (omega * (s / p) * (2 * PI * INR k / available_rotation omega T n p))
        with (omega * ((s / p) * (2 * PI * INR k / available_rotation omega T n p))) by ring.
      apply Rmult_le_compat_l; [lra|].
      rewrite <- (Rmult_1_r 1).
      assert (0 < 2 * PI * INR k) by (apply Rmult_lt_0_compat; lra).
      apply Rmult_le_compat; try (apply Rlt_le, Rdiv_lt_0_compat; lra).
      * apply (Rmult_le_reg_r p); auto; unfold Rdiv; rewrite Rmult_assoc, Rinv_l; lra.
      * apply (Rmult_le_reg_r (available_rotation omega T n p)); auto.
        unfold Rdiv; rewrite Rmult_assoc, Rinv_l; lra.
Qed.

(** C29 *)
Lemma cos_sin_PI_mult k : cos (INR k * PI) = (-1) ^ k /\ sin (INR k * PI) = 0.
Proof.
  induction k as [|k [A B]].
  - simpl; rewrite Rmult_0_l, cos_0, sin_0; auto.
  - rewrite S_INR, Rmult_plus_distr_r, Rmult_1_l, neg_cos, neg_sin, A, B; simpl; split; ring.
Qed.

Theorem gaussian_gate omega m T f c l :
  new_modulated_gaussian_control omega m T f = Ok c -> describes l c ->
  (f <> 0 -> evolution l = mone /\ forall e, -1 < e -> noisy_evolution e 0 l = mone) /\
  (f = 0 -> exists k : nat, (1 <= k)%nat /\
      total (map (fun g => g_rabi g * g_dur g) l) = 2 * PI * INR k /\
      evolution l = mscale (RtoC ((-1) ^ k)) mone /\ phase_equiv (evolution l) mone).
Proof.
  intros E DL; destruct (gaussian_shape _ _ _ _ _ E) as [V [n [vs [C [N [L [D [F1 F0]]]]]]]].
  assert (l = map (signed_seg (T / INR n)) vs) by (eapply describes_fun; eauto); subst l.
  destruct V as [W [M [LT B]]].
  split; intros F.
  - destruct (F1 F) as [p [P [PK ->]]].
    assert (X : forall e, -1 < e -> noisy_evolution e 0
       (map (signed_seg (T / INR n)) (map (fun v => omega * v / p) (samples (signal f T) T n))) = mone).
    { intros e H; rewrite noisy_evolution_qmat, qevolution_signed by auto.
      rewrite total_gaussian_modulated by lra; rewrite !Rmult_0_r.
      unfold qplanar; replace (0 / 2) with 0 by field; rewrite cos_0, sin_0.
      rewrite <- qmat_one; f_equal; apply q_eq; simpl; ring. }
    split; auto; apply X; lra.
  - destruct (gaussian_rates _ _ _ _ _ _ E DL) as [_ R0].
    destruct (R0 F) as [n' [p' [k' [_ [_ [K' [TT _]]]]]]].
    destruct (F0 F) as [p [k [P [PK [K1 [AV [A1 [A2 EV]]]]]]]].
    assert (VP0 : forall v, In v vs -> 0 < v).
    { intros v H; rewrite EV in H; apply in_map_iff in H; destruct H as [s [<- H]].
      assert (PP := PI_pos); assert (0 < INR k) by (apply lt_0_INR; lia).
      apply in_samples in H; destruct H as [i [_ ->]]; assert (EP := envelope_pos T (midpoint T n i)).
      apply Rmult_lt_0_compat; [apply Rmult_lt_0_compat; auto; apply Rdiv_lt_0_compat; lra|].
      apply Rdiv_lt_0_compat; auto; apply Rmult_lt_0_compat; lra. }
    assert (X : map (fun g => g_rabi g * g_dur g) (map (signed_seg (T / INR n)) vs) =
                map (fun v => T / INR n * v) vs).
    { rewrite map_map; apply map_ext_in; intros v H; cbn [signed_seg g_rabi g_dur].
      rewrite Rabs_right; [ring|apply Rle_ge, Rlt_le, VP0; auto]. }
    rewrite X, total_map_scale in *.
    exists k'; split; auto; split; auto.
    assert (Q : evolution (map (signed_seg (T / INR n)) vs) = mscale (RtoC ((-1) ^ k')) mone).
    { unfold evolution; rewrite noisy_evolution_qmat, qevolution_signed, TT by lra.
      replace ((1 + 0) * (2 * PI * INR k') / 2) with (INR k' * PI) by field.
      destruct (cos_sin_PI_mult k') as [CS SN].
      unfold qplanar; rewrite CS, SN; unfold qmat, mscale, mone; cbn [qa qb qc qd m00 m01 m10 m11].
      f_equal; apply injective_projections; simpl; ring. }
    split; auto; exists (RtoC ((-1) ^ k')); split; auto.
    rewrite Cmod_R; apply pow_1_abs || (rewrite <- RPow_abs, Rabs_Ropp, Rabs_R1, pow1; auto).
Qed.

(** C30 *)
Theorem gaussian_minimum omega m T f c :
  new_modulated_gaussian_control omega m T f = Ok c ->
  forall d, In d (durations c) ->
  m / 2 < d <= m /\ (d = m <-> exists k : nat, T = INR k * m).
Proof.
  intros E d H; destruct (gaussian_segmentation _ _ _ _ _ E) as [_ [n [C [N [D _]]]]].
  assert (V : gaussian_inputs omega m T) by (apply (gaussian_accepts omega m T f); eauto).
  destruct V as [W [M [LT B]]].
  rewrite D in H; apply repeat_spec in H; subst d.
  assert (NP : 0 < INR n) by (apply lt_0_INR; lia).
  assert (N2 : 2 <= INR n) by (apply (le_INR 2); auto).
  destruct C as [C1 C2].
  assert (X1 : T <= INR n * m).
  { apply (Rmult_le_compat_r m) in C2; [|lra]. unfold Rdiv in C2; rewrite Rmult_assoc, Rinv_l in C2; lra. }
  assert (X2 : (INR n - 1) * m < T).
  { apply (Rmult_lt_compat_r m) in C1; auto. unfold Rdiv in C1; rewrite Rmult_assoc, Rinv_l in C1; lra. }
  assert (Q : T / INR n * INR n = T) by (field; lra).
  set (d := T / INR n) in *; clearbody d.
  split; [split; nra|].
  split; [intros ->; exists n; lra|].
  intros [k K].
  assert (INR k <= INR n) by nra. assert (INR n - 1 < INR k) by nra.
  assert (k = n).
  { apply INR_le in H; assert (INR n < INR (S k)) by (rewrite S_INR; lra); apply INR_lt in H1; lia. }
  subst k; nra.
Qed.

Theorem gaussian_minimum_refuted :
  ~ (forall omega m T f c, new_modulated_gaussian_control omega m T f = Ok c ->
       forall d, In d (durations c) -> m <= d).
Proof.
  intros H.
  assert (V : gaussian_inputs 100 (2 / 3) 1).
  { unfold gaussian_inputs; split; [lra|split; [lra|split; [lra|]]].
    assert (sqrt (2 * PI) <= 10); [|lra].
    rewrite <- (sqrt_square 10) by lra; apply sqrt_le_1_alt; generalize PI_4; lra. }
  destruct (proj1 (gaussian_accepts 100 (2 / 3) 1 0)) as [_ X].
  destruct X as [c E]; [split; auto; left; auto|].
  destruct (gaussian_segmentation _ _ _ _ _ E) as [_ [n [C [N [D _]]]]].
  assert (I : In (1 / INR n) (durations c)) by (rewrite D; destruct n; [lia|left; auto]).
  apply (H _ _ _ _ _ E) in I.
  assert (2 <= INR n) by (apply (le_INR 2); auto).
  assert (1 / INR n * INR n = 1) by (field; lra). nra.
Qed.

Lemma gaussian_demo : exists c, new_modulated_gaussian_control 100 (1 / 2) 1 (1 / 2) = Ok c.
Proof.
  apply gaussian_accepts; split.
  - unfold gaussian_inputs; split; [lra|split; [lra|split; [lra|]]].
    assert (sqrt (2 * PI) <= 10); [|lra].
    rewrite <- (sqrt_square 10) by lra; apply sqrt_le_1_alt; generalize PI_4; lra.
  - right; exists 2%nat, O; split; [unfold is_ceiling; simpl; lra|split; [lia|]].
    unfold signal, midpoint; replace (2 * PI * (1 / 2) * ((INR 0 + 1 / 2) * (1 / INR 2) - 1 / 2))
      with (- (PI / 4)) by (simpl; field).
    rewrite sin_neg, sin_PI4; intros Z.
    assert (A := envelope_pos 1 ((INR 0 + 1 / 2) * (1 / INR 2))).
    assert (0 < 1 / sqrt 2) by (apply Rdiv_lt_0_compat; [lra|apply sqrt_lt_R0; lra]). nra.
Qed.

Lemma gaussian_demo0 : exists c, new_modulated_gaussian_control 100 (1 / 3) 1 0 = Ok c.
Proof.
  apply gaussian_accepts; split; [|left; auto].
  unfold gaussian_inputs; split; [lra|split; [lra|split; [lra|]]].
  assert (sqrt (2 * PI) <= 10); [|lra].
  rewrite <- (sqrt_square 10) by lra; apply sqrt_le_1_alt; generalize PI_4; lra.
Qed.
