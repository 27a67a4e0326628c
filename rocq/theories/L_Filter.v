(** * Exact infidelity under dephasing and the filter function *)

From Verif Require Import L_Composite L_Symmetry L_DriveExists L_Drift.
From Verif Require Import L_DriveControl L_RemainderControl L_Remainder Spec_Remainder Spec_Drive Spec_Response Spec_Fidelity.
From Verif Require Import L_FirstOrderFamilies L_FinitePulse L_PreConvert L_Requests L_FirstOrder L_Response L_ResponseThms.
From Verif Require Import L_VectorNoise L_Noise L_NoiseOrders Spec_Noise L_Fidelity L_Toggle L_Walsh L_Concat Spec_Filter.
From Coq Require Import Lia.
Import ListNotations.
Set Bullet Behavior "Strict Subproofs".
Open Scope list_scope.
Open Scope R_scope.

(** ** The pulses of a request *)

Lemma pi_pulse_inj p q : pi_pulse p = pi_pulse q -> p = q.
Proof.
  assert (P := PI_RGT_0); destruct p as [[] t], q as [[] u]; cbn [pi_pulse]; intros E; injection E; intros; subst; try reflexivity; lra.
Qed.
Lemma with_pre_post_inj pre T l l' : with_pre_post pre T l = with_pre_post pre T l' -> l = l'.
Proof.
  destruct pre; cbn [with_pre_post]; intros E.
  - injection E as E; apply app_inj_tail in E; destruct E as [E _]; apply (map_inj pi_pulse); auto; apply pi_pulse_inj.
  - apply (map_inj pi_pulse); auto; apply pi_pulse_inj.
Qed.

Lemma build_pulses T l l' :
  @Ok dds (sequence_of T None (with_pre_post false T l)) = Ok (sequence_of T None (with_pre_post false T l')) -> l = l'.
Proof.
  intros E; assert (E' : sequence_of T None (with_pre_post false T l) = sequence_of T None (with_pre_post false T l')) by congruence.
  apply sequence_of_inj in E'; apply (with_pre_post_inj false T); exact E'.
Qed.

Lemma pulses_scaled r T ps : 0 < T -> pulses_of r T ps -> valid_request r /\ exists rel, ps = map (scale T) rel /\
  nondecreasing (map snd rel) /\ (forall t, In t (map snd rel) -> 0 < t <= 1).
Proof.
  intros HT H.
  assert (V : valid_request r).
  { destruct (valid_request_dec r) as [V|V]; auto; exfalso.
    destruct (request_invalid r T false None) as [m [a [b X]]]; [tauto|]; rewrite (H false None) in X; discriminate. }
  split; [exact V|]; destruct (request_pulses r V) as [rel [D [ND [B _]]]]; exists rel; split; [|split; auto].
  assert (E := H false None); rewrite (D T false None HT) in E; symmetry; apply (build_pulses T _ _ E).
Qed.

Lemma pulses_exist r T : 0 < T -> valid_request r -> exists ps, pulses_of r T ps.
Proof. intros HT V; destruct (request_pulses r V) as [rel [D _]]; exists (map (scale T) rel); intros pre name; apply D; auto. Qed.

(** ** The accumulated phase *)

Lemma switched_integral_closed beta T ts : (forall t, continuous beta t) ->
  switched_integral beta T ts = switched (fun t => RInt beta 0 t) T ts.
Proof.
  intros C; unfold switched_integral, switched.
  assert (I : forall u v, RInt beta u v = RInt beta 0 v - RInt beta 0 u).
  { intros u v; assert (X : RInt beta 0 u + RInt beta u v = RInt beta 0 v)
      by (apply (RInt_Chasles beta); apply (ex_RInt_continuous beta); auto); lra. }
  assert (E : forall s t0, switched_integral_from beta s t0 T ts = switched_from (fun t => RInt beta 0 t) s t0 T ts); [|apply E].
  induction ts as [|t ts IH]; intros s t0; cbn [switched_integral_from switched_from]; rewrite ?IH, (I t0); reflexivity.
Qed.

Lemma real_part_rotated u x : unit_quat u -> qa (relative u (qmul u (qz x))) = cos (x / 2).
Proof.
  intros U; unfold unit_quat, qnorm2 in U; unfold relative, qz, qconj; cbn [qmul qa qb qc qd].
  transitivity ((qa u * qa u + qb u * qb u + qc u * qc u + qd u * qd u) * cos (x / 2)); [ring|rewrite U; ring].
Qed.
Lemma real_part_between r1 r2 u v : unit_quat r1 -> unit_quat r2 ->
  qa (relative (qmul r2 (qmul u r1)) (qmul r2 (qmul v r1))) = qa (relative u v).
Proof.
  intros A B; unfold unit_quat, qnorm2 in A, B; unfold relative, qconj; cbn [qmul qa qb qc qd].
  transitivity ((qa r1 * qa r1 + qb r1 * qb r1 + qc r1 * qc r1 + qd r1 * qd r1) *
    ((qa r2 * qa r2 + qb r2 * qb r2 + qc r2 * qc r2 + qd r2 * qd r2) * (qa u * qa v + qb u * qb v + qc u * qc v + qd u * qd v)));
    [ring|rewrite A, B; ring].
Qed.
Lemma unit_qprod l : unit_quat (qprod l).
Proof. exact (qprod_unit l). Qed.

Theorem phase_infidelity T pre ps beta V : (forall t, continuous beta t) -> noisy_sequence beta 0 T (with_pre_post pre T ps) V ->
  let x := sin (switched_integral beta T (flip_times ps) / 2) ^ 2 in
  worst_infidelity (pulse_product (with_pre_post pre T ps)) V x /\
  sphere_average (infidelity (pulse_product (with_pre_post pre T ps)) V) (2 / 3 * x).
Proof.
  intros C N; apply schroedinger_dephasing in N; auto; rewrite toggling_pre_post, <- switched_integral_closed in N by auto.
  rewrite pulse_product_pre_post; set (f := switched_integral beta T (flip_times ps)) in *; cbv zeta.
  assert (S : sin (f / 2) ^ 2 = 1 - cos (f / 2) ^ 2) by (assert (H := sin2_cos2 (f / 2)); unfold Rsqr in H; lra); rewrite S.
  rewrite pulse_product_qmat, z_rotation_qmat in *; assert (U := unit_qprod ps).
  destruct pre; subst V.
  - rewrite !rotation_qmat, <- !qmat_mul; set (r2 := qplanar _ (closing_angle ps)); set (r1 := qplanar _ 0).
    assert (U1 : unit_quat r1) by apply unit_planar; assert (U2 : unit_quat r2) by apply unit_planar.
    rewrite <- (real_part_rotated (qprod ps) f U), <- (real_part_between r1 r2 (qprod ps) _ U1 U2).
    split; [apply worst_quat|apply sphere_quat]; repeat apply unit_mul; auto; apply unit_qz.
  - rewrite <- qmat_mul, <- (real_part_rotated (qprod ps) f U).
    split; [apply worst_quat|apply sphere_quat]; repeat apply unit_mul; auto; apply unit_qz.
Qed.

(** ** Bounds of the phase *)

Lemma switched_bound (D G : R -> R) T : (forall a b, 0 <= a <= b -> b <= T -> Rabs (D b - D a) <= G b - G a) ->
  forall ps t0 s, Rabs s = 1 -> 0 <= t0 <= T -> nondecreasing (t0 :: map snd ps) -> (forall t, In t (map snd ps) -> t <= T) ->
  Rabs (switched_from D s t0 T (flip_times ps)) <= G T - G t0.
Proof.
  intros H; induction ps as [|[a t] ps IH]; intros t0 s S T0 ND B.
  - cbn [flip_times switched_from]; rewrite Rabs_mult, S, Rmult_1_l; apply H; lra.
  - cbn [map snd] in *; destruct ND as [N1 N2]; assert (TT : t <= T) by (apply B; left; auto).
    assert (K : Rabs (s * (D t - D t0)) <= G t - G t0) by (rewrite Rabs_mult, S, Rmult_1_l; apply H; lra).
    assert (B' : forall u, In u (map snd ps) -> u <= T) by (intros; apply B; right; auto).
    assert (KS : Rabs (switched_from D (- s) t T (flip_times ps)) <= G T - G t) by (apply IH; auto; [rewrite Rabs_Ropp; auto|lra]).
    assert (KZ : Rabs (switched_from D s t T (flip_times ps)) <= G T - G t) by (apply IH; auto; lra).
    destruct a; cbn [flip_times]; [cbn [switched_from]|cbn [switched_from]|rewrite (switched_from_start D s t0 t)];
      (eapply Rle_trans; [apply Rabs_triang|lra]).
Qed.

Lemma polynomial_phase r T ps n c : 0 < T -> pulses_of r T ps -> suppressed_order r n -> (List.length c <= n)%nat ->
  switched (fun t => RInt (polynomial c) 0 t) T (flip_times ps) = 0.
Proof.
  intros HT H O L; destruct (pulses_scaled r T ps HT H) as [V _].
  destruct (request_orders r T false None n HT V O) as [s [E X]]; rewrite (H false None) in E; injection E as <-.
  set (I := switched _ T (flip_times ps)); destruct (Req_dec I 0) as [Z|Z]; auto; exfalso.
  assert (Y := X (map (Rmult (PI / I)) c) ltac:(rewrite map_length; auto) _ eq_refl); cbn [seq_duration sequence_of] in Y.
  apply (has_effect (fun t => RInt (polynomial (map (Rmult (PI / I)) c)) 0 t) T false ps).
  - transitivity (PI / I * switched (fun t => RInt (polynomial c) 0 t) T (flip_times ps)); [|fold I; field; auto]; rewrite <- switched_scale; apply switched_from_ext; intros a b.
    assert (K : forall u, RInt (polynomial (map (Rmult (PI / I)) c)) 0 u = PI / I * RInt (polynomial c) 0 u).
    { intros u; rewrite <- (RInt_scal (polynomial c)).
      - apply RInt_ext; intros; apply polynomial_scale.
      - eexists; apply is_RInt_polynomial. }
    rewrite !K; ring.
  - cbn [with_pre_post]; rewrite Y; apply phase_equiv_refl.
Qed.

Theorem smooth_phase r T ps n beta M : 0 < T -> pulses_of r T ps -> suppressed_order r n -> smooth_detuning beta n M T ->
  Rabs (switched_integral beta T (flip_times ps)) <= M * T ^ (n + 1) / INR (fact (n + 1)).
Proof.
  intros HT H O S; assert (C := proj1 S).
  destruct (pulses_scaled r T ps HT H) as [V [rel [E [ND B]]]].
  rewrite switched_integral_closed by auto.
  assert (Z := polynomial_phase r T ps n (taylor beta n) HT H O ltac:(unfold taylor; rewrite map_length, seq_length; lia)).
  replace (switched (fun t => RInt beta 0 t) T (flip_times ps)) with
    (switched (fun t => RInt beta 0 t - RInt (polynomial (taylor beta n)) 0 t) T (flip_times ps)).
  - eapply Rle_trans; [apply (switched_bound _ (fun t => M * t ^ (n + 1) / INR (fact (n + 1))) T)|].
    + intros a b AB BT; apply (accumulated_remainder beta n M T a b); auto.
    + apply Rabs_R1.
    + lra.
    + subst ps; rewrite map_map; cbn [scale snd]; rewrite <- (map_map snd (Rmult T)).
      apply nondecreasing_from.
      * clear - HT ND; induction (map snd rel) as [|x l IH]; cbn [map]; [exact I|].
        destruct ND as [A N]; split; [|apply IH; auto]; destruct l; cbn [map]; auto; apply Rmult_le_compat_l; lra.
      * intros t I; apply in_map_iff in I; destruct I as [u [<- I]]; apply B in I; apply Rmult_le_pos; lra.
    + intros t I; subst ps; rewrite map_map in I; apply in_map_iff in I; destruct I as [p [<- I]]; cbn [scale snd].
      apply (in_map snd) in I; apply B in I; rewrite <- (Rmult_1_r T) at 2; apply Rmult_le_compat_l; lra.
    + rewrite pow_i by lia; apply Req_le; unfold Rdiv; ring.
  - transitivity (switched (fun t => RInt beta 0 t + -1 * RInt (polynomial (taylor beta n)) 0 t) T (flip_times ps));
      [apply switched_from_ext; intros; ring|].
    rewrite switched_plus, (switched_scale (-1) (fun t => RInt (polynomial (taylor beta n)) 0 t)), Z, Rmult_0_r, Rplus_0_r; reflexivity.
Qed.

(** ** Noise of one frequency *)

Lemma cosine_continuous w p t : continuous (fun t => cos (w * t + p)) t.
Proof. apply @ex_derive_continuous; auto_derive; auto. Qed.
Lemma cos_continuous w t : continuous (fun t => cos (w * t)) t.
Proof. apply @ex_derive_continuous; auto_derive; auto. Qed.
Lemma sin_continuous w t : continuous (fun t => sin (w * t)) t.
Proof. apply @ex_derive_continuous; auto_derive; auto. Qed.

Lemma switched_combine f g a b T ts : (forall t, continuous f t) -> (forall t, continuous g t) ->
  switched_integral (fun t => a * f t + b * g t) T ts = a * switched_integral f T ts + b * switched_integral g T ts.
Proof.
  intros F G; unfold switched_integral.
  assert (I : forall u v, RInt (fun t => a * f t + b * g t) u v = a * RInt f u v + b * RInt g u v).
  { intros u v; apply is_RInt_unique.
    apply (is_RInt_plus (fun t => a * f t) (fun t => b * g t)).
    - apply (is_RInt_scal f); apply (RInt_correct f); apply (ex_RInt_continuous f); auto.
    - apply (is_RInt_scal g); apply (RInt_correct g); apply (ex_RInt_continuous g); auto. }
  generalize 1 0; induction ts as [|t ts IH]; intros s t0; cbn [switched_integral_from]; rewrite I, ?IH; ring.
Qed.

Lemma switched_ext f g T ts : (forall t, f t = g t) -> switched_integral f T ts = switched_integral g T ts.
Proof.
  intros E; unfold switched_integral; generalize 1 0; induction ts as [|t ts IH]; intros s t0; cbn [switched_integral_from];
    rewrite ?IH, (RInt_ext f g); auto.
Qed.

Lemma tone_phase a w p T ts : switched_integral (fun t => a * cos (w * t + p)) T ts =
  a * (cos p * filter_cos w T ts - sin p * filter_sin w T ts).
Proof.
  transitivity (switched_integral (fun t => (a * cos p) * cos (w * t) + (- (a * sin p)) * sin (w * t)) T ts).
  - apply switched_ext; intros t; rewrite cos_plus; ring.
  - rewrite switched_combine; [unfold filter_cos, filter_sin; ring|apply cos_continuous|apply sin_continuous].
Qed.

Lemma angle_of x y : exists p, x = sqrt (x ^ 2 + y ^ 2) * cos p /\ y = sqrt (x ^ 2 + y ^ 2) * sin p.
Proof.
  destruct (Req_dec (x ^ 2 + y ^ 2) 0) as [Z|Z].
  - assert (x = 0) by nra; assert (y = 0) by nra; subst; rewrite Z, sqrt_0; exists 0; split; ring.
  - assert (P : 0 < x ^ 2 + y ^ 2) by (assert (A := pow2_ge_0 x); assert (B := pow2_ge_0 y); lra).
    assert (S := sqrt_lt_R0 _ P); assert (SS : sqrt (x ^ 2 + y ^ 2) ^ 2 = x ^ 2 + y ^ 2) by (apply pow2_sqrt; lra).
    set (s := sqrt (x ^ 2 + y ^ 2)) in *.
    assert (Q : (x / s) ^ 2 + (y / s) ^ 2 = 1)
      by (replace ((x / s) ^ 2 + (y / s) ^ 2) with ((x ^ 2 + y ^ 2) / s ^ 2) by (field; lra); rewrite SS; field; lra).
    assert (Q1 : -1 <= x / s <= 1) by nra.
    assert (SN : sqrt (1 - (x / s) ^ 2) = Rabs (y / s)) by (rewrite <- sqrt_Rsqr_abs; f_equal; unfold Rsqr; lra).
    destruct (Rle_dec 0 y) as [Y|Y].
    + exists (acos (x / s)); rewrite cos_acos, sin_acos by auto; unfold Rsqr; replace (x / s * (x / s)) with ((x / s) ^ 2) by ring.
      rewrite SN, Rabs_right; [split; field; lra|apply Rle_ge, Rmult_le_pos; [auto|apply Rlt_le, Rinv_0_lt_compat; auto]].
    + exists (- acos (x / s)); rewrite cos_neg, sin_neg, cos_acos, sin_acos by auto; unfold Rsqr; replace (x / s * (x / s)) with ((x / s) ^ 2) by ring.
      rewrite SN, Rabs_left; [split; field; lra|].
      assert (I := Rinv_0_lt_compat _ S); assert (0 < - y * / s) by (apply Rmult_lt_0_compat; lra); unfold Rdiv; lra.
Qed.

Theorem tone_filter a w T ts : let phase p := switched_integral (fun t => a * cos (w * t + p)) T ts in
  (forall p, phase p ^ 2 <= a ^ 2 * filter_function w T ts) /\
  (exists p, phase p = a * sqrt (filter_function w T ts)) /\
  is_RInt (fun p => phase p ^ 2) 0 (2 * PI) (2 * PI * (a ^ 2 * filter_function w T ts / 2)).
Proof.
  cbv zeta; unfold filter_function; set (x := filter_cos w T ts); set (y := filter_sin w T ts).
  split; [|split].
  - intros p; rewrite tone_phase; fold x y.
    replace ((a * (cos p * x - sin p * y)) ^ 2) with (a ^ 2 * (cos p * x - sin p * y) ^ 2) by ring.
    apply Rmult_le_compat_l; [apply pow2_ge_0|]; assert (S := sin2_cos2 p); unfold Rsqr in S; assert (K := pow2_ge_0 (sin p * x + cos p * y)).
    replace ((cos p * x - sin p * y) ^ 2) with ((x ^ 2 + y ^ 2) * (sin p * sin p + cos p * cos p) - (sin p * x + cos p * y) ^ 2) by ring.
    rewrite S; lra.
  - destruct (angle_of x y) as [p [EX EY]]; exists (- p); rewrite tone_phase, cos_neg, sin_neg; fold x y.
    set (s := sqrt (x ^ 2 + y ^ 2)) in *; rewrite EX, EY; assert (S := sin2_cos2 p); unfold Rsqr in S.
    match goal with |- ?u = ?v => change (@eq R u v) end.
    transitivity (a * (s * (sin p * sin p + cos p * cos p))); [ring|rewrite S; ring].
  - apply (is_RInt_ext (fun p => a ^ 2 * (cos p * x - sin p * y) ^ 2)); [intros p _; rewrite tone_phase; fold x y; match goal with |- ?u = ?v => change (@eq R u v) end; ring|].
    set (G := fun p => a ^ 2 * ((x ^ 2 + y ^ 2) / 2 * p + (x ^ 2 - y ^ 2) / 2 * (sin p * cos p) - x * y * (sin p * sin p))).
    replace (2 * PI * (a ^ 2 * (x ^ 2 + y ^ 2) / 2)) with (minus (G (2 * PI)) (G 0)).
    + apply (is_RInt_derive G).
      * intros p _; unfold G; auto_derive; auto; assert (S := sin2_cos2 p); unfold Rsqr in S.
        match goal with |- ?u = ?v => change (@eq R u v) end.
        assert (S1 : sin p * sin p = 1 - cos p * cos p) by lra.
        replace ((cos p * x - sin p * y) ^ 2) with (cos p * cos p * x ^ 2 + sin p * sin p * y ^ 2 - 2 * x * y * sin p * cos p) by ring.
        rewrite S1; match goal with |- ?l = _ => replace l with
          (a ^ 2 * ((x ^ 2 + y ^ 2) / 2 + (x ^ 2 - y ^ 2) / 2 * (cos p * cos p - sin p * sin p) - 2 * x * y * sin p * cos p)) by field end.
        rewrite S1; field.
      * intros p _; apply @ex_derive_continuous; auto_derive; auto.
    + match goal with |- ?u = ?v => change (@eq R u v) end; unfold minus, plus, opp; cbn; unfold G; rewrite sin_2PI, cos_2PI, sin_0, cos_0; field.
Qed.

Lemma tone_derivatives w p : forall k t, ex_derive_n (fun t => cos (w * t + p)) k t /\
  Derive_n (fun t => cos (w * t + p)) k t = w ^ k * cos (w * t + p + INR k * (PI / 2)).
Proof.
  induction k as [|k IH]; intros t.
  - split; [exact I|]; cbn [Derive_n pow INR]; rewrite Rmult_0_l, Rplus_0_r; ring.
  - assert (E : forall t, w ^ k * cos (w * t + p + INR k * (PI / 2)) = Derive_n (fun t => cos (w * t + p)) k t) by (intros; symmetry; apply IH).
    assert (D : is_derive (Derive_n (fun t => cos (w * t + p)) k) t (w ^ S k * cos (w * t + p + INR (S k) * (PI / 2)))).
    { eapply is_derive_ext; [exact E|]; auto_derive; auto; rewrite S_INR.
      replace (w * t + p + (INR k + 1) * (PI / 2)) with (PI / 2 + (w * t + p + INR k * (PI / 2))) by ring.
      rewrite (cos_plus (PI / 2)), cos_PI2, sin_PI2; cbn [pow]; ring. }
    split; [eexists; exact D|apply is_derive_unique; exact D].
Qed.

Lemma tone_smooth w p n T : smooth_detuning (fun t => 1 * cos (w * t + p)) n (Rabs w ^ n) T.
Proof.
  split; [intros t; apply @ex_derive_continuous; auto_derive; auto|].
  assert (E : forall t, cos (w * t + p) = 1 * cos (w * t + p)) by (intros; ring).
  intros t _; split.
  - intros k _; eapply ex_derive_n_ext; [exact E|apply tone_derivatives].
  - rewrite <- (Derive_n_ext (fun t => cos (w * t + p)) _ n t E); rewrite (proj2 (tone_derivatives w p n t)), Rabs_mult, RPow_abs.
    rewrite <- (Rmult_1_r (Rabs (w ^ n))) at 2; apply Rmult_le_compat_l; [apply Rabs_pos|apply Rabs_le, COS_bound].
Qed.

Theorem rolloff r T ps n w : 0 < T -> pulses_of r T ps -> suppressed_order r n ->
  sqrt (filter_function w T (flip_times ps)) <= Rabs w ^ n * T ^ (n + 1) / INR (fact (n + 1)).
Proof.
  intros HT H O; destruct (tone_filter 1 w T (flip_times ps)) as [_ [[p P] _]]; rewrite Rmult_1_l in P; rewrite <- P.
  eapply Rle_trans; [apply Rle_abs|]; apply (smooth_phase r T ps n _ _ HT H O (tone_smooth w p n T)).
Qed.

(** ** Closed forms *)

Lemma tone_integral w u v : w <> 0 ->
  RInt (fun t => cos (w * t)) u v = (sin (w * v) - sin (w * u)) / w /\ RInt (fun t => sin (w * t)) u v = (cos (w * u) - cos (w * v)) / w.
Proof.
  intros W; split; apply is_RInt_unique.
  - replace ((sin (w * v) - sin (w * u)) / w) with (minus (sin (w * v) / w) (sin (w * u) / w))
      by (match goal with |- ?x = ?y => change (@eq R x y) end; unfold minus, plus, opp; cbn; field; auto).
    apply (is_RInt_derive (fun t => sin (w * t) / w)); intros t _; [auto_derive; auto; field; auto|apply cos_continuous].
  - replace ((cos (w * u) - cos (w * v)) / w) with (minus (- cos (w * v) / w) (- cos (w * u) / w))
      by (match goal with |- ?x = ?y => change (@eq R x y) end; unfold minus, plus, opp; cbn; field; auto).
    apply (is_RInt_derive (fun t => - cos (w * t) / w)); intros t _; [auto_derive; auto; field; auto|apply sin_continuous].
Qed.

Theorem filter_sums w T ts : w <> 0 ->
  w * filter_cos w T ts = 2 * signed_sum (fun t => sin (w * t)) ts + (-1) ^ List.length ts * sin (w * T) /\
  w * filter_sin w T ts = 1 - 2 * signed_sum (fun t => cos (w * t)) ts - (-1) ^ List.length ts * cos (w * T).
Proof.
  intros W; unfold filter_cos, filter_sin, switched_integral.
  assert (A : forall ts s t0, w * switched_integral_from (fun t => cos (w * t)) s t0 T ts =
    s * (2 * signed_sum (fun t => sin (w * t)) ts + (-1) ^ List.length ts * sin (w * T) - sin (w * t0))).
  { clear ts; induction ts as [|t ts IH]; intros s t0; cbn [switched_integral_from signed_sum List.length pow]; rewrite (proj1 (tone_integral w _ _ W)).
    - field; auto.
    - rewrite Rmult_plus_distr_l, IH; field; auto. }
  assert (B : forall ts s t0, w * switched_integral_from (fun t => sin (w * t)) s t0 T ts =
    s * (cos (w * t0) - 2 * signed_sum (fun t => cos (w * t)) ts - (-1) ^ List.length ts * cos (w * T))).
  { clear ts A; induction ts as [|t ts IH]; intros s t0; cbn [switched_integral_from signed_sum List.length pow]; rewrite (proj2 (tone_integral w _ _ W)).
    - field; auto.
    - rewrite Rmult_plus_distr_l, IH; field; auto. }
  rewrite A, B, !Rmult_0_r, sin_0, cos_0; split; ring.
Qed.

Lemma signed_seq (f g : R -> R) h : (forall i, f (INR i) * h = g (INR i) + g (INR i + 1)) -> forall n a,
  signed_sum f (map INR (seq a n)) * h = g (INR a) - (-1) ^ n * g (INR (a + n)).
Proof.
  intros H; induction n as [|n IH]; intros a; cbn [seq map signed_sum pow].
  - rewrite Nat.add_0_r; ring.
  - rewrite Rmult_minus_distr_r, IH, H, <- S_INR; replace (a + S n)%nat with (S a + n)%nat by lia; ring.
Qed.
Lemma signed_compose f k l : signed_sum f (map k l) = signed_sum (fun t => f (k t)) l.
Proof. induction l; cbn; [reflexivity|rewrite IHl; reflexivity]. Qed.

Lemma midpoints_filter w T n : w <> 0 -> (1 <= n)%nat -> let ts := map (fun i => T / INR n * (INR i - 1 / 2)) (seq 1 n) in let th := w * T / (2 * INR n) in
  w ^ 2 * filter_function w T ts * cos th ^ 2 = 2 * (1 - cos th) ^ 2 * (1 - (-1) ^ n * cos (w * T)).
Proof.
  intros W N; cbv zeta; set (ts := map _ _); set (th := w * T / (2 * INR n)).
  assert (NP : 0 < INR n) by (apply lt_0_INR; lia).
  destruct (filter_sums w T ts W) as [FC FS]; unfold filter_function.
  replace (w ^ 2 * (filter_cos w T ts ^ 2 + filter_sin w T ts ^ 2)) with ((w * filter_cos w T ts) ^ 2 + (w * filter_sin w T ts) ^ 2) by ring.
  rewrite FC, FS; assert (LT : List.length ts = n) by (unfold ts; rewrite map_length, seq_length; auto); rewrite LT; clear FC FS.
  assert (TS : ts = map (fun y => T / INR n * (y - 1 / 2)) (map INR (seq 1 n))) by (unfold ts; rewrite map_map; reflexivity).
  assert (E0 : forall y, w * (T / INR n * (y - 1 / 2)) = 2 * th * (y - 1) + th) by (intros y; unfold th; field; lra).
  assert (EN : 2 * th * (INR (1 + n) - 1) = w * T) by (rewrite plus_INR; cbn [INR]; unfold th; field; lra).
  assert (A : signed_sum (fun t => sin (w * t)) ts * (2 * cos th) = - ((-1) ^ n * sin (w * T))).
  { rewrite TS, signed_compose, (signed_seq _ (fun y => sin (2 * th * (y - 1)))).
    - cbv beta; rewrite EN; replace (2 * th * (INR 1 - 1)) with 0 by (cbn; ring); rewrite sin_0; ring.
    - intros i; cbv beta; rewrite E0; replace (2 * th * (INR i + 1 - 1)) with (2 * th * (INR i - 1) + th + th) by ring.
      set (u := 2 * th * (INR i - 1)); replace u with ((u + th) - th) at 2 by ring; rewrite (sin_minus (u + th)), (sin_plus (u + th)); ring. }
  assert (B : signed_sum (fun t => cos (w * t)) ts * (2 * cos th) = 1 - (-1) ^ n * cos (w * T)).
  { rewrite TS, signed_compose, (signed_seq _ (fun y => cos (2 * th * (y - 1)))).
    - cbv beta; rewrite EN; replace (2 * th * (INR 1 - 1)) with 0 by (cbn; ring); rewrite cos_0; ring.
    - intros i; cbv beta; rewrite E0; replace (2 * th * (INR i + 1 - 1)) with (2 * th * (INR i - 1) + th + th) by ring.
      set (u := 2 * th * (INR i - 1)); replace u with ((u + th) - th) at 2 by ring; rewrite (cos_minus (u + th)), (cos_plus (u + th)); ring. }
  set (a := signed_sum (fun t => sin (w * t)) ts) in *; set (b := signed_sum (fun t => cos (w * t)) ts) in *.
  set (e := (-1) ^ n) in *; assert (EE : e * e = 1) by (unfold e; rewrite <- Rpow_mult_distr; replace (-1 * -1) with 1 by ring; apply pow1).
  set (c := cos th) in *; set (s := sin (w * T)) in *; set (k := cos (w * T)) in *.
  assert (SK : s * s + k * k = 1) by (assert (S := sin2_cos2 (w * T)); unfold Rsqr in S; exact S).
  transitivity ((a * (2 * c) + e * s * c) ^ 2 + ((1 - e * k) * c - b * (2 * c)) ^ 2); [ring|]; rewrite A, B.
  transitivity ((1 - c) ^ 2 * (e * e * (s * s + k * k) + 1 - 2 * e * k)); [ring|]; rewrite EE, SK; ring.
Qed.

Lemma equidistant_filter w T n : w <> 0 -> let ts := map (fun i => T * INR i / (INR n + 1)) (seq 1 n) in let th := w * T / (2 * (INR n + 1)) in
  w ^ 2 * filter_function w T ts * cos th ^ 2 = 2 * sin th ^ 2 * (1 + (-1) ^ n * cos (w * T)).
Proof.
  intros W; cbv zeta; set (ts := map _ _); set (th := w * T / (2 * (INR n + 1))).
  assert (NP : 0 <= INR n) by apply pos_INR.
  destruct (filter_sums w T ts W) as [FC FS]; unfold filter_function.
  replace (w ^ 2 * (filter_cos w T ts ^ 2 + filter_sin w T ts ^ 2)) with ((w * filter_cos w T ts) ^ 2 + (w * filter_sin w T ts) ^ 2) by ring.
  rewrite FC, FS; assert (LT : List.length ts = n) by (unfold ts; rewrite map_length, seq_length; auto); rewrite LT; clear FC FS.
  assert (TS : ts = map (fun y => T * y / (INR n + 1)) (map INR (seq 1 n))) by (unfold ts; rewrite map_map; reflexivity).
  assert (E0 : forall y, w * (T * y / (INR n + 1)) = 2 * th * y) by (intros y; unfold th; field; lra).
  assert (EN : 2 * th * INR (1 + n) - th = w * T - th) by (rewrite plus_INR; cbn [INR]; unfold th; field; lra).
  assert (A : signed_sum (fun t => sin (w * t)) ts * (2 * cos th) = sin th - (-1) ^ n * sin (w * T - th)).
  { rewrite TS, signed_compose, (signed_seq _ (fun y => sin (2 * th * y - th))).
    - cbv beta; rewrite EN; replace (2 * th * INR 1 - th) with th by (cbn; ring); reflexivity.
    - intros i; cbv beta; rewrite E0; replace (2 * th * (INR i + 1) - th) with (2 * th * INR i + th) by ring.
      rewrite sin_minus, sin_plus; ring. }
  assert (B : signed_sum (fun t => cos (w * t)) ts * (2 * cos th) = cos th - (-1) ^ n * cos (w * T - th)).
  { rewrite TS, signed_compose, (signed_seq _ (fun y => cos (2 * th * y - th))).
    - cbv beta; rewrite EN; replace (2 * th * INR 1 - th) with th by (cbn; ring); reflexivity.
    - intros i; cbv beta; rewrite E0; replace (2 * th * (INR i + 1) - th) with (2 * th * INR i + th) by ring.
      rewrite cos_minus, cos_plus; ring. }
  rewrite sin_minus in A; rewrite cos_minus in B.
  set (a := signed_sum (fun t => sin (w * t)) ts) in *; set (b := signed_sum (fun t => cos (w * t)) ts) in *.
  set (e := (-1) ^ n) in *; assert (EE : e * e = 1) by (unfold e; rewrite <- Rpow_mult_distr; replace (-1 * -1) with 1 by ring; apply pow1).
  set (c := cos th) in *; set (h := sin th) in *; set (s := sin (w * T)) in *; set (k := cos (w * T)) in *.
  assert (SK : s * s + k * k = 1) by (assert (S := sin2_cos2 (w * T)); unfold Rsqr in S; exact S).
  transitivity ((a * (2 * c) + e * s * c) ^ 2 + ((1 - e * k) * c - b * (2 * c)) ^ 2); [ring|]; rewrite A, B.
  transitivity (h ^ 2 * (e * e * (s * s + k * k) + 1 + 2 * e * k)); [ring|]; rewrite EE, SK; ring.
Qed.

Theorem filter_forms T w ps : 0 < T -> w <> 0 ->
  (pulses_of Ramsey T ps -> w ^ 2 * filter_function w T (flip_times ps) = 4 * sin (w * T / 2) ^ 2) /\
  (pulses_of SpinEcho T ps -> w ^ 2 * filter_function w T (flip_times ps) = 16 * sin (w * T / 4) ^ 4) /\
  (forall x n, truncates_to x n -> (1 <= n)%nat -> pulses_of (CarrPurcell x) T ps \/ pulses_of (CPMG x) T ps ->
     w ^ 2 * filter_function w T (flip_times ps) * cos (w * T / (2 * INR n)) ^ 2 =
     16 * sin (w * T / (4 * INR n)) ^ 4 * (if Nat.even n then sin (w * T / 2) else cos (w * T / 2)) ^ 2) /\
  (forall x n, truncates_to x n -> (1 <= n)%nat -> pulses_of (Periodic x) T ps ->
     w ^ 2 * filter_function w T (flip_times ps) * cos (w * T / (2 * (INR n + 1))) ^ 2 =
     4 * sin (w * T / (2 * (INR n + 1))) ^ 2 * (if Nat.even n then cos (w * T / 2) else sin (w * T / 2)) ^ 2).
Proof.
  intros HT W.
  assert (SQ : forall y, 1 - cos y = 2 * sin (y / 2) ^ 2).
  { intros y; replace y with (2 * (y / 2)) at 1 by field; rewrite cos_2a_sin; ring. }
  assert (CQ : forall y, 1 + cos y = 2 * cos (y / 2) ^ 2).
  { intros y; replace y with (2 * (y / 2)) at 1 by field; rewrite cos_2a_cos; ring. }
  split; [|split; [|split]].
  - intros H; assert (E := H false None); cbn [build_sequence] in E; rewrite (proj1 (ramsey_timing T false None) HT) in E.
    assert (ps = []) by (symmetry; exact (build_pulses T _ _ E)).
    subst ps; destruct (filter_sums w T [] W) as [FC FS]; cbn [signed_sum List.length pow] in FC, FS; cbn [flip_times]; unfold filter_function.
    replace (w ^ 2 * (filter_cos w T [] ^ 2 + filter_sin w T [] ^ 2)) with ((w * filter_cos w T []) ^ 2 + (w * filter_sin w T []) ^ 2) by ring.
    rewrite FC, FS; assert (S := sin2_cos2 (w * T)); unfold Rsqr in S.
    transitivity (2 * (1 - cos (w * T)) + (sin (w * T) * sin (w * T) + cos (w * T) * cos (w * T) - 1)); [ring|rewrite S, SQ; ring].
  - intros H; assert (E := H false None); cbn [build_sequence] in E; rewrite (proj1 (spin_echo_timing T false None) HT) in E.
    assert (ps = [(AX, T / 2)]) by (symmetry; exact (build_pulses T _ _ E)).
    subst ps; cbn [flip_times]; destruct (filter_sums w T [T / 2] W) as [FC FS]; cbn [signed_sum List.length pow] in FC, FS; unfold filter_function.
    replace (w ^ 2 * (filter_cos w T [T / 2] ^ 2 + filter_sin w T [T / 2] ^ 2)) with ((w * filter_cos w T [T / 2]) ^ 2 + (w * filter_sin w T [T / 2]) ^ 2) by ring.
    rewrite FC, FS; set (u := w * (T / 2)); replace (w * T) with (2 * u) by (unfold u; field).
    replace (2 * u / 4) with (u / 2) by field; rewrite cos_2a_cos, sin_2a.
    assert (S := sin2_cos2 u); unfold Rsqr in S; assert (S1 : sin u * sin u = 1 - cos u * cos u) by lra.
    transitivity (4 * (sin u * sin u) * (1 - cos u) ^ 2 + 4 * (cos u * (1 - cos u) * (-1)) ^ 2).
    { ring. }
    rewrite S1; transitivity (4 * (1 - cos u) ^ 2); [ring|rewrite SQ; ring].
  - intros x n TR N H.
    assert (F : flip_times ps = map (fun i => T / INR n * (INR i - 1 / 2)) (seq 1 n)).
    { destruct H as [H|H]; assert (E := H false None); cbn [build_sequence] in E;
        [rewrite (carr_purcell_timing T x n false None) in E by auto|rewrite (cpmg_timing T x n false None) in E by auto].
      - assert (PS : ps = map (fun i => (AX, T / INR n * (INR i - 1 / 2))) (seq 1 n))
          by (symmetry; exact (build_pulses T _ _ E)).
        rewrite PS, <- (map_map (fun i => T / INR n * (INR i - 1 / 2)) (fun t => (AX, t))); apply flip_times_uniform; discriminate.
      - assert (PS : ps = map (fun i => (AY, T / INR n * (INR i - 1 / 2))) (seq 1 n))
          by (symmetry; exact (build_pulses T _ _ E)).
        rewrite PS, <- (map_map (fun i => T / INR n * (INR i - 1 / 2)) (fun t => (AY, t))); apply flip_times_uniform; discriminate. }
    rewrite F, (midpoints_filter w T n W N), SQ; assert (NP : 0 < INR n) by (apply lt_0_INR; lia).
    replace (w * T / (2 * INR n) / 2) with (w * T / (4 * INR n)) by (field; lra); set (q := sin (w * T / (4 * INR n))).
    destruct (Nat.even n) eqn:EV.
    + apply Nat.even_spec in EV; destruct EV as [k ->]; rewrite pow_mult; replace ((-1) ^ 2) with 1 by ring; rewrite pow1, Rmult_1_l, SQ; ring.
    + assert (OD : Nat.odd n = true) by (unfold Nat.odd; rewrite EV; auto); apply Nat.odd_spec in OD; destruct OD as [k ->].
      rewrite pow_add, pow_mult; replace ((-1) ^ 2) with 1 by ring; rewrite pow1, pow_1.
      replace (1 - 1 * -1 * cos (w * T)) with (1 + cos (w * T)) by ring; rewrite CQ; ring.
  - intros x n TR N H; assert (E := H false None); cbn [build_sequence] in E; rewrite (periodic_timing T x n false None) in E by auto.
    apply build_pulses in E; subst ps.
    match goal with |- context [flip_times (map ?f (seq 1 n))] =>
      replace (flip_times (map f (seq 1 n))) with (map (fun i => T * INR i / (INR n + 1)) (seq 1 n)) end.
    2: { clear; induction (seq 1 n) as [|i l IH]; cbn [map flip_times]; [reflexivity|rewrite <- IH; f_equal; unfold Rdiv; ring]. }
    rewrite (equidistant_filter w T n W); set (q := sin (w * T / (2 * (INR n + 1)))).
    destruct (Nat.even n) eqn:EV.
    + apply Nat.even_spec in EV; destruct EV as [k ->]; rewrite pow_mult; replace ((-1) ^ 2) with 1 by ring; rewrite pow1, Rmult_1_l, CQ; ring.
    + assert (OD : Nat.odd n = true) by (unfold Nat.odd; rewrite EV; auto); apply Nat.odd_spec in OD; destruct OD as [k ->].
      rewrite pow_add, pow_mult; replace ((-1) ^ 2) with 1 by ring; rewrite pow1, pow_1.
      replace (1 + 1 * -1 * cos (w * T)) with (1 - cos (w * T)) by ring; rewrite SQ; ring.
Qed.

(** ** Walsh functions *)

Definition increments (bits : list bool) (B : R -> R) (x h : R) : R :=
  weighted (dyadic bits) (fun i => B (x + INR (S i) * h) - B (x + INR i * h)) (2 ^ List.length bits).

Lemma increments_cons b bits B x h :
  increments (b :: bits) B x h = increments bits (fun t => 1 * B t + (if b then -1 else 1) * B (t + INR (2 ^ List.length bits) * h)) x h.
Proof.
  unfold increments; cbn [List.length Nat.pow]; replace (2 * 2 ^ List.length bits)%nat
    with (2 ^ List.length bits + 2 ^ List.length bits)%nat by lia.
  rewrite weighted_app; set (M := (2 ^ List.length bits)%nat) in *; set (c := INR M * h).
  rewrite (weighted_ext (dyadic (b :: bits)) (dyadic bits) _ (fun i => B (x + INR (S i) * h) - B (x + INR i * h)) M)
    by (intros i I; rewrite dyadic_first; auto).
  rewrite (weighted_ext (fun i => dyadic (b :: bits) (M + i)) (dyadic bits) _
    (fun i => (if b then -1 else 1) * (B (x + INR (S i) * h + c) - B (x + INR i * h + c))) M).
  2:{ intros i I; rewrite Nat.add_comm; unfold M; rewrite dyadic_second by auto; fold M.
      replace (S (i + M)) with (S i + M)%nat by lia; rewrite (plus_INR (S i) M), (plus_INR i M).
      unfold c; replace (x + (INR (S i) + INR M) * h) with (x + INR (S i) * h + INR M * h) by ring.
      replace (x + (INR i + INR M) * h) with (x + INR i * h + INR M * h) by ring; ring. }
  rewrite <- weighted_plus; apply weighted_ext; intros; ring.
Qed.
Lemma increments_combine bits A B p q x h : increments bits (fun t => p * A t + q * B t) x h = p * increments bits A x h + q * increments bits B x h.
Proof. unfold increments; induction (2 ^ List.length bits)%nat as [|n IH]; cbn [weighted]; [ring|rewrite IH; ring]. Qed.
Lemma increments_ext bits A B x h : (forall t, A t = B t) -> increments bits A x h = increments bits B x h.
Proof. intros E; unfold increments; apply weighted_ext; intros; rewrite !E; reflexivity. Qed.

Lemma increments_power w bits : forall x h,
  increments bits (fun t => sin (w * t)) x h ^ 2 + increments bits (fun t => cos (w * t)) x h ^ 2 =
  walsh_filter bits (w * (INR (2 ^ List.length bits) * h)).
Proof.
  assert (SQ : forall y, 1 - cos y = 2 * sin (y / 2) ^ 2).
  { intros y; replace y with (2 * (y / 2)) at 1 by field; rewrite cos_2a_sin; ring. }
  assert (CQ : forall y, 1 + cos y = 2 * cos (y / 2) ^ 2).
  { intros y; replace y with (2 * (y / 2)) at 1 by field; rewrite cos_2a_cos; ring. }
  induction bits as [|b bits IH]; intros x h.
  - unfold increments; cbn [List.length Nat.pow weighted walsh_filter dyadic INR].
    replace (w * (x + 1 * h)) with (w * x + w * h) by ring; replace (w * (x + 0 * h)) with (w * x) by ring.
    replace (w * (1 * h)) with (w * h) by ring; rewrite sin_plus, cos_plus.
    assert (S1 := sin2_cos2 (w * x)); assert (S2 := sin2_cos2 (w * h)); unfold Rsqr in S1, S2.
    set (a := sin (w * x)) in *; set (c := cos (w * x)) in *; set (u := sin (w * h)) in *.
    assert (Q := SQ (w * h)); set (v := cos (w * h)) in *.
    transitivity ((a * a + c * c) * (u * u + v * v + 1 - 2 * v)); [ring|]; rewrite S1, S2.
    transitivity (2 * (1 - v)); [ring|rewrite Q; ring].
  - rewrite !increments_cons; set (L := INR (2 ^ List.length bits) * h) in *; set (e := if b then -1 else 1).
    rewrite (increments_ext bits (fun t => 1 * sin (w * t) + e * sin (w * (t + L))) (fun t => (1 + e * cos (w * L)) * sin (w * t) + (e * sin (w * L)) * cos (w * t)))
      by (intros t; rewrite Rmult_plus_distr_l, sin_plus; ring).
    rewrite (increments_ext bits (fun t => 1 * cos (w * t) + e * cos (w * (t + L))) (fun t => (- (e * sin (w * L))) * sin (w * t) + (1 + e * cos (w * L)) * cos (w * t)))
      by (intros t; rewrite Rmult_plus_distr_l, cos_plus; ring).
    rewrite !increments_combine; assert (I := IH x h); fold L in I.
    cbn [List.length Nat.pow walsh_filter].
    replace (w * (INR (2 * 2 ^ List.length bits) * h)) with (2 * (w * L)) by (unfold L; rewrite mult_INR; cbn [INR]; ring).
    replace (2 * (w * L) / 2) with (w * L) by field; replace (2 * (w * L) / 4) with (w * L / 2) by field; rewrite <- I.
    set (X := increments bits (fun t => sin (w * t)) x h); set (Y := increments bits (fun t => cos (w * t)) x h).
    assert (S := sin2_cos2 (w * L)); unfold Rsqr in S; assert (Q1 := SQ (w * L)); assert (Q2 := CQ (w * L)).
    set (u := sin (w * L)) in *; set (v := cos (w * L)) in *.
    assert (EE : e * e = 1) by (unfold e; destruct b; ring).
    transitivity ((e * e * (u * u + v * v) + 1 + 2 * e * v) * (X ^ 2 + Y ^ 2)); [ring|]; rewrite EE, S; unfold e; destruct b.
    + transitivity (2 * (1 - v) * (X ^ 2 + Y ^ 2)); [ring|rewrite Q1; ring].
    + transitivity (2 * (1 + v) * (X ^ 2 + Y ^ 2)); [ring|rewrite Q2; ring].
Qed.

Lemma filter_antiderivative w T ts : w <> 0 ->
  w ^ 2 * filter_function w T ts = switched (fun t => sin (w * t)) T ts ^ 2 + switched (fun t => cos (w * t)) T ts ^ 2.
Proof.
  intros W; unfold filter_function, filter_cos, filter_sin.
  rewrite !switched_integral_closed by (intros; apply cos_continuous || apply sin_continuous).
  assert (A : w * switched (fun t => RInt (fun u => cos (w * u)) 0 t) T ts = switched (fun t => sin (w * t)) T ts).
  { rewrite <- switched_scale; apply switched_from_ext; intros x y; rewrite !(proj1 (tone_integral w _ _ W)); field; auto. }
  assert (B : w * switched (fun t => RInt (fun u => sin (w * u)) 0 t) T ts = -1 * switched (fun t => cos (w * t)) T ts).
  { rewrite <- !switched_scale; apply switched_from_ext; intros x y; rewrite !(proj2 (tone_integral w _ _ W)); field; auto. }
  set (a := switched (fun t => RInt (fun u => cos (w * u)) 0 t) T ts) in *; set (b := switched (fun t => RInt (fun u => sin (w * u)) 0 t) T ts) in *.
  transitivity ((w * a) ^ 2 + (w * b) ^ 2); [ring|rewrite A, B; ring].
Qed.

Lemma dyadic_filter w T bits N : w <> 0 -> N = (2 ^ List.length bits)%nat ->
  w ^ 2 * filter_function w T (change_times (dyadic bits) (fun i => T * INR i / INR N) 0 (N - 1)) = walsh_filter bits (w * T).
Proof.
  intros W EN; rewrite filter_antiderivative by auto.
  assert (PN : (0 < N)%nat) by (subst N; apply Nat.neq_0_lt_0, Nat.pow_nonzero; lia).
  assert (PR : 0 < INR N) by (apply lt_0_INR; auto).
  set (tau := fun i => T * INR i / INR N).
  assert (T0 : tau O = 0) by (unfold tau; cbn [INR]; field; lra).
  assert (T1 : tau (S (0 + (N - 1))) = T).
  { unfold tau; replace (S (0 + (N - 1))) with N by lia; field; lra. }
  assert (X : forall B, switched B T (change_times (dyadic bits) tau 0 (N - 1)) = increments bits B 0 (T / INR N)).
  { intros B; unfold switched; rewrite <- (dyadic_0 bits) at 1; rewrite <- T0 at 1; rewrite <- T1 at 1.
    rewrite (switched_changes B (dyadic bits) tau) by (intros; apply dyadic_cases).
    replace (S (N - 1)) with N by lia; unfold increments; rewrite <- EN.
    apply weighted_ext; intros i _; cbn [Nat.add]; f_equal; unfold tau; f_equal; f_equal; field; lra. }
  rewrite !X, increments_power, <- EN; f_equal; field; lra.
Qed.

Theorem walsh_forms T w ps : 0 < T -> w <> 0 ->
  (forall x k, truncates_to x k -> pulses_of (Walsh x) T ps ->
     w ^ 2 * filter_function w T (flip_times ps) = walsh_filter (binary_digits k) (w * T)) /\
  (forall x l, truncates_to x l -> pulses_of (XConcatenated x) T ps ->
     w ^ 2 * filter_function w T (flip_times ps) = walsh_filter (repeat true l) (w * T)).
Proof.
  intros HT W; split; intros x k TR H; destruct (pulses_scaled _ T ps HT H) as [V _]; cbn [valid_request] in V;
    assert (E := H false None); cbn [build_sequence] in E.
  - rewrite (walsh_model T x k false None) in E by auto; apply build_pulses in E; subst ps.
    rewrite flip_times_uniform by discriminate; apply dyadic_filter; auto; unfold samples_count; rewrite binary_digits_length; auto.
  - assert (K : (1 <= k)%nat).
    { destruct TR as [_ TR]; apply INR_le; cbn [INR]; apply Rnot_lt_le; intros L.
      assert (k = O) by (destruct k; auto; rewrite S_INR in L; assert (P := pos_INR k); lra); subst k; cbn [INR] in *; lra. }
    rewrite (x_model T x k false None) in E by auto; apply build_pulses in E; subst ps.
    rewrite flip_times_uniform by discriminate; apply dyadic_filter; auto; rewrite repeat_length; auto.
Qed.

(** ** Several frequencies *)

Lemma tones_continuous tones : forall ps t, continuous (tones_at tones ps) t.
Proof.
  induction tones as [|[a w] tones IH]; intros [|p ps] t; cbn [tones_at]; try apply continuous_const.
  apply (continuous_plus (fun t => a * cos (w * t + p)) (tones_at tones ps)); auto.
  apply @ex_derive_continuous; auto_derive; auto.
Qed.

Lemma tones_split a w p tones ps T ts :
  switched_integral (tones_at ((a, w) :: tones) (p :: ps)) T ts =
  a * (cos p * filter_cos w T ts - sin p * filter_sin w T ts) + switched_integral (tones_at tones ps) T ts.
Proof.
  rewrite <- tone_phase.
  rewrite (switched_ext _ (fun t => 1 * (a * cos (w * t + p)) + 1 * tones_at tones ps t)) by (intros t; cbn [tones_at]; ring).
  rewrite (switched_combine (fun t => a * cos (w * t + p)) (tones_at tones ps)); [rewrite !Rmult_1_l; reflexivity| |apply tones_continuous].
  intros t; apply @ex_derive_continuous; auto_derive; auto.
Qed.

Lemma phase_mean_ext n : forall f g m, (forall ps, f ps = g ps) -> phase_mean n f m -> phase_mean n g m.
Proof.
  induction n as [|n IH]; intros f g m E; cbn [phase_mean]; [rewrite E; auto|].
  intros [h [H I]]; exists h; split; auto; intros p; apply (IH (fun ps => f (p :: ps))); auto.
Qed.

Lemma shifted_mean tones T ts : forall c,
  phase_mean (List.length tones) (fun ps => (c + switched_integral (tones_at tones ps) T ts) ^ 2)
    (c ^ 2 + total (map (fun p => fst p ^ 2 * filter_function (snd p) T ts / 2) tones)).
Proof.
  induction tones as [|[a w] tones IH]; intros c.
  - cbn [List.length phase_mean map total].
    rewrite (switched_ext _ (fun t => 0 * cos (0 * t) + 0 * cos (0 * t))) by (intros t; cbn [tones_at]; ring).
    rewrite switched_combine by apply cos_continuous; ring.
  - cbn [List.length phase_mean map total fst snd].
    set (x := filter_cos w T ts); set (y := filter_sin w T ts); set (r := total _).
    exists (fun p => (c + a * (cos p * x - sin p * y)) ^ 2 + r); split.
    + intros p; apply (phase_mean_ext _ (fun ps => (c + a * (cos p * x - sin p * y) + switched_integral (tones_at tones ps) T ts) ^ 2)); [|apply IH].
      intros ps; rewrite tones_split; fold x y; ring.
    + unfold filter_function; fold x y.
      set (G := fun p => (c ^ 2 + r) * p + 2 * c * a * (sin p * x + cos p * y) +
                         a ^ 2 * ((x ^ 2 + y ^ 2) / 2 * p + (x ^ 2 - y ^ 2) / 2 * (sin p * cos p) - x * y * (sin p * sin p))).
      replace (2 * PI * (c ^ 2 + (a ^ 2 * (x ^ 2 + y ^ 2) / 2 + r))) with (minus (G (2 * PI)) (G 0)).
      * apply (is_RInt_derive G).
        -- intros p _; unfold G; auto_derive; auto; assert (S := sin2_cos2 p); unfold Rsqr in S.
           match goal with |- ?u = ?v => change (@eq R u v) end.
           assert (S1 : sin p * sin p = 1 - cos p * cos p) by lra.
           match goal with |- ?l = _ => replace l with
             (c ^ 2 + r + 2 * c * a * (cos p * x - sin p * y) + a ^ 2 * ((x ^ 2 + y ^ 2) / 2 + (x ^ 2 - y ^ 2) / 2 * (cos p * cos p - sin p * sin p) - 2 * x * y * sin p * cos p)) by field end.
           replace ((c + a * (cos p * x - sin p * y)) ^ 2) with
             (c ^ 2 + 2 * c * a * (cos p * x - sin p * y) + a ^ 2 * (cos p * cos p * x ^ 2 + sin p * sin p * y ^ 2 - 2 * x * y * sin p * cos p)) by ring.
           rewrite S1; field.
        -- intros p _; apply @ex_derive_continuous; auto_derive; auto.
      * match goal with |- ?u = ?v => change (@eq R u v) end; unfold minus, plus, opp; cbn; unfold G; rewrite sin_2PI, cos_2PI, sin_0, cos_0; field.
Qed.

Theorem tones_mean tones T ts :
  phase_mean (List.length tones) (fun ps => switched_integral (tones_at tones ps) T ts ^ 2)
    (total (map (fun p => fst p ^ 2 * filter_function (snd p) T ts / 2) tones)).
Proof.
  assert (H := shifted_mean tones T ts 0); replace (0 ^ 2 + total (map (fun p => fst p ^ 2 * filter_function (snd p) T ts / 2) tones))
    with (total (map (fun p => fst p ^ 2 * filter_function (snd p) T ts / 2) tones)) in H by ring.
  eapply phase_mean_ext; [|exact H]; intros ps; cbv beta; rewrite Rplus_0_l; reflexivity.
Qed.

(** ** Exact mean over the phases *)

Lemma shifted_period (g : R -> R) th : (forall p, continuous g p) -> (forall p, g (p + 2 * PI) = g p) ->
  is_RInt (fun p => g (p + th)) 0 (2 * PI) (RInt g 0 (2 * PI)).
Proof.
  intros C P.
  assert (E : forall a b, ex_RInt g a b) by (intros a b; apply (ex_RInt_continuous g); auto).
  assert (S : forall c a b, is_RInt (fun p => g (p + c)) a b (RInt g (a + c) (b + c))).
  { intros c a b; apply (is_RInt_ext (fun p => scal 1 (g (1 * p + c)))).
    - intros p _; transitivity (1 * g (1 * p + c)); [reflexivity|rewrite Rmult_1_l; f_equal; ring].
    - apply (is_RInt_comp_lin g 1 c a b); rewrite !Rmult_1_l; apply (RInt_correct g); auto. }
  assert (Q : RInt g (2 * PI) (th + 2 * PI) = RInt g 0 th).
  { assert (H := is_RInt_unique _ _ _ _ (S (2 * PI) 0 th)); rewrite Rplus_0_l in H; rewrite <- H.
    apply RInt_ext; intros p _; apply P. }
  assert (H := S th 0 (2 * PI)); rewrite Rplus_0_l in H.
  replace (RInt g 0 (2 * PI)) with (RInt g th (2 * PI + th)); [exact H|].
  assert (A := RInt_Chasles g 0 th (2 * PI + th) (E _ _) (E _ _)).
  assert (B := RInt_Chasles g 0 (2 * PI) (2 * PI + th) (E _ _) (E _ _)).
  rewrite (Rplus_comm (2 * PI) th) in A, B |- *; rewrite Q in B.
  change (RInt g 0 th + RInt g th (th + 2 * PI) = RInt g 0 (th + 2 * PI)) in A.
  change (RInt g 0 (2 * PI) + RInt g 0 th = RInt g 0 (th + 2 * PI)) in B.
  match goal with |- ?u = ?v => change (@eq R u v) end; lra.
Qed.

Lemma odd_period (g : R -> R) : (forall p, continuous g p) -> (forall p, g (p + PI) = - g p) -> RInt g 0 (2 * PI) = 0.
Proof.
  intros C P.
  assert (E : forall a b, ex_RInt g a b) by (intros a b; apply (ex_RInt_continuous g); auto).
  assert (S : is_RInt (fun p => - g p) 0 PI (RInt g PI (2 * PI))).
  { apply (is_RInt_ext (fun p => scal 1 (g (1 * p + PI)))).
    - intros p _; transitivity (1 * g (1 * p + PI)); [reflexivity|rewrite Rmult_1_l, <- P; f_equal; ring].
    - apply (is_RInt_comp_lin g 1 PI 0 PI); replace (1 * 0 + PI) with PI by ring; replace (1 * PI + PI) with (2 * PI) by ring.
      apply (RInt_correct g); auto. }
  assert (S' : is_RInt (fun p => - g p) 0 PI (opp (RInt g 0 PI))) by (apply (is_RInt_opp g); apply (RInt_correct g); auto).
  assert (U := is_RInt_unique _ _ _ _ S); rewrite (is_RInt_unique _ _ _ _ S') in U.
  rewrite <- (RInt_Chasles g 0 PI (2 * PI)), <- U by auto; unfold plus, opp; cbn.
  match goal with |- ?u = ?v => change (@eq R u v) end; lra.
Qed.

Lemma mean_cosine_shift c x th :
  is_RInt (fun p => cos (c + x * cos (p + th))) 0 (2 * PI) (2 * PI * (mean_cosine x * cos c)).
Proof.
  assert (PP := PI_RGT_0).
  assert (C1 : forall p, continuous (fun p => cos (x * cos p)) p) by (intros p; apply @ex_derive_continuous; auto_derive; auto).
  assert (C2 : forall p, continuous (fun p => sin (x * cos p)) p) by (intros p; apply @ex_derive_continuous; auto_derive; auto).
  assert (K : forall p, cos (p + 2 * PI) = cos p) by (intros p; rewrite cos_plus, cos_2PI, sin_2PI; ring).
  assert (H1 := shifted_period (fun p => cos (x * cos p)) th C1 (fun p => f_equal (fun y => cos (x * y)) (K p))).
  assert (H2 := shifted_period (fun p => sin (x * cos p)) th C2 (fun p => f_equal (fun y => sin (x * y)) (K p))).
  rewrite (odd_period (fun p => sin (x * cos p))) in H2 by
    (auto; intros p; rewrite neg_cos; replace (x * - cos p) with (- (x * cos p)) by ring; apply sin_neg).
  apply (is_RInt_ext (fun p => cos c * cos (x * cos (p + th)) + - sin c * sin (x * cos (p + th)))).
  - intros p _; rewrite (cos_plus c); match goal with |- ?u = ?v => change (@eq R u v) end; ring.
  - replace (2 * PI * (mean_cosine x * cos c)) with (plus (scal (cos c) (RInt (fun p => cos (x * cos p)) 0 (2 * PI))) (scal (- sin c) 0)).
    + apply (is_RInt_plus (fun p => cos c * cos (x * cos (p + th))) (fun p => - sin c * sin (x * cos (p + th)))).
      * apply (is_RInt_scal (fun p => cos (x * cos (p + th)))); exact H1.
      * apply (is_RInt_scal (fun p => sin (x * cos (p + th)))); exact H2.
    + unfold mean_cosine, plus, scal; cbn; unfold mult; cbn.
      match goal with |- ?u = ?v => change (@eq R u v) end; field; lra.
Qed.

Lemma shifted_cosine_mean tones T ts : forall c,
  phase_mean (List.length tones) (fun ps => cos (c + switched_integral (tones_at tones ps) T ts))
    (cos c * product (map (fun p => mean_cosine (fst p * sqrt (filter_function (snd p) T ts))) tones)).
Proof.
  induction tones as [|[a w] tones IH]; intros c.
  - cbn [List.length phase_mean map product].
    rewrite (switched_ext _ (fun t => 0 * cos (0 * t) + 0 * cos (0 * t))) by (intros t; cbn [tones_at]; ring).
    rewrite switched_combine by apply cos_continuous; rewrite Rmult_1_r; f_equal; ring.
  - cbn [List.length phase_mean map product fst snd].
    destruct (angle_of (filter_cos w T ts) (filter_sin w T ts)) as [th [EX EY]].
    fold (filter_function w T ts) in EX, EY; set (s := sqrt (filter_function w T ts)) in *; set (r := product _).
    assert (X : forall p, a * (cos p * filter_cos w T ts - sin p * filter_sin w T ts) = a * s * cos (p + th))
      by (intros p; rewrite EX, EY, cos_plus; ring).
    exists (fun p => cos (c + a * s * cos (p + th)) * r); split.
    + intros p; apply (phase_mean_ext _ (fun ps => cos (c + a * s * cos (p + th) + switched_integral (tones_at tones ps) T ts))); [|apply IH].
      intros ps; rewrite tones_split, X; f_equal; ring.
    + apply (is_RInt_ext (fun p => r * cos (c + a * s * cos (p + th)))); [intros p _; apply Rmult_comm|].
      replace (2 * PI * (cos c * (mean_cosine (a * s) * r))) with (scal r (2 * PI * (mean_cosine (a * s) * cos c))).
      * apply (is_RInt_scal (fun p => cos (c + a * s * cos (p + th)))), mean_cosine_shift.
      * unfold scal; cbn; unfold mult; cbn; match goal with |- ?u = ?v => change (@eq R u v) end; ring.
Qed.

Lemma phase_mean_affine n : forall f m a b, phase_mean n f m -> phase_mean n (fun ps => a + b * f ps) (a + b * m).
Proof.
  induction n as [|n IH]; intros f m a b; cbn [phase_mean]; [intros ->; reflexivity|].
  intros [g [G I]]; exists (fun p => a + b * g p); split; [intros p; apply (IH (fun ps => f (p :: ps))); auto|].
  replace (2 * PI * (a + b * m)) with (plus (scal (2 * PI - 0) a) (scal b (2 * PI * m))).
  - apply (is_RInt_plus (fun _ => a) (fun p => b * g p)); [apply (is_RInt_const 0 (2 * PI) a)|apply (is_RInt_scal g); exact I].
  - unfold plus, scal; cbn; unfold mult; cbn; match goal with |- ?u = ?v => change (@eq R u v) end; ring.
Qed.

Theorem tones_infidelity_mean tones T ts :
  phase_mean (List.length tones) (fun ps => sin (switched_integral (tones_at tones ps) T ts / 2) ^ 2)
    ((1 - product (map (fun p => mean_cosine (fst p * sqrt (filter_function (snd p) T ts))) tones)) / 2).
Proof.
  assert (H := phase_mean_affine _ _ _ (1 / 2) (- (1 / 2)) (shifted_cosine_mean tones T ts 0)).
  rewrite cos_0, Rmult_1_l in H; set (q := product _) in *.
  replace ((1 - q) / 2) with (1 / 2 + - (1 / 2) * q) by field.
  eapply phase_mean_ext; [|exact H]; intros ps; cbv beta; rewrite Rplus_0_l; set (f := switched_integral _ _ _).
  replace f with (2 * (f / 2)) at 1 by field; rewrite cos_2a_sin; field.
Qed.
