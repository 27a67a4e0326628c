(** * Fidelity of the final state *)

From Verif Require Import L_Composite L_Symmetry L_DriveExists L_Drift.
From Verif Require Import L_DriveControl L_RemainderControl L_Remainder Spec_Remainder Spec_Drive Spec_Response Spec_Fidelity.
From Verif Require Import L_FirstOrderFamilies L_FinitePulse L_PreConvert L_Requests L_FirstOrder L_Response L_ResponseThms.
From Verif Require Import L_VectorNoise L_VectorControl Spec_VectorControl L_Noise L_NoiseOrders Spec_Noise.
From Coq Require Import Lia.
Import ListNotations.
Set Bullet Behavior "Strict Subproofs".
Open Scope list_scope.
Open Scope R_scope.

(** ** Quaternions *)

Definition relative (u v : quat) : quat := qmul (qconj u) v.

Lemma relative_unit u v : unit_quat u -> unit_quat v -> unit_quat (relative u v).
Proof. intros A B; apply unit_mul; auto; apply qconj_unit; auto. Qed.

Lemma overlap u v (a1 a2 b1 b2 : R) : let r := relative u v in
  inner (state_after (qmat u) ((a1, a2), (b1, b2))) (state_after (qmat v) ((a1, a2), (b1, b2))) =
  (qa r * (a1 ^ 2 + a2 ^ 2 + b1 ^ 2 + b2 ^ 2),
   - (qb r * (2 * (a1 * b1 + a2 * b2)) + qc r * (2 * (a1 * b2 - a2 * b1)) + qd r * (a1 ^ 2 + a2 ^ 2 - b1 ^ 2 - b2 ^ 2))).
Proof.
  destruct u as [ua ub uc ud], v as [va vb vc vd]; unfold relative; apply c_eq; simpl; ring.
Qed.

Lemma norm_one (a1 a2 b1 b2 : R) : normalised ((a1, a2), (b1, b2)) <-> a1 ^ 2 + a2 ^ 2 + b1 ^ 2 + b2 ^ 2 = 1.
Proof.
  unfold normalised, inner; cbn [fst snd]; split.
  - intros H; apply (f_equal fst) in H; simpl in H; lra.
  - intros H; apply c_eq; simpl; lra.
Qed.

Lemma modulus2 (z : Complex.C) : Cmod z ^ 2 = fst z ^ 2 + snd z ^ 2.
Proof.
  unfold Cmod; cbn [pow]; rewrite !Rmult_1_r; apply sqrt_sqrt; apply Rplus_le_le_0_compat; apply Rle_0_sqr.
Qed.

Lemma infidelity_quat u v (a1 a2 b1 b2 : R) : normalised ((a1, a2), (b1, b2)) -> let r := relative u v in
  infidelity (qmat u) (qmat v) ((a1, a2), (b1, b2)) =
  1 - qa r ^ 2 - (qb r * (2 * (a1 * b1 + a2 * b2)) + qc r * (2 * (a1 * b2 - a2 * b1)) + qd r * (a1 ^ 2 + a2 ^ 2 - b1 ^ 2 - b2 ^ 2)) ^ 2.
Proof.
  intros N r; apply norm_one in N; unfold infidelity; rewrite modulus2, overlap; fold r; cbn [fst snd]; rewrite N; ring.
Qed.

Lemma root_half : (/ sqrt 2) ^ 2 = / 2.
Proof.
  assert (S : sqrt 2 * sqrt 2 = 2) by (apply sqrt_sqrt; lra); assert (P : 0 < sqrt 2) by (apply sqrt_lt_R0; lra).
  rewrite <- S at 2; field; lra.
Qed.

Lemma direction (x y : R) : exists p q, p ^ 2 + q ^ 2 = 1 /\ x * p + y * q = 0.
Proof.
  destruct (Req_dec (x ^ 2 + y ^ 2) 0) as [Z|Z].
  - exists 1, 0; split; [ring|]; assert (x ^ 2 = 0) by nra; assert (x = 0) by nra; subst; ring.
  - assert (P : 0 < x ^ 2 + y ^ 2) by (assert (A := pow2_ge_0 x); assert (B := pow2_ge_0 y); lra).
    assert (S := sqrt_lt_R0 _ P); assert (SS : sqrt (x ^ 2 + y ^ 2) ^ 2 = x ^ 2 + y ^ 2) by (apply pow2_sqrt; lra).
    set (s := sqrt (x ^ 2 + y ^ 2)) in *; exists (y / s), (- x / s); split; [|field; lra].
    replace ((y / s) ^ 2 + (- x / s) ^ 2) with ((x ^ 2 + y ^ 2) / s ^ 2) by (field; lra); rewrite SS; field; lra.
Qed.

Theorem worst_quat u v : worst_infidelity (qmat u) (qmat v) (1 - qa (relative u v) ^ 2).
Proof.
  split.
  - intros [[a1 a2] [b1 b2]] N; rewrite infidelity_quat by auto.
    match goal with |- _ - ?z ^ 2 <= _ => assert (P := pow2_ge_0 z); lra end.
  - destruct (direction (qb (relative u v)) (qc (relative u v))) as [p [q [N Z]]].
    assert (H := root_half); set (h := / sqrt 2) in *.
    assert (K : normalised ((h, 0), (h * p, h * q))).
    { apply norm_one; replace (h ^ 2 + 0 ^ 2 + (h * p) ^ 2 + (h * q) ^ 2) with (h ^ 2 * (1 + (p ^ 2 + q ^ 2))) by ring; rewrite H, N; field. }
    exists ((h, 0), (h * p, h * q)); split; [exact K|]; rewrite infidelity_quat by exact K; set (r := relative u v) in *.
    match goal with |- _ - ?z ^ 2 = _ => replace z with 0; [ring|] end.
    replace (qb r * (2 * (h * (h * p) + 0 * (h * q))) + qc r * (2 * (h * (h * q) - 0 * (h * p))) + qd r * (h ^ 2 + 0 ^ 2 - (h * p) ^ 2 - (h * q) ^ 2))
      with (2 * h ^ 2 * (qb r * p + qc r * q) + qd r * h ^ 2 * (1 - (p ^ 2 + q ^ 2))) by ring; rewrite N, Z; ring.
Qed.

Theorem average_quat u v : unit_quat u -> unit_quat v ->
  average_infidelity (qmat u) (qmat v) = 2 / 3 * (1 - qa (relative u v) ^ 2).
Proof.
  intros U V; assert (R := relative_unit u v U V); unfold unit_quat, qnorm2 in R.
  assert (H := root_half); unfold average_infidelity, axis_states; set (h := / sqrt 2) in *; cbn [map total].
  rewrite !infidelity_quat by (apply norm_one; nra); set (r := relative u v) in *; clearbody r h.
  assert (H4 : h ^ 4 = / 4) by (replace (h ^ 4) with (h ^ 2 * h ^ 2) by ring; rewrite H; field).
  match goal with |- ?X = _ => replace X with
    ((6 * (1 - qa r ^ 2) - 2 * qd r ^ 2 - 8 * (qb r ^ 2 + qc r ^ 2) * h ^ 4) / 6) by field end.
  rewrite H4; replace (qa r ^ 2) with (1 - qb r ^ 2 - qc r ^ 2 - qd r ^ 2) by lra; field.
Qed.

Lemma relative_square u v : unit_quat u -> unit_quat v ->
  1 - qa (relative u v) ^ 2 = qb (relative u v) ^ 2 + qc (relative u v) ^ 2 + qd (relative u v) ^ 2.
Proof. intros U V; assert (R := relative_unit u v U V); unfold unit_quat, qnorm2 in R; rewrite <- R; ring. Qed.

Lemma relative_distance u v : unit_quat u -> unit_quat v -> 1 - qa (relative u v) ^ 2 <= qnorm2 (qsub v u).
Proof.
  intros U V; assert (A : qnorm2 (qsub v u) = 2 - 2 * qa (relative u v)).
  { unfold unit_quat, qnorm2 in *; transitivity ((qa v * qa v + qb v * qb v + qc v * qc v + qd v * qd v) +
      (qa u * qa u + qb u * qb u + qc u * qc u + qd u * qd u) - 2 * qa (relative u v)); [|lra].
    unfold relative, qsub, qconj; cbn [qmul qa qb qc qd]; ring. }
  rewrite A; assert (P := pow2_ge_0 (1 - qa (relative u v))); nra.
Qed.

Lemma relative_near K u v : unit_quat u -> unit_quat v -> qnear K v u -> 1 - qa (relative u v) ^ 2 <= K ^ 2.
Proof. intros U V [_ N]; eapply Rle_trans; [apply relative_distance; auto|exact N]. Qed.

Lemma relative_close e u v : unit_quat u -> unit_quat v -> close_to e (qmat v) (qmat u) -> 1 - qa (relative u v) ^ 2 <= (2 * e) ^ 2.
Proof.
  intros U V C; eapply Rle_trans; [apply relative_distance; auto|].
  apply close_component in C; replace ((2 * e) ^ 2) with (4 * e ^ 2) by ring; exact C.
Qed.

(** ** Controls *)

Lemma evolution_unit l : unit_quat (qevolution 0 0 l).
Proof. induction l as [|g l IH]; cbn [qevolution]; [apply unit_one|apply unit_mul; auto; apply unit_qseg]. Qed.

Lemma control_quat eps beta l : forall t0 V, noisy_control eps beta t0 l V -> exists v, V = qmat v /\ unit_quat v.
Proof.
  induction l as [|g l IH]; intros t0 V N; cbn [noisy_control] in N.
  - subst V; exists qone; split; [symmetry; apply qmat_one|apply unit_one].
  - destruct N as [V1 [V2 [D [N ->]]]]; apply driven_quat in D; destruct D as [q [S ->]].
    destruct (IH _ _ N) as [v2 [-> U2]].
    exists (qmul v2 (q (t0 + g_dur g))); split; [rewrite qmat_mul; auto|apply unit_mul; auto; eapply qsolves_unit; eauto].
Qed.

Theorem infidelities eps beta l t0 V : noisy_control eps beta t0 l V ->
  exists x, worst_infidelity (evolution l) V x /\ average_infidelity (evolution l) V = 2 / 3 * x /\
    forall e, close_to e V (evolution l) -> x <= (2 * e) ^ 2.
Proof.
  intros N; destruct (control_quat _ _ _ _ _ N) as [v [-> U]]; unfold evolution; rewrite noisy_evolution_qmat.
  assert (UE := evolution_unit l); exists (1 - qa (relative (qevolution 0 0 l) v) ^ 2).
  split; [apply worst_quat|split; [apply average_quat; auto|intros e C; apply relative_close; auto]].
Qed.

Lemma worst_unique U V x y : worst_infidelity U V x -> worst_infidelity U V y -> x = y.
Proof. intros [A [j [J Ej]]] [B [k [K Ek]]]; apply Rle_antisym; [rewrite <- Ej; auto|rewrite <- Ek; auto]. Qed.

Lemma control_near_quat eps beta E M l : (forall g, In g l -> 0 <= g_rabi g /\ 0 <= g_dur g) -> forall t0 V,
  bounded_by eps E t0 (t0 + total (map g_dur l)) -> bounded_by beta M t0 (t0 + total (map g_dur l)) ->
  noisy_control eps beta t0 l V ->
  exists v, V = qmat v /\ unit_quat v /\ qnear ((M * total (map g_dur l) + E * turned l) / 2) v (qevolution 0 0 l).
Proof.
  intros P; unfold turned; induction l as [|g l IH]; intros t0 V BE BM N; cbn [noisy_control] in N; cbn [map total qevolution].
  - subst V; exists qone; split; [symmetry; apply qmat_one|split; [apply unit_one|]].
    replace ((M * 0 + E * 0) / 2) with 0 by field; apply qnear_refl.
  - destruct N as [V1 [V2 [D [N ->]]]]; destruct (P g (or_introl eq_refl)) as [R W].
    cbn [map total] in BE, BM; destruct (total_positive l (fun h H => P h (or_intror H))) as [TP _].
    destruct (driven_near eps beta g t0 (g_dur g) V1 E M W R D) as [v1 [-> [U1 N1]]];
      [intros t I; apply BE; lra|intros t I; apply BM; lra|].
    destruct (IH (fun h H => P h (or_intror H)) (t0 + g_dur g) V2) as [v2 [-> [U2 N2]]]; auto;
      [intros t I; apply BE; lra|intros t I; apply BM; lra|].
    exists (qmul v2 v1); split; [rewrite qmat_mul; auto|]; split; [apply unit_mul; auto|].
    eapply qnear_mono; [|apply qnear_mul; [apply evolution_unit|exact U1|exact N2|]].
    + apply Req_le; instantiate (1 := (M * g_dur g + E * (g_rabi g * g_dur g)) / 2); field.
    + unfold qnoisy; rewrite !Rplus_0_r, !Rmult_1_l; auto.
Qed.

Theorem control_infidelity eps beta E M l V x : (forall g, In g l -> 0 <= g_rabi g /\ 0 <= g_dur g) ->
  bounded_by eps E 0 (total (map g_dur l)) -> bounded_by beta M 0 (total (map g_dur l)) ->
  noisy_control eps beta 0 l V -> worst_infidelity (evolution l) V x ->
  x <= ((M * total (map g_dur l) + E * turned l) / 2) ^ 2.
Proof.
  intros P BE BM N X; rewrite <- (Rplus_0_l (total (map g_dur l))) in BE, BM.
  destruct (control_near_quat eps beta E M l P 0 V BE BM N) as [v [-> [U Q]]].
  assert (Y := worst_quat (qevolution 0 0 l) v); unfold evolution in X; rewrite noisy_evolution_qmat in X.
  rewrite (worst_unique _ _ _ _ X Y); apply relative_near; auto; apply evolution_unit.
Qed.

Theorem response_infidelity eps beta E M l V W x : (forall g, In g l -> 0 <= g_rabi g /\ 0 <= g_dur g) ->
  bounded_by eps E 0 (total (map g_dur l)) -> bounded_by beta M 0 (total (map g_dur l)) ->
  noisy_control eps beta 0 l V -> response eps beta 0 l W -> worst_infidelity (evolution l) V x ->
  exists a b c, W = mscale (0, -1) (hamiltonian a b c) /\
    Rabs (sqrt x - sqrt (a ^ 2 + b ^ 2 + c ^ 2) / 2) <= (M * total (map g_dur l) + E * turned l) ^ 2 / 8.
Proof.
  intros P BE BM N RS X; destruct (total_positive l P) as [TP _].
  assert (E0 : 0 <= E) by (assert (H := BE 0); eapply Rle_trans; [apply Rabs_pos|apply H; lra]).
  assert (M0 : 0 <= M) by (assert (H := BM 0); eapply Rle_trans; [apply Rabs_pos|apply H; lra]).
  rewrite <- (Rplus_0_l (total (map g_dur l))) in BE, BM.
  destruct (control_response eps beta E M l P E0 M0 0 V W BE BM N RS) as [v [w [-> [-> [U [Z [NV _]]]]]]].
  set (k := M * total (map g_dur l) + E * turned l) in *; set (u := qevolution 0 0 l) in *.
  assert (UU : unit_quat u) by apply evolution_unit.
  assert (Y := worst_quat u v); unfold evolution in X; rewrite noisy_evolution_qmat in X; fold u in X.
  rewrite (worst_unique _ _ _ _ X Y), relative_square by auto.
  exists (2 * qb w), (2 * qc w), (2 * qd w); split.
  { destruct w as [a b c d]; cbn [qa qb qc qd] in *; subst a; unfold hamiltonian, pauli_vector; m_real; field. }
  assert (NR : qnear (k ^ 2 / 8) (relative u v) (qadd qone w)).
  { replace (k ^ 2 / 8) with ((k / 2) ^ 2 / 2) by field.
    replace (qadd qone w) with (qmul (qconj u) (qadd u (qmul u w))).
    - apply qnear_left; [apply qconj_unit; auto|exact NV].
    - destruct (qconj_inverse u UU) as [_ I]; transitivity (qadd (qmul (qconj u) u) (qmul (qmul (qconj u) u) w));
        [apply q_eq; cbn [qadd qmul qconj qa qb qc qd]; ring|rewrite I, qmul_1_l; auto]. }
  set (r := relative u v) in *; set (p := Q4 0 (qb r) (qc r) (qd r)).
  assert (NP : qnear (k ^ 2 / 8) p w).
  { destruct NR as [K0 NR]; split; auto; eapply Rle_trans; [|exact NR]; unfold qnorm2, qsub, p, qadd, qone; cbn [qa qb qc qd]; rewrite Z.
    assert (S := Rle_0_sqr (qa r - (1 + 0))); unfold Rsqr in S; lra. }
  assert (S : forall q, qa q = 0 -> qnear (sqrt (qb q ^ 2 + qc q ^ 2 + qd q ^ 2)) q qzero).
  { intros q Q; split; [apply sqrt_pos|]; rewrite pow2_sqrt.
    - unfold qnorm2, qsub, qzero; cbn [qa qb qc qd]; rewrite Q; apply Req_le; ring.
    - assert (A := pow2_ge_0 (qb q)); assert (B := pow2_ge_0 (qc q)); assert (C0 := pow2_ge_0 (qd q)); lra. }
  assert (L : forall q e, qa q = 0 -> qnear e q qzero -> sqrt (qb q ^ 2 + qc q ^ 2 + qd q ^ 2) <= e).
  { intros q e Q [E1 E2]; rewrite <- (sqrt_pow2 e E1); apply sqrt_le_1_alt; eapply Rle_trans; [|exact E2].
    unfold qnorm2, qsub, qzero; cbn [qa qb qc qd]; rewrite Q; apply Req_le; ring. }
  replace (sqrt ((2 * qb w) ^ 2 + (2 * qc w) ^ 2 + (2 * qd w) ^ 2) / 2) with (sqrt (qb w ^ 2 + qc w ^ 2 + qd w ^ 2)).
  2: { replace ((2 * qb w) ^ 2 + (2 * qc w) ^ 2 + (2 * qd w) ^ 2) with (2 ^ 2 * (qb w ^ 2 + qc w ^ 2 + qd w ^ 2)) by ring.
       rewrite sqrt_mult_alt, sqrt_pow2 by lra; field. }
  assert (A1 := L p _ eq_refl (qnear_trans _ _ _ _ _ NP (S w Z))).
  assert (A2 := L w _ Z (qnear_trans _ _ _ _ _ (qnear_sym _ _ _ NP) (S p eq_refl))).
  unfold p in A1, A2; cbn [qb qc qd] in A1, A2; apply Rabs_le; lra.
Qed.

Lemma worst_positive eps beta l t0 V x : noisy_control eps beta t0 l V -> worst_infidelity (evolution l) V x -> 0 <= x.
Proof.
  intros N X; destruct (control_quat _ _ _ _ _ N) as [v [-> U]].
  assert (Y := worst_quat (qevolution 0 0 l) v); unfold evolution in X; rewrite noisy_evolution_qmat in X.
  rewrite (worst_unique _ _ _ _ X Y), relative_square by (auto; apply evolution_unit).
  set (r := relative _ v); assert (A := pow2_ge_0 (qb r)); assert (B := pow2_ge_0 (qc r)); assert (C0 := pow2_ge_0 (qd r)); lra.
Qed.

Theorem rotation_infidelities eps beta l t0 V th phi : noisy_control eps beta t0 l V ->
  exists x, worst_infidelity (rotation th phi) V x /\ average_infidelity (rotation th phi) V = 2 / 3 * x /\
    forall e, close_to e V (rotation th phi) -> x <= (2 * e) ^ 2.
Proof.
  intros N; destruct (control_quat _ _ _ _ _ N) as [v [-> U]]; rewrite rotation_qmat.
  assert (UE := unit_planar (th / 2) phi); exists (1 - qa (relative (qplanar (th / 2) phi) v) ^ 2).
  split; [apply worst_quat|split; [apply average_quat; auto|intros e C; apply relative_close; auto]].
Qed.

(** ** Sequences of instantaneous pulses *)

Lemma from_quat B T l : forall t0, exists v, evolution_from B t0 T l = qmat v /\ unit_quat v.
Proof.
  induction l as [|e l IH]; intros t0; cbn [evolution_from].
  - rewrite z_rotation_qmat; eexists; split; [reflexivity|apply unit_qz].
  - destruct (IH (e_time e)) as [v [-> U]]; rewrite pulse_unitary_qmat, z_rotation_qmat, <- !qmat_mul.
    eexists; split; [reflexivity|repeat apply unit_mul; auto; [apply unit_qexp|apply unit_qz]].
Qed.
Lemma product_quat l : exists u, pulse_product l = qmat u /\ unit_quat u.
Proof.
  induction l as [|e l [u [E U]]]; cbn [pulse_product].
  - exists qone; split; [symmetry; apply qmat_one|apply unit_one].
  - rewrite E, pulse_unitary_qmat, <- qmat_mul; eexists; split; [reflexivity|apply unit_mul; auto; apply unit_qexp].
Qed.

Theorem decoupling_infidelity r T pre name n : 0 < T -> valid_request r -> suppressed_order r n ->
  exists s, build_sequence r T pre name = Ok s /\
  forall beta M l V, smooth_detuning beta n M T -> s = sequence_of T name l -> noisy_sequence beta 0 T l V ->
  exists x, worst_infidelity (pulse_product l) V x /\ average_infidelity (pulse_product l) V = 2 / 3 * x /\
    x <= (M * T ^ (n + 1) / INR (fact (n + 1))) ^ 2.
Proof.
  intros HT HV HO; destruct (request_suppression r T pre name n HT HV HO) as [s [E S]]; exists s; split; [exact E|].
  intros beta M l V SM -> N; assert (C := S beta M l V SM eq_refl N).
  apply schroedinger_dephasing in N; [|apply SM]; unfold dephased_evolution in N.
  destruct (from_quat (fun t => RInt beta 0 t) T l 0) as [v [EV UV]]; rewrite EV in N; subst V.
  destruct (product_quat l) as [u [EU UU]]; rewrite EU in *.
  exists (1 - qa (relative u v) ^ 2); split; [apply worst_quat|split; [apply average_quat; auto|]].
  eapply Rle_trans; [apply relative_close; eauto|]; cbn [seq_duration sequence_of]; apply Req_le; f_equal; field; apply INR_fact_neq_0.
Qed.

(** ** The mean over all states *)

Lemma sphere_normalised th ph : normalised (sphere_state th ph).
Proof.
  apply norm_one; assert (A := sin2_cos2 (th / 2)); assert (B := sin2_cos2 ph); unfold Rsqr in A, B.
  replace (cos (th / 2) ^ 2 + 0 ^ 2 + (sin (th / 2) * cos ph) ^ 2 + (sin (th / 2) * sin ph) ^ 2)
    with (cos (th / 2) * cos (th / 2) + sin (th / 2) * sin (th / 2) * (sin ph * sin ph + cos ph * cos ph)) by ring; rewrite B; lra.
Qed.

Lemma integral_of (f F : R -> R) a b v : (forall t, is_derive F t (f t)) -> (forall t, continuous f t) -> F b - F a = v -> is_RInt f a b v.
Proof.
  intros D C <-; apply (is_RInt_derive (V := R_CompleteNormedModule)); intros; auto.
Qed.

Theorem sphere_quat u v : unit_quat u -> unit_quat v ->
  sphere_average (infidelity (qmat u) (qmat v)) (2 / 3 * (1 - qa (relative u v) ^ 2)).
Proof.
  intros U V; assert (Q := relative_square u v U V); set (r := relative u v) in *.
  set (a := qa r) in *; set (b := qb r) in *; set (c := qc r) in *; set (d := qd r) in *.
  exists (fun th => 2 * PI * (1 - a ^ 2) - PI * sin th ^ 2 * (b ^ 2 + c ^ 2) - 2 * PI * d ^ 2 * cos th ^ 2); split.
  - intros th.
    assert (SD : sin th = 2 * sin (th / 2) * cos (th / 2)) by (rewrite <- sin_2a; f_equal; field).
    assert (CD : cos th = cos (th / 2) * cos (th / 2) - sin (th / 2) * sin (th / 2)) by (rewrite <- cos_2a; f_equal; field).
    apply is_RInt_ext with (fun ph => 1 - a ^ 2 - (sin th * (b * cos ph + c * sin ph) + d * cos th) ^ 2).
    { intros ph _; unfold sphere_state; rewrite infidelity_quat by apply sphere_normalised; fold r; fold a b c d; rewrite SD, CD.
      assert (B := sin2_cos2 ph); unfold Rsqr in B; set (sp := sin ph) in *; set (cp := cos ph) in *; set (s := sin (th / 2)); set (k := cos (th / 2)).
      assert (B' : sp * sp = 1 - cp * cp) by lra; match goal with |- ?x = ?y => change (@eq R x y) end; ring [B']. }
    apply integral_of with (F := fun ph => (1 - a ^ 2) * ph - (sin th ^ 2 * (b ^ 2 * (ph / 2 + sin ph * cos ph / 2) + c ^ 2 * (ph / 2 - sin ph * cos ph / 2) + b * c * sin ph ^ 2)
      + 2 * sin th * d * cos th * (b * sin ph - c * cos ph) + d ^ 2 * cos th ^ 2 * ph)).
    + intros t; auto_derive; auto; assert (B := sin2_cos2 t); unfold Rsqr in B; set (sp := sin t) in *; set (cp := cos t) in *.
      assert (B' : sp * sp = 1 - cp * cp) by lra; match goal with |- ?x = ?y => change (@eq R x y) end; field [B'].
    + intros t; apply @ex_derive_continuous; auto_derive; auto.
    + rewrite sin_2PI, cos_2PI, sin_0, cos_0; field.
  - apply integral_of with (F := fun th => - 2 * PI * (1 - a ^ 2) * cos th - PI * (b ^ 2 + c ^ 2) * (- cos th + cos th ^ 3 / 3) + 2 * PI * d ^ 2 * (cos th ^ 3 / 3)).
    + intros t; auto_derive; auto; assert (B := sin2_cos2 t); unfold Rsqr in B; set (sp := sin t) in *; set (cp := cos t) in *.
      assert (B' : sp * sp = 1 - cp * cp) by lra; match goal with |- ?x = ?y => change (@eq R x y) end; field [B'].
    + intros t; apply @ex_derive_continuous; auto_derive; auto.
    + rewrite Q, cos_PI, cos_0; field.
Qed.

Theorem sphere_infidelity eps beta l t0 V : noisy_control eps beta t0 l V ->
  (forall x, worst_infidelity (evolution l) V x -> sphere_average (infidelity (evolution l) V) (2 / 3 * x)) /\
  (forall th phi x, worst_infidelity (rotation th phi) V x -> sphere_average (infidelity (rotation th phi) V) (2 / 3 * x)).
Proof.
  intros N; destruct (control_quat _ _ _ _ _ N) as [v [-> U]]; split.
  - unfold evolution; rewrite noisy_evolution_qmat; intros x X.
    rewrite (worst_unique _ _ _ _ X (worst_quat _ _)); apply sphere_quat; auto; apply evolution_unit.
  - intros th phi; rewrite rotation_qmat; intros x X.
    rewrite (worst_unique _ _ _ _ X (worst_quat _ _)); apply sphere_quat; auto; apply unit_planar.
Qed.

(** ** Every state is on the sphere *)

Lemma polar x y : exists p, x = sqrt (x ^ 2 + y ^ 2) * cos p /\ y = sqrt (x ^ 2 + y ^ 2) * sin p.
Proof.
  assert (X := pow2_ge_0 x); assert (Y := pow2_ge_0 y).
  destruct (Req_dec (x ^ 2 + y ^ 2) 0) as [Z|Z].
  - exists 0; assert (x = 0) by nra; assert (y = 0) by nra; subst; split; rewrite Z, sqrt_0; ring.
  - assert (P : 0 < x ^ 2 + y ^ 2) by lra; assert (R0 := sqrt_lt_R0 _ P).
    assert (RR : sqrt (x ^ 2 + y ^ 2) ^ 2 = x ^ 2 + y ^ 2) by (apply pow2_sqrt; lra).
    set (r := sqrt (x ^ 2 + y ^ 2)) in *; clearbody r.
    assert (I : -1 <= x / r <= 1).
    { assert (XR : - r <= x <= r) by nra; split.
      - apply Rmult_le_reg_r with r; auto; unfold Rdiv; rewrite Rmult_assoc, Rinv_l, Rmult_1_r by lra; lra.
      - apply Rmult_le_reg_r with r; auto; unfold Rdiv; rewrite Rmult_assoc, Rinv_l, Rmult_1_r by lra; lra. }
    assert (C1 : cos (acos (x / r)) = x / r) by (apply cos_acos; auto).
    assert (S1 : sin (acos (x / r)) = Rabs y / r).
    { rewrite sin_acos by auto; replace (1 - (x / r)²) with ((Rabs y / r) ^ 2).
      - apply sqrt_pow2; unfold Rdiv; apply Rmult_le_pos; [apply Rabs_pos|left; apply Rinv_0_lt_compat; auto].
      - unfold Rsqr; replace ((Rabs y / r) ^ 2) with (Rabs y ^ 2 / r ^ 2) by (field; lra); rewrite pow2_abs.
        replace (x / r * (x / r)) with (x ^ 2 / r ^ 2) by (field; lra); rewrite RR; field; lra. }
    destruct (Rle_dec 0 y) as [Y0|Y0].
    + exists (acos (x / r)); rewrite C1, S1, Rabs_right by lra; split; field; lra.
    + exists (- acos (x / r)); rewrite cos_neg, sin_neg, C1, S1, Rabs_left by lra; split; field; lra.
Qed.

Lemma infidelity_phase U V chi k : infidelity U V (with_phase chi k) = infidelity U V k.
Proof.
  unfold infidelity; f_equal; f_equal; f_equal.
  assert (S := sin2_cos2 chi); unfold Rsqr in S; assert (S' : sin chi * sin chi = 1 - cos chi * cos chi) by lra.
  transitivity ((RtoC (cos chi * cos chi + sin chi * sin chi)%R * inner (state_after U k) (state_after V k))%C).
  - unfold inner, state_after, with_phase; cbn [fst snd];
    destruct U as [[u1 u2] [u3 u4] [u5 u6] [u7 u8]], V as [[v1 v2] [v3 v4] [v5 v6] [v7 v8]], k as [[k1 k2] [k3 k4]].
    apply c_eq; simpl; ring.
  - replace (cos chi * cos chi + sin chi * sin chi) with 1 by lra; apply Cmult_1_l.
Qed.

Theorem every_state k : normalised k -> exists chi theta phi, 0 <= theta <= PI /\ k = with_phase chi (sphere_state theta phi).
Proof.
  destruct k as [[a1 a2] [b1 b2]]; intros N; apply norm_one in N.
  destruct (polar a1 a2) as [chi [A1 A2]]; destruct (polar b1 b2) as [psi [B1 B2]].
  assert (PA : 0 <= a1 ^ 2 + a2 ^ 2) by (assert (A := pow2_ge_0 a1); assert (B := pow2_ge_0 a2); lra).
  assert (PB : 0 <= b1 ^ 2 + b2 ^ 2) by (assert (A := pow2_ge_0 b1); assert (B := pow2_ge_0 b2); lra).
  assert (RA := pow2_sqrt _ PA); assert (RB := pow2_sqrt _ PB); assert (QA := sqrt_pos (a1 ^ 2 + a2 ^ 2)); assert (QB := sqrt_pos (b1 ^ 2 + b2 ^ 2)).
  set (p := sqrt (a1 ^ 2 + a2 ^ 2)) in *; set (q := sqrt (b1 ^ 2 + b2 ^ 2)) in *; clearbody p q.
  assert (P1 : p <= 1) by nra; exists chi, (2 * acos p), (psi - chi); split.
  - assert (H := acos_bound p); assert (HP : acos p <= PI / 2); [|lra].
    destruct (Rle_dec (acos p) (PI / 2)) as [L|L]; auto; assert (K := PI_RGT_0).
    assert (C0 := cos_lt_0 (acos p) ltac:(lra) ltac:(lra)); rewrite cos_acos in C0 by lra; lra.
  - unfold with_phase, sphere_state; cbn [fst snd]; replace (2 * acos p / 2) with (acos p) by field.
    rewrite cos_acos, sin_acos by lra; replace (sqrt (1 - p²)) with q.
    2: { replace (1 - p²) with (q ^ 2) by (unfold Rsqr; lra); symmetry; apply sqrt_pow2; auto. }
    assert (S := sin2_cos2 chi); unfold Rsqr in S; assert (S' : sin chi * sin chi = 1 - cos chi * cos chi) by lra.
    assert (C1 : cos psi = cos (psi - chi) * cos chi - sin (psi - chi) * sin chi) by (rewrite <- cos_plus; f_equal; ring).
    assert (C2 : sin psi = sin (psi - chi) * cos chi + cos (psi - chi) * sin chi) by (rewrite <- sin_plus; f_equal; ring).
    rewrite A1, A2, B1, B2, C1, C2 at 1; apply f_equal2; apply c_eq; simpl; ring.
Qed.

(** ** Noise along every direction *)

Lemma vector_quat eps x y z E M l : (forall g, In g l -> 0 <= g_rabi g /\ 0 <= g_dur g) -> 0 <= E -> 0 <= M -> forall t0 V,
  bounded_by eps E t0 (t0 + total (map g_dur l)) -> (forall t, t0 <= t <= t0 + total (map g_dur l) -> x t ^ 2 + y t ^ 2 + z t ^ 2 <= M ^ 2) ->
  vector_control eps x y z t0 l V ->
  exists v, V = qmat v /\ unit_quat v /\ qnear ((M * total (map g_dur l) + E * turned l) / 2) v (qevolution 0 0 l).
Proof.
  intros P E0 M0; unfold turned; induction l as [|g l IH]; intros t0 V BE BM N; cbn [vector_control] in N; cbn [map total qevolution].
  - subst V; exists qone; split; [symmetry; apply qmat_one|split; [apply unit_one|]].
    replace ((M * 0 + E * 0) / 2) with 0 by field; apply qnear_refl.
  - destruct N as [V1 [V2 [D [N ->]]]]; destruct (P g (or_introl eq_refl)) as [R W].
    cbn [map total] in BE, BM; destruct (total_positive l (fun h H => P h (or_intror H))) as [TP _].
    destruct (pushed_near eps x y z g t0 (g_dur g) V1 E M W R E0 M0 D) as [v1 [-> [U1 N1]]];
      [intros t I; apply BE; lra|intros t I; apply BM; lra|].
    destruct (IH (fun h H => P h (or_intror H)) (t0 + g_dur g) V2) as [v2 [-> [U2 N2]]]; auto;
      [intros t I; apply BE; lra|intros t I; apply BM; lra|].
    exists (qmul v2 v1); split; [rewrite qmat_mul; auto|]; split; [apply unit_mul; auto|].
    eapply qnear_mono; [|apply qnear_mul; [apply evolution_unit|exact U1|exact N2|]].
    + apply Req_le; instantiate (1 := (M * g_dur g + E * (g_rabi g * g_dur g)) / 2); field.
    + unfold qnoisy; rewrite !Rplus_0_r, !Rmult_1_l; auto.
Qed.

Theorem vector_infidelity eps x y z E M l V : (forall g, In g l -> 0 <= g_rabi g /\ 0 <= g_dur g) -> 0 <= E -> 0 <= M ->
  bounded_by eps E 0 (total (map g_dur l)) -> strength_below x y z M (total (map g_dur l)) -> vector_control eps x y z 0 l V ->
  exists m, worst_infidelity (evolution l) V m /\ sphere_average (infidelity (evolution l) V) (2 / 3 * m) /\
    m <= ((M * total (map g_dur l) + E * turned l) / 2) ^ 2.
Proof.
  intros P E0 M0 BE BM N.
  destruct (vector_quat eps x y z E M l P E0 M0 0 V) as [v [-> [U Q]]]; auto; try (rewrite Rplus_0_l; auto).
  unfold evolution; rewrite noisy_evolution_qmat; assert (UE := evolution_unit l); exists (1 - qa (relative (qevolution 0 0 l) v) ^ 2).
  split; [apply worst_quat|split; [apply sphere_quat; auto|apply relative_near; auto]].
Qed.

Lemma pushed_control eps x y z l : forall t0 V, vector_control eps x y z t0 l V -> exists v, V = qmat v /\ unit_quat v.
Proof.
  induction l as [|g l IH]; intros t0 V N; cbn [vector_control] in N.
  - subst V; exists qone; split; [symmetry; apply qmat_one|apply unit_one].
  - destruct N as [V1 [V2 [D [N ->]]]]; apply pushed_quat in D; destruct D as [q [S ->]].
    destruct (IH _ _ N) as [v2 [-> U2]].
    exists (qmul v2 (q (t0 + g_dur g))); split; [rewrite qmat_mul; auto|apply unit_mul; auto; eapply qsolves_unit; eauto].
Qed.

Theorem product_infidelity eps x y z l V ps b : vector_control eps x y z 0 l V -> close_to b V (pulse_product ps) ->
  exists m, worst_infidelity (pulse_product ps) V m /\ sphere_average (infidelity (pulse_product ps) V) (2 / 3 * m) /\ m <= (2 * b) ^ 2.
Proof.
  intros N C; destruct (pushed_control _ _ _ _ _ _ _ N) as [v [-> U]]; destruct (product_quat ps) as [u [EU UU]]; rewrite EU in *.
  exists (1 - qa (relative u v) ^ 2); split; [apply worst_quat|split; [apply sphere_quat; auto|apply relative_close; auto]].
Qed.
