(** * Pulse products and the toggling frame *)

From Verif Require Export L_DDS.
From Coq Require Import Lia.
Import ListNotations.
Open Scope string_scope.
Open Scope list_scope.
Open Scope R_scope.

(** ** Single pulses *)

Lemma pulse_planar t r phi : 0 <= r -> pulse_unitary (Event t r phi 0) = qmat (qplanar (r / 2) phi).
Proof.
  intros H; unfold pulse_unitary; cbn [e_rabi e_phi e_det]; rewrite segment_unitary_qmat; f_equal.
  unfold qseg; rewrite sqrt_planar by auto; unfold qplanar; rewrite Rmult_1_r.
  destruct (Req_dec r 0) as [->|Z].
  - replace (0 / 2) with 0 by field; rewrite sin_0, cos_0; f_equal; ring.
  - f_equal; field; auto.
Qed.

Lemma pulse_rotation t r phi : 0 <= r -> pulse_unitary (Event t r phi 0) = rotation r phi.
Proof. intros H; rewrite pulse_planar, rotation_qmat; auto. Qed.

Definition qz (a : R) : quat := Q4 (cos (a / 2)) 0 0 (sin (a / 2)).
Lemma z_rotation_qmat a : z_rotation a = qmat (qz a).
Proof. unfold z_rotation; rewrite bloch_rotation_qmat; f_equal; apply q_eq; simpl; ring. Qed.

Lemma pulse_detuning t phi d : pulse_unitary (Event t 0 phi d) = z_rotation d.
Proof.
  unfold pulse_unitary; cbn [e_rabi e_phi e_det]; rewrite segment_unitary_qmat, z_rotation_qmat; f_equal.
  unfold qseg; rewrite !Rmult_0_l, Rmult_1_r.
  replace (0 ^ 2 + 0 ^ 2 + d ^ 2) with (Rsqr d) by (unfold Rsqr; ring).
  rewrite sqrt_Rsqr_abs; unfold qz.
  destruct (Req_dec d 0) as [->|Z].
  - rewrite Rabs_R0; replace (0 / 2) with 0 by field; rewrite sin_0, cos_0; f_equal; ring.
  - assert (N := Rabs_no_R0 d Z).
    destruct (Rle_dec 0 d).
    + rewrite Rabs_right in * by lra; f_equal; field; auto.
    + rewrite Rabs_left in * by lra.
      replace (- d / 2) with (- (d / 2)) by field; rewrite sin_neg, cos_neg; f_equal; field; auto.
Qed.

Definition qaxis (a : axis) : quat :=
  match a with AX => Q4 0 1 0 0 | AY => Q4 0 0 1 0 | AZ => Q4 0 0 0 1 end.

Lemma pi_pulse_qmat a t : pulse_unitary (pi_pulse (a, t)) = qmat (qaxis a).
Proof.
  assert (P := PI_RGT_0); destruct a; cbn [pi_pulse qaxis].
  - rewrite pulse_planar by lra; unfold qplanar; rewrite cos_PI2, sin_PI2, cos_0, sin_0; f_equal; f_equal; ring.
  - rewrite pulse_planar by lra; unfold qplanar; rewrite cos_PI2, sin_PI2; f_equal; f_equal; ring.
  - rewrite pulse_detuning, z_rotation_qmat; unfold qz; rewrite cos_PI2, sin_PI2; reflexivity.
Qed.

(** ** C41: products of pulses *)

Fixpoint qprod (l : list (axis * R)) : quat :=
  match l with [] => qone | p :: l' => qmul (qprod l') (qaxis (fst p)) end.

Lemma pulse_product_qmat l : pulse_product (map pi_pulse l) = qmat (qprod l).
Proof.
  induction l as [|[a t] l IH]; cbn [map pulse_product qprod fst]; [symmetry; apply qmat_one|].
  rewrite IH, pi_pulse_qmat, <- qmat_mul; reflexivity.
Qed.

Lemma pulse_product_app l1 l2 : pulse_product (l1 ++ l2) = mmul (pulse_product l2) (pulse_product l1).
Proof.
  induction l1 as [|e l1 IH]; simpl; [rewrite mmul_1_r; auto|rewrite IH, mmul_assoc; auto].
Qed.

Definition qscale (k : R) (q : quat) : quat := Q4 (k * qa q) (k * qb q) (k * qc q) (k * qd q).
(** the Pauli quaternion with X part [p] and Z part [q] *)
Definition qbasis (p q : bool) : quat :=
  match p, q with
  | false, false => Q4 1 0 0 0
  | true, false => Q4 0 1 0 0
  | true, true => Q4 0 0 1 0
  | false, true => Q4 0 0 0 1
  end.

Lemma qprod_pauli l : exists s, (s = 1 \/ s = -1) /\
  qprod l = qscale s (qbasis (Nat.odd (count_not AZ l)) (Nat.odd (count_not AX l))).
Proof.
  induction l as [|[a t] l [s [S E]]].
  - exists 1; split; auto; apply q_eq; simpl; ring.
  - unfold count_not in *; cbn [qprod fst filter]; rewrite E; clear E.
    destruct a; cbn [axis_eqb negb fst List.length qaxis];
      rewrite ?Nat.odd_succ, <- ?Nat.negb_odd;
      destruct (Nat.odd (List.length (filter (fun p => negb (axis_eqb (fst p) AZ)) l))),
               (Nat.odd (List.length (filter (fun p => negb (axis_eqb (fst p) AX)) l)));
      cbn [negb qbasis];
      solve [exists s; split; [exact S|unfold qmul, qscale; cbn [qa qb qc qd]; f_equal; ring]
            |exists (- s); split; [destruct S; [right|left]; lra|unfold qmul, qscale; cbn [qa qb qc qd]; f_equal; ring]].
Qed.

Lemma Cmod_unit a b : a * a + b * b = 1 -> Cmod (a, b) = 1.
Proof. intros H; unfold Cmod; simpl; replace (a * (a * 1) + b * (b * 1)) with 1 by lra; apply sqrt_1. Qed.

Lemma even_not_y l : Nat.even (List.length (filter not_y l)) =
  Bool.eqb (Nat.odd (count_not AZ l)) (Nat.odd (count_not AX l)).
Proof.
  unfold count_not; induction l as [|[a t] l IH]; [reflexivity|].
  destruct a; cbn [filter not_y fst axis_eqb negb List.length];
    rewrite ?Nat.odd_succ, ?Nat.even_succ, <- ?Nat.negb_odd, <- ?Nat.negb_even, ?IH;
    rewrite <- ?Nat.negb_odd;
    repeat (match goal with |- context [Nat.odd ?x] => destruct (Nat.odd x) end); try reflexivity;
    cbn in IH; rewrite ?IH; try reflexivity.
  all: rewrite <- Nat.negb_even in *; destruct (Nat.even (List.length (filter not_y l))); cbn in *; congruence.
Qed.

Theorem pre_post_product T l :
  (Nat.even (count_not AX l) = true ->
     phase_equiv (pulse_product (with_pre_post true T l)) mone) /\
  (Nat.even (count_not AX l) = false ->
     phase_equiv (pulse_product (with_pre_post true T l)) pauli_z).
Proof.
  assert (P := PI_RGT_0).
  assert (E : exists s, (s = 1 \/ s = -1) /\ pulse_product (with_pre_post true T l) =
    qmat (qscale s (qbasis false (Nat.odd (count_not AX l))))).
  { cbn [with_pre_post pulse_product]; rewrite pulse_product_app, pulse_product_qmat.
    cbn [pulse_product]; rewrite mmul_1_l, !pulse_planar by lra.
    rewrite <- !qmat_mul.
    destruct (qprod_pauli l) as [s [S ->]].
    unfold closing_angle; rewrite even_not_y.
    assert (C : cos (PI / 2 / 2) * cos (PI / 2 / 2) = 1 / 2 /\ sin (PI / 2 / 2) = cos (PI / 2 / 2)).
    { replace (PI / 2 / 2) with (PI / 4) by field; rewrite sin_PI4, cos_PI4; split; auto.
      assert (S2 := sqrt_sqrt 2 ltac:(lra)); assert (S0 := sqrt_lt_R0 2 ltac:(lra)).
      replace (1 / sqrt 2 * (1 / sqrt 2)) with (1 / (sqrt 2 * sqrt 2)) by (field; lra); rewrite S2; auto. }
    destruct C as [C1 C2]; unfold qplanar; rewrite C2; set (h := cos (PI / 2 / 2)) in *; clearbody h.
    assert (C3 : s * h * h = s / 2) by (rewrite Rmult_assoc, C1; field).
    destruct (Nat.odd (count_not AZ l)), (Nat.odd (count_not AX l)); cbn [Bool.eqb qbasis];
      rewrite ?cos_0, ?sin_0, ?cos_PI, ?sin_PI; (exists s + exists (- s));
      (split; [lra|f_equal; apply q_eq; simpl; lra]). }
  destruct E as [s [S ->]]; rewrite <- Nat.negb_odd.
  split; intros O.
  - destruct (Nat.odd (count_not AX l)); [discriminate|].
    exists (RtoC s); split; [rewrite Cmod_R; destruct S as [-> | ->]; [apply Rabs_R1|rewrite Rabs_left; lra]|].
    unfold mone, mscale, qmat; simpl; apply m_eq; simpl; apply c_eq; simpl; ring.
  - destruct (Nat.odd (count_not AX l)); [|discriminate].
    exists (0, - s); split; [apply Cmod_unit; destruct S as [-> | ->]; ring|].
    apply m_eq; simpl; apply c_eq; simpl; ring.
Qed.

(** ** The toggling frame *)

Lemma qz_add a b : qmul (qz a) (qz b) = qz (a + b).
Proof.
  unfold qz; replace ((a + b) / 2) with (a / 2 + b / 2) by field; rewrite cos_plus, sin_plus.
  apply q_eq; simpl; ring.
Qed.
Lemma qz_0 : qz 0 = qone.
Proof. unfold qz; replace (0 / 2) with 0 by field; rewrite cos_0, sin_0; reflexivity. Qed.
Lemma z_rotation_0 : z_rotation 0 = mone.
Proof. rewrite z_rotation_qmat, qz_0; apply qmat_one. Qed.

(** X and Y pulses invert Z rotations, Z pulses commute with them *)
Lemma toggle a x : qmul (qz x) (qaxis a) = qmul (qaxis a) (qz (match a with AZ => x | _ => - x end)).
Proof.
  unfold qz; destruct a; cbn [qaxis]; rewrite ?(Ropp_div x), ?cos_neg, ?sin_neg; apply q_eq; simpl; ring.
Qed.

Lemma switched_from_sign B s t0 T ts : switched_from B s t0 T ts = s * switched_from B 1 t0 T ts.
Proof.
  revert s t0; induction ts as [|t ts IH]; intros s t0; cbn [switched_from]; [ring|].
  rewrite (IH (- s)), (IH (- (1))); ring.
Qed.

Lemma switched_from_start B s a b T ts :
  switched_from B s a T ts = s * (B b - B a) + switched_from B s b T ts.
Proof. destruct ts; cbn [switched_from]; ring. Qed.

Lemma toggling_from B T l : forall t0,
  evolution_from B t0 T (map pi_pulse l) =
  mmul (pulse_product (map pi_pulse l)) (z_rotation (switched_from B 1 t0 T (flip_times l))).
Proof.
  rewrite pulse_product_qmat.
  induction l as [|[a t] l IH]; intros t0.
  - cbn [map evolution_from flip_times switched_from qprod]; rewrite qmat_one, mmul_1_l, Rmult_1_l; auto.
  - cbn [map evolution_from qprod fst].
    assert (TM : e_time (pi_pulse (a, t)) = t) by (destruct a; auto).
    rewrite TM, IH, pi_pulse_qmat, !z_rotation_qmat, <- !qmat_mul; f_equal.
    rewrite <- !qmul_assoc; f_equal.
    rewrite qmul_assoc, toggle, <- qmul_assoc, qz_add; do 2 f_equal.
    destruct a; cbn [flip_times switched_from].
    + rewrite (switched_from_sign B (- (1))); ring.
    + rewrite (switched_from_sign B (- (1))); ring.
    + rewrite (switched_from_start B 1 t0 t); ring.
Qed.

Theorem toggling B T l :
  dephased_evolution B T (map pi_pulse l) =
  mmul (pulse_product (map pi_pulse l)) (z_rotation (switched B T (flip_times l))).
Proof. apply toggling_from. Qed.

Lemma evolution_from_app B T l1 l2 t0 : 
  evolution_from B t0 T (l1 ++ [l2]) =
  mmul (mmul (z_rotation (B T - B (e_time l2))) (pulse_unitary l2)) (evolution_from B t0 (e_time l2) l1).
Proof.
  revert t0; induction l1 as [|e l1 IH]; intros t0; cbn [app evolution_from].
  - rewrite mmul_assoc; auto.
  - rewrite IH, <- !mmul_assoc; auto.
Qed.

Theorem toggling_pre_post B T pre l :
  dephased_evolution B T (with_pre_post pre T l) =
  if pre then
    mmul (rotation (PI / 2) (closing_angle l))
      (mmul (mmul (pulse_product (map pi_pulse l)) (z_rotation (switched B T (flip_times l))))
            (rotation (PI / 2) 0))
  else mmul (pulse_product (map pi_pulse l)) (z_rotation (switched B T (flip_times l))).
Proof.
  destruct pre; [|apply toggling].
  assert (P := PI_RGT_0).
  unfold dephased_evolution; cbn [with_pre_post evolution_from e_time].
  rewrite evolution_from_app; cbn [e_time].
  replace (B T - B T) with 0 by ring; replace (B 0 - B 0) with 0 by ring.
  rewrite z_rotation_0, mmul_1_l, mmul_1_r, toggling_from, !pulse_rotation by lra.
  rewrite <- !mmul_assoc; reflexivity.
Qed.

Lemma pulse_product_pre_post T pre l :
  pulse_product (with_pre_post pre T l) =
  if pre then mmul (rotation (PI / 2) (closing_angle l))
                (mmul (pulse_product (map pi_pulse l)) (rotation (PI / 2) 0))
  else pulse_product (map pi_pulse l).
Proof.
  destruct pre; [|reflexivity]; assert (P := PI_RGT_0).
  cbn [with_pre_post pulse_product]; rewrite pulse_product_app; cbn [pulse_product].
  rewrite mmul_1_l, !pulse_rotation, <- !mmul_assoc by lra; reflexivity.
Qed.

Lemma no_effect B T pre l :
  switched B T (flip_times l) = 0 ->
  dephased_evolution B T (with_pre_post pre T l) = pulse_product (with_pre_post pre T l).
Proof.
  intros E; rewrite toggling_pre_post, pulse_product_pre_post, E, z_rotation_0, mmul_1_r; destruct pre; auto.
Qed.

(** a non-zero accumulated angle is visible *)
Lemma qmat_unit_cancel_l u x y : qa u * qa u + qb u * qb u + qc u * qc u + qd u * qd u = 1 ->
  mmul (qmat u) x = mmul (qmat u) y -> x = y.
Proof.
  intros N E.
  assert (I : mmul (qmat (Q4 (qa u) (- qb u) (- qc u) (- qd u))) (qmat u) = mone).
  { rewrite <- qmat_mul, <- qmat_one; f_equal; apply q_eq; simpl; lra. }
  rewrite <- (mmul_1_l x), <- (mmul_1_l y), <- I, <- !mmul_assoc, E; auto.
Qed.
Lemma qmat_unit_cancel_r u x y : qa u * qa u + qb u * qb u + qc u * qc u + qd u * qd u = 1 ->
  mmul x (qmat u) = mmul y (qmat u) -> x = y.
Proof.
  intros N E.
  assert (I : mmul (qmat u) (qmat (Q4 (qa u) (- qb u) (- qc u) (- qd u))) = mone).
  { rewrite <- qmat_mul, <- qmat_one; f_equal; apply q_eq; simpl; lra. }
  rewrite <- (mmul_1_r x), <- (mmul_1_r y), <- I, !mmul_assoc, E; auto.
Qed.

Lemma qplanar_unit h phi :
  let u := qplanar h phi in qa u * qa u + qb u * qb u + qc u * qc u + qd u * qd u = 1.
Proof.
  simpl; assert (A := sin2_cos2 h); assert (B := sin2_cos2 phi); unfold Rsqr in *.
  replace (cos h * cos h + sin h * cos phi * (sin h * cos phi) + sin h * sin phi * (sin h * sin phi) + 0 * 0)
    with (cos h * cos h + sin h * sin h * (sin phi * sin phi + cos phi * cos phi)) by ring.
  rewrite B; lra.
Qed.
Lemma qprod_unit l : let u := qprod l in qa u * qa u + qb u * qb u + qc u * qc u + qd u * qd u = 1.
Proof.
  cbv zeta; destruct (qprod_pauli l) as [s [S ->]].
  assert (s * s = 1) by (destruct S as [-> | ->]; ring).
  destruct (Nat.odd (count_not AZ l)), (Nat.odd (count_not AX l)); simpl; lra.
Qed.

Lemma has_effect B T pre l :
  switched B T (flip_times l) = PI ->
  ~ phase_equiv (dephased_evolution B T (with_pre_post pre T l)) (pulse_product (with_pre_post pre T l)).
Proof.
  intros E [z [Z H]]; rewrite toggling_pre_post, pulse_product_pre_post, E in H.
  assert (X : mmul (pulse_product (map pi_pulse l)) (z_rotation PI) = mscale z (pulse_product (map pi_pulse l))).
  { destruct pre; [|exact H].
    cbv iota in H; rewrite <- mscale_mmul_r, <- mscale_mmul_l in H; rewrite !rotation_qmat in H.
    apply qmat_unit_cancel_l in H; [|apply qplanar_unit].
    apply qmat_unit_cancel_r in H; [exact H|apply qplanar_unit]. }
  rewrite pulse_product_qmat in X.
  replace (mscale z (qmat (qprod l))) with (mmul (qmat (qprod l)) (mscale z mone)) in X
    by (rewrite mscale_mmul_r, mmul_1_r; auto).
  apply qmat_unit_cancel_l in X; [|apply qprod_unit].
  rewrite z_rotation_qmat in X; unfold qz in X; rewrite cos_PI2, sin_PI2 in X.
  assert (A := f_equal (fun m => snd (m00 m)) X); assert (C := f_equal (fun m => snd (m11 m)) X).
  destruct z; simpl in *; lra.
Qed.

Lemma switched_linear k T ts : switched (fun t => k * t) T ts = k * switched (fun t => t) T ts.
Proof.
  unfold switched; generalize 1 0; induction ts as [|t ts IH]; intros s t0; cbn [switched_from]; [ring|].
  rewrite IH; ring.
Qed.

Lemma map_inj {A B} (f : A -> B) l1 l2 : (forall x y, f x = f y -> x = y) -> map f l1 = map f l2 -> l1 = l2.
Proof.
  intros H; revert l2; induction l1; intros [|b l2]; simpl; intros E; try discriminate; auto.
  injection E as E1 E2; f_equal; auto.
Qed.

Lemma sequence_of_inj T name l T' name' l' : sequence_of T name l = sequence_of T' name' l' -> l = l'.
Proof.
  unfold sequence_of; intros E; injection E as _ A B C D _; clear T T' name name'.
  revert l' A B C D; induction l as [|e l IH]; intros [|e' l'] A B C D; try discriminate; auto.
  cbn in *; injection A as A1 A; injection B as B1 B; injection C as C1 C; injection D as D1 D.
  f_equal; auto; destruct e, e'; cbn in *; congruence.
Qed.

Lemma refocuses_intro T name pre l :
  switched (fun t => t) T (flip_times l) = 0 -> refocuses (sequence_of T name (with_pre_post pre T l)).
Proof.
  intros E l' H delta; cbn [sequence_of seq_duration seq_name] in *.
  apply sequence_of_inj in H; subst l'; apply no_effect; rewrite switched_linear, E; ring.
Qed.

Lemma dephases_intro T name pre l :
  switched (fun t => t) T (flip_times l) <> 0 -> dephases (sequence_of T name (with_pre_post pre T l)).
Proof.
  intros E l' H; cbn [sequence_of seq_duration seq_name] in *.
  apply sequence_of_inj in H; subst l'; exists (PI / switched (fun t => t) T (flip_times l)).
  apply has_effect; rewrite switched_linear; field; auto.
Qed.

(** ** Sums *)

Lemma flip_times_uniform (a : axis) ts : a <> AZ -> flip_times (map (fun t => (a, t)) ts) = ts.
Proof. intros H; induction ts; simpl; auto; destruct a; try congruence; rewrite IHts; auto. Qed.

Fixpoint alternating (n : nat) (f : nat -> R) : R :=
  match n with O => 0 | S m => alternating m f + (-1) ^ m * f m end.

Lemma alternating_ext n f g : (forall i, (i < n)%nat -> f i = g i) -> alternating n f = alternating n g.
Proof. induction n; simpl; intros H; auto; rewrite IHn, (H n); auto. Qed.
Lemma alternating_plus n f g : alternating n (fun i => f i + g i) = alternating n f + alternating n g.
Proof. induction n; simpl; [ring|rewrite IHn; ring]. Qed.
Lemma alternating_scale n k f : alternating n (fun i => k * f i) = k * alternating n f.
Proof. induction n; simpl; [ring|rewrite IHn; ring]. Qed.
Lemma alternating_const n k : alternating n (fun _ => k) = k * (1 - (-1) ^ n) / 2.
Proof. induction n; simpl; [field|rewrite IHn; field]. Qed.
Lemma alternating_shift n f : alternating (S n) f = f O - alternating n (fun i => f (S i)).
Proof. induction n; [simpl; ring|]. cbn [alternating] in *; rewrite IHn; simpl; ring. Qed.

Lemma switched_from_seq B tau T n : forall s a,
  switched_from B s (tau a) T (map tau (seq (S a) n)) =
  s * (alternating n (fun j => B (tau (S (a + j))) - B (tau (a + j)%nat)) + (-1) ^ n * (B T - B (tau (a + n)%nat))).
Proof.
  induction n; intros s a; cbn [seq map switched_from].
  - simpl; rewrite Nat.add_0_r; ring.
  - rewrite IHn, alternating_shift.
    replace (alternating n (fun i => B (tau (S (a + S i))) - B (tau (a + S i)%nat)))
      with (alternating n (fun j => B (tau (S (S a + j))) - B (tau (S a + j)%nat)))
      by (apply alternating_ext; intros; do 2 f_equal; f_equal; lia).
    rewrite Nat.add_0_r; replace (a + S n)%nat with (S a + n)%nat by lia; simpl; ring.
Qed.

Lemma switched_seq B tau T n :
  tau O = 0 -> tau (n + 1)%nat = T ->
  switched B T (map tau (seq 1 n)) = alternating (S n) (fun j => B (tau (S j)) - B (tau j)).
Proof.
  intros H0 H1; unfold switched; rewrite <- H0, switched_from_seq; cbn [alternating].
  rewrite <- H1, Nat.add_1_r; cbn [Nat.add]; ring.
Qed.

(** ** [_add_pre_post_rotations] on arbitrary arrays *)

Definition arrays_events (l : list event) : arrays :=
  MkArrays (map e_time l) (map e_rabi l) (map e_phi l) (map e_det l).

Lemma isclose_both a b x : np_isclose x a = true -> np_isclose x b = true ->
  Rabs (a - b) <= 2 / 100000000 + (Rabs a + Rabs b) / 100000.
Proof.
  unfold np_isclose; intros A B; apply leb_true in A; apply leb_true in B.
  assert (T := Rabs_triang (a - x) (x - b)); replace (a - x + (x - b)) with (a - b) in T by ring.
  rewrite (Rabs_minus_sym a x) in T; lra.
Qed.
Lemma isclose_excl a b x : 0 <= a <= 4 -> 0 <= b <= 4 -> 1 < Rabs (a - b) ->
  np_isclose x a && np_isclose x b = false.
Proof.
  intros A B D; destruct (np_isclose x a) eqn:E1, (np_isclose x b) eqn:E2; auto.
  generalize (isclose_both a b x E1 E2); rewrite (Rabs_pos_eq a), (Rabs_pos_eq b) by lra; lra.
Qed.

Lemma isclose_near x a : np_isclose x a = true <-> near x a.
Proof.
  unfold np_isclose, np_isclose_tol, near; rewrite leb_true.
  replace (10 ^ 8) with 100000000 by (simpl; ring); replace (10 ^ 5) with 100000 by (simpl; ring); tauto.
Qed.

Lemma pre_post_count l :
  let n := (count_pulses PI 0 0 (arrays_events l) + count_pulses PI (PI / 2) 0 (arrays_events l) +
            count_pulses 0 0 PI (arrays_events l))%nat in
  (n <= List.length l)%nat /\ (n = List.length l <-> Forall near_pi_pulse l).
Proof.
  assert (P := PI_bounds).
  cbv zeta; unfold count_pulses, arrays_events; cbn [a_rabi a_azimuthal a_detuning].
  induction l as [|e l [IH1 IH2]]; [cbn; split; [lia|split; auto]|].
  cbn [map combine filter].
  assert (X1 : np_isclose (e_phi e) 0 && np_isclose (e_phi e) (PI / 2) = false).
  { apply isclose_excl; try lra; rewrite Rabs_left; lra. }
  assert (X2 : np_isclose (e_rabi e) 0 && np_isclose (e_rabi e) PI = false).
  { apply isclose_excl; try lra; rewrite Rabs_left; lra. }
  assert (N : near_pi_pulse e <->
    (np_isclose (e_rabi e) PI && np_isclose (e_phi e) 0 && np_isclose (e_det e) 0 = true \/
     np_isclose (e_rabi e) PI && np_isclose (e_phi e) (PI / 2) && np_isclose (e_det e) 0 = true \/
     np_isclose (e_rabi e) 0 && np_isclose (e_phi e) 0 && np_isclose (e_det e) PI = true)).
  { rewrite !andb_true_iff; split.
    - intros [[] H]; cbn in H; rewrite <- !isclose_near in H; tauto.
    - intros [H|[H|H]]; [exists AX|exists AY|exists AZ]; cbn; rewrite <- !isclose_near; tauto. }
  rewrite Forall_cons_iff, N, <- IH2; clear N.
  destruct (np_isclose (e_rabi e) PI), (np_isclose (e_rabi e) 0), (np_isclose (e_phi e) 0),
    (np_isclose (e_phi e) (PI / 2)), (np_isclose (e_det e) 0), (np_isclose (e_det e) PI);
    cbn [andb List.length] in *; try discriminate; split; try lia;
    (split; [intros; split; [auto|lia]|intros [? ?]; lia]) ||
    (split; [intros; lia|intros [[?|[?|?]] ?]; discriminate]).
Qed.

Theorem pre_post_acceptance T l :
  let a := MkArrays (map e_time l) (map e_rabi l) (map e_phi l) (map e_det l) in
  (Forall near_pi_pulse l ->
     exists phi, (phi = 0 \/ phi = PI) /\
       let e := Event 0 (PI / 2) 0 0 :: l ++ [Event T (PI / 2) phi 0] in
       add_pre_post_rotations T a = Ok (MkArrays (map e_time e) (map e_rabi e) (map e_phi e) (map e_det e))) /\
  (~ Forall near_pi_pulse l -> argument_error (add_pre_post_rotations T a)).
Proof.
  cbv zeta; fold (arrays_events l); destruct (pre_post_count l) as [_ C]; cbv zeta in C.
  unfold add_pre_post_rotations; cbv zeta; split; intros F.
  - apply C in F; rewrite check_true by (apply Nat.eqb_eq; rewrite F; cbn; rewrite map_length; auto).
    cbn [bind].
    match goal with |- context [if ?b then PI else 0] => destruct b end;
      [exists PI|exists 0]; split; auto; cbn [map]; rewrite !map_app; reflexivity.
  - rewrite check_false; [do 3 eexists; reflexivity|].
    apply Nat.eqb_neq; intros E; apply F, C; rewrite <- E; cbn; rewrite map_length; auto.
Qed.

(** exact pi pulses: the closing angle and the result *)
Theorem pre_post_exact T l :
  let e := map pi_pulse l in
  add_pre_post_rotations T (MkArrays (map e_time e) (map e_rabi e) (map e_phi e) (map e_det e)) =
  (let e := with_pre_post true T l in
   Ok (MkArrays (map e_time e) (map e_rabi e) (map e_phi e) (map e_det e))).
Proof. apply add_pre_post_arrays. Qed.
