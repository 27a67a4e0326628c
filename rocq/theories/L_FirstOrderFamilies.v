(** * First-order sensitivity of the predefined sequences with finite pulses *)

From Coq Require Import Lia.
From Verif Require Import L_FirstOrder L_NoiseExact L_PreConvert.
Import ListNotations.
Set Bullet Behavior "Strict Subproofs".
Open Scope string_scope.
Open Scope list_scope.
Open Scope R_scope.

Lemma trunc_same x n m : truncates_to x n -> truncates_to x m -> n = m.
Proof.
  unfold truncates_to; intros [A B] [C D].
  assert (X : INR n < INR (S m)) by (rewrite S_INR; lra); assert (Y : INR m < INR (S n)) by (rewrite S_INR; lra).
  apply INR_lt in X; apply INR_lt in Y; lia.
Qed.

Lemma even_trunc x n (P : nat -> Prop) : truncates_to x n -> (exists m, truncates_to x m /\ P m) <-> P n.
Proof. intros H; split; [intros [m [M Q]]; rewrite (trunc_same x n m); auto|intros Q; exists n; auto]. Qed.

(** ** Signed counts *)

Lemma count_same a flips ts : flips a = true ->
  signed_count a flips (map (pair a) ts) = if Nat.even (List.length ts) then 0 else 1.
Proof.
  intros F; induction ts as [|t ts IH]; [reflexivity|].
  cbn [map signed_count List.length]; rewrite IH, F, Nat.even_succ, <- Nat.negb_even.
  destruct (Nat.even (List.length ts)), a; cbn; lra.
Qed.
Lemma count_other a b flips ts : a <> b -> signed_count b flips (map (pair a) ts) = 0.
Proof.
  intros N; induction ts as [|t ts IH]; [reflexivity|].
  cbn [map signed_count]; rewrite IH; destruct a, b; try congruence; cbn; ring.
Qed.
Lemma count_all a flips ts : flips a = false -> signed_count a flips (map (pair a) ts) = INR (List.length ts).
Proof.
  intros F; induction ts as [|t ts IH]; [reflexivity|].
  cbn [map signed_count List.length]; rewrite IH, F, S_INR; destruct a; cbn; ring.
Qed.

Lemma count_app a flips l1 l2 :
  signed_count a flips (l1 ++ l2) = signed_count a flips l1 +
    (-1) ^ List.length (filter (fun p => flips (fst p)) l1) * signed_count a flips l2.
Proof.
  induction l1 as [|[b t] l1 IH]; cbn [app signed_count filter fst List.length]; [cbn; ring|].
  rewrite IH; destruct (flips b); cbn [List.length pow]; ring.
Qed.

Lemma centred_interior maxr maxd mn T ps : (forall p, In p ps -> 0 < snd p < T) -> centred maxr maxd mn T ps = ps.
Proof.
  intros H; unfold centred; rewrite <- (map_id ps) at 2; apply map_ext_in; intros [a t] I.
  specialize (H _ I); cbn [fst snd] in *; unfold centre.
  destruct (Req_EM_T t 0); [lra|]; destruct (Req_EM_T t T); [lra|]; auto.
Qed.

(** ** Parities *)

Lemma pow_m1_even n : (-1) ^ n = if Nat.even n then 1 else -1.
Proof.
  induction n; [reflexivity|]; rewrite Nat.even_succ, <- Nat.negb_even; cbn [pow]; rewrite IHn; destruct (Nat.even n); cbn; ring.
Qed.

Lemma changes_parity w tau : (forall i, w i = 1 \/ w i = -1) -> forall n a,
  (-1) ^ List.length (change_times w tau a n) * w a = w (a + n)%nat.
Proof.
  intros H; induction n as [|n IH]; intros a; [cbn; rewrite Nat.add_0_r; ring|].
  replace (a + S n)%nat with (S a + n)%nat by lia; rewrite <- (IH (S a)); unfold change_times; cbn [seq filter].
  unfold neqb at 1, eqb at 1; destruct (Req_EM_T (w a) (w (S a))) as [Q|Q]; cbn [negb map List.length pow].
  - rewrite Q; reflexivity.
  - destruct (H a) as [A|A], (H (S a)) as [B|B]; rewrite A, B in *; try congruence; ring.
Qed.

Lemma dyadic_end bits : dyadic bits (2 ^ List.length bits - 1) = (-1) ^ List.length (filter (fun b => b) bits).
Proof.
  induction bits as [|b bits IH]; [reflexivity|].
  assert (P := pow2_pos (List.length bits)).
  replace (2 ^ List.length (b :: bits) - 1)%nat with (2 ^ List.length bits - 1 + 2 ^ List.length bits)%nat
    by (cbn [List.length Nat.pow]; lia).
  rewrite dyadic_second by lia; rewrite IH; destruct b; cbn [filter List.length pow]; ring.
Qed.

Lemma walsh_parity T k : Nat.even (List.length (walsh_times T k)) = Nat.even (ones k).
Proof.
  assert (P := changes_parity (dyadic (binary_digits k)) (fun i => T * INR i / INR (samples_count k))
    (dyadic_cases _) (samples_count k - 1) 0).
  fold (walsh_times T k) in P; rewrite dyadic_0, Nat.add_0_l in P.
  unfold samples_count in P at 1; rewrite <- (binary_digits_length k), dyadic_end in P; fold (ones k) in P.
  rewrite !pow_m1_even in P; destruct (Nat.even _), (Nat.even _); auto; lra.
Qed.
Lemma x_parity T l : Nat.even (List.length (x_times T l)) = Nat.even l.
Proof.
  assert (P := changes_parity (dyadic (repeat true l)) (fun i => T * INR i / INR (2 ^ l))
    (dyadic_cases _) (2 ^ l - 1) 0).
  fold (x_times T l) in P; rewrite dyadic_0, Nat.add_0_l, dyadic_ones_last in P.
  rewrite !pow_m1_even in P; destruct (Nat.even _), (Nat.even _); auto; lra.
Qed.

(** ** Quadratic sequences *)

Section Quadratic.
  Variables (T : R) (n1 n2 : nat).
  Notation block := (quadratic_block T n1 n2).
  Notation blocks m := (List.concat (map block (seq 0 m))).

  Lemma z_part a flips f l : a <> AZ -> signed_count a flips (map (fun i : nat => (AZ, f i : R)) l) = 0.
  Proof.
    intros N; induction l; cbn [map signed_count]; [auto|rewrite IHl; destruct a; try congruence; cbn; ring].
  Qed.
  Lemma z_flips flips f l : flips AZ = true ->
    List.length (filter (fun p : axis * R => flips (fst p)) (map (fun i : nat => (AZ, f i : R)) l)) = List.length l.
  Proof. intros F; induction l; cbn [map filter fst List.length]; [auto|rewrite F; cbn [List.length]; rewrite IHl; auto]. Qed.

  Lemma block_y flips j : signed_count AY flips (block j) = 0.
  Proof.
    unfold quadratic_block; cbv zeta; rewrite count_app, z_part by discriminate.
    destruct (j <? n2)%nat; cbn [signed_count axis_eqb]; ring.
  Qed.
  Lemma blocks_y flips m : signed_count AY flips (blocks m) = 0.
  Proof.
    generalize O; induction m as [|m IH]; intros s; [reflexivity|].
    cbn [seq map List.concat]; rewrite count_app, block_y, IH; ring.
  Qed.
  Lemma block_x flips j : flips AZ = true -> (j < n2)%nat ->
    signed_count AX flips (block j) = (-1) ^ n1 /\
    (-1) ^ List.length (filter (fun p => flips (fst p)) (block j)) = (-1) ^ n1 * (if flips AX then -1 else 1).
  Proof.
    intros F J; unfold quadratic_block; cbv zeta; rewrite (proj2 (Nat.ltb_lt j n2)) by auto; split.
    - rewrite count_app, z_part, z_flips, seq_length by (auto; discriminate); cbn; destruct (flips AX); ring.
    - rewrite filter_app, app_length, pow_add, z_flips, seq_length by auto; cbn [filter fst].
      destruct (flips AX); cbn; ring.
  Qed.
  Lemma blocks_x flips : flips AZ = true -> forall m s, (s + m <= n2)%nat ->
    signed_count AX flips (List.concat (map block (seq s m)) ++ block n2) =
    (-1) ^ n1 * (if Nat.even (if flips AX then S n1 else n1) then INR m else if Nat.even m then 0 else 1).
  Proof.
    intros F; induction m as [|m IH]; intros s H.
    - cbn [seq map List.concat app].
      unfold quadratic_block; cbv zeta; rewrite Nat.ltb_irrefl, app_nil_r, z_part by discriminate.
      destruct (Nat.even _); cbn; ring.
    - cbn [seq map List.concat]; rewrite <- app_assoc, count_app.
      destruct (block_x flips s F) as [-> ->]; [lia|]; rewrite IH by lia.
      rewrite S_INR, Nat.even_succ, <- Nat.negb_even.
      destruct (flips AX); rewrite ?Nat.even_succ, <- ?Nat.negb_even, pow_m1_even;
        destruct (Nat.even n1), (Nat.even m); cbn [negb]; ring.
  Qed.
  Lemma quadratic_x flips : flips AZ = true ->
    signed_count AX flips (quadratic_pulses T n1 n2) =
    (-1) ^ n1 * (if Nat.even (if flips AX then S n1 else n1) then INR n2 else if Nat.even n2 then 0 else 1).
  Proof.
    intros F; unfold quadratic_pulses; rewrite seq_app, map_app, concat_app; cbn [seq map List.concat Nat.add].
    rewrite app_nil_r; apply blocks_x; auto.
  Qed.
End Quadratic.

(** ** Every predefined sequence *)

Lemma power_first_moment T ts : switched (fun t => t ^ 1) T ts = 0 -> switched (fun t => t) T ts = 0.
Proof. intros <-; apply switched_from_ext; intros; simpl; ring. Qed.

Lemma cpmg_even T n : (1 <= n)%nat ->
  switched (fun t => t) T (cpmg_times T n) = 0 /\ Nat.even (List.length (cpmg_times T n)) = true <-> Nat.even n = true.
Proof.
  intros N; unfold cpmg_times at 2; rewrite map_length, seq_length; split; [tauto|]; intros Z; split; auto.
  apply power_first_moment, cpmg_moments; auto; destruct (Nat.even n); lia.
Qed.

Section Families.
  Variables (T maxr maxd mn : R) (n0 name : option string) (c : driven_control) (segs : list seg).
  Hypothesis LT : / 10 ^ 8 < T.
  Hypothesis D : describes segs c.
  Hypothesis DU : duration c = T.

  Definition conclusion (P Q : Prop) : Prop := (dephasing_robust 1 segs <-> P) /\ (amplitude_robust 1 segs <-> Q).

  Lemma interior ps P Q : constructible_sequence (sequence_of T n0 (map pi_pulse ps)) ->
    convert_dds_to_driven_control (sequence_of T n0 (map pi_pulse ps)) maxr maxd mn name = Ok c ->
    (forall p, In p ps -> 0 < snd p < T) ->
    (switched (fun t => t) T (flip_times ps) = 0 /\ signed_count AX (other_than AY) ps = 0 /\
     signed_count AY (other_than AX) ps = 0 <-> P) ->
    (signed_count AX (other_than AX) ps = 0 /\ signed_count AY (other_than AY) ps = 0 <-> Q) ->
    conclusion P Q.
  Proof.
    intros CS E I HP HQ; split.
    - rewrite (first_order_detuning T n0 ps maxr maxd mn name c segs CS LT E D DU), centred_interior; auto.
    - rewrite (first_order_amplitude T n0 ps maxr maxd mn name c segs CS LT E D DU); auto.
  Qed.

  Lemma uniform a ts P : a <> AZ -> constructible_sequence (sequence_of T n0 (map pi_pulse (map (pair a) ts))) ->
    convert_dds_to_driven_control (sequence_of T n0 (map pi_pulse (map (pair a) ts))) maxr maxd mn name = Ok c ->
    (forall t, In t ts -> 0 < t < T) ->
    (switched (fun t => t) T ts = 0 /\ Nat.even (List.length ts) = true <-> P) ->
    conclusion P (ts = []).
  Proof.
    intros A CS E I HP; apply (interior (map (pair a) ts)); auto.
    - intros p J; apply in_map_iff in J; destruct J as [t [<- J]]; apply I; auto.
    - rewrite <- HP; assert (F : flip_times (map (pair a) ts) = ts) by (apply flip_times_uniform; auto); rewrite F.
      destruct a; [|clear - A|congruence].
      + rewrite count_same, count_other by (reflexivity || discriminate).
        destruct (Nat.even (List.length ts)); split; intros X; repeat split; try tauto; try (destruct X as [_ [X _]]; lra); destruct X; discriminate.
      + rewrite count_same, (count_other AY AX) by (reflexivity || discriminate).
        destruct (Nat.even (List.length ts)); split; intros X; repeat split; try tauto; try (destruct X as [_ [_ X]]; lra); destruct X; discriminate.
    - assert (Z : INR (List.length ts) = 0 <-> ts = []).
      { split; [|intros ->; reflexivity]; intros Z; apply (INR_eq _ 0) in Z; destruct ts; auto; discriminate. }
      destruct a; [| |congruence].
      + rewrite count_all, count_other by (reflexivity || discriminate); tauto.
      + rewrite (count_other AY AX), count_all by (reflexivity || discriminate); tauto.
  Qed.

  Lemma xy_counts l u : small l ->
    signed_count AX (other_than AX) (map (scale_z u) (xy_small l)) = 0 /\
    signed_count AY (other_than AY) (map (scale_z u) (xy_small l)) = 0 /\
    (l = 2%nat -> signed_count AX (other_than AY) (map (scale_z u) (xy_small l)) = 0 /\
                  signed_count AY (other_than AX) (map (scale_z u) (xy_small l)) = 0).
  Proof.
    intros [-> | ->]; cbn [xy_small map scale_z fst snd signed_count axis_eqb other_than negb]; repeat split; try lra; discriminate.
  Qed.

  Theorem request_first_order r s : build_sequence r T false n0 = Ok s ->
    convert_dds_to_driven_control s maxr maxd mn name = Ok c ->
    conclusion (balanced_detuning r) (balanced_amplitude r).
  Proof.
    intros B E; assert (HT : 0 < T) by (assert (X := small_pos); lra).
    assert (V : valid_request r /\ constructible_sequence s).
    { destruct (request_validity r T false n0) as [RV RN].
      destruct (valid_request_dec r) as [V|V].
      - destruct (RV (conj HT V)) as [s' [B' [CS _]]]; rewrite B' in B; injection B as ->; auto.
      - exfalso; assert (A : argument_error (build_sequence r T false n0)) by (apply RN; tauto); rewrite B in A; destruct A as [? [? [? A]]]; discriminate. }
    destruct V as [V CS].
    assert (GT1 : forall x : R, 1 <= x -> forall k, truncates_to x k -> exists j, seq 1 k = 1%nat :: j).
    { intros x X k K; apply truncates_pos in K; auto; destruct k; [lia|]; eexists; reflexivity. }
    destruct r as [| |x|x|x|x|x|x y|x|x]; cbn [build_sequence valid_request balanced_detuning balanced_amplitude] in *.
    - rewrite (proj1 (ramsey_timing T false n0) HT) in B; injection B as <-; cbn [with_pre_post] in *.
      destruct (uniform AX [] False ltac:(discriminate) CS E) as [U1 U2]; [intros t []| |split; [exact U1|]; rewrite U2; tauto].
      unfold switched; cbn; split; [intros [Q _]; lra|tauto].
    - rewrite (proj1 (spin_echo_timing T false n0) HT) in B; injection B as <-; cbn [with_pre_post] in *.
      destruct (uniform AX [T / 2] False ltac:(discriminate) CS E) as [U1 U2]; [intros t [<-|[]]; lra| |].
      + cbn; split; [intros [_ Q]; discriminate|tauto].
      + split; [exact U1|]; rewrite U2; split; [discriminate|tauto].
    - destruct (trunc x V) as [n [N [TR NX]]]; destruct (GT1 x V n TR) as [j J].
      rewrite (carr_purcell_timing T x n false n0) in B by auto; injection B as <-; cbn [with_pre_post] in *.
      assert (Q : map (fun i => (AX, T / INR n * (INR i - 1 / 2))) (seq 1 n) = map (pair AX) (cpmg_times T n)) by (unfold cpmg_times; rewrite map_map; auto).
      rewrite Q in *; clear Q.
      destruct (uniform AX (cpmg_times T n) (Nat.even n = true) ltac:(discriminate) CS E) as [U1 U2]; [intros t; apply cpmg_within; auto|apply cpmg_even; auto|].
      split; [rewrite U1; symmetry; apply (even_trunc x n (fun m => Nat.even m = true) TR)|].
      rewrite U2; unfold cpmg_times; rewrite J; split; [discriminate|tauto].
    - destruct (trunc x V) as [n [N [TR NX]]]; destruct (GT1 x V n TR) as [j J].
      rewrite (cpmg_timing T x n false n0) in B by auto; injection B as <-; cbn [with_pre_post] in *.
      assert (Q : map (fun i => (AY, T / INR n * (INR i - 1 / 2))) (seq 1 n) = map (pair AY) (cpmg_times T n)) by (unfold cpmg_times; rewrite map_map; auto).
      rewrite Q in *; clear Q.
      destruct (uniform AY (cpmg_times T n) (Nat.even n = true) ltac:(discriminate) CS E) as [U1 U2]; [intros t; apply cpmg_within; auto|apply cpmg_even; auto|].
      split; [rewrite U1; symmetry; apply (even_trunc x n (fun m => Nat.even m = true) TR)|].
      rewrite U2; unfold cpmg_times; rewrite J; split; [discriminate|tauto].
    - destruct (trunc x V) as [n [N [TR NX]]]; destruct (GT1 x V n TR) as [j J].
      rewrite (uhrig_timing T x n false n0) in B by auto; injection B as <-; cbn [with_pre_post] in *.
      assert (Q : map (fun i => (AY, T * (sin (INR i * PI / (2 * (INR n + 1))) * (sin (INR i * PI / (2 * (INR n + 1))) * 1)))) (seq 1 n) = map (pair AY) (map (uhrig_time T n) (seq 1 n))) by (rewrite map_map; auto).
      rewrite Q in *; clear Q.
      destruct (uniform AY (map (uhrig_time T n) (seq 1 n)) (Nat.even n = true) ltac:(discriminate) CS E) as [U1 U2].
      + intros t I; apply in_map_iff in I; destruct I as [i [<- I]]; apply in_seq in I; apply uhrig_within; auto; lia.
      + rewrite map_length, seq_length; split; [tauto|]; intros Z; split; auto.
        apply power_first_moment, uhrig_moments; lia.
      + split; [rewrite U1; symmetry; apply (even_trunc x n (fun m => Nat.even m = true) TR)|].
        rewrite U2, J; split; [discriminate|tauto].
    - destruct (trunc x V) as [n [N [TR NX]]]; destruct (GT1 x V n TR) as [j J].
      rewrite (periodic_timing T x n false n0) in B by auto; injection B as <-; cbn [with_pre_post] in *.
      assert (Q : map (fun i => (AX, INR i * T / (INR n + 1))) (seq 1 n) = map (pair AX) (map (fun i => INR i * T / (INR n + 1)) (seq 1 n))) by (rewrite map_map; auto).
      rewrite Q in *; clear Q.
      destruct (uniform AX (map (fun i => INR i * T / (INR n + 1)) (seq 1 n)) False ltac:(discriminate) CS E) as [U1 U2].
      + intros t I; apply in_map_iff in I; destruct I as [i [<- I]]; apply in_seq in I.
        assert (I1 : 1 <= INR i) by (apply (le_INR 1); lia).
        assert (I2 : INR i <= INR n) by (apply le_INR; lia).
        split; [apply Rdiv_lt_0_compat; nra|]; apply Rmult_lt_reg_r with (INR n + 1); [lra|]; unfold Rdiv; rewrite Rmult_assoc, Rinv_l by lra; nra.
      + rewrite periodic_first_moment, map_length, seq_length; split; [|tauto].
        intros [Z Q]; rewrite Q in Z; assert (0 < T / (INR n + 1)) by (apply Rdiv_lt_0_compat; lra); lra.
      + split; [exact U1|]; rewrite U2, J; split; [discriminate|tauto].
    - destruct (trunc x ltac:(lra)) as [k [N [TR NX]]].
      rewrite (walsh_model T x k false n0) in B by auto; injection B as <-; cbn [with_pre_post] in *.
      assert (O := ones_pos k N).
      destruct (uniform AX (walsh_times T k) (Nat.even (ones k) = true) ltac:(discriminate) CS E) as [U1 U2].
      + intros t I; apply walsh_times_spec in I; auto; apply I.
      + rewrite walsh_parity; split; [tauto|]; intros Z; split; auto; apply power_first_moment, walsh_moments; auto.
      + split; [rewrite U1; symmetry; apply (even_trunc x k (fun m => Nat.even (ones m) = true) TR)|].
        rewrite U2; split; [|tauto]; intros Z.
        assert (M := walsh_moments T k 1 O); rewrite Z in M; unfold switched in M; cbn in M; lra.
    - destruct V as [V1 V2]; destruct (trunc x V1) as [n1 [N1 [TR1 NX1]]]; destruct (trunc y V2) as [n2 [N2 [TR2 NX2]]].
      rewrite (proj1 (proj1 (quadratic_timing T x y n1 n2 false n0) HT TR1 TR2 N1 N2)) in B; injection B as <-; cbn [with_pre_post] in *.
      destruct (interior (quadratic_pulses T n1 n2) (Nat.even n1 = true /\ Nat.even n2 = true) (Nat.even n1 = false /\ Nat.even n2 = true) CS E) as [U1 U2].
      + apply quadratic_times; auto.
      + rewrite quadratic_flips, !quadratic_x, (power_first_moment _ _ (uhrig_moments n2 T 1 N2)) by reflexivity.
        unfold quadratic_pulses; rewrite blocks_y.
        change (other_than AY AX) with true; cbv iota; rewrite Nat.even_succ, <- Nat.negb_even.
        assert (P := pow_m1_even n1).
        destruct (Nat.even n1), (Nat.even n2); cbn [negb]; rewrite P; split; intros X; repeat split; try tauto; try lra;
          try (destruct X as [_ [X _]]; lra); destruct X; discriminate.
      + rewrite !quadratic_x by reflexivity; unfold quadratic_pulses; rewrite blocks_y.
        change (other_than AX AX) with false; cbv iota.
        assert (P := pow_m1_even n1).
        destruct (Nat.even n1), (Nat.even n2); rewrite P; split; intros X; repeat split; try tauto; try lra;
          try (destruct X as [X _]; lra); destruct X; discriminate.
      + split; [rewrite U1|rewrite U2].
        * split; [intros [X Y]; exists n1, n2; auto|intros [m1 [m2 [X [Y [Z W]]]]]].
          rewrite (trunc_same x n1 m1), (trunc_same y n2 m2); auto.
        * split; [intros [X Y]; exists n1, n2; auto|intros [m1 [m2 [X [Y [Z W]]]]]].
          rewrite (trunc_same x n1 m1), (trunc_same y n2 m2); auto.
    - destruct (trunc x V) as [l [N [TR NX]]].
      rewrite (x_model T x l false n0) in B by auto; injection B as <-; cbn [with_pre_post] in *.
      destruct (uniform AX (x_times T l) (Nat.even l = true) ltac:(discriminate) CS E) as [U1 U2].
      + intros t I; apply x_times_within in I; auto.
      + rewrite x_parity; split; [tauto|]; intros Z; split; auto; apply power_first_moment, x_moments; auto.
      + split; [rewrite U1; symmetry; apply (even_trunc x l (fun m => Nat.even m = true) TR)|].
        rewrite U2; split; [|tauto]; intros Z.
        assert (M := x_moments T l 1 N); rewrite Z in M; unfold switched in M; cbn in M; lra.
    - destruct (Rlt_dec x 3) as [X3|X3].
      2:{ exfalso; destruct (xy_not_convertible T x false n0 HT V) as [s' [B' [_ A]]].
          - cbn [separated]; lra.
          - rewrite B' in B; injection B as ->; specialize (A maxr maxd mn name); rewrite E in A; destruct A as [? [? [? A]]]; discriminate. }
      destruct (trunc x V) as [l [N [TR NX]]].
      assert (L3 : (l < 3)%nat) by (apply INR_lt; cbn; lra).
      assert (SM : small l) by (unfold small; lia).
      rewrite (xy_model T x l false n0 (xy_small l) HT TR N (xy_small_slots l SM)) in B by (intros; apply xy_small_bounds; auto).
      injection B as <-; cbn [with_pre_post] in *.
      destruct (xy_counts l (T / 2 ^ (l * 2)) SM) as [C1 [C2 C3]].
      assert (F := first_order_detuning T n0 _ maxr maxd mn name c segs CS LT E D DU).
      assert (G := first_order_amplitude T n0 _ maxr maxd mn name c segs CS LT E D DU).
      split; [|rewrite G; tauto].
      rewrite F; clear F G; destruct SM as [-> | ->].
      + split; [|intros Q; destruct TR as [_ TR]; cbn in TR; lra]; intros [Q _]; exfalso; revert Q.
        assert (HR : 0 < maxr) by (destruct (converted_chain T n0 _ maxr maxd mn name c segs CS LT E D DU) as [HR _]; exact HR).
        assert (HD : 0 < maxd) by (destruct (converted_chain T n0 _ maxr maxd mn name c segs CS LT E D DU) as [_ [HD _]]; exact HD).
        assert (W := wr_pos maxr mn HR); set (w := wr maxr mn) in *.
        assert (ER : map (scale_z (T / 2 ^ (1 * 2))) (xy_small 1) = [(AX, T / 4); (AY, T / 2); (AX, 3 * T / 4); (AY, T)]).
        { assert (Y : forall (a : axis) (x y : R) l l', x = y -> l = l' -> (a, x) :: l = (a, y) :: l') by (intros; subst; auto).
          cbn [xy_small map]; unfold scale_z; cbn [fst snd Nat.mul Nat.add pow]; repeat (apply Y; [field|]); reflexivity. }
        rewrite ER; unfold centred; cbn [map fst snd]; rewrite !pi_width by auto; cbn [wa]; fold w; unfold centre.
        repeat (match goal with |- context [Req_EM_T ?a ?b] => destruct (Req_EM_T a b); try lra end).
        unfold switched; cbn [flip_times switched_from]; lra.
      + split; [intros _; destruct TR as [TR _]; cbn in TR; lra|intros _]; split; [|apply C3; auto].
        rewrite centred_interior; [rewrite xy_switched, xy_small_switched by (right; auto); ring|].
        intros p I; apply in_map_iff in I; destruct I as [q [<- I]]; cbn [scale_z snd].
        assert (U : 0 < T / 2 ^ (2 * 2)) by (apply Rdiv_lt_0_compat; [auto|apply pow_lt; lra]).
        assert (Q : 1 <= IZR (snd q) <= 15).
        { cbn [xy_small In] in I; repeat (destruct I as [<-|I]; [cbn [snd]; lra|]); destruct I. }
        split; [nra|]; assert (T = 16 * (T / 2 ^ (2 * 2))) by (cbn; field); nra.
  Qed.
End Families.
