(** * Properties of the predefined sequences in floating point *)

From Coq Require Import ZArith Lia.
From Flocq Require Import Core.
From Verif Require Import L_FloatSeq.
Import ListNotations.
Open Scope string_scope.
Open Scope list_scope.
Open Scope R_scope.

(** C65: the sequences built in binary64 arithmetic are the exact ones up to rounding *)
Theorem C65_float_sequences :
  forall fsin fsquare, accurate_sine fsin -> accurate_square fsquare ->
  forall r T pre name, ordinary_duration T -> valid_request r -> moderate r ->
  exists s s0, build_sequence r T pre name = Ok s0 /\
    fl_build_sequence binary64 fsin fsquare float_pi r T pre name = Ok s /\
    rounded_sequence (accuracy r * T) s s0 /\
    (forall t, In t (offsets s) -> 0 <= t <= T /\ binary64_format t) /\
    nondecreasing (offsets s) /\ (is_xy r = false -> strictly_increasing (offsets s)).
Proof. exact float_sequences. Qed.
Print Assumptions C65_float_sequences.

(** C65: invalid requests are rejected whatever the arithmetic *)
Theorem C65_float_rejections :
  forall rnd fsin fsquare fpi r T pre name,
  ~ (0 < T /\ valid_request r) ->
  argument_error (fl_build_sequence rnd fsin fsquare fpi r T pre name).
Proof. exact fl_invalid. Qed.
Print Assumptions C65_float_rejections.

(** C65: without rounding the floating point builders are the exact ones *)
Theorem C65_unrounded :
  forall r T pre name,
  fl_build_sequence (fun x => x) sin (fun x => x ^ 2) PI r T pre name = build_sequence r T pre name.
Proof. exact exact_build. Qed.
Print Assumptions C65_unrounded.

(** C65: a correctly rounded sine is accurate *)
Theorem C65_sine_exists :
  accurate_sine (fun x => binary64 (sin x)).
Proof. exact rounded_sine. Qed.
Print Assumptions C65_sine_exists.

(** C65: a correctly rounded square is accurate *)
Theorem C65_square_exists :
  accurate_square (fun x => binary64 (x ^ 2)).
Proof. exact rounded_square. Qed.
Print Assumptions C65_square_exists.

Lemma one_second : ordinary_duration 1.
Proof.
  split; [|split].
  - apply generic_format_FLT; exists (Float radix2 1 0); cbn; [unfold F2R; cbn; ring|lia|lia].
  - rewrite <- Rinv_1; apply Rinv_le_contravar; [lra|]; apply pow_R1_Rle; lra.
  - apply pow_R1_Rle; lra.
Qed.

Lemma third_power : forall k m, (3 * m <> 2 ^ Z.of_nat k)%Z.
Proof.
  induction k as [|k IH]; intros m E; [change (3 * m = 1)%Z in E; lia|].
  rewrite Nat2Z.inj_succ, Z.pow_succ_r in E by lia; apply (IH (m / 2)%Z).
  assert (D := Z.div_mod m 2 ltac:(lia)); assert (L := Z.mod_pos_bound m 2 ltac:(lia)); lia.
Qed.

Lemma sixth_not_float : ~ binary64_format (1 / 6).
Proof.
  intros F; apply FLT_format_generic in F; [|reflexivity]; destruct F as [f E _ _].
  unfold F2R in E; destruct f as [m e]; cbn [Fnum Fexp] in E.
  assert (B : 0 < bpow radix2 (Z.abs e)) by apply bpow_gt_0.
  assert (Q : IZR (6 * m * 2 ^ (Z.abs e + e)) = IZR (2 ^ Z.abs e)).
  { change 2%Z with (radix_val radix2); rewrite mult_IZR, mult_IZR, !(IZR_Zpower radix2), bpow_plus by lia; nra. }
  apply eq_IZR in Q; apply (third_power (Z.to_nat (Z.abs e)) (2 * m * 2 ^ (Z.abs e + e))); rewrite Z2Nat.id by lia; lia.
Qed.

(** one sixth is not a binary64 number, so the first pulse is not at the exact time *)
Example C65_case : exists s,
  fl_build_sequence binary64 (fun x => binary64 (sin x)) (fun x => binary64 (x ^ 2)) float_pi (CarrPurcell 3) 1 false None = Ok s /\
  rabi_rotations s = [PI; PI; PI] /\ strictly_increasing (offsets s) /\
  exists t u v, offsets s = [t; u; v] /\ Rabs (t - 1 / 6) <= / 2 ^ 50 /\ t <> 1 / 6.
Proof.
  destruct (float_sequences _ _ rounded_sine rounded_square (CarrPurcell 3) 1 false None one_second)
    as [s [s0 [E0 [E [RS [FM [_ SI]]]]]]]; [cbn; lra|cbn; lra|].
  exists s; split; auto.
  cbn [build_sequence] in E0.
  rewrite (carr_purcell_timing 1 3 3 false None) in E0; [|lra|unfold truncates_to; simpl; lra|lia].
  injection E0 as E0; subst s0; destruct RS as [_ [RR [_ [_ [_ [CT _]]]]]].
  split; [exact RR|split; [apply SI; reflexivity|]].
  cbn [with_pre_post map seq sequence_of offsets e_time pi_pulse accuracy] in CT.
  inversion CT as [|t t0 l l0 C1 C2 L1 L2].
  inversion C2 as [|u u0 l' l0' _ C3 L3 L4]; inversion C3 as [|v v0 l'' l0'' _ C4 L5 L6]; inversion C4.
  exists t, u, v; split; [congruence|split].
  - eapply Rle_trans; [|eapply Rle_trans; [exact C1|lra]]; right; f_equal; simpl; field.
  - intros ->; apply sixth_not_float, (FM (1 / 6)); rewrite <- L1; left; auto.
Qed.

(** C66: rounding changes the evolution by a bounded amount *)
Theorem C66_float_evolution :
  forall fsin fsquare, accurate_sine fsin -> accurate_square fsquare ->
  forall r T pre name B M, ordinary_duration T -> valid_request r -> moderate r ->
  0 <= M -> bounded_detuning B M T ->
  exists s s0, build_sequence r T pre name = Ok s0 /\
    fl_build_sequence binary64 fsin fsquare float_pi r T pre name = Ok s /\
    same_evolution (INR (List.length (offsets s0)) * M * (accuracy r * T)) B s s0.
Proof. exact float_evolution. Qed.
Print Assumptions C66_float_evolution.

(** three pulses and a unit detuning *)
Example C66_case : exists s s0,
  build_sequence (CarrPurcell 3) 1 false None = Ok s0 /\
  fl_build_sequence binary64 (fun x => binary64 (sin x)) (fun x => binary64 (x ^ 2)) float_pi (CarrPurcell 3) 1 false None = Ok s /\
  same_evolution (3 / 2 ^ 50) (fun t => t) s s0.
Proof.
  destruct (float_evolution _ _ rounded_sine rounded_square (CarrPurcell 3) 1 false None (fun t => t) 1 one_second)
    as [s [s0 [E0 [E SE]]]]; [cbn; lra|cbn; lra|lra|intros t t' _ _; lra|].
  exists s, s0; split; auto; split; auto.
  cbn [build_sequence] in E0.
  rewrite (carr_purcell_timing 1 3 3 false None) in E0; [|lra|unfold truncates_to; simpl; lra|lia].
  injection E0 as E0; subst s0.
  cbn [with_pre_post map seq sequence_of offsets e_time pi_pulse accuracy List.length] in SE.
  intros l l0 H H0; eapply close_mono; [|exact (SE l l0 H H0)]; simpl; lra.
Qed.

