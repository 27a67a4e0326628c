(** * Predefined sequences that are their own time reverse *)

From Coq Require Import Lia.
From Verif Require Import L_PreConvert L_Requests L_XYRec L_ConvertSymmetry.
Import ListNotations.
Set Bullet Behavior "Strict Subproofs".
Open Scope string_scope.
Open Scope list_scope.
Open Scope R_scope.

Lemma increasing_same (l : list (axis * R)) : forall l', strictly_increasing (map snd l) -> strictly_increasing (map snd l') ->
  (forall p, In p l <-> In p l') -> l = l'.
Proof.
  induction l as [|x l IH]; intros l' S S' H.
  - destruct l' as [|y l']; auto; destruct (proj2 (H y) (or_introl eq_refl)).
  - destruct l' as [|y l']; [destruct (proj1 (H x) (or_introl eq_refl))|].
    cbn [map] in S, S'.
    assert (K : forall z, In z l -> snd x < snd z) by (intros z I; apply (increasing_head _ _ _ S), in_map; auto).
    assert (K' : forall z, In z l' -> snd y < snd z) by (intros z I; apply (increasing_head _ _ _ S'), in_map; auto).
    assert (x = y).
    { destruct (proj1 (H x) (or_introl eq_refl)) as [Q|Q]; auto; destruct (proj2 (H y) (or_introl eq_refl)) as [Q'|Q']; auto.
      apply K' in Q; apply K in Q'; lra. }
    subst y; f_equal; apply IH; [apply S|apply S'|].
    intros p; split; intros I.
    + destruct (proj1 (H p) (or_intror I)) as [<-|Q]; auto; apply K in I; lra.
    + destruct (proj2 (H p) (or_intror I)) as [<-|Q]; auto; apply K' in I; lra.
Qed.

Definition flipped (T : R) (p : axis * R) : axis * R := (fst p, T - snd p).

Lemma flipped_pulse T p : mirror T (pi_pulse p) = pi_pulse (flipped T p).
Proof. destruct p as [[] t]; reflexivity. Qed.

Lemma mirror_closed T l : strictly_increasing (map snd l) -> (forall p, In p l -> In (flipped T p) l) ->
  backwards T (map pi_pulse l) = map pi_pulse l.
Proof.
  intros S H; unfold backwards; rewrite map_map, (map_ext _ (fun p => pi_pulse (flipped T p))) by apply flipped_pulse.
  rewrite <- map_map, <- map_rev; f_equal; apply increasing_same; auto.
  - rewrite map_rev, map_map; clear H; induction l as [|x l IH]; auto; cbn [map rev].
    apply increasing_snoc; [apply IH, S|].
    intros y I; rewrite <- in_rev in I; apply in_map_iff in I; destruct I as [p [<- I]].
    assert (L := increasing_head _ _ _ S (in_map snd _ _ I)); cbn [flipped snd]; lra.
  - intros p; rewrite <- in_rev, in_map_iff; split.
    + intros [q [<- I]]; auto.
    + intros I; exists (flipped T p); split; auto; destruct p as [a t]; unfold flipped; cbn; f_equal; ring.
Qed.

Lemma dyadic_flip bits : forall i, (i < 2 ^ List.length bits)%nat ->
  dyadic bits (2 ^ List.length bits - 1 - i) = (-1) ^ List.length (filter (fun b => b) bits) * dyadic bits i.
Proof.
  induction bits as [|b bits IH]; intros i H; [cbn in *; replace i with O by lia; cbn; ring|].
  assert (F := dyadic_first b bits); assert (S := dyadic_second b bits).
  replace (2 ^ List.length (b :: bits))%nat with (2 * 2 ^ List.length bits)%nat in * by (cbn [List.length Nat.pow]; lia).
  set (N := (2 ^ List.length bits)%nat) in *; clearbody N.
  assert (C : (-1) ^ List.length (filter (fun b => b) (b :: bits)) =
    (if b then -1 else 1) * (-1) ^ List.length (filter (fun b => b) bits)) by (destruct b; cbn [filter List.length pow]; ring).
  rewrite C; set (p := (-1) ^ _) in *; clearbody p; set (q := if b then -1 else 1) in *.
  assert (Q : q * q = 1) by (unfold q; destruct b; ring); clearbody q.
  destruct (le_lt_dec N i) as [L|L].
  - assert (E := S (i - N)%nat ltac:(lia)); replace (i - N + N)%nat with i in E by lia.
    replace (2 * N - 1 - i)%nat with (N - 1 - (i - N))%nat by lia.
    rewrite E, F, IH by lia; transitivity (q * q * p * dyadic bits (i - N)); [rewrite Q; ring|ring].
  - replace (2 * N - 1 - i)%nat with (N - 1 - i + N)%nat by lia; rewrite S, IH, F by lia; ring.
Qed.

Lemma changes_flip bits T t : (let N := (2 ^ List.length bits)%nat in
  In t (change_times (dyadic bits) (fun i => T * INR i / INR N) 0 (N - 1)) ->
  In (T - t) (change_times (dyadic bits) (fun i => T * INR i / INR N) 0 (N - 1))).
Proof.
  intros N I; apply in_change_times in I; destruct I as [i [B [C ->]]]; apply in_change_times.
  assert (P : (0 < N)%nat) by apply L_Walsh.pow2_pos.
  exists (N - 1 - S i)%nat; split; [lia|]; split.
  - rewrite <- Nat.sub_succ_l by lia; replace (S (N - 1) - S i)%nat with (N - 1 - i)%nat by lia.
    rewrite !dyadic_flip by (fold N; lia); intros Q; apply C.
    assert (X : (-1) ^ List.length (filter (fun b => b) bits) <> 0) by (apply pow_nonzero; lra).
    symmetry; apply Rmult_eq_reg_l with (1 := Q); auto.
  - rewrite <- Nat.sub_succ_l by lia; rewrite minus_INR by lia.
    replace (INR (S (N - 1))) with (INR N) by (f_equal; lia).
    field; apply not_0_INR; lia.
Qed.

Lemma sum_INR n i j : (i + j = n + 1)%nat -> INR j = INR n + 1 - INR i.
Proof. intros H; apply (f_equal INR) in H; rewrite !plus_INR in H; cbn [INR] in H; lra. Qed.

Section Families.
  Variables (T : R).
  Hypothesis HT : 0 < T.

  Lemma seq_closed a f n : (forall i j, (1 <= i)%nat -> (1 <= j)%nat -> (i + j = n + 1)%nat -> f j = T - f i) -> (forall i, (1 <= i)%nat -> (S i <= n)%nat -> f i < f (S i)) ->
    backwards T (map pi_pulse (map (fun i : nat => (a : axis, f i : R)) (seq 1 n))) = map pi_pulse (map (fun i => (a, f i)) (seq 1 n)).
  Proof.
    intros H S; apply mirror_closed.
    - rewrite map_map; apply increasing_seq; cbn [snd]; intros; apply S; lia.
    - intros p I; apply in_map_iff in I; destruct I as [i [<- I]]; apply in_seq in I; apply in_map_iff; exists (n + 1 - i)%nat.
      rewrite in_seq; split; [|lia]; unfold flipped; cbn [fst snd]; f_equal; apply H; lia.
  Qed.

  Lemma uhrig_flip n i j D : (i + j = n + 1)%nat -> uhrig_time D n j = D - uhrig_time D n i.
  Proof.
    intros H; unfold uhrig_time.
    replace (INR j * PI / (2 * (INR n + 1))) with (PI / 2 - INR i * PI / (2 * (INR n + 1))).
    - rewrite sin_shift; assert (Q := sin2_cos2 (INR i * PI / (2 * (INR n + 1)))); unfold Rsqr in Q.
      set (c := cos _) in *; set (z := sin _) in *; replace (c ^ 2) with (1 - z ^ 2) by (cbn [pow]; lra); ring.
    - assert (Q := sum_INR n i j H).
      rewrite Q; assert (0 <= INR n) by apply pos_INR; field; lra.
  Qed.

  Lemma in_quadratic n1 n2 p : In p (quadratic_pulses T n1 n2) <->
    (exists j i, (j <= n2)%nat /\ (1 <= i <= n1)%nat /\
       p = (AZ, uhrig_time T n2 j + uhrig_time (uhrig_time T n2 (j + 1) - uhrig_time T n2 j) n1 i)) \/
    (exists j, (1 <= j <= n2)%nat /\ p = (AX, uhrig_time T n2 j)).
  Proof.
    unfold quadratic_pulses; rewrite in_concat; split.
    - intros [b [B I]]; apply in_map_iff in B; destruct B as [j [<- J]]; apply in_seq in J.
      unfold quadratic_block in I; cbv zeta in I; apply in_app_or in I; destruct I as [I|I].
      + left; apply in_map_iff in I; destruct I as [i [<- I]]; apply in_seq in I; exists j, i; repeat split; lia.
      + right; destruct (j <? n2)%nat eqn:L; [|destruct I]; apply Nat.ltb_lt in L; destruct I as [<-|[]]; exists (j + 1)%nat; split; auto; lia.
    - intros [[j [i [J [I ->]]]]|[j [J ->]]].
      + exists (quadratic_block T n1 n2 j); split; [apply in_map_iff; exists j; split; auto; apply in_seq; lia|].
        unfold quadratic_block; cbv zeta; apply in_or_app; left; apply in_map_iff; exists i; split; auto; apply in_seq; lia.
      + exists (quadratic_block T n1 n2 (j - 1)); split; [apply in_map_iff; exists (j - 1)%nat; split; auto; apply in_seq; lia|].
        unfold quadratic_block; cbv zeta; apply in_or_app; right; rewrite (proj2 (Nat.ltb_lt (j - 1) n2)) by lia.
        replace (j - 1 + 1)%nat with j by lia; left; auto.
  Qed.

  Lemma quadratic_closed n1 n2 : backwards T (map pi_pulse (quadratic_pulses T n1 n2)) = map pi_pulse (quadratic_pulses T n1 n2).
  Proof.
    apply mirror_closed; [apply quadratic_times; auto|].
    intros p I; apply in_quadratic in I; apply in_quadratic; destruct I as [[j [i [J [I ->]]]]|[j [J ->]]].
    - left; exists (n2 - j)%nat, (n1 + 1 - i)%nat; split; [lia|]; split; [lia|]; unfold flipped; cbn [fst snd]; f_equal.
      rewrite (uhrig_flip n1 i (n1 + 1 - i)) by lia.
      rewrite (uhrig_flip n2 (j + 1) (n2 - j)), (uhrig_flip n2 j (n2 - j + 1)) by lia.
      unfold uhrig_time; ring.
    - right; exists (n2 + 1 - j)%nat; split; [lia|]; unfold flipped; cbn [fst snd]; f_equal; symmetry; apply uhrig_flip; lia.
  Qed.
End Families.

Theorem palindromes r T name : 0 < T -> valid_request r -> palindromic r ->
  exists l, build_sequence r T false name = Ok (sequence_of T name l) /\ backwards T l = l.
Proof.
  intros HT V P; destruct r as [| |x|x|x|x|x|x y|x|x]; cbn [build_sequence valid_request palindromic] in *.
  - eexists; split; [apply ramsey_timing; auto|reflexivity].
  - eexists; split; [apply spin_echo_timing; auto|]; cbn; f_equal; unfold mirror; cbn; f_equal; field.
  - destruct (trunc x V) as [n [N [TR NX]]]; eexists; split; [apply (carr_purcell_timing T x n); auto|].
    apply (seq_closed T AX (fun i => T / INR n * (INR i - 1 / 2))).
    + intros i j _ _ H; assert (Q : INR j = INR n + 1 - INR i) by (apply (sum_INR n i j H)).
      rewrite Q; field; lra.
    + intros i _ _; rewrite S_INR; assert (0 < T / INR n) by (apply Rdiv_lt_0_compat; lra); nra.
  - destruct (trunc x V) as [n [N [TR NX]]]; eexists; split; [apply (cpmg_timing T x n); auto|].
    apply (seq_closed T AY (fun i => T / INR n * (INR i - 1 / 2))).
    + intros i j _ _ H; assert (Q : INR j = INR n + 1 - INR i) by (apply (sum_INR n i j H)).
      rewrite Q; field; lra.
    + intros i _ _; rewrite S_INR; assert (0 < T / INR n) by (apply Rdiv_lt_0_compat; lra); nra.
  - destruct (trunc x V) as [n [N [TR NX]]]; eexists; split; [apply (uhrig_timing T x n); auto|].
    apply (seq_closed T AY (uhrig_time T n)).
    + intros i j _ _ H; apply uhrig_flip; auto.
    + intros i A B; apply uhrig_increasing; auto; lia.
  - destruct (trunc x V) as [n [N [TR NX]]]; eexists; split; [apply (periodic_timing T x n); auto|].
    apply (seq_closed T AX (fun i => INR i * T / (INR n + 1))).
    + intros i j _ _ H; assert (Q : INR j = INR n + 1 - INR i) by (apply (sum_INR n i j H)).
      rewrite Q; field; lra.
    + intros i _ _; rewrite S_INR; unfold Rdiv; apply Rmult_lt_compat_r; [apply Rinv_0_lt_compat; lra|nra].
  - destruct (trunc x ltac:(lra)) as [k [N [TR NX]]]; eexists; split; [apply (walsh_model T x k); auto|].
    apply mirror_closed.
    + rewrite in_pair; apply change_times_increasing; intros; apply grid_increasing; auto.
    + intros p I; apply in_map_iff in I; destruct I as [t [<- I]]; apply in_map_iff; exists (T - t); split; auto.
      unfold walsh_times, samples_count in *; rewrite <- (binary_digits_length k) in *; apply changes_flip; auto.
  - destruct V as [V1 V2]; destruct (trunc x V1) as [n1 [N1 [TR1 NX1]]]; destruct (trunc y V2) as [n2 [N2 [TR2 NX2]]].
    eexists; split; [apply (proj1 (quadratic_timing T x y n1 n2 false name)); auto|]; apply quadratic_closed; auto.
  - destruct (trunc x V) as [l [N [TR NX]]]; eexists; split; [apply (x_model T x l); auto|].
    apply mirror_closed.
    + rewrite in_pair; apply x_times_increasing; auto.
    + intros p I; apply in_map_iff in I; destruct I as [t [<- I]]; apply in_map_iff; exists (T - t); split; auto.
      assert (H := changes_flip (repeat true l) T t); rewrite repeat_length in H; apply H; auto.
  - assert (TR : truncates_to x 2) by (unfold truncates_to; cbn; lra).
    assert (SM : small 2) by (right; auto).
    eexists; split; [apply (xy_model T x 2 false name (xy_small 2) HT TR); [lia|apply xy_small_slots; auto|intros; apply xy_small_bounds; auto]|].
    cbn [with_pre_post].
    assert (TU : T = 16 * (T / 2 ^ (2 * 2))) by (cbn; field); set (u := T / 2 ^ (2 * 2)) in *; clearbody u.
    unfold backwards; rewrite map_map; cbn [xy_small map rev app]; rewrite !flipped_pulse.
    unfold flipped, scale_z; cbn [fst snd].
    assert (Y : forall (a : axis) (x y : R) l l', x = y -> l = l' -> pi_pulse (a, x) :: l = pi_pulse (a, y) :: l') by (intros; subst; auto).
    repeat (apply Y; [lra|]); reflexivity.
Qed.

(** so are the controls they are converted to *)
Theorem palindromic_control r T name s maxr maxd mn name' c : / 10 ^ 8 < T -> palindromic r ->
  build_sequence r T false name = Ok s -> convert_dds_to_driven_control s maxr maxd mn name' = Ok c ->
  rabi_rates c = rev (rabi_rates c) /\ azimuthal_angles c = rev (azimuthal_angles c) /\
  detunings c = rev (detunings c) /\ durations c = rev (durations c).
Proof.
  intros LT P B E; assert (HT : 0 < T) by (assert (S := small_pos); lra).
  destruct (request_validity r T false name) as [RV RN].
  destruct (valid_request_dec r) as [V|V].
  2:{ assert (A : argument_error (build_sequence r T false name)) by (apply RN; tauto); rewrite B in A; destruct A as [? [? [? A]]]; discriminate. }
  destruct (RV (conj HT V)) as [s' [B' [CS _]]]; rewrite B' in B; injection B as ->.
  destruct (palindromes r T name HT V P) as [l [Q Q']]; rewrite B' in Q; injection Q as ->.
  assert (C := conversion_reversal T name l maxr maxd mn name' CS LT); rewrite Q', E in C; destruct C as [C _].
  destruct (conversion_result _ _ _ _ _ _ _ _ CS E) as [_ [_ [_ [D _]]]].
  assert (D' := C _ D); destruct D as [D1 [D2 [D3 D4]]], D' as [E1 [E2 [E3 E4]]].
  rewrite map_rev in E1, E2, E3, E4; rewrite <- D1 in E1; rewrite <- D2 in E2; rewrite <- D3 in E3; rewrite <- D4 in E4; auto.
Qed.

(** the last pulse of the XY sequence of order one is at the end, and none is at the beginning *)
Theorem xy_not_palindromic T name : 0 < T -> exists l, build_sequence (XYConcatenated 1) T false name = Ok (sequence_of T name l) /\
  map e_time (backwards T l) <> map e_time l.
Proof.
  intros HT; assert (TR : truncates_to 1 1) by (unfold truncates_to; cbn; lra).
  assert (SM : small 1) by (left; auto).
  eexists; split; [apply (xy_model T 1 1 false name (xy_small 1) HT TR); [lia|apply xy_small_slots; auto|intros; apply xy_small_bounds; auto]|].
  cbn [with_pre_post].
  unfold backwards; rewrite map_map; cbn [xy_small map rev app]; rewrite !flipped_pulse; unfold flipped, scale_z; cbn [fst snd pi_pulse e_time].
  intros Q; apply (f_equal (hd 0)) in Q; cbn [hd] in Q.
  assert (T = 4 * (T / 2 ^ (1 * 2))) by (cbn; field); assert (0 < T / 2 ^ (1 * 2)) by (apply Rdiv_lt_0_compat; [auto|apply pow_lt; lra]); lra.
Qed.
