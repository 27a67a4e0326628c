(** * Conversion of the predefined sequences: C59, C62, C63 *)

From Coq Require Import ZArith Permutation.
From Verif Require Export L_Requests.
Import ListNotations.
Open Scope string_scope.
Open Scope list_scope.
Open Scope R_scope.

(** ** Simultaneous pulses of XY concatenated sequences of order three or more *)

Definition xy_prefix : list Z := removelast (concatenation_xy 3).

Lemma xy_prefix_spec l : (3 <= l)%nat -> exists r, concatenation_xy l = xy_prefix ++ r /\ r <> [].
Proof.
  induction l as [|l IH]; intros H; [lia|].
  destruct (Nat.eq_dec l 2) as [->|NE].
  - exists [last (concatenation_xy 3) 0%Z]; split; [vm_compute; reflexivity|discriminate].
  - destruct IH as [r [E NR]]; [lia|].
    rewrite concatenation_xy_S by (try lia; rewrite E; vm_compute; discriminate).
    rewrite E; unfold xy_step.
    assert (S1 : forall v, set_last v (xy_prefix ++ r) = xy_prefix ++ removelast r ++ [v]).
    { intros v; unfold set_last; rewrite removelast_app, <- app_assoc by auto.
      destruct (xy_prefix ++ r) eqn:Q; [apply app_eq_nil in Q; tauto|reflexivity]. }
    rewrite S1.
    set (s := (removelast r ++ [(-3)%Z]) ++ removelast (xy_prefix ++ r)).
    replace (((xy_prefix ++ removelast r ++ [(-3)%Z]) ++ removelast (xy_prefix ++ r)) ++ xy_prefix ++ r)
      with (xy_prefix ++ (s ++ xy_prefix ++ r)) by (unfold s; rewrite <- !app_assoc; reflexivity).
    assert (NS : s ++ xy_prefix ++ r <> []).
    { intros Q; apply app_eq_nil in Q; destruct Q as [_ Q]; apply app_eq_nil in Q; tauto. }
    assert (S2 : set_last (-3) (xy_prefix ++ (s ++ xy_prefix ++ r)) = xy_prefix ++ removelast (s ++ xy_prefix ++ r) ++ [(-3)%Z]).
    { unfold set_last; rewrite removelast_app, <- app_assoc by auto.
      destruct (xy_prefix ++ s ++ xy_prefix ++ r) eqn:Q; [apply app_eq_nil in Q; tauto|reflexivity]. }
    rewrite S2; set (m := removelast (s ++ xy_prefix ++ r) ++ [(-3)%Z]).
    rewrite <- app_assoc; unfold xy_trim.
    match goal with |- exists r', (if ?b then _ else _) = _ /\ _ => destruct b end.
    + exists (m ++ removelast (xy_prefix ++ r)); split.
      * rewrite (app_assoc m (xy_prefix ++ r)), (app_assoc xy_prefix), removelast_last, removelast_app, removelast_app; auto;
          intros Q; apply app_eq_nil in Q; destruct Q as [Q1 Q2]; try (apply app_eq_nil in Q2); tauto.
      * unfold m; intros Q; apply app_eq_nil in Q; destruct Q as [Q _]; apply app_eq_nil in Q; destruct Q as [_ Q]; discriminate.
    + eexists; split; [reflexivity|].
      unfold m; intros Q; apply app_eq_nil in Q; destruct Q as [Q _]; apply app_eq_nil in Q; destruct Q as [_ Q]; discriminate.
Qed.

Lemma prefix_offsets m o1 o2 v P r : markers m o1 o2 -> (v < units P)%Z ->
  In v (even_count_values Z.leb Z.eqb (xy_positions 0%Z 1%Z Z.add m o1 o2 P)) ->
  In v (even_count_values Z.leb Z.eqb (xy_positions 0%Z 1%Z Z.add m o1 o2 (P ++ r))).
Proof.
  intros M L I; apply even_values_spec in I; apply even_values_spec; destruct I as [I C].
  rewrite positions_steps in *; rewrite steps_app, running_app; split; [apply in_or_app; auto|].
  rewrite count_occ_app; replace (count_occ Z.eq_dec (running Z.add (0 + total_z (steps m o1 o2 P))%Z (steps m o1 o2 r)) v) with 0%nat.
  - rewrite Nat.add_0_r; auto.
  - symmetry; apply count_occ_not_In; intros J; apply running_bounds in J; rewrite (steps_total m o1 o2 P M) in J; lia.
Qed.

Lemma xy_simultaneous l : (3 <= l)%nat ->
  In 15%Z (rabi_offsets 0%Z 1%Z Z.add Z.leb Z.eqb (concatenation_xy l)) /\
  In 15%Z (detuning_offsets 0%Z 1%Z Z.add Z.leb Z.eqb (concatenation_xy l)).
Proof.
  intros H; destruct (xy_prefix_spec l H) as [r [E _]]; rewrite E.
  assert (F : forall v l, existsb (Z.eqb v) l = true -> In v l).
  { intros v q X; apply existsb_exists in X; destruct X as [w [A B]]; apply Z.eqb_eq in B; subst; auto. }
  split; apply prefix_offsets; try (vm_compute; reflexivity).
  - left; auto.
  - apply F; vm_compute; reflexivity.
  - right; right; auto.
  - apply F; vm_compute; reflexivity.
Qed.

Lemma duplicate_not_increasing {A} (f : A -> R) l x y : In x l -> In y l -> x <> y -> f x = f y -> ~ strictly_increasing (map f l).
Proof.
  intros I J N E H; apply in_split in I; destruct I as [a [b ->]].
  rewrite map_app in H; cbn [map] in H.
  apply in_app_or in J; destruct J as [J|J].
  - assert (K : f y < f x); [|lra].
    replace (map f a ++ f x :: map f b) with ((map f a ++ [f x]) ++ map f b) in H by (rewrite <- app_assoc; reflexivity).
    apply increasing_prefix in H; apply (increasing_last _ _ _ H), in_map; auto.
  - destruct J as [J|J]; [auto|].
    assert (K : f x < f y); [|lra].
    clear - H J; induction (map f a) as [|z q IH]; [apply (increasing_head _ _ _ H), in_map; auto|].
    cbn [app] in H; destruct H as [_ H]; auto.
Qed.

Lemma not_convertible T name l maxr maxd mn name' : constructible_sequence (sequence_of T name l) ->
  ~ strictly_increasing (map e_time l) ->
  argument_error (convert_dds_to_driven_control (sequence_of T name l) maxr maxd mn name').
Proof.
  intros CS N; apply conversion_acceptance; auto; intros C; apply N; apply C.
Qed.

Theorem xy_not_convertible T x pre name :
  0 < T -> 1 <= x -> ~ separated (XYConcatenated x) pre ->
  exists s, new_xy_concatenated_sequence T x pre name = Ok s /\ ~ strictly_increasing (offsets s) /\
    forall maxr maxd mn name', argument_error (convert_dds_to_driven_control s maxr maxd mn name').
Proof.
  intros HT V NS; destruct (trunc x V) as [l [N [TR NX]]].
  destruct (request_validity (XYConcatenated x) T pre name) as [[s [E [CS _]]] _]; [cbn; auto|].
  exists s; split; [exact E|].
  assert (K : exists l', s = sequence_of T name l' /\ ~ strictly_increasing (map e_time l')).
  { destruct (xy_pulses_perm l N) as [ps [EP [_ [B PM]]]].
    assert (UB := units_bound l N).
    cbn [build_sequence] in E; rewrite (xy_model T x l pre name ps) in E by (auto; intros p I; apply B in I; lia).
    injection E as <-; eexists; split; [reflexivity|].
    assert (U := unit_pos T l HT); set (u := T / 2 ^ (l * 2)) in *.
    assert (TU : T = IZR (4 ^ Z.of_nat l) * u) by apply unit_total.
    destruct (le_lt_dec 3 l) as [L3|L3].
    - destruct (xy_simultaneous l L3) as [X Z].
      assert (IX : In (AX, 15%Z) ps).
      { apply (Permutation_in _ (Permutation_sym PM)), in_or_app; left; apply in_or_app; left; apply in_map; auto. }
      assert (IZ : In (AZ, 15%Z) ps).
      { apply (Permutation_in _ (Permutation_sym PM)), in_or_app; right; apply in_map; auto. }
      apply (duplicate_not_increasing e_time _ (pi_pulse (scale_z u (AX, 15%Z))) (pi_pulse (scale_z u (AZ, 15%Z)))).
      + unfold with_pre_post; destruct pre; [right; apply in_or_app; left|]; apply in_map, in_map; auto.
      + unfold with_pre_post; destruct pre; [right; apply in_or_app; left|]; apply in_map, in_map; auto.
      + assert (P := PI_RGT_0); cbn; intros Q; injection Q; lra.
      + reflexivity.
    - assert (X2 : l = 1%nat /\ pre = true).
      { destruct TR as [T1 T2]; cbn [separated] in NS; destruct l as [|[|[|l]]]; try lia.
        - cbn [INR] in *; split; auto; destruct pre; auto; exfalso; apply NS; left; split; auto; lra.
        - exfalso; apply NS; right; cbn [INR] in *; lra. }
      destruct X2 as [-> ->].
      rewrite (xy_small_slots 1) in EP by (left; auto).
      assert (I : In (AY, 4%Z) ps).
      { apply (Permutation_in _ (Permutation_sym PM)), in_or_app; left; apply in_or_app; right; apply in_map; vm_compute; auto. }
      intros H; cbn [with_pre_post map] in H; destruct H as [_ H]; rewrite map_app in H; cbn [map] in H.
      assert (J : In (e_time (pi_pulse (scale_z u (AY, 4%Z)))) (map e_time (map pi_pulse (map (scale_z u) ps))))
        by (apply in_map, in_map, in_map; auto).
      apply (increasing_last _ _ _ H) in J; unfold scale_z in J; cbn [pi_pulse fst snd e_time] in J.
      change (4 ^ Z.of_nat 1)%Z with 4%Z in TU; lra. }
  destruct K as [l' [-> K]]; split; [exact K|]; intros; apply not_convertible; auto.
Qed.

(** ** Requests without simultaneous pulses *)

Lemma spacing_pos r : valid_request r -> 0 < spacing r.
Proof.
  intros V; destruct (is_xy r) eqn:X; [destruct r; try discriminate; cbn; lra|].
  destruct (request_single r V X) as [rel [_ G]]; exact (proj1 G).
Qed.

(** pulses that are apart from each other and from the ends *)
Lemma request_good r : valid_request r -> separated r true ->
  exists rel, describes_request r rel /\ good_times (spacing r) (map snd rel).
Proof.
  intros V SP; destruct (is_xy r) eqn:X; [|apply request_single; auto].
  destruct r as [| | | | | | | | |x]; try discriminate; cbn [valid_request separated] in *.
  destruct SP as [[_ SP]|X2]; [discriminate|].
  assert (TR : truncates_to x 2) by (split; cbn [INR]; lra).
  exists (map (scale_z (1 / 16)) (xy_small 2)); split.
  - intros T pre' name HT; cbn [build_sequence].
    rewrite (xy_model T x 2 pre' name (xy_small 2)); [|exact HT|exact TR|lia|apply xy_small_slots; right; auto|intros; apply xy_small_bounds; auto; right; auto].
    rewrite map_map; do 3 f_equal; apply map_ext; intros [a z]; unfold scale, scale_z; cbn [fst snd]; f_equal; cbn [Nat.mul Nat.add pow]; field.
  - apply (grid_good 16); [lia|cbn [spacing INR]; lra| |].
    + cbn [xy_small map scale_z snd strictly_increasing]; repeat (split; [lra|]); auto.
    + intros t I; rewrite map_map in I; apply in_map_iff in I; destruct I as [[a z] [<- I]]; cbn [scale_z snd].
      exists (Z.to_nat z).
      assert (ZB : (1 <= z <= 15)%Z).
      { cbn [xy_small In] in I; repeat (destruct I as [I|I]; [injection I as <- <-; lia|]); destruct I. }
      split; [lia|]; split; [lia|]; rewrite INR_IZR_INZ, Z2Nat.id by lia; cbn [INR]; field.
Qed.

Lemma request_spaced r pre : valid_request r -> separated r pre ->
  exists rel, describes_request r rel /\ forall T, 0 < T ->
    let l := with_pre_post pre T (map (scale T) rel) in
    strictly_increasing (map e_time l) /\ spaced (T * spacing r) (map e_time (with_ends T l)).
Proof.
  intros V SP.
  assert (G : forall rel, describes_request r rel -> good_times (spacing r) (map snd rel) ->
    exists rel, describes_request r rel /\ forall T, 0 < T ->
    let l := with_pre_post pre T (map (scale T) rel) in
    strictly_increasing (map e_time l) /\ spaced (T * spacing r) (map e_time (with_ends T l))).
  { intros rel D [G0 [G1 [G2 G3]]]; exists rel; split; auto; intros T HT l.
    assert (S : spaced (T * spacing r) (map e_time (with_ends T l))).
    { unfold l; rewrite with_ends_times by auto; apply spaced_scale; auto. }
    split; auto.
    assert (I : strictly_increasing (map e_time (with_ends T l))) by (apply (spaced_increasing (T * spacing r)); auto; nra).
    unfold with_ends in I; rewrite map_app in I.
    match type of I with strictly_increasing (?a ++ ?b) => assert (I2 : strictly_increasing b) end.
    { revert I; match goal with |- strictly_increasing (map _ ?a ++ _) -> _ => generalize a end.
      intros a; induction a as [|z q IH]; cbn [map app]; auto; intros [_ H]; auto. }
    rewrite map_app in I2; apply increasing_prefix in I2; auto. }
  destruct (is_xy r) eqn:X.
  - destruct r as [| | | | | | | | |x]; try discriminate; cbn [valid_request separated] in *.
    destruct SP as [[X2 ->]|X2].
    + assert (TR : truncates_to x 1) by (split; cbn [INR]; lra).
      exists (map (scale_z (1 / 4)) (xy_small 1)); split.
      * intros T pre name HT; cbn [build_sequence].
        rewrite (xy_model T x 1 pre name (xy_small 1)); [|exact HT|exact TR|lia|apply xy_small_slots; left; auto|intros; apply xy_small_bounds; auto; left; auto].
        rewrite map_map; do 3 f_equal; apply map_ext; intros [a z]; unfold scale, scale_z; cbn [fst snd]; f_equal; cbn [Nat.mul Nat.add pow]; field.
      * intros T HT; cbn [xy_small map scale_z scale fst snd with_pre_post pi_pulse].
        split; [cbn [map e_time strictly_increasing]; repeat (split; [lra|]); auto|].
        unfold with_ends; cbn [e_time last]; destruct (Req_EM_T (T * (1 * (1 / 4))) 0); [lra|].
        destruct (Req_EM_T (T * (4 * (1 / 4))) T); [|lra].
        cbn [app map e_time idle spaced spacing]; repeat (split; [lra|]); auto.
    + destruct (request_good (XYConcatenated x) V (or_intror X2)) as [rel [D GT]]; apply (G rel); auto.
  - destruct (request_single r V X) as [rel [D GT]]; apply (G rel); auto.
Qed.

Theorem predefined_conversion r T pre name maxr maxd mn name' :
  0 < T -> valid_request r -> separated r pre -> 0 < maxr -> 0 < maxd -> 0 <= mn ->
  2 * Rmax (Rmax (PI / maxr) (PI / maxd)) mn + mn <= spacing r * T ->
  exists s c, build_sequence r T pre name = Ok s /\
    convert_dds_to_driven_control s maxr maxd mn name' = Ok c /\ constructible c /\ duration c = T.
Proof.
  intros HT V SP Hr Hd Hm H; destruct (request_spaced r pre V SP) as [rel [D S]].
  destruct (S T HT) as [I G]; clear S.
  destruct (request_validity r T pre name) as [[s [E [CS _]]] _]; auto.
  assert (ES := D T pre name HT); rewrite E in ES; injection ES as ->.
  set (l := with_pre_post pre T (map (scale T) rel)) in *.
  assert (SP0 := spacing_pos r V).
  assert (C : convertible maxr maxd mn T l).
  { apply (spaced_convertible maxr maxd mn pre T _ (T * spacing r)); auto; try nra. }
  destruct (proj1 (proj1 (conversion_acceptance T name l maxr maxd mn name' CS)) C) as [c EC].
  exists (sequence_of T name l), c; split; auto; split; auto; split; [apply (proj1 (proj2 (conversion_acceptance T name l maxr maxd mn name' CS)) c EC)|].
  destruct (conversion_duration T name l maxr maxd mn name' c CS EC) as [A _]; apply A.
  intros g J; apply Rle_trans with mn; auto.
  apply (gaps_spaced maxr maxd mn T (Rmax (Rmax (PI / maxr) (PI / maxd)) mn) (T * spacing r) (with_ends T l)); auto; try nra.
  intros e IE; apply (predefined_width maxr maxd mn pre T (map (scale T) rel)); auto.
Qed.

(** explicit rates, no minimum segment duration *)
Theorem predefined_rates r T pre name maxr maxd name' :
  0 < T -> valid_request r -> separated r pre ->
  2 * PI / (spacing r * T) <= maxr -> 2 * PI / (spacing r * T) <= maxd ->
  exists s c, build_sequence r T pre name = Ok s /\
    convert_dds_to_driven_control s maxr maxd 0 name' = Ok c /\ constructible c /\ duration c = T.
Proof.
  intros HT V SP R1 R2; assert (SP0 := spacing_pos r V); assert (P := PI_RGT_0).
  set (d := spacing r * T) in *; assert (D0 : 0 < d) by (apply Rmult_lt_0_compat; auto).
  assert (Q : 0 < 2 * PI / d) by (apply Rdiv_lt_0_compat; lra).
  assert (K : forall m, 2 * PI / d <= m -> PI / m <= d / 2).
  { intros m M; apply (Rmult_le_reg_r m); [lra|]; replace (PI / m * m) with PI by (field; lra).
    replace PI with (d / 2 * (2 * PI / d)) at 1 by (field; lra); apply Rmult_le_compat_l; lra. }
  apply predefined_conversion; auto; try lra; fold d.
  assert (Rmax (Rmax (PI / maxr) (PI / maxd)) 0 <= d / 2); [|lra].
  apply Rmax_lub; [apply Rmax_lub; apply K; auto|lra].
Qed.

(** the predefined sequences that can be converted at some rates *)
Theorem predefined_convertibility r T pre name : 0 < T -> valid_request r ->
  exists s, build_sequence r T pre name = Ok s /\
    (separated r pre <-> exists maxr maxd mn name' c, convert_dds_to_driven_control s maxr maxd mn name' = Ok c).
Proof.
  intros HT V.
  assert (DEC : separated r pre \/ (~ separated r pre /\ exists x, r = XYConcatenated x)).
  { destruct r as [| |x|x|x|x|x|x y|x|x]; cbn [separated]; auto.
    destruct (Rlt_dec x 2), (Rle_dec 2 x), (Rlt_dec x 3), pre; try lra; auto;
      right; (split; [intuition (try lra; discriminate)|exists x; auto]). }
  destruct DEC as [SP|[NS [x ->]]].
  - destruct (predefined_rates r T pre name (2 * PI / (spacing r * T)) (2 * PI / (spacing r * T)) None)
      as [s [c [E [C _]]]]; auto; try lra.
    exists s; split; auto; split; auto; intros _; do 5 eexists; exact C.
  - destruct (xy_not_convertible T x pre name HT V NS) as [s [E [_ C]]]; exists s; split; [exact E|]; split; [tauto|].
    intros [maxr [maxd [mn [name' [c Q]]]]]; destruct (C maxr maxd mn name') as [m [a [b X]]]; congruence.
Qed.

(** ** C62: from the request to the operation *)

Lemma predefined_clean pre T l e : In e (with_pre_post pre T l) -> clean e.
Proof.
  assert (P := PI2_3_2); assert (S0 := small_pos).
  assert (N : forall x, / 10 ^ 8 < x -> ~ negligible x) by (intros x H; unfold negligible; rewrite Rabs_pos_eq; lra).
  assert (K : forall p, clean (pi_pulse p)).
  { intros [[] t]; unfold clean, pi_pulse; cbn [e_rabi e_det]; [left|left|right]; split; auto; try (right); apply N; lra. }
  assert (H : forall t phi, clean (Event t (PI / 2) phi 0)) by (intros; left; cbn [e_rabi e_det]; split; auto; right; apply N; lra).
  intros I; unfold with_pre_post in I; destruct pre; [destruct I as [<-|I]; [auto|]; apply in_app_or in I; destruct I as [I|[<-|[]]]; [|auto]|];
    apply in_map_iff in I; destruct I as [p [<- I]]; auto.
Qed.

Theorem predefined_net r T pre name s maxr maxd mn name' c segs :
  / 10 ^ 8 < T -> build_sequence r T pre name = Ok s ->
  convert_dds_to_driven_control s maxr maxd mn name' = Ok c -> describes segs c ->
  exists ps, s = sequence_of T name (with_pre_post pre T ps) /\
    evolution segs = pulse_product (with_pre_post pre T ps) /\
    (pre = true -> phase_equiv (evolution segs) (if Nat.even (count_not AX ps) then mone else pauli_z)).
Proof.
  intros LT B C D; assert (S0 := small_pos).
  assert (V : valid_request r).
  { destruct (valid_request_dec r) as [V|V]; auto; exfalso.
    destruct (request_invalid r T pre name) as [m [a [b X]]]; [tauto|congruence]. }
  destruct (request_pulses r V) as [rel [DR _]].
  assert (E := DR T pre name ltac:(lra)); rewrite B in E; injection E as ->.
  destruct (request_validity r T pre name) as [[s [E [CS _]]] _]; [split; auto; lra|].
  rewrite B in E; injection E as <-.
  exists (map (scale T) rel); split; auto.
  assert (N : evolution segs = pulse_product (with_pre_post pre T (map (scale T) rel))).
  { apply (conversion_net T name _ maxr maxd mn name' c segs CS); auto; intros e I; apply (predefined_clean _ _ _ _ I). }
  split; auto; intros ->; rewrite N.
  destruct (pre_post_product T (map (scale T) rel)) as [P1 P2].
  destruct (Nat.even (count_not AX (map (scale T) rel))); auto.
Qed.
