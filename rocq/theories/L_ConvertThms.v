(** * Theorems about the conversion *)

From Verif Require Export L_ConvertProps L_DrivenExport.
Import ListNotations.
Open Scope string_scope.
Open Scope list_scope.
Open Scope R_scope.

Lemma small_pos : 0 < / 10 ^ 8.
Proof. apply Rinv_0_lt_compat, pow_lt; lra. Qed.

(** ** C46: duration *)

Theorem conversion_duration T n0 l maxr maxd mn name c :
  constructible_sequence (sequence_of T n0 l) ->
  convert_dds_to_driven_control (sequence_of T n0 l) maxr maxd mn name = Ok c ->
  let o := overlap (idle_times maxr maxd mn T l) in
  ((forall g, In g (idle_times maxr maxd mn T l) -> 0 <= g) -> duration c = T) /\
  (11 / 10 / 10 ^ 8 <= mn -> duration c = T) /\
  (/ 10 ^ 8 < T -> duration c = T + o) /\
  T <= duration c <= T + INR (List.length l + 1) / 10 ^ 8.
Proof.
  intros CS E; destruct (conversion_result _ _ _ _ _ _ _ _ CS E) as [HT [B [C [D _]]]].
  intros o; destruct D as [_ [_ [_ D]]].
  assert (DU : duration c = total (map g_dur (converted maxr maxd mn T l))).
  { unfold duration; rewrite np_sum_total, D; auto. }
  destruct (overlap_bounds maxr maxd mn T l C) as [O1 O2]; fold o in O1, O2.
  assert (K : duration c = T \/ duration c = T + o).
  { rewrite DU; destruct (allclose0 (map (win maxr maxd mn T) (with_ends T l))) eqn:A.
    - left; unfold converted; rewrite A; cbn; ring.
    - right; destruct (first_last maxr maxd mn T l C HT B) as [e0 [F [S [X Z]]]].
      unfold converted; rewrite A; unfold o, idle_times.
      change (map (fun e => window T (pulse_width maxr maxd mn e) (e_time e)) (with_ends T l))
        with (map (win maxr maxd mn T) (with_ends T l)).
      rewrite S, (weave_total maxr maxd mn T l C), X, Z; ring. }
  assert (N : (forall g, In g (idle_times maxr maxd mn T l) -> 0 <= g) -> duration c = T).
  { intros P; apply no_overlap in P; fold o in P; destruct K as [K|K]; lra. }
  split; auto; split; [|split].
  - intros M; apply N; intros g G; apply (long_enough_pos maxr maxd mn T l C); auto; apply C; auto.
  - intros L; rewrite DU; apply converted_total; auto.
  - destruct K as [K|K]; lra.
Qed.

(** ** C47: rates *)

Theorem conversion_rates T n0 l maxr maxd mn name c segs :
  constructible_sequence (sequence_of T n0 l) ->
  convert_dds_to_driven_control (sequence_of T n0 l) maxr maxd mn name = Ok c -> describes segs c ->
  forall g, In g segs ->
    0 <= g_rabi g <= maxr /\ Rabs (g_det g) <= maxd /\ (g_rabi g = 0 \/ g_det g = 0) /\ 0 < g_dur g.
Proof.
  intros CS E D' g I; destruct (conversion_result _ _ _ _ _ _ _ _ CS E) as [HT [B [C [D _]]]].
  assert (segs = converted maxr maxd mn T l) by (eapply describes_unique; eauto); subst segs.
  assert (R0 := Hr _ _ _ _ _ C); assert (D0 := Hd _ _ _ _ _ C).
  apply (in_converted maxr maxd mn T l C HT) in I; destruct I as [L [[e [I ->]]|[-> _]]].
  - split; [apply pulse_seg_rabi; auto; apply (rabi_pos maxr maxd mn T l C); auto|].
    split; [apply pulse_seg_det; auto|]; split; auto; apply pulse_seg_both.
  - cbn; rewrite Rabs_R0; repeat split; auto; lra.
Qed.

(** ** C48, C49: pulses *)

Theorem conversion_pulses T n0 l maxr maxd mn name c segs :
  constructible_sequence (sequence_of T n0 l) -> / 10 ^ 8 < T ->
  convert_dds_to_driven_control (sequence_of T n0 l) maxr maxd mn name = Ok c -> describes segs c ->
  Forall2 performs (filter effective l) (filter active segs).
Proof.
  intros CS L E D'; destruct (conversion_result _ _ _ _ _ _ _ _ CS E) as [HT [B [C [D _]]]].
  assert (segs = converted maxr maxd mn T l) by (eapply describes_unique; eauto); subst segs.
  rewrite converted_long, (active_weave maxr maxd mn T l C), (effective_with_ends T l) by auto.
  assert (P : forall F, (forall e, In e F -> In e l /\ effective e = true) -> Forall2 performs F (map (pulse_seg maxr maxd mn) F)).
  { induction F as [|e F IH]; intros H; cbn [map]; constructor; [|apply IH; intros; apply H; right; auto].
    destruct (H e (or_introl eq_refl)) as [I Ef].
    apply (pulse_seg_effective maxr maxd mn T l C e); auto; apply with_ends_in_r; auto. }
  apply P; intros e I; apply filter_In in I; auto.
Qed.

Theorem conversion_timing T n0 l maxr maxd mn name c segs :
  constructible_sequence (sequence_of T n0 l) -> / 10 ^ 8 < T ->
  convert_dds_to_driven_control (sequence_of T n0 l) maxr maxd mn name = Ok c -> describes segs c ->
  let o := overlap (idle_times maxr maxd mn T l) in
  0 <= o <= INR (List.length l + 1) / 10 ^ 8 /\
  ((forall g, In g (idle_times maxr maxd mn T l) -> 0 <= g) -> o = 0) /\
  (11 / 10 / 10 ^ 8 <= mn -> o = 0) /\
  Forall2 (fun e p =>
      performs e (snd p) /\ g_dur (snd p) = pulse_width maxr maxd mn e /\
      let m := centre T (g_dur (snd p)) (e_time e) in m <= fst p <= m + o)
    (filter effective l) (filter (fun p => active (snd p)) (midpoints 0 segs)).
Proof.
  intros CS L E D'; destruct (conversion_result _ _ _ _ _ _ _ _ CS E) as [HT [B [C [D _]]]].
  assert (segs = converted maxr maxd mn T l) by (eapply describes_unique; eauto); subst segs.
  intros o; split; [apply (overlap_bounds maxr maxd mn T l C)|]; split; [apply no_overlap|].
  split; [intros M; apply no_overlap; intros g G; apply (long_enough_pos maxr maxd mn T l C); auto; apply C; auto|].
  rewrite converted_long, <- (effective_with_ends T l) by auto; unfold o, idle_times.
  change (map (fun e => window T (pulse_width maxr maxd mn e) (e_time e)) (with_ends T l))
    with (map (win maxr maxd mn T) (with_ends T l)).
  destruct (first_last maxr maxd mn T l C HT B) as [e0 [F [S [X Z]]]].
  assert (W := midpoints_weave maxr maxd mn T l C F e0 0 0); rewrite S in *.
  eapply Forall2_imp; [|apply W; auto; lra].
  cbv beta; intros e p [P1 [P2 P3]]; rewrite P2; repeat split; auto; lra.
Qed.

(** ** C50: minimum segment duration *)

Lemma total_member x r : (forall y, In y r -> 0 <= y) -> In x r -> x <= total r.
Proof.
  induction r as [|y r IH]; intros P I; [destruct I|]; destruct I as [->|I]; cbn [total].
  - assert (0 <= total r); [|lra].
    clear IH; assert (P' : forall y, In y r -> 0 <= y) by (intros; apply P; right; auto); clear P.
    induction r as [|y r IH]; cbn [total]; [lra|].
    assert (0 <= y) by (apply P'; left; auto); assert (0 <= total r) by (apply IH; intros; apply P'; right; auto); lra.
  - assert (0 <= y) by (apply P; left; auto).
    assert (x <= total r) by (apply IH; auto; intros; apply P; right; auto); lra.
Qed.

Theorem conversion_minimum T n0 l maxr maxd mn name c segs :
  constructible_sequence (sequence_of T n0 l) ->
  convert_dds_to_driven_control (sequence_of T n0 l) maxr maxd mn name = Ok c -> describes segs c ->
  forall g, In g segs -> long_enough mn (g_dur g) /\ (active g = true -> mn <= g_dur g).
Proof.
  intros CS E D' g I; destruct (conversion_result _ _ _ _ _ _ _ _ CS E) as [HT [B [C [D _]]]].
  assert (segs = converted maxr maxd mn T l) by (eapply describes_unique; eauto); subst segs.
  assert (M0 := Hmn _ _ _ _ _ C).
  apply (in_converted maxr maxd mn T l C HT) in I; destruct I as [L [[e [I ->]]|[Q I]]].
  - assert (K : mn <= g_dur (pulse_seg maxr maxd mn e)).
    { rewrite pulse_seg_dur in *; unfold pulse_width in *.
      destruct (Rle_dec (Rabs (e_rabi e)) (/ 10 ^ 8)); [|apply Rmax_r].
      destruct (Rle_dec (Rabs (e_det e)) (/ 10 ^ 8)); [lra|apply Rmax_r]. }
    split; auto; destruct K as [K|K]; [left; auto|right].
    unfold near; rewrite <- K, Rminus_eq_0, Rabs_R0; assert (S0 := small_pos); assert (0 <= Rabs mn) by apply Rabs_pos; lra.
  - split; [|rewrite Q, idle_inactive; discriminate].
    destruct I as [I|[A I]]; [apply C; auto|rewrite I].
    destruct (Rlt_dec mn T) as [K|K]; [left; auto|right]; unfold near.
    rewrite (Rabs_pos_eq mn) by auto; rewrite Rabs_left1 by lra.
    apply Rnot_lt_le; intros X.
    assert (G : forall g, In g (idle_times maxr maxd mn T l) -> T < g).
    { intros g' I'; destruct C as [_ [_ [_ [_ [_ [_ G]]]]]]; apply G in I'; destruct I' as [I'|I']; [lra|].
      unfold near in I'; rewrite (Rabs_pos_eq mn) in I' by auto.
      assert (Y := Rle_abs (- (g' - mn))); rewrite Rabs_Ropp in Y; lra. }
    assert (NO : overlap (idle_times maxr maxd mn T l) = 0).
    { apply no_overlap; intros g' I'; apply G in I'; lra. }
    destruct (shape maxr maxd mn T l C HT B) as [e0 [mid [en [S _]]]].
    destruct (first_last maxr maxd mn T l C HT B) as [f0 [F [S' [X1 X2]]]].
    assert (TW := weave_total maxr maxd mn T l C F f0); rewrite X1, X2, <- S' in TW.
    change (gaps (map (win maxr maxd mn T) (with_ends T l))) with (idle_times maxr maxd mn T l) in TW.
    rewrite NO in TW.
    destruct F as [|f1 F]; [rewrite S in S'; destruct mid; discriminate|].
    assert (I1 : In (fst (win maxr maxd mn T f1) - snd (win maxr maxd mn T f0)) (idle_times maxr maxd mn T l)).
    { unfold idle_times; rewrite S'; cbn [map gaps]; left; reflexivity. }
    assert (I2 := G _ I1).
    assert (I3 : fst (win maxr maxd mn T f1) - snd (win maxr maxd mn T f0) <= total (map g_dur (filter lasting (weave maxr maxd mn T (with_ends T l))))).
    { apply total_member.
      - intros y Iy; apply in_map_iff in Iy; destruct Iy as [h [<- Ih]]; apply filter_In in Ih; destruct Ih as [_ Ih].
        apply ltb_true in Ih; lra.
      - apply in_map_iff; exists (Seg 0 0 0 (fst (win maxr maxd mn T f1) - snd (win maxr maxd mn T f0))); split; auto.
        apply filter_In; split; [rewrite S'; right; left; reflexivity|unfold lasting; cbn [g_dur]; apply ltb_true; lra]. }
    lra.
Qed.

(** ** C52: net operation *)

Lemma pulse_product_app a b : pulse_product (a ++ b) = mmul (pulse_product b) (pulse_product a).
Proof. induction a as [|e a IH]; cbn [app pulse_product]; [rewrite mmul_1_r; auto|rewrite IH, mmul_assoc; auto]. Qed.

Lemma pulse_idle t : pulse_unitary (idle t) = mone.
Proof. unfold idle; rewrite pulse_detuning, z_rotation_qmat; unfold qz; rewrite <- qmat_one; f_equal.
  replace (0 / 2) with 0 by field; rewrite sin_0, cos_0; reflexivity. Qed.

Lemma with_ends_product T l : pulse_product (with_ends T l) = pulse_product l.
Proof.
  unfold with_ends; rewrite !pulse_product_app.
  assert (A : pulse_product match l with [] => [idle 0] | e :: _ => if Req_EM_T (e_time e) 0 then [] else [idle 0] end = mone).
  { destruct l as [|ev l']; [|destruct (Req_EM_T (e_time ev) 0)]; cbn [pulse_product]; rewrite ?pulse_idle, ?mmul_1_r; auto. }
  assert (Z : pulse_product (if Req_EM_T (e_time (last l (idle 0))) T then [] else [idle T]) = mone).
  { destruct (Req_EM_T (e_time (last l (idle 0))) T); cbn [pulse_product]; rewrite ?pulse_idle, ?mmul_1_r; auto. }
  rewrite A, Z, mmul_1_l, mmul_1_r; auto.
Qed.

Lemma clean_idle t : clean (idle t).
Proof. left; cbn; auto. Qed.

Theorem conversion_net T n0 l maxr maxd mn name c segs :
  constructible_sequence (sequence_of T n0 l) -> / 10 ^ 8 < T -> (forall e, In e l -> clean e) ->
  convert_dds_to_driven_control (sequence_of T n0 l) maxr maxd mn name = Ok c -> describes segs c ->
  evolution segs = pulse_product l.
Proof.
  intros CS L K E D'; destruct (conversion_result _ _ _ _ _ _ _ _ CS E) as [HT [B [C [D _]]]].
  assert (segs = converted maxr maxd mn T l) by (eapply describes_unique; eauto); subst segs.
  rewrite converted_long by auto; unfold evolution; rewrite (weave_evolution maxr maxd mn T l C).
  - apply with_ends_product.
  - intros e I; split; auto; apply with_ends_in in I; destruct I as [I|[->| ->]]; auto; apply clean_idle.
Qed.

(** ** C53: simultaneous rotations *)

(** the event without its detuning rotation, if it has a Rabi rotation *)
Definition rabi_only (e : event) : event :=
  if Rle_dec (Rabs (e_rabi e)) (/ 10 ^ 8) then e else Event (e_time e) (e_rabi e) (e_phi e) 0.

Lemma rabi_only_time e : e_time (rabi_only e) = e_time e.
Proof. unfold rabi_only; destruct (Rle_dec (Rabs (e_rabi e)) (/ 10 ^ 8)); auto. Qed.
Lemma rabi_only_rabi e : e_rabi (rabi_only e) = e_rabi e.
Proof. unfold rabi_only; destruct (Rle_dec (Rabs (e_rabi e)) (/ 10 ^ 8)); auto. Qed.
Lemma rabi_only_idle t : rabi_only (idle t) = idle t.
Proof.
  unfold rabi_only; cbn [idle e_rabi e_time e_phi]; destruct (Rle_dec (Rabs 0) (/ 10 ^ 8)); reflexivity.
Qed.
Lemma rabi_only_width maxr maxd mn e : pulse_width maxr maxd mn (rabi_only e) = pulse_width maxr maxd mn e.
Proof.
  unfold pulse_width; rewrite rabi_only_rabi; unfold rabi_only.
  destruct (Rle_dec (Rabs (e_rabi e)) (/ 10 ^ 8)); auto.
Qed.
Lemma rabi_only_seg maxr maxd mn e : pulse_seg maxr maxd mn (rabi_only e) = pulse_seg maxr maxd mn e.
Proof.
  unfold pulse_seg; rewrite rabi_only_width, rabi_only_rabi; unfold rabi_only.
  destruct (Rle_dec (Rabs (e_rabi e)) (/ 10 ^ 8)); auto.
Qed.
Lemma rabi_only_win maxr maxd mn T e : win maxr maxd mn T (rabi_only e) = win maxr maxd mn T e.
Proof. unfold win; rewrite rabi_only_width, rabi_only_time; auto. Qed.
Lemma rabi_only_ends T l : with_ends T (map rabi_only l) = map rabi_only (with_ends T l).
Proof.
  unfold with_ends; rewrite !map_app; f_equal; [|f_equal].
  - destruct l as [|e l]; cbn [map]; [rewrite rabi_only_idle; auto|rewrite rabi_only_time].
    destruct (Req_EM_T (e_time e) 0); cbn [map]; rewrite ?rabi_only_idle; auto.
  - assert (L : e_time (last (map rabi_only l) (idle 0)) = e_time (last l (idle 0))).
    { destruct l as [|e l]; auto; rewrite (last_map rabi_only (e :: l) (idle 0)) by discriminate; apply rabi_only_time. }
    rewrite L; destruct (Req_EM_T (e_time (last l (idle 0))) T); cbn [map]; rewrite ?rabi_only_idle; auto.
Qed.
Lemma rabi_only_weave maxr maxd mn T E : weave maxr maxd mn T (map rabi_only E) = weave maxr maxd mn T E.
Proof.
  induction E as [|e E IH]; [reflexivity|]; cbn [map weave]; rewrite rabi_only_seg, IH; do 2 f_equal.
  destruct E as [|f E]; cbn [map gap_after]; rewrite ?rabi_only_win; auto.
Qed.

Lemma rabi_only_windows maxr maxd mn T E : map (win maxr maxd mn T) (map rabi_only E) = map (win maxr maxd mn T) E.
Proof. rewrite map_map; apply map_ext; intros; apply rabi_only_win. Qed.

Theorem conversion_ignores_detuning T n0 l maxr maxd mn name c :
  constructible_sequence (sequence_of T n0 l) ->
  convert_dds_to_driven_control (sequence_of T n0 l) maxr maxd mn name = Ok c ->
  convert_dds_to_driven_control (sequence_of T n0 (map rabi_only l)) maxr maxd mn name = Ok c.
Proof.
  intros CS E; destruct (conversion_result _ _ _ _ _ _ _ _ CS E) as [HT [B [C [D N]]]].
  assert (B' : forall e, In e (map rabi_only l) -> 0 <= e_time e <= T).
  { intros e I; apply in_map_iff in I; destruct I as [f [<- I]]; rewrite rabi_only_time; auto. }
  destruct (convert_model T n0 (map rabi_only l) maxr maxd mn name HT B') as [M _].
  destruct M as [c' [E' [D' N']]].
  - destruct C as [C1 [C2 [C3 [C4 [C5 [C6 C7]]]]]]; repeat split; auto.
    + intros e I; apply in_map_iff in I; destruct I as [f [<- I]]; rewrite rabi_only_rabi; auto.
    + intros e I; apply in_map_iff in I; destruct I as [f [<- I]]; rewrite rabi_only_rabi; unfold rabi_only.
      destruct (Rle_dec (Rabs (e_rabi f)) (/ 10 ^ 8)); [apply C5; auto|cbn; lra].
    + rewrite map_map; rewrite (map_ext _ e_time) by apply rabi_only_time; auto.
    + intros g G; apply C7; unfold idle_times in *; rewrite rabi_only_ends in G.
      rewrite (map_ext (fun e => window T (pulse_width maxr maxd mn e) (e_time e)) (win maxr maxd mn T)) in * by reflexivity.
      rewrite rabi_only_windows in G; auto.
  - assert (X : converted maxr maxd mn T (map rabi_only l) = converted maxr maxd mn T l).
    { unfold converted; rewrite rabi_only_ends, rabi_only_windows, rabi_only_weave; auto. }
    rewrite X in D'; rewrite E'; f_equal.
    destruct c, c', D as [D1 [D2 [D3 D4]]], D' as [D1' [D2' [D3' D4']]]; cbn in *; congruence.
Qed.

Theorem conversion_simultaneous T n0 l maxr maxd mn name :
  constructible_sequence (sequence_of T n0 l) ->
  (exists e, In e l /\ 0 < e_rabi e /\ 0 < e_det e) ->
  argument_error (convert_dds_to_driven_control (sequence_of T n0 l) maxr maxd mn name).
Proof.
  intros CS [e [I [R0 D0]]]; apply conversion_acceptance; auto.
  intros C; destruct C as [_ [_ [_ [_ [C _]]]]]; apply (C e); auto.
Qed.

Lemma nonneg_long g : 0 <= g -> long_enough 0 g.
Proof.
  intros H; destruct H as [H|H]; [left; auto|right; unfold near; rewrite <- H, Rminus_eq_0, Rabs_R0].
  assert (S0 := small_pos); lra.
Qed.

(** one pulse in the middle *)
Lemma middle_pulse T n0 r phi d maxr maxd name :
  0 < T -> / 10 ^ 8 < r -> d <= 0 -> 0 < maxr -> 0 < maxd -> r / maxr <= T ->
  let s := sequence_of T n0 [Event (T / 2) r phi d] in
  constructible_sequence s /\ convertible maxr maxd 0 T [Event (T / 2) r phi d] /\
  exists c, convert_dds_to_driven_control s maxr maxd 0 name = Ok c.
Proof.
  intros HT R0 D0 Hr Hd F s.
  assert (CS : constructible_sequence s).
  { apply constructible_well_formed; split; [exact HT|split; [|repeat split]].
    intros t [<-|[]]; unfold s; cbn [e_time sequence_of seq_duration]; lra. }
  assert (S0 := small_pos).
  assert (C : convertible maxr maxd 0 T [Event (T / 2) r phi d]).
  { assert (RM : 0 < r / maxr) by (apply Rdiv_lt_0_compat; lra).
    unfold convertible; repeat split; auto; try lra; try (intros e [<-|[]]; cbn; lra).
    intros g G; apply nonneg_long; unfold idle_times, with_ends in G; cbn [e_time last] in G.
    assert (W0 : forall t, pulse_width maxr maxd 0 (idle t) = 0).
    { intros t; unfold pulse_width; cbn [idle e_rabi e_det]; rewrite Rabs_R0.
      destruct (Rle_dec 0 (/ 10 ^ 8)); [auto|lra]. }
    assert (WP : 0 <= pulse_width maxr maxd 0 (Event (T / 2) r phi d) <= T).
    { unfold pulse_width; cbn [e_rabi]; destruct (Rle_dec (Rabs r) (/ 10 ^ 8)) as [A|A].
      - rewrite Rabs_pos_eq in A by lra; lra.
      - split; [apply Rmax_r|apply Rmax_lub; lra]. }
    destruct (Req_EM_T (T / 2) 0); [lra|]; destruct (Req_EM_T (T / 2) T); [lra|].
    cbn [app map] in G; rewrite !W0 in G; cbn [idle e_time] in G.
    set (w := pulse_width maxr maxd 0 (Event (T / 2) r phi d)) in *.
    unfold window, centre in G; destruct (Req_EM_T 0 0); [|lra]; destruct (Req_EM_T (T / 2) 0); [lra|].
    destruct (Req_EM_T (T / 2) T); [lra|]; destruct (Req_EM_T T 0); [lra|]; destruct (Req_EM_T T T); [|lra].
    cbn [gaps In] in G; destruct G as [<-|[<-|[]]]; lra. }
  split; auto; split; auto; apply (conversion_acceptance T n0 _ maxr maxd 0 name CS); auto.
Qed.

Theorem conversion_simultaneous_refuted T n0 r phi d maxr maxd name :
  / 10 ^ 8 < T -> / 10 ^ 8 < r -> d < 0 -> 0 < maxr -> 0 < maxd -> r / maxr <= T ->
  let s := sequence_of T n0 [Event (T / 2) r phi d] in
  constructible_sequence s /\
  exists c segs, convert_dds_to_driven_control s maxr maxd 0 name = Ok c /\ describes segs c /\
    evolution segs = rotation r phi.
Proof.
  intros HT R0 D0 Hr Hd F s; assert (S0 := small_pos).
  destruct (middle_pulse T n0 r phi d maxr maxd name) as [CS [C [c E]]]; auto; try lra.
  split; auto; destruct (conversion_result _ _ _ _ _ _ _ _ CS E) as [_ [_ [_ [D _]]]].
  exists c, (converted maxr maxd 0 T [Event (T / 2) r phi d]); split; auto; split; auto.
  assert (E' := conversion_ignores_detuning _ _ _ _ _ _ _ _ CS E).
  assert (RO : map rabi_only [Event (T / 2) r phi d] = [Event (T / 2) r phi 0]).
  { cbn [map]; unfold rabi_only; cbn [e_rabi e_time e_phi]; destruct (Rle_dec (Rabs r) (/ 10 ^ 8)) as [A|A]; auto.
    rewrite Rabs_pos_eq in A by lra; lra. }
  rewrite RO in E'.
  destruct (middle_pulse T n0 r phi 0 maxr maxd name) as [CS' _]; auto; try lra.
  rewrite (conversion_net T n0 [Event (T / 2) r phi 0] maxr maxd 0 name c _ CS'); auto.
  - cbn [pulse_product]; rewrite mmul_1_l; apply pulse_rotation; lra.
  - intros e [<-|[]]; left; cbn; split; auto; right; unfold negligible; rewrite Rabs_pos_eq; lra.
Qed.

(** ** C54: short sequences *)

Theorem conversion_keeps_pulses T n0 l maxr maxd mn name c segs :
  constructible_sequence (sequence_of T n0 l) -> / 10 ^ 8 < T ->
  convert_dds_to_driven_control (sequence_of T n0 l) maxr maxd mn name = Ok c -> describes segs c ->
  (exists e, In e l /\ effective e = true) -> exists g, In g segs /\ active g = true.
Proof.
  intros CS L E D [e [I Ef]]; assert (P := conversion_pulses _ _ _ _ _ _ _ _ _ CS L E D).
  assert (N : In e (filter effective l)) by (apply filter_In; auto).
  destruct (filter active segs) as [|g gs] eqn:Q.
  - inversion P as [X|]; rewrite <- X in N; destruct N.
  - exists g; apply filter_In; rewrite Q; left; auto.
Qed.

Theorem conversion_keeps_pulses_refuted T n0 r phi maxr maxd name :
  0 < T <= / 10 ^ 8 -> / 10 ^ 8 < r -> 0 < maxr -> 0 < maxd -> r / maxr <= T ->
  let s := sequence_of T n0 [Event (T / 2) r phi 0] in
  constructible_sequence s /\
  exists c, convert_dds_to_driven_control s maxr maxd 0 name = Ok c /\ describes [Seg 0 0 0 T] c.
Proof.
  intros [HT LT] R0 Hr Hd F s; assert (S0 := small_pos).
  destruct (middle_pulse T n0 r phi 0 maxr maxd name) as [CS [C [c E]]]; auto; try lra.
  split; auto; exists c; split; auto.
  destruct (conversion_result _ _ _ _ _ _ _ _ CS E) as [_ [B [_ [D _]]]].
  unfold converted in D; assert (A : allclose0 (map (win maxr maxd 0 T) (with_ends T [Event (T / 2) r phi 0])) = true);
    [|rewrite A in D; exact D].
  unfold allclose0; apply forallb_forall; intros p I; apply in_map_iff in I; destruct I as [e [<- I]].
  assert (K : 0 <= fst (win maxr maxd 0 T e) /\ snd (win maxr maxd 0 T e) <= T /\ fst (win maxr maxd 0 T e) <= snd (win maxr maxd 0 T e)).
  { apply with_ends_in in I.
    assert (W0 : forall t, pulse_width maxr maxd 0 (idle t) = 0).
    { intros t; unfold pulse_width; cbn [idle e_rabi e_det]; rewrite Rabs_R0.
      destruct (Rle_dec 0 (/ 10 ^ 8)); [auto|lra]. }
    assert (RM : 0 < r / maxr) by (apply Rdiv_lt_0_compat; lra).
    unfold win, window, centre; destruct I as [[<-|[]]|[->| ->]].
    - assert (WP : 0 <= pulse_width maxr maxd 0 (Event (T / 2) r phi 0) <= T).
      { unfold pulse_width; cbn [e_rabi]; destruct (Rle_dec (Rabs r) (/ 10 ^ 8)) as [A|A].
        - rewrite Rabs_pos_eq in A by lra; lra.
        - split; [apply Rmax_r|apply Rmax_lub; lra]. }
      cbn [e_time]; destruct (Req_EM_T (T / 2) 0); [lra|]; destruct (Req_EM_T (T / 2) T); [lra|].
      cbn [fst snd]; lra.
    - rewrite W0; cbn [idle e_time]; destruct (Req_EM_T 0 0); [cbn; lra|lra].
    - rewrite W0; cbn [idle e_time]; destruct (Req_EM_T T 0); [lra|]; destruct (Req_EM_T T T); [cbn; lra|lra]. }
  apply andb_true_iff; rewrite !isclose0_dec.
  destruct (Rle_dec (Rabs (fst (win maxr maxd 0 T e))) (/ 10 ^ 8)) as [_|N]; [|exfalso; apply N; rewrite Rabs_pos_eq; lra].
  destruct (Rle_dec (Rabs (snd (win maxr maxd 0 T e))) (/ 10 ^ 8)) as [_|N]; [auto|exfalso; apply N; rewrite Rabs_pos_eq; lra].
Qed.

(** ** C46, C49: overlapping windows within the tolerance *)

Lemma touching : let l := [Event 0 (1 / 2 + / 10 ^ 9) 0 0; Event 1 (1 / 2) 0 0] in
  constructible_sequence (sequence_of 1 None l) /\ convertible 1 1 0 1 l /\
  idle_times 1 1 0 1 l = [- / 10 ^ 9].
Proof.
  intros l; assert (S0 := small_pos).
  assert (W0 : pulse_width 1 1 0 (Event 0 (1 / 2 + / 10 ^ 9) 0 0) = 1 / 2 + / 10 ^ 9).
  { unfold pulse_width; cbn [e_rabi]; rewrite Rabs_pos_eq by lra.
    destruct (Rle_dec (1 / 2 + / 10 ^ 9) (/ 10 ^ 8)); [lra|]; rewrite Rmax_left by lra; field. }
  assert (W1 : pulse_width 1 1 0 (Event 1 (1 / 2) 0 0) = 1 / 2).
  { unfold pulse_width; cbn [e_rabi]; rewrite Rabs_pos_eq by lra.
    destruct (Rle_dec (1 / 2) (/ 10 ^ 8)); [lra|]; rewrite Rmax_left by lra; field. }
  assert (I : idle_times 1 1 0 1 l = [- / 10 ^ 9]).
  { unfold idle_times, with_ends, l; cbn [last e_time]; destruct (Req_EM_T 0 0); [|lra]; destruct (Req_EM_T 1 1); [|lra].
    cbn [app map]; rewrite W0, W1; cbn [e_time]; unfold window, centre.
    destruct (Req_EM_T 0 0); [|lra]; destruct (Req_EM_T 1 0); [lra|]; destruct (Req_EM_T 1 1); [|lra].
    cbn [gaps]; f_equal; lra. }
  split; [|split; auto].
  - apply constructible_well_formed; split; [cbn [sequence_of seq_duration]; lra|split; [|repeat split]].
    intros t [<-|[<-|[]]]; cbn [e_time sequence_of seq_duration]; lra.
  - unfold convertible; rewrite I; repeat split; try lra; unfold l.
    + intros e [<-|[<-|[]]]; cbn; lra.
    + intros e [<-|[<-|[]]]; cbn; lra.
    + cbn; lra.
    + intros g [<-|[]]; right; unfold near; rewrite Rminus_0_r, Rabs_Ropp, Rabs_pos_eq, Rabs_R0; lra.
Qed.

Theorem conversion_duration_refuted : exists s c,
  constructible_sequence s /\ convert_dds_to_driven_control s 1 1 0 None = Ok c /\ duration c <> seq_duration s.
Proof.
  destruct touching as [CS [C I]].
  destruct (proj1 (proj1 (conversion_acceptance 1 None _ 1 1 0 None CS)) C) as [c E].
  eexists; exists c; split; [exact CS|]; split; auto.
  destruct (conversion_duration 1 None _ 1 1 0 None c CS E) as [_ [_ [D _]]].
  rewrite D by lra; rewrite I; unfold overlap; cbn [map total sequence_of seq_duration].
  rewrite Rmax_right by lra; lra.
Qed.

(** the second pulse of this sequence is not centred exactly *)
Theorem conversion_timing_refuted : exists s c segs,
  constructible_sequence s /\ convert_dds_to_driven_control s 1 1 0 None = Ok c /\ describes segs c /\
  offsets s = [0; 1] /\ seq_duration s = 1 /\
  segs = [Seg 1 0 0 (1 / 2 + / 10 ^ 9); Seg 1 0 0 (1 / 2)] /\
  map fst (midpoints 0 segs) = [centre 1 (1 / 2 + / 10 ^ 9) 0; centre 1 (1 / 2) 1 + / 10 ^ 9].
Proof.
  destruct touching as [CS [C I]]; assert (S0 := small_pos).
  destruct (proj1 (proj1 (conversion_acceptance 1 None _ 1 1 0 None CS)) C) as [c E].
  destruct (conversion_result _ _ _ _ _ _ _ _ CS E) as [_ [_ [_ [D _]]]].
  set (e0 := Event 0 (1 / 2 + / 10 ^ 9) 0 0) in *; set (e1 := Event 1 (1 / 2) 0 0) in *.
  assert (W0 : pulse_width 1 1 0 e0 = 1 / 2 + / 10 ^ 9).
  { unfold pulse_width, e0; cbn [e_rabi]; rewrite Rabs_pos_eq by lra.
    destruct (Rle_dec (1 / 2 + / 10 ^ 9) (/ 10 ^ 8)); [lra|]; rewrite Rmax_left by lra; field. }
  assert (W1 : pulse_width 1 1 0 e1 = 1 / 2).
  { unfold pulse_width, e1; cbn [e_rabi]; rewrite Rabs_pos_eq by lra.
    destruct (Rle_dec (1 / 2) (/ 10 ^ 8)); [lra|]; rewrite Rmax_left by lra; field. }
  assert (P0 : pulse_seg 1 1 0 e0 = Seg 1 0 0 (1 / 2 + / 10 ^ 9)).
  { unfold pulse_seg; rewrite W0; unfold e0; cbn [e_rabi e_phi]; rewrite Rabs_pos_eq by lra.
    destruct (Rle_dec (1 / 2 + / 10 ^ 9) (/ 10 ^ 8)); [lra|]; f_equal; field. }
  assert (P1 : pulse_seg 1 1 0 e1 = Seg 1 0 0 (1 / 2)).
  { unfold pulse_seg; rewrite W1; unfold e1; cbn [e_rabi e_phi]; rewrite Rabs_pos_eq by lra.
    destruct (Rle_dec (1 / 2) (/ 10 ^ 8)); [lra|]; f_equal; field. }
  assert (G : fst (win 1 1 0 1 e1) - snd (win 1 1 0 1 e0) = - / 10 ^ 9).
  { unfold win, window, centre; rewrite W0, W1; unfold e0, e1; cbn [e_time fst snd].
    destruct (Req_EM_T 0 0); [|lra]; destruct (Req_EM_T 1 0); [lra|]; destruct (Req_EM_T 1 1); [|lra]; lra. }
  assert (K : converted 1 1 0 1 [e0; e1] = [Seg 1 0 0 (1 / 2 + / 10 ^ 9); Seg 1 0 0 (1 / 2)]).
  { rewrite converted_long; [|exact C|lra|apply (sequence_bounds _ _ _ CS)|lra]; unfold with_ends; cbn [last].
    change (e_time e0) with 0; change (e_time e1) with 1.
    destruct (Req_EM_T 0 0); [|lra]; destruct (Req_EM_T 1 1); [|lra].
    cbn [app weave gap_after]; rewrite P0, P1, G; unfold lasting; cbn [filter g_dur].
    replace (ltb 0 (1 / 2 + / 10 ^ 9)) with true by (symmetry; apply ltb_true; lra).
    replace (ltb 0 (- / 10 ^ 9)) with false by (symmetry; apply ltb_false; lra).
    replace (ltb 0 (1 / 2)) with true by (symmetry; apply ltb_true; lra).
    replace (ltb 0 0) with false by (symmetry; apply ltb_false; lra); reflexivity. }
  rewrite K in D.
  eexists; exists c; eexists; split; [exact CS|]; split; [exact E|]; split; [exact D|].
  split; [reflexivity|]; split; [reflexivity|]; split; [reflexivity|].
  cbn [midpoints map fst g_dur]; unfold centre.
  destruct (Req_EM_T 0 0); [|lra]; destruct (Req_EM_T 1 0); [lra|]; destruct (Req_EM_T 1 1); [|lra].
  f_equal; [lra|]; f_equal; lra.
Qed.

(** ** C55, C10: export of sequences *)

Theorem sequence_file_export d s f fmt ty coords maxr maxd :
  (forall c, convert_dds_to_driven_control s maxr maxd 0 (seq_name s) = Ok c ->
     dds_export_to_file d s f fmt ty coords maxr maxd = export_to_file d c f fmt ty coords) /\
  (forall x, convert_dds_to_driven_control s maxr maxd 0 (seq_name s) = Raise x ->
     dds_export_to_file d s f fmt ty coords maxr maxd = (d, Some x)).
Proof. unfold dds_export_to_file; split; intros y ->; reflexivity. Qed.

Theorem sequence_export_frame d s f fmt ty coords maxr maxd d' e :
  constructible_sequence s ->
  dds_export_to_file d s f fmt ty coords maxr maxd = (d', e) ->
  same_except f d d' /\ (e <> None -> d' = d) /\ (e = None -> d' f <> None).
Proof.
  intros CS; unfold dds_export_to_file.
  destruct (convert_dds_to_driven_control s maxr maxd 0 (seq_name s)) as [c|x] eqn:E.
  - destruct (sequence_events s CS) as [l Q]; rewrite Q in CS, E.
    destruct (conversion_acceptance _ _ l maxr maxd 0 (seq_name s) CS) as [_ [K _]].
    apply export_frame, (K c E).
  - intros H; injection H as <- <-; repeat split; auto; discriminate.
Qed.
