(** * From the request to the file in floating point: lemmas *)

From Coq Require Import ZArith Lia Lra.
From Flocq Require Import Core.
From Verif Require Export L_FloatSchemes L_FloatExport L_FloatPipeline Spec_FloatFiles.
Import ListNotations.
Open Scope string_scope.
Open Scope list_scope.
Open Scope R_scope.
Set Bullet Behavior "Strict Subproofs".

(** ** The numbers of a converted sequence *)

Lemma pad_angles T ops o : In o (pad_operations T ops) -> In o ops \/ op_azimuthal o = 0.
Proof.
  unfold pad_operations.
  assert (A : forall o, In o (pad_empty T ops) -> In o ops \/ op_azimuthal o = 0).
  { unfold pad_empty; destruct ops; auto; intros x [<-|[<-|[]]]; auto. }
  assert (B : forall l o, In o (pad_front l) -> In o l \/ op_azimuthal o = 0).
  { intros l x; unfold pad_front; destruct l; auto; destruct (neqb _ _); auto; intros [<-|I]; auto. }
  assert (C : forall l o, In o (pad_back T l) -> In o l \/ op_azimuthal o = 0).
  { intros l x; unfold pad_back; destruct (neqb _ _); auto.
    intros I; apply in_app_or in I; destruct I as [I|[<-|[]]]; auto. }
  intros I; destruct (C _ _ I) as [I1|]; auto; destruct (B _ _ I1) as [I2|]; auto.
Qed.

Lemma operations_angles t r a d o : In o (operations_of t r a d) -> In (op_azimuthal o) a.
Proof.
  revert r a d; induction t as [|x t IH]; intros [|y r] [|z a] [|w d]; cbn; try tauto.
  intros [<-|I]; cbn; eauto.
Qed.

Lemma interleave_format ops ses :
  (forall o, In o ops -> binary64_format (op_azimuthal o)) ->
  forall g, In g (fl_interleave binary64 ops ses) ->
  binary64_format (seg_rabi g) /\ binary64_format (seg_azimuthal g) /\ binary64_format (seg_detuning g) /\ binary64_format (seg_duration g).
Proof.
  assert (Z := format_0).
  revert ses; induction ops as [|o ops IH]; intros [|se ses] H g; cbn [fl_interleave]; try (intros []).
  - subst g; unfold fl_pulse_segment; cbv zeta.
    assert (F := format_rnd (snd se - fst se)).
    repeat match goal with |- context [if ?b then _ else _] => destruct b end; cbn [seg_rabi seg_azimuthal seg_detuning seg_duration];
      repeat split; auto; try apply format_rnd; apply H; left; auto.
  - destruct H0 as [<-|I].
    + cbn [seg_rabi seg_azimuthal seg_detuning seg_duration]; repeat split; auto; destruct ses; auto; apply format_rnd.
    + apply (IH ses); auto; intros x J; apply H; right; auto.
Qed.

Lemma DrivenControl_fields ts r a d name c : DrivenControl ts (Some r) (Some a) (Some d) name = Ok c ->
  c = MkDrivenControl r a d ts name.
Proof.
  unfold DrivenControl; cbv zeta.
  repeat match goal with |- bind (check_arguments ?b ?s ?x ?e) _ = _ -> _ =>
    destruct b; [rewrite (check_true true s x e eq_refl); cbn [bind]|discriminate] end.
  intros E; injection E as <-; reflexivity.
Qed.

Theorem converted_numbers s maxr maxd mn name c :
  binary64_format (seq_duration s) -> (forall x, In x (seq_azimuthal_angles s) -> binary64_format x) ->
  fl_convert binary64 s maxr maxd mn name = Ok c -> stored_numbers c.
Proof.
  intros FT FA; unfold fl_convert; cbv zeta.
  repeat match goal with |- bind (check_arguments ?b ?s ?a ?e) _ = _ -> _ =>
    destruct b; [rewrite (check_true true s a e eq_refl); cbn [bind]|discriminate] end.
  match goal with |- (if ?b then _ else _) = _ -> _ => destruct b end; unfold control_of_segments; intros E;
    apply DrivenControl_fields in E; subst c; intros x; cbn [rabi_rates azimuthal_angles detunings durations].
  - intros [[<-|[]]|[[<-|[]]|[[<-|[]]|[<-|[]]]]]; auto; apply format_0.
  - set (ops := pad_operations (seq_duration s) (dds_operations s)).
    assert (F : forall o, In o ops -> binary64_format (op_azimuthal o)).
    { intros o I; apply pad_angles in I; destruct I as [I| ->]; [|apply format_0].
      apply FA; apply operations_angles in I; auto. }
    set (ses := fl_pulse_start_ends _ _ _ _).
    assert (G : forall g, In g (filter (fun g => ltb 0 (seg_duration g)) (fl_interleave binary64 ops ses)) ->
      binary64_format (seg_rabi g) /\ binary64_format (seg_azimuthal g) /\ binary64_format (seg_detuning g) /\ binary64_format (seg_duration g)).
    { intros g I; apply filter_In in I; apply (interleave_format ops ses F); apply I. }
    intros [I|[I|[I|I]]]; apply in_map_iff in I; destruct I as [g [<- I]]; apply G; auto.
Qed.

(** ** The numbers of a composite pulse *)

Theorem scheme_numbers fsin fcos facos fasin s th w phi name c :
  binary64_format w -> binary64_format phi ->
  fl_build binary64 fsin fcos facos fasin float_pi s th w phi name = Ok c -> stored_numbers c.
Proof.
  intros FW FP; assert (Z := format_0).
  assert (FR : forall x, binary64_format (binary64 x)) by apply format_rnd.
  assert (CR : forall rs az c, fl_constant_rate binary64 rs az w name = Ok c -> (forall x, In x az -> binary64_format x) -> stored_numbers c).
  { intros rs az c' E F; unfold fl_constant_rate in E; cbv zeta in E; apply DrivenControl_fields in E; subst c'.
    intros x; cbn [rabi_rates azimuthal_angles detunings durations]; intros [I|[I|[I|I]]]; auto.
    - apply repeat_spec in I; subst; auto.
    - apply repeat_spec in I; subst; auto.
    - apply in_map_iff in I; destruct I as [y [<- _]]; auto. }
  Ltac step := match goal with
    | |- bind (Raise _) _ = _ -> _ => discriminate
    | |- bind (bind _ _) _ = _ -> _ => idtac
    | |- bind ?m _ = _ -> _ => destruct m; cbn [bind]; [|discriminate]
    end.
  destruct s; cbn [fl_build]; unfold fl_primitive, fl_bb1, fl_sk1, fl_scrofulous, fl_corpse, fl_corpse_in_bb1, fl_corpse_in_sk1,
    fl_corpse_in_scrofulous, fl_wamf1; cbv zeta; repeat step; intros E.
  1-8: apply CR in E; auto; intros x I; cbn in I; repeat (destruct I as [<-|I]; auto); destruct I.
  destruct (fl_wamf1_thetas _ _ _) as [tp tm]; apply DrivenControl_fields in E; subst c.
  intros x; cbn [rabi_rates azimuthal_angles detunings durations map repeat]; intros I.
  repeat destruct I as [I|I]; subst; auto; try destruct I.
Qed.

(** ** Pulses that are not about z *)

Lemma filled {X} (f : nat -> X) n : (1 <= n)%nat -> In (f 1%nat) (map f (seq 1 n)).
Proof. intros N; apply in_map, in_seq; lia. Qed.
Lemma nonempty_pair (a : axis) (ts : list R) : ts <> [] -> exists t, In (a, t) (map (fun t => (a, t)) ts).
Proof. destruct ts as [|t ts]; [congruence|]; intros _; exists t; left; auto. Qed.
Lemma switched_nonempty T ts : 0 < T -> switched (fun t => t ^ 1) T ts = 0 -> ts <> [].
Proof. intros HT E ->; unfold switched in E; cbn [switched_from] in E; lra. Qed.

Lemma request_drives r rel : valid_request r -> separated r true -> r <> Ramsey -> describes_request r rel ->
  exists a t, In (a, t) rel /\ a <> AZ.
Proof.
  intros V SP NR D.
  assert (G : forall rel', describes_request r rel' -> (exists a t, In (a, t) rel' /\ a <> AZ) -> exists a t, In (a, t) rel /\ a <> AZ).
  { intros rel' D' H; rewrite (L_FloatRound.describes_unique _ _ _ D D'); auto. }
  destruct r as [| |x|x|x|x|x|x y|x|x]; try congruence; cbn [valid_request] in V.
  - apply (G [(AX, 1 / 2)]); [|exists AX, (1 / 2); split; [left; auto|discriminate]].
    intros T pre name HT; cbn [build_sequence map]; unfold scale; cbn [fst snd].
    replace (T * (1 / 2)) with (T / 2) by field; apply spin_echo_timing; auto.
  - destruct (trunc x V) as [n [N [TR NX]]]; apply (G (map (fun i => (AX, 1 / INR n * (INR i - 1 / 2))) (seq 1 n))).
    + intros T pre name HT; cbn [build_sequence]; rewrite (carr_purcell_timing T x n pre name) by auto.
      rewrite map_map; do 3 f_equal; apply map_ext; intros i; unfold scale; cbn [fst snd]; f_equal; unfold Rdiv; ring.
    + do 2 eexists; split; [apply (filled (fun i => (AX, 1 / INR n * (INR i - 1 / 2))) n N)|discriminate].
  - destruct (trunc x V) as [n [N [TR NX]]]; apply (G (map (fun i => (AY, 1 / INR n * (INR i - 1 / 2))) (seq 1 n))).
    + intros T pre name HT; cbn [build_sequence]; rewrite (cpmg_timing T x n pre name) by auto.
      rewrite map_map; do 3 f_equal; apply map_ext; intros i; unfold scale; cbn [fst snd]; f_equal; unfold Rdiv; ring.
    + do 2 eexists; split; [apply (filled (fun i => (AY, 1 / INR n * (INR i - 1 / 2))) n N)|discriminate].
  - destruct (trunc x V) as [n [N [TR NX]]]; apply (G (map (fun i => (AY, uhrig_time 1 n i)) (seq 1 n))).
    + intros T pre name HT; cbn [build_sequence]; rewrite (uhrig_timing T x n pre name) by auto.
      rewrite map_map; do 3 f_equal; apply map_ext; intros i; unfold scale; cbn [fst snd]; f_equal; unfold uhrig_time; ring.
    + do 2 eexists; split; [apply (filled (fun i => (AY, uhrig_time 1 n i)) n N)|discriminate].
  - destruct (trunc x V) as [n [N [TR NX]]]; apply (G (map (fun i => (AX, INR i / (INR n + 1))) (seq 1 n))).
    + intros T pre name HT; cbn [build_sequence]; rewrite (periodic_timing T x n pre name) by auto.
      rewrite map_map; do 3 f_equal; apply map_ext; intros i; unfold scale; cbn [fst snd]; f_equal; unfold Rdiv; ring.
    + do 2 eexists; split; [apply (filled (fun i => (AX, INR i / (INR n + 1))) n N)|discriminate].
  - destruct (trunc x ltac:(lra)) as [k [N [TR NX]]]; apply (G (map (fun t => (AX, t)) (walsh_times 1 k))).
    + intros T pre name HT; cbn [build_sequence]; rewrite (walsh_model T x k pre name) by auto.
      rewrite map_scale; do 4 f_equal; unfold walsh_times, change_times; rewrite map_map; apply map_ext; intros i; unfold Rdiv; ring.
    + destruct (nonempty_pair AX (walsh_times 1 k)) as [t I]; [|exists AX, t; split; [auto|discriminate]].
      apply (switched_nonempty 1); [lra|apply walsh_moments, ones_pos; auto].
  - destruct (trunc x ltac:(lra)) as [n1 [N1 [TR1 NX1]]]; destruct (trunc y ltac:(lra)) as [n2 [N2 [TR2 NX2]]].
    apply (G (quadratic_pulses 1 n1 n2)).
    + intros T pre name HT; cbn [build_sequence]; rewrite <- quadratic_scale; apply quadratic_timing; auto.
    + exists AX, (uhrig_time 1 n2 1); split; [|discriminate].
      unfold quadratic_pulses; apply in_concat; exists (quadratic_block 1 n1 n2 0); split; [apply in_map, in_seq; lia|].
      unfold quadratic_block; cbv zeta; apply in_or_app; right; rewrite (proj2 (Nat.ltb_lt 0 n2)) by lia; left; reflexivity.
  - destruct (trunc x V) as [l [N [TR NX]]]; apply (G (map (fun t => (AX, t)) (x_times 1 l))).
    + intros T pre name HT; cbn [build_sequence]; rewrite (x_model T x l pre name) by auto.
      rewrite map_scale; do 4 f_equal; unfold x_times, change_times; rewrite map_map; apply map_ext; intros i; unfold Rdiv; ring.
    + destruct (nonempty_pair AX (x_times 1 l)) as [t I]; [|exists AX, t; split; [auto|discriminate]].
      apply (switched_nonempty 1); [lra|apply x_moments; auto].
  - cbn [separated] in SP; destruct SP as [[_ SP]|X2]; [discriminate|].
    assert (TR : truncates_to x 2) by (split; cbn [INR]; lra).
    apply (G (map (scale_z (1 / 16)) (xy_small 2))).
    + intros T pre' name HT; cbn [build_sequence].
      rewrite (xy_model T x 2 pre' name (xy_small 2)); [|exact HT|exact TR|lia|apply xy_small_slots; right; auto|intros; apply xy_small_bounds; auto; right; auto].
      rewrite map_map; do 3 f_equal; apply map_ext; intros [a z]; unfold scale, scale_z; cbn [fst snd]; f_equal; cbn [Nat.mul Nat.add pow]; field.
    + do 2 eexists; split; [cbn [xy_small map scale_z fst snd]; left; reflexivity|discriminate].
Qed.

Lemma sequence_drives r T pre name l0 : 0 < T -> valid_request r -> separated r true -> drives r pre ->
  build_sequence r T pre name = Ok (sequence_of T name l0) -> exists e, In e l0 /\ 0 < e_rabi e.
Proof.
  intros HT V SP DR E; destruct (request_good r V SP) as [rel [D _]]; assert (P := PI_RGT_0).
  assert (H : exists e, In e (with_pre_post pre T (map (scale T) rel)) /\ 0 < e_rabi e).
  { destruct pre.
    - exists (Event 0 (PI / 2) 0 0); split; [left; reflexivity|cbn; lra].
    - destruct DR as [NR|DR]; [|discriminate].
      destruct (request_drives r rel V SP NR D) as [a [t [I A]]]; exists (pi_pulse (scale T (a, t))); split.
      + cbn [with_pre_post]; apply in_map, in_map; auto.
      + unfold scale; cbn [fst snd]; destruct a; try congruence; cbn; lra. }
  destruct H as [e [I H]].
  rewrite (D T pre name HT) in E; unfold sequence_of in E; injection E as _ E _ _.
  assert (J : In (e_rabi e) (map e_rabi l0)) by (rewrite <- E; apply in_map; auto).
  apply in_map_iff in J; destruct J as [f [EF J]]; exists f; rewrite EF; auto.
Qed.

(** ** The segments of a converted predefined sequence *)

Lemma laboratory_ordinary T : binary64_format T -> laboratory_duration T -> ordinary_duration T.
Proof.
  intros FT HL; assert (UT := T_low T HL); assert (UH := T_high T HL); split; auto; split.
  - assert (A := inv_pow_le 100 900 ltac:(lia)); assert (B : / 2 ^ 100 = / 1267650600228229401496703205376) by (f_equal; ring); lra.
  - assert (A : 2 ^ 20 <= 2 ^ 900) by (apply Rle_pow; [lra|lia]); replace (2 ^ 20) with 1048576 in A by ring; lra.
Qed.

Lemma big_pow k x : (k <= 1023)%nat -> Rabs x <= 2 ^ k -> Rabs x < 2 ^ 1024.
Proof.
  intros K H; eapply Rle_lt_trans; [exact H|]; apply Rle_lt_trans with (2 ^ 1023); [apply Rle_pow; [lra|auto]|].
  apply Rlt_pow; [lra|lia].
Qed.

Lemma total_rounded T a b : Forall2 (rounded_segment T) a b ->
  total (map g_dur a) <= total (map g_dur b) + INR (List.length b) * (T / 2 ^ 48).
Proof.
  induction 1 as [|g g0 a b R _ IH]; cbn [map total List.length]; [cbn [INR]; lra|].
  destruct R as [_ [R _]]; apply Rabs_le_inv in R; rewrite S_INR; lra.
Qed.

Lemma weave_length maxr maxd mn T E : List.length (weave maxr maxd mn T E) = (2 * List.length E)%nat.
Proof. induction E as [|e E IH]; cbn [weave List.length]; auto; rewrite IH; lia. Qed.
Lemma filter_length_le {X} (f : X -> bool) l : (List.length (filter f l) <= List.length l)%nat.
Proof. induction l as [|x l IH]; cbn; auto; destruct (f x); cbn; lia. Qed.
Lemma converted_length maxr maxd mn T l : (List.length (converted maxr maxd mn T l) <= 2 * (List.length l + 2))%nat.
Proof.
  unfold converted; destruct (allclose0 _); cbn [List.length]; [lia|].
  assert (A := filter_length_le lasting (weave maxr maxd mn T (with_ends T l))); rewrite weave_length in A.
  assert (B := ends_length T l); lia.
Qed.

Lemma total_active segs : total (map (fun g => g_rabi g * g_dur g) segs) = total (map (fun g => g_rabi g * g_dur g) (filter active segs)).
Proof.
  induction segs as [|g segs IH]; auto; cbn [map total filter]; unfold active at 1.
  destruct (Req_EM_T (g_rabi g) 0) as [Z|Z]; [destruct (Req_EM_T (g_det g) 0)|]; cbn [map total]; rewrite IH; auto.
  rewrite Z; ring.
Qed.

Lemma total_performed les lg : (forall e, In e les -> 0 <= e_rabi e <= PI) -> Forall2 performs_rounded les lg ->
  total (map (fun g => g_rabi g * g_dur g) lg) <= INR (List.length les) * (PI * (1 + / 2 ^ 53)).
Proof.
  intros H F; assert (P := PI_RGT_0); assert (I := inv_pow_pos 53).
  induction F as [|e g a b PR F IH]; cbn [map total List.length]; [cbn [INR]; lra|].
  assert (IH' := IH (fun x J => H x (or_intror J))); rewrite S_INR.
  assert (B := H e (or_introl eq_refl)).
  assert (K : g_rabi g * g_dur g <= PI * (1 + / 2 ^ 53)); [|lra].
  destruct PR as [[_ [A _]]|[_ [A _]]].
  - apply Rabs_le_inv in A; unfold Rdiv in A; assert (e_rabi e * / 2 ^ 53 <= PI * / 2 ^ 53) by (apply Rmult_le_compat_r; lra); lra.
  - rewrite A, Rmult_0_l; apply Rmult_le_pos; lra.
Qed.

Lemma pow_2_66 : 2 ^ 40 * 50000000 <= 2 ^ 66.
Proof. assert (2 ^ 40 = 1099511627776) by ring; assert (2 ^ 66 = 73786976294838206464) by ring; lra. Qed.

Section Segments.
  Variables (T : R) (n0 : option string) (l : list event) (maxr maxd mn : R) (name : option string) (c : driven_control) (segs : list seg).
  Hypotheses (HL : laboratory_duration T) (FT : binary64_format T).
  Hypothesis ST : forall e, In e l -> standard pi_ratio e /\ Rabs (e_phi e) <= 4.
  Hypothesis CS : constructible_sequence (sequence_of T n0 l).
  Hypothesis CV : convertible maxr maxd mn T l.
  Hypothesis RS : resolved maxr maxd mn T l.
  Hypotheses (R1 : T / 2 ^ 40 <= 1 / maxr) (R2 : T / 2 ^ 40 <= 1 / maxd).
  Hypothesis FP : forall e, In e l -> binary64_format (e_phi e).
  Hypothesis E : fl_convert binary64 (sequence_of T n0 l) maxr maxd mn name = Ok c.
  Hypothesis D : describes segs c.

  Lemma pulse_facts e : In e l -> definite (e_rabi e) /\ definite (e_det e) /\ 0 <= e_rabi e <= PI.
  Proof.
    intros I; destruct (standard_facts pi_ratio e (proj1 pi_ratio_bounds) (proj1 (ST e I))) as [A [B [C X]]].
    split; auto; split; auto.
    assert (P := PI_RGT_0); assert (K := proj1 pi_ratio_bounds).
    destruct (proj1 (ST e I)) as [[_ [->| ->]]|[-> _]]; nra.
  Qed.

  Lemma rate_size m : 0 < m -> T / 2 ^ 40 <= 1 / m -> m * T <= 2 ^ 40 /\ m <= 2 ^ 66.
  Proof.
    intros M H; assert (UT := T_low T HL); assert (P40 : 0 < 2 ^ 40) by (apply pow_lt; lra).
    assert (A : m * T <= 2 ^ 40).
    { apply (Rmult_le_compat_l (m * 2 ^ 40)) in H; [|apply Rmult_le_pos; lra].
      replace (m * 2 ^ 40 * (T / 2 ^ 40)) with (m * T) in H by (field; lra).
      replace (m * 2 ^ 40 * (1 / m)) with (2 ^ 40) in H by (field; lra); auto. }
    split; auto; assert (K := pow_2_66).
    apply Rle_trans with (2 ^ 40 * 50000000); [|lra].
    assert (m * (2 / 100000000) <= m * T) by (apply Rmult_le_compat_l; lra); lra.
  Qed.

  Lemma converted_total c0 : convert_dds_to_driven_control (sequence_of T n0 l) maxr maxd mn name = Ok c0 ->
    describes (converted maxr maxd mn T l) c0 -> total (map g_dur (converted maxr maxd mn T l)) = T.
  Proof.
    intros E0 D0; destruct (conversion_duration T n0 l maxr maxd mn name c0 CS E0) as [Q _].
    assert (UT := T_low T HL); assert (P40 : 0 < / 2 ^ 40) by apply inv_pow_pos.
    assert (G0 : forall g, In g (idle_times maxr maxd mn T l) -> 0 <= g).
    { intros x J; apply (proj2 RS) in J; assert (0 <= T / 2 ^ 40) by (unfold Rdiv; apply Rmult_le_pos; lra); lra. }
    specialize (Q G0); unfold duration in Q; rewrite np_sum_total in Q; destruct D0 as [_ [_ [_ D0]]]; rewrite D0 in Q; exact Q.
  Qed.

  Lemma segments_moderate : forall g, In g segs -> moderate_segment g /\ 0 <= g_rabi g <= 2 * maxr.
  Proof.
    intros g I; assert (UT := T_low T HL); assert (UH := T_high T HL); assert (P40 : 0 < / 2 ^ 40) by apply inv_pow_pos.
    assert (Hr := proj1 CV); assert (Hd := proj1 (proj2 CV)).
    destruct (float_rates T n0 l maxr maxd mn name c segs (T / 2 ^ 40) CS HL (fun e J => conj (proj1 (pulse_facts e J)) (proj1 (proj2 (pulse_facts e J)))) CV RS E D
      ltac:(unfold Rdiv; apply Rmult_lt_0_compat; lra) (proj1 RS) g I) as [B1 B2].
    replace (T / (T / 2 ^ 40) / 2 ^ 48) with (/ 256) in B1, B2 by (field; repeat split; try lra; apply pow_nonzero; lra).
    destruct (rate_size maxr Hr R1) as [_ S1]; destruct (rate_size maxd Hd R2) as [_ S2].
    destruct (float_segments T n0 l maxr maxd mn name c segs CS HL (fun e J => conj (proj1 (pulse_facts e J)) (proj1 (proj2 (pulse_facts e J)))) CV RS E D) as [c0 [E0 [D0 F]]].
    destruct (sequence_bounds _ _ _ CS) as [HT B].
    destruct (Forall2_in_l _ _ _ _ F I) as [g0 [I0 [RP [RD _]]]].
    destruct (in_converted maxr maxd mn T l CV HT g0 I0) as [W0 K].
    assert (VP : forall g, In g (converted maxr maxd mn T l) -> 0 < g_dur g) by (intros x J; apply (converted_valid maxr maxd mn T HT Hr l x); auto; apply CV).
    assert (TD := converted_total c0 E0 D0).
    assert (DU : g_dur g0 <= T).
    { rewrite <- TD; clear - VP I0; revert VP I0; generalize (converted maxr maxd mn T l); intros l0; induction l0 as [|x l0 IH]; intros V I; [destruct I|].
      assert (N : 0 <= total (map g_dur l0)) by (apply total_nonneg; intros y J; left; apply V; right; auto).
      assert (X0 := V x (or_introl eq_refl)); cbn [map total].
      destruct I as [<-|I]; [lra|]; assert (Q := IH (fun y J => V y (or_intror J)) I); lra. }
    assert (POS : 0 < g_dur g).
    { destruct (constructible_segments c (fl_constructible _ _ _ _ _ _ _ E)) as [l' [D' [U POS]]]; rewrite <- (U _ D) in POS; apply (POS g I). }
    assert (NB : stored_numbers c).
    { apply (converted_numbers _ _ _ _ _ _) with (3 := E); [exact FT|].
      intros x J; cbn [sequence_of seq_azimuthal_angles] in J; apply in_map_iff in J; destruct J as [e [<- J]]; auto. }
    destruct D as [DA [DB [DC DD]]]; unfold stored_numbers in NB; rewrite DA, DB, DC, DD in NB.
    assert (PH : Rabs (g_phi g) <= 4).
    { rewrite RP; destruct K as [[e [Ie ->]]|[-> _]]; [|cbn; rewrite Rabs_R0; lra].
      assert (Q : Rabs (e_phi e) <= 4).
      { apply with_ends_in in Ie; destruct Ie as [Ie|[->| ->]]; [apply ST; auto|cbn; rewrite Rabs_R0; lra|cbn; rewrite Rabs_R0; lra]. }
      unfold pulse_seg; destruct (Rle_dec _ _); [destruct (Rle_dec _ _)|]; cbn [g_phi]; auto; rewrite Rabs_R0; lra. }
    assert (K67 : 2 * 2 ^ 66 = 2 ^ 67) by (simpl; ring).
    assert (AR : Rabs (g_rabi g) <= 2 ^ 67) by (rewrite Rabs_pos_eq; lra).
    apply Rabs_le_inv in RD; assert (T48 : T / 2 ^ 48 <= T).
    { unfold Rdiv; rewrite <- (Rmult_1_r T) at 2; apply Rmult_le_compat_l; [lra|]; rewrite <- Rinv_1; apply Rinv_le_contravar; [lra|apply pow_R1_Rle; lra]. }
    split; [|lra].
    split; [|split; [lra|]].
    - split; [|split; [|split]]; (split; [apply NB|]).
      + left; apply in_map; auto.
      + apply (big_pow 67); [lia|auto].
      + right; left; apply in_map; auto.
      + apply (big_pow 2); [lia|]; replace (2 ^ 2) with 4 by ring; auto.
      + right; right; left; apply in_map; auto.
      + apply (big_pow 67); [lia|lra].
      + right; right; right; apply in_map; auto.
      + apply (big_pow 21); [lia|]; replace (2 ^ 21) with 2097152 by ring; rewrite Rabs_pos_eq; lra.
    - rewrite Rabs_pos_eq in AR by lra; eapply Rle_trans; [exact AR|apply Rle_pow; [lra|lia]].
  Qed.

  Lemma segments_cost : (exists e, In e l /\ 0 < e_rabi e) ->
    exists m, is_maximum m (map g_rabi segs) /\ 0 < m /\ forall eps, file_cost eps m segs <= file_error eps (INR (List.length l)).
  Proof.
    intros [e [Ie Re]]; assert (UT := T_low T HL); assert (UH := T_high T HL).
    assert (Hr := proj1 CV); destruct (rate_size maxr Hr R1) as [S0 _].
    assert (DF := fun e J => conj (proj1 (pulse_facts e J)) (proj1 (proj2 (pulse_facts e J)))).
    assert (PF := float_pulses T n0 l maxr maxd mn name c segs CS HL DF CV RS E D).
    assert (POS : forall g, In g segs -> 0 < g_dur g /\ 0 <= g_rabi g).
    { destruct (constructible_segments c (fl_constructible _ _ _ _ _ _ _ E)) as [l' [D' [U POS]]]; rewrite <- (U _ D) in POS; exact POS. }
    assert (I53 := inv_pow_pos 53); assert (I53' : / 2 ^ 53 <= / 2 ^ 1) by (apply inv_pow_le; lia); rewrite pow_1 in I53'.
    (* a driven segment *)
    assert (DG : exists g, In g segs /\ 0 < g_rabi g).
    { assert (EE : In e (filter effective l)).
      { apply filter_In; split; auto; unfold effective; destruct (proj1 (DF e Ie)) as [Z|Z]; [lra|].
        destruct (Rle_dec (Rabs (e_rabi e)) (/ 10 ^ 8)) as [N|N]; auto; exfalso.
        assert (0 < / 10 ^ 8) by (apply Rinv_0_lt_compat, pow_lt; lra); unfold Rdiv in Z; lra. }
      destruct (Forall2_in_l _ _ _ _ PF EE) as [g [G PR]]; apply filter_In in G; destruct G as [G _].
      exists g; split; auto; destruct (POS g G) as [G1 G2].
      destruct PR as [[_ [A _]]|[N _]].
      - destruct (Req_dec (g_rabi g) 0) as [Z|Z]; [|lra]; exfalso; rewrite Z, Rmult_0_l in A; apply Rabs_le_inv in A.
        unfold Rdiv in A; assert (e_rabi e * / 2 ^ 53 <= e_rabi e * / 2) by (apply Rmult_le_compat_l; lra); lra.
      - exfalso; unfold negligible in N; destruct (proj1 (DF e Ie)) as [Z|Z]; [lra|].
        assert (0 < / 10 ^ 8) by (apply Rinv_0_lt_compat, pow_lt; lra); unfold Rdiv in Z; lra. }
    destruct DG as [g [G Gp]].
    destruct (describes_max c segs D) as [m M]; [intros Z; rewrite Z in G; destruct G|].
    exists m; split; auto.
    assert (M0 : 0 < m) by (apply Rlt_le_trans with (g_rabi g); auto; apply M, in_map; auto).
    split; auto; intros eps.
    assert (M1 : m <= 2 * maxr).
    { destruct M as [J _]; apply in_map_iff in J; destruct J as [x [<- J]]; apply segments_moderate; auto. }
    destruct (float_segments T n0 l maxr maxd mn name c segs CS HL DF CV RS E D) as [c0 [E0 [D0 F]]].
    assert (TD := converted_total c0 E0 D0).
    assert (TR := total_rounded T _ _ F); rewrite TD in TR.
    assert (LC := converted_length maxr maxd mn T l); apply le_INR in LC.
    replace (INR (2 * (List.length l + 2))) with (2 * (INR (List.length l) + 2)) in LC by (rewrite mult_INR, plus_INR; cbn [INR]; ring).
    assert (NL : 1 <= INR (List.length l)).
    { destruct l as [|x q]; [destruct Ie|]; cbn [List.length]; rewrite S_INR; assert (Q := pos_INR (List.length q)); lra. }
    set (N := INR (List.length l)) in *.
    assert (T48 : 0 <= T / 2 ^ 48 <= T).
    { split; [unfold Rdiv; apply Rmult_le_pos; [lra|left; apply inv_pow_pos]|].
      unfold Rdiv; rewrite <- (Rmult_1_r T) at 2; apply Rmult_le_compat_l; [lra|]; rewrite <- Rinv_1; apply Rinv_le_contravar; [lra|apply pow_R1_Rle; lra]. }
    assert (DT : total (map g_dur segs) <= 7 * N * T).
    { assert (INR (List.length (converted maxr maxd mn T l)) * (T / 2 ^ 48) <= 2 * (N + 2) * T) by (apply Rmult_le_compat; try lra; apply pos_INR).
      nra. }
    assert (A := total_performed (filter effective l) (filter active segs)
      (fun x J => proj2 (proj2 (pulse_facts x (proj1 (proj1 (filter_In _ _ _) J))))) PF).
    rewrite <- total_active in A.
    assert (FL : INR (List.length (filter effective l)) <= N) by (apply le_INR, filter_length_le).
    assert (P := PI_RGT_0); assert (P2 := PI2_3_2).
    assert (A' : total (map (fun g => g_rabi g * g_dur g) segs) <= N * (PI * (1 + / 2 ^ 53))).
    { eapply Rle_trans; [exact A|]; apply Rmult_le_compat_r; [apply Rmult_le_pos; lra|auto]. }
    assert (B : m * total (map g_dur segs) <= N * 2 ^ 44).
    { apply Rle_trans with (2 * maxr * (7 * N * T)).
      - apply Rmult_le_compat; try lra; apply total_nonneg; intros x J; left; apply POS; auto.
      - replace (2 * maxr * (7 * N * T)) with (14 * N * (maxr * T)) by ring.
        apply Rle_trans with (14 * N * 2 ^ 40); [apply Rmult_le_compat_l; lra|].
        assert (P40 : 0 < 2 ^ 40) by (apply pow_lt; lra); replace (2 ^ 44) with (16 * 2 ^ 40) by ring; nra. }
    unfold file_cost, file_error.
    apply Rle_trans with ((1 + Rabs eps) * (N * (PI / 2 ^ 53))); [|unfold Rdiv; lra].
    apply Rmult_le_compat; [apply Rabs_pos| | |].
    - apply Rplus_le_le_0_compat; unfold Rdiv; apply Rmult_le_pos; try (left; apply inv_pow_pos).
      + apply total_nonneg; intros x J; destruct (POS x J); apply Rmult_le_pos; lra.
      + apply Rmult_le_pos; [lra|]; apply total_nonneg; intros x J; left; apply POS; auto.
    - eapply Rle_trans; [apply Rabs_triang|rewrite Rabs_R1; lra].
    - assert (I54 := inv_pow_pos 54); assert (H54 : / 2 ^ 54 = / 2 ^ 53 * / 2) by (rewrite <- Rinv_mult; f_equal; simpl; ring).
      assert (C1 : total (map (fun g => g_rabi g * g_dur g) segs) / 2 ^ 54 <= N * (PI * (1 + / 2 ^ 53)) * / 2 ^ 54)
        by (unfold Rdiv; apply Rmult_le_compat_r; lra).
      assert (C2 : m * total (map g_dur segs) / 2 ^ 1076 <= N * 2 ^ 44 * / 2 ^ 1076)
        by (unfold Rdiv; apply Rmult_le_compat_r; [left; apply inv_pow_pos|auto]).
      assert (C3 : 2 ^ 44 * / 2 ^ 1076 <= / 2 ^ 53 * / 4).
      { replace (2 ^ 1076) with (2 ^ 44 * 2 ^ 1032) by (rewrite <- pow_add; reflexivity).
        rewrite Rinv_mult, <- Rmult_assoc, Rinv_r, Rmult_1_l by (apply pow_nonzero; lra).
        replace (/ 2 ^ 53 * / 4) with (/ 2 ^ 55) by (rewrite <- Rinv_mult; f_equal; simpl; ring); apply inv_pow_le; lia. }
      rewrite H54 in C1.
      assert (C2' : m * total (map g_dur segs) / 2 ^ 1076 <= N * (/ 2 ^ 53 * / 4)).
      { eapply Rle_trans; [exact C2|]; rewrite Rmult_assoc; apply Rmult_le_compat_l; lra. }
      assert (C4 : N * (PI * (1 + / 2 ^ 53)) * (/ 2 ^ 53 * / 2) + N * (/ 2 ^ 53 * / 4) <= N * (PI * / 2 ^ 53)).
      { replace (N * (PI * (1 + / 2 ^ 53)) * (/ 2 ^ 53 * / 2) + N * (/ 2 ^ 53 * / 4)) with (N * (/ 2 ^ 53 * (PI * (1 + / 2 ^ 53) / 2 + / 4))) by field.
        replace (N * (PI * / 2 ^ 53)) with (N * (/ 2 ^ 53 * PI)) by ring.
        apply Rmult_le_compat_l; [lra|]; apply Rmult_le_compat_l; [lra|].
        assert (PI * / 2 ^ 53 <= PI * / 2) by (apply Rmult_le_compat_l; lra); lra. }
      unfold Rdiv in *; lra.
  Qed.
End Segments.

(** ** Request, control, file *)

Section Files.
  Variables (fsin fsquare : R -> R).
  Hypothesis Hsin : accurate_sine fsin.
  Hypothesis Hsquare : accurate_square fsquare.

  Theorem float_sequence_file hsin hcos r T pre name maxr maxd mn name' d f :
    binary64_format T -> laboratory_duration T -> valid_request r -> moderate r -> separated r true ->
    pipeline_rates r T maxr maxd mn -> drives r pre ->
    exists s c segs l0 l',
      fl_build_sequence binary64 fsin fsquare float_pi r T pre name = Ok s /\
      fl_convert binary64 (stored_angles s) maxr maxd mn name' = Ok c /\ describes segs c /\
      (forall g, In g segs -> moderate_segment g) /\
      file_holds f (fl_export_to_file binary64 hsin hcos d c f FILE_FORMAT_QCTRL FILE_TYPE_JSON CYLINDRICAL) l' name' /\
      build_sequence r T pre name = Ok (sequence_of T name l0) /\
      forall eps delta,
        close_to (pipeline_error eps delta T (longest_pulse maxr maxd mn) (accuracy r) (INR (List.length l0)) + file_error eps (INR (List.length l0)))
          (noisy_evolution eps delta l') (dephased_evolution (fun t => delta * t) T l0).
  Proof.
    intros FT HL V M X PR DR; assert (UT := T_low T HL).
    destruct (float_pipeline_pulses fsin fsquare Hsin Hsquare r T pre name maxr maxd mn name' FT HL V M X PR)
      as [s [c [segs [l0 [l [A [B [D [E [[ES [ER [ST [CS [CV RS]]]]] Q]]]]]]]]]].
    assert (OT := laboratory_ordinary T FT HL).
    assert (FP : forall e, In e l -> binary64_format (e_phi e)).
    { intros e I; apply (stored_format fsin fsquare Hsin Hsquare r T pre name s OT V M A); rewrite ES.
      right; right; right; left; apply in_map; auto. }
    assert (EC := B); rewrite ES in EC; destruct PR as [_ [_ [_ [R1 [R2 _]]]]].
    assert (SM := segments_moderate T name l maxr maxd mn name' c segs HL FT ST CS CV RS R1 R2 FP EC D).
    assert (LN : List.length l = List.length l0) by (rewrite <- (map_length e_rabi l), ER; apply map_length).
    assert (PD : exists e, In e l /\ 0 < e_rabi e).
    { destruct (sequence_drives r T pre name l0 ltac:(lra) V X DR E) as [e [I P]].
      assert (J : In (stored_angle (e_rabi e)) (map e_rabi l)) by (rewrite ER; apply (in_map (fun e => stored_angle (e_rabi e))); auto).
      apply in_map_iff in J; destruct J as [x [EX J]]; exists x; split; auto; rewrite EX; unfold stored_angle; fold pi_ratio.
      assert (K := proj1 pi_ratio_bounds); apply Rmult_lt_0_compat; lra. }
    destruct (segments_cost T name l maxr maxd mn name' c segs HL FT ST CS CV RS R1 R2 FP EC D PD) as [m [MM [M0 FC]]].
    assert (KC := fl_constructible _ _ _ _ _ _ _ EC).
    destruct (float_json_cylindrical hsin hcos d c segs m f KC D MM M0 (fun g I => proj1 (proj1 (SM g I)))) as [d' [file [l' [W1 [W2 [W3 [W4 [_ W5]]]]]]]].
    assert (NM : dc_name c = name').
    { destruct (float_conversion T name l maxr maxd mn name' CS HL (fun e J => conj (proj1 (pulse_facts l ST e J)) (proj1 (proj2 (pulse_facts l ST e J)))) CV RS)
        as [c' [c0 [s1 [s2 [E1 [_ [_ [_ [NM _]]]]]]]]]; rewrite EC in E1; injection E1 as <-; exact NM. }
    exists s, c, segs, l0, l'; split; [auto|split; [auto|split; [auto|split; [intros g I; apply (SM g I)|split]]]].
    - exists d', file; rewrite <- NM; auto.
    - split; auto; intros eps delta.
      eapply close_mono; [|eapply L_FloatPipeline.close_trans; [apply W5|apply Q]].
      specialize (FC eps); rewrite LN in FC; lra.
  Qed.

  Theorem float_sequence_export hsin hcos r T pre name maxr maxd d f :
    binary64_format T -> laboratory_duration T -> valid_request r -> moderate r -> separated r true ->
    pipeline_rates r T maxr maxd 0 -> drives r pre ->
    exists s l0 l',
      fl_build_sequence binary64 fsin fsquare float_pi r T pre name = Ok s /\
      file_holds f (fl_dds_export_to_file binary64 hsin hcos d (stored_angles s) f FILE_FORMAT_QCTRL FILE_TYPE_JSON CYLINDRICAL maxr maxd) l' name /\
      build_sequence r T pre name = Ok (sequence_of T name l0) /\
      forall eps delta,
        close_to (pipeline_error eps delta T (longest_pulse maxr maxd 0) (accuracy r) (INR (List.length l0)) + file_error eps (INR (List.length l0)))
          (noisy_evolution eps delta l') (dephased_evolution (fun t => delta * t) T l0).
  Proof.
    intros FT HL V M X PR DR.
    destruct (float_sequence_file hsin hcos r T pre name maxr maxd 0 name d f FT HL V M X PR DR) as [s [c [segs [l0 [l' [A [B [_ [_ [F [E Q]]]]]]]]]]].
    exists s, l0, l'; split; [auto|split; [|auto]].
    destruct F as [d' [file [F1 F2]]]; exists d', file; split; auto.
    unfold fl_dds_export_to_file.
    assert (NM : seq_name (stored_angles s) = name).
    { destruct (float_pipeline_pulses fsin fsquare Hsin Hsquare r T pre name maxr maxd 0 name FT HL V M X PR)
        as [s1 [c1 [segs1 [l1 [l [A1 [_ [_ [_ [[ES _] _]]]]]]]]]]; rewrite A in A1; injection A1 as <-; rewrite ES; reflexivity. }
    rewrite NM, B; exact F1.
  Qed.

  Theorem float_sequence_decoupling hsin hcos r T pre name maxr maxd d f :
    binary64_format T -> laboratory_duration T -> valid_request r -> moderate r -> separated r true ->
    pipeline_rates r T maxr maxd 0 -> drives r pre ->
    (forall s0, build_sequence r T pre name = Ok s0 -> refocuses s0) ->
    exists s l0 l',
      fl_build_sequence binary64 fsin fsquare float_pi r T pre name = Ok s /\
      file_holds f (fl_dds_export_to_file binary64 hsin hcos d (stored_angles s) f FILE_FORMAT_QCTRL FILE_TYPE_JSON CYLINDRICAL maxr maxd) l' name /\
      build_sequence r T pre name = Ok (sequence_of T name l0) /\
      forall eps delta,
        close_to (pipeline_error eps delta T (longest_pulse maxr maxd 0) (accuracy r) (INR (List.length l0)) + file_error eps (INR (List.length l0)))
          (noisy_evolution eps delta l') (pulse_product l0).
  Proof.
    intros FT HL V M X PR DR RF.
    destruct (float_sequence_export hsin hcos r T pre name maxr maxd d f FT HL V M X PR DR) as [s [l0 [l' [A [F [E Q]]]]]].
    exists s, l0, l'; split; [auto|split; [auto|split; [auto|]]]; intros eps delta.
    rewrite <- (RF _ E l0 eq_refl delta); apply Q.
  Qed.
End Files.

(** ** Composite pulses *)

Lemma design_facts s th w phi l0 : ordinary_inputs s th w phi -> design s th w phi l0 ->
  forall g, In g l0 -> w / 4 <= g_rabi g <= w /\ Rabs (g_phi g) <= 24.
Proof.
  intros [_ [_ [_ [WB [_ [PB TAB]]]]]] D g I; assert (P := PI_bounds).
  assert (W0 : 0 < w) by (apply Rlt_le_trans with (/ 2 ^ 900); [apply inv_pow_pos|lra]).
  apply Rabs_le_between in PB.
  assert (PU : forall l, (forall p, In p l -> -24 <= snd p <= 24) -> In g (pulses w l) -> w / 4 <= g_rabi g <= w /\ Rabs (g_phi g) <= 24).
  { intros l H J; unfold pulses in J; apply in_map_iff in J; destruct J as [p [<- J]]; cbn [g_rabi g_phi]; split; [lra|apply Rabs_le, H; auto]. }
  Ltac rows_range := let q := fresh "q" in let J := fresh "J" in intros q J; cbn in J; repeat (destruct J as [<-|J]; [cbn; lra|]); destruct J.
  destruct s; cbn [design] in D.
  - subst l0; apply (PU [(th, phi)]); auto; rows_range.
  - destruct D as [p [[WA _] ->]]; refine (PU _ _ I); rows_range.
  - destruct D as [p [[WA _] ->]]; refine (PU _ _ I); rows_range.
  - destruct D as [t1 [p1 [p2 [[_ [B1 [_ [B2 _]]]] ->]]]]; refine (PU _ _ I); rows_range.
  - destruct D as [k [_ ->]]; refine (PU _ _ I); rows_range.
  - destruct D as [p [k [[WA _] [_ ->]]]]; refine (PU _ _ I); rows_range.
  - destruct D as [p [k [[WA _] [_ ->]]]]; refine (PU _ _ I); rows_range.
  - destruct D as [t1 [p1 [p2 [k1 [k2 [[_ [B1 [_ [B2 _]]]] [_ [_ ->]]]]]]]]; refine (PU _ _ I); rows_range.
  - destruct D as [a [b [TA ->]]]; destruct (wamf1_apx th a b (tabulated_decisions th TAB) TA) as [a' [b' [_ [_ [_ [BA BB]]]]]].
    assert (Q : 1 / 4 <= b / a <= 1).
    { split; apply (Rmult_le_reg_r a); try lra; replace (b / a * a) with b by (field; lra); lra. }
    assert (QW : w / 4 <= w * (b / a) <= w).
    { replace (w / 4) with (w * (1 / 4)) by lra; replace w with (w * 1) at 4 by lra; split; apply Rmult_le_compat_l; lra. }
    destruct I as [<-|[<-|[<-|[<-|[]]]]]; cbn [g_rabi g_phi]; (split; [lra|apply Rabs_le; lra]).
Qed.

Lemma forall2_length {X} (R0 : X -> X -> Prop) a b : Forall2 R0 a b -> List.length a = List.length b.
Proof. intros F; induction F; cbn; auto. Qed.
Lemma total_le_length {X} (h : X -> R) K l : (forall x, In x l -> h x <= K) -> total (map h l) <= INR (List.length l) * K.
Proof.
  induction l as [|x l IH]; intros H; [cbn; lra|].
  assert (Q := IH (fun y I => H y (or_intror I))); assert (Z := H x (or_introl eq_refl)).
  cbn [map total List.length]; rewrite S_INR; lra.
Qed.

Lemma pow_2_901 : 2 ^ 901 = 2 * 2 ^ 900.
Proof. reflexivity. Qed.

Lemma maximum_exists l : l <> [] -> exists m, is_maximum m l.
Proof.
  induction l as [|x l IH]; intros H; [destruct H; auto|]; destruct l as [|y l].
  - exists x; split; [left; auto|intros z [<-|[]]; lra].
  - destruct (IH ltac:(discriminate)) as [m [M1 M2]]; destruct (Rle_dec x m) as [Q|Q].
    + exists m; split; [right; auto|intros z [<-|I]; auto].
    + exists x; split; [left; auto|intros z [<-|I]; [lra|]; specialize (M2 z I); lra].
Qed.

Lemma built_constructible fsin fcos facos fasin s th w phi name c :
  fl_build binary64 fsin fcos facos fasin float_pi s th w phi name = Ok c -> constructible c.
Proof.
  destruct s; cbn [fl_build]; unfold fl_primitive, fl_bb1, fl_sk1, fl_scrofulous, fl_corpse, fl_corpse_in_bb1, fl_corpse_in_sk1,
    fl_corpse_in_scrofulous, fl_wamf1, fl_constant_rate; cbv zeta; repeat step; try (destruct (fl_wamf1_thetas _ _ _)); intros E;
    do 5 eexists; exact E.
Qed.

Lemma total_near (f h : seg -> R) b l l0 : Forall2 (fun g g0 => Rabs (f g - h g0) <= b) l l0 ->
  Rabs (total (map f l) - total (map h l0)) <= INR (List.length l) * b.
Proof.
  induction 1 as [|g g0 l l0 G _ IH]; cbn [map total List.length]; [rewrite Rminus_0_r, Rabs_R0; cbn; lra|rewrite S_INR].
  replace (f g + total (map f l) - (h g0 + total (map h l0))) with ((f g - h g0) + (total (map f l) - total (map h l0))) by ring.
  eapply Rle_trans; [apply Rabs_triang|lra].
Qed.
Lemma forall2_impl_in {A B} (P Q : A -> B -> Prop) l l0 : (forall a b, In a l -> In b l0 -> P a b -> Q a b) -> Forall2 P l l0 -> Forall2 Q l l0.
Proof. intros H F; induction F; constructor; [apply H; cbn; auto|apply IHF; intros; apply H; cbn; auto]. Qed.

Theorem scheme_file_segments fsin fcos facos fasin hsin hcos s th w phi name d f :
  accurate_trigonometry fsin fcos facos fasin -> ordinary_inputs s th w phi ->
  exists c l', fl_build binary64 fsin fcos facos fasin float_pi s th w phi name = Ok c /\
    file_holds f (fl_export_to_file binary64 hsin hcos d c f FILE_FORMAT_QCTRL FILE_TYPE_JSON CYLINDRICAL) l' name /\
    (forall g, In g l' -> 0 <= g_rabi g /\ 0 < g_dur g) /\
    forall l0, design s th w phi l0 ->
      Rabs (total (map g_dur l') - total (map g_dur l0)) <= INR (List.length l0) * (rotation_error / w) /\
      Rabs (total (map (fun g => g_rabi g * g_dur g) l') - total (map (fun g => g_rabi g * g_dur g) l0)) <= INR (List.length l0) * (rotation_error + / 2 ^ 48) /\
      forall eps delta,
      close_to (float_cost s th w eps delta (List.length l0) + scheme_file_error eps (List.length l0))
        (noisy_evolution eps delta l') (noisy_evolution eps delta l0).
Proof.
  intros HT O; destruct (build_accepts s th w phi name (ordinary_accepts s th w phi O)) as [_ [ld [_ [_ [DS _]]]]].
  destruct (scheme_outcome _ _ _ _ HT s th w phi name ld O DS) as [c [l [E [N [D [NS [P [P0 RT]]]]]]]].
  assert (DF := design_facts s th w phi ld O DS).
  assert (SN := scheme_numbers fsin fcos facos fasin s th w phi name c (proj1 (proj2 (proj2 O))) (proj1 (proj2 (proj2 (proj2 (proj2 O))))) E).
  assert (WB : / 2 ^ 900 <= w <= 2 ^ 900) by apply O.
  assert (W0 : 0 < w) by (apply Rlt_le_trans with (/ 2 ^ 900); [apply inv_pow_pos|lra]).
  assert (P46 : 0 < / 2 ^ 46 <= / 1024) by (split; [apply inv_pow_pos|apply Rinv_le_contravar; lra]).
  assert (AX : axis_error s th <= 1).
  { destruct s; cbn [axis_error]; try destruct (Rle_dec _ _); try lra;
      (rewrite <- Rinv_1; apply Rinv_le_contravar; [lra|apply pow_R1_Rle; lra]). }
  assert (SZ : forall g, In g l -> 0 < g_rabi g <= 2 * w /\ Rabs (g_phi g) <= 25 /\ g_det g = 0 /\ 0 < g_dur g <= 60 / w /\ g_rabi g * g_dur g <= 15).
  { intros g I; destruct (Forall2_in_l _ _ _ _ NS I) as [g0 [I0 [N1 [N2 [N3 [_ [N4 N5]]]]]]]; unfold rotation_error in *.
    destruct (DF g0 I0) as [R0 A0]; destruct (P0 g0 I0) as [D0 D1]; assert (DP := P g I).
    apply Rabs_le_between in N1; apply Rabs_le_between in N4; apply Rabs_le_between in N5.
    assert (Q : 0 <= g_rabi g0 * / 2 ^ 46 <= w / 8).
    { split; [apply Rmult_le_pos; lra|]; apply Rle_trans with (w * / 1024); [apply Rmult_le_compat; lra|lra]. }
    split; [lra|split; [|split; [auto|split; [|lra]]]].
    - apply Rabs_le_between in N2; apply Rabs_le_between in A0; apply Rabs_le; lra.
    - split; auto.
      assert (X : g_dur g0 <= 56 / w).
      { apply (Rmult_le_reg_l (w / 4)); [lra|]; replace (w / 4 * (56 / w)) with 14 by (field; lra).
        apply Rle_trans with (g_rabi g0 * g_dur g0); [apply Rmult_le_compat_r; lra|lra]. }
      assert (Y : / 2 ^ 46 / w <= 1 / w) by (unfold Rdiv; apply Rmult_le_compat_r; [left; apply Rinv_0_lt_compat; auto|lra]).
      replace (60 / w) with (56 / w + 4 * (1 / w)) by (field; lra).
      assert (0 < 1 / w) by (apply Rdiv_lt_0_compat; lra); lra. }
  assert (FG : forall g, In g l -> finite_segment g).
  { intros g I; destruct (SZ g I) as [A1 [A2 [A3 [A4 _]]]]; destruct D as [D1 [D2 [D3 D4]]].
    assert (IW : / w <= 2 ^ 900) by (rewrite <- (Rinv_inv (2 ^ 900)); apply Rinv_le_contravar; [apply inv_pow_pos|lra]).
    assert (P9 : 1 <= 2 ^ 900) by (apply pow_R1_Rle; lra).
    assert (BG : 64 * 2 ^ 900 < 2 ^ 1024).
    { replace 64 with (2 ^ 6) by ring; rewrite <- pow_add; apply Rlt_pow; [lra|lia]. }
    repeat split.
    - apply SN; left; rewrite D1; apply in_map; auto.
    - rewrite Rabs_pos_eq by lra; lra.
    - apply SN; right; left; rewrite D2; apply in_map; auto.
    - lra.
    - apply SN; right; right; left; rewrite D3; apply in_map; auto.
    - rewrite A3, Rabs_R0; lra.
    - apply SN; right; right; right; rewrite D4; apply in_map; auto.
    - rewrite Rabs_pos_eq by lra; unfold Rdiv in A4; lra. }
  assert (NE : map g_rabi l <> []).
  { intros Q; destruct l; [|discriminate]; inversion NS; subst.
    destruct s; cbn [design] in DS; [discriminate|..];
      repeat match goal with H : exists _, _ |- _ => destruct H end; repeat match goal with H : _ /\ _ |- _ => destruct H end; discriminate. }
  destruct (maximum_exists _ NE) as [m M].
  assert (MB : 0 < m <= 2 * w).
  { destruct M as [M1 _]; apply in_map_iff in M1; destruct M1 as [g [<- I]]; apply (SZ g I). }
  destruct (float_json_cylindrical hsin hcos d c l m f (built_constructible _ _ _ _ _ _ _ _ _ _ E) D M (proj1 MB) FG) as [d' [file [l' [W1 [W2 [W3 [W4 [RR W5]]]]]]]].
  assert (WE : 0 < rotation_error <= / 1024) by (unfold rotation_error; lra).
  assert (LO : forall g, In g l -> w / 8 <= g_rabi g).
  { intros g I; destruct (Forall2_in_l _ _ _ _ NS I) as [g0 [I0 [N1 _]]]; destruct (DF g0 I0) as [R0 _].
    apply Rabs_le_between in N1; assert (g_rabi g0 * rotation_error <= w * / 1024) by (apply Rmult_le_compat; lra); lra. }
  assert (BIG : 2 ^ 64 <= 2 ^ 1075) by (apply Rle_pow; [lra|lia]); replace (2 ^ 64) with 18446744073709551616 in BIG by ring.
  assert (SM : 0 < / 2 ^ 1075 <= / 18446744073709551616) by (split; [apply inv_pow_pos|apply Rinv_le_contravar; lra]).
  assert (P53 : 2 ^ 53 = 9007199254740992) by ring; assert (P48 : 2 ^ 48 = 281474976710656) by ring.
  assert (RS : forall g' g, In g l -> reread m g' g -> Rabs (g_rabi g' - g_rabi g) <= g_rabi g / 2 ^ 53 + 2 * w * / 2 ^ 1075).
  { intros g' g I [_ [_ [_ [R1 _]]]]; destruct (SZ g I) as [A1 _]; rewrite (Rabs_pos_eq (g_rabi g)) in R1 by lra.
    eapply Rle_trans; [exact R1|]; apply Rplus_le_compat_l; unfold Rdiv; apply Rmult_le_compat_r; lra. }
  exists c, l'; split; [auto|split; [exists d', file; rewrite <- N; auto|split]].
  { intros g' I'; destruct (Forall2_in_l _ _ _ _ RR I') as [g [I R]]; specialize (RS g' g I R).
    destruct R as [_ [_ [R3 _]]]; rewrite R3; split; [|apply P; auto].
    destruct (SZ g I) as [A1 _]; specialize (LO g I); apply Rabs_le_between in RS; rewrite P53 in RS.
    assert (2 * w * / 2 ^ 1075 <= 2 * w * / 18446744073709551616) by (apply Rmult_le_compat_l; lra); lra. }
  intros l0 H0; destruct (float_controls fsin fcos facos fasin s th w phi name HT O) as [c2 [l2 [E2 [D2 [_ Q]]]]].
  rewrite E in E2; injection E2 as <-; assert (l2 = l) as -> by (eapply L_DrivenControl.describes_unique; eauto).
  destruct (Q l0 H0) as [NL CL]; assert (LL := forall2_length _ _ _ NL); assert (LR := forall2_length _ _ _ RR).
  assert (TN1 : Rabs (total (map g_dur l) - total (map g_dur l0)) <= INR (List.length l) * (rotation_error / w)).
  { apply total_near; eapply forall2_impl_in; [|exact NL]; intros a b _ _ H; apply H. }
  assert (TN2 : Rabs (total (map (fun g => g_rabi g * g_dur g) l) - total (map (fun g => g_rabi g * g_dur g) l0)) <= INR (List.length l) * rotation_error).
  { apply (total_near (fun g => g_rabi g * g_dur g) (fun g => g_rabi g * g_dur g)); eapply forall2_impl_in; [|exact NL]; intros a b _ _ H; apply H. }
  assert (TN3 : Rabs (total (map (fun g => g_rabi g * g_dur g) l') - total (map (fun g => g_rabi g * g_dur g) l)) <= INR (List.length l') * / 2 ^ 48).
  { apply (total_near (fun g => g_rabi g * g_dur g) (fun g => g_rabi g * g_dur g)); eapply forall2_impl_in; [|exact RR]; intros g' g _ I R; specialize (RS g' g I R).
    destruct R as [_ [_ [R3 _]]]; rewrite R3; destruct (SZ g I) as [A1 [_ [_ [A4 A5]]]].
    replace (g_rabi g' * g_dur g - g_rabi g * g_dur g) with ((g_rabi g' - g_rabi g) * g_dur g) by ring; rewrite Rabs_mult, (Rabs_pos_eq (g_dur g)) by lra.
    assert (WD : w * g_dur g <= 60) by (apply Rle_trans with (w * (60 / w)); [apply Rmult_le_compat_l; lra|right; field; lra]).
    apply Rle_trans with ((g_rabi g / 2 ^ 53 + 2 * w * / 2 ^ 1075) * g_dur g); [apply Rmult_le_compat_r; lra|].
    replace ((g_rabi g / 2 ^ 53 + 2 * w * / 2 ^ 1075) * g_dur g) with (g_rabi g * g_dur g / 2 ^ 53 + 2 * (w * g_dur g) * / 2 ^ 1075) by (field; split; apply pow_nonzero; lra).
    assert (X0 : 0 <= w * g_dur g) by (apply Rmult_le_pos; lra).
    assert (2 * (w * g_dur g) * / 2 ^ 1075 <= 120 * / 18446744073709551616) by (apply Rmult_le_compat; lra).
    rewrite P53, P48; lra. }
  assert (DUR : map g_dur l' = map g_dur l).
  { clear - RR; induction RR as [|a b la lb R _ IH]; [reflexivity|]; cbn [map]; rewrite IH; f_equal; apply R. }
  split; [rewrite DUR, <- LL; exact TN1|split].
  { rewrite LR in TN3; rewrite <- LL.
    replace (total (map (fun g => g_rabi g * g_dur g) l') - total (map (fun g => g_rabi g * g_dur g) l0)) with
      ((total (map (fun g => g_rabi g * g_dur g) l') - total (map (fun g => g_rabi g * g_dur g) l)) +
       (total (map (fun g => g_rabi g * g_dur g) l) - total (map (fun g => g_rabi g * g_dur g) l0))) by ring.
    eapply Rle_trans; [apply Rabs_triang|lra]. }
  intros eps delta; specialize (CL eps delta).
  eapply close_mono; [|eapply L_FloatPipeline.close_trans; [apply W5|apply CL]].
  rewrite Rplus_comm; apply Rplus_le_compat_l; rewrite <- (forall2_length _ _ _ NL).
  unfold file_cost, scheme_file_error.
  assert (T1 := total_le_length (fun g => g_rabi g * g_dur g) 15 l (fun g I => proj2 (proj2 (proj2 (proj2 (SZ g I)))))).
  assert (T2 := total_le_length g_dur (60 / w) l (fun g I => proj2 (proj1 (proj2 (proj2 (proj2 (SZ g I))))))).
  assert (T0 : 0 <= total (map g_dur l)) by (apply total_nonneg; intros x I; left; apply P; auto).
  assert (NN := pos_INR (List.length l)).
  assert (MT : m * total (map g_dur l) <= INR (List.length l) * 120).
  { apply Rle_trans with (2 * w * (INR (List.length l) * (60 / w))); [apply Rmult_le_compat; lra|right; field; lra]. }
  replace (Rabs (1 + eps) * INR (List.length l) / 2 ^ 50) with (Rabs (1 + eps) * (INR (List.length l) / 2 ^ 50)) by lra.
  apply Rmult_le_compat_l; [apply Rabs_pos|].
  assert (I54 : 0 < / 2 ^ 54) by apply inv_pow_pos.
  assert (I76 : / 2 ^ 1076 <= / 2 ^ 64) by (apply Rinv_le_contravar; [apply pow_lt; lra|apply Rle_pow; [lra|lia]]).
  assert (I76' : 0 < / 2 ^ 1076) by apply inv_pow_pos.
  apply Rle_trans with (INR (List.length l) * 15 * / 2 ^ 54 + INR (List.length l) * 120 * / 2 ^ 64).
  - unfold Rdiv; apply Rplus_le_compat; [apply Rmult_le_compat_r; lra|apply Rmult_le_compat; try lra; apply Rmult_le_pos; lra].
  - unfold Rdiv; rewrite !Rmult_assoc, <- Rmult_plus_distr_l; apply Rmult_le_compat_l; auto.
    replace (2 ^ 54) with 18014398509481984 by ring; replace (2 ^ 64) with 18446744073709551616 by ring; replace (2 ^ 50) with 1125899906842624 by ring; lra.
Qed.

Theorem float_scheme_file fsin fcos facos fasin hsin hcos s th w phi name d f :
  accurate_trigonometry fsin fcos facos fasin -> ordinary_inputs s th w phi ->
  exists c l', fl_build binary64 fsin fcos facos fasin float_pi s th w phi name = Ok c /\
    file_holds f (fl_export_to_file binary64 hsin hcos d c f FILE_FORMAT_QCTRL FILE_TYPE_JSON CYLINDRICAL) l' name /\
    forall l0, design s th w phi l0 -> forall eps delta,
      close_to (float_cost s th w eps delta (List.length l0) + scheme_file_error eps (List.length l0))
        (noisy_evolution eps delta l') (noisy_evolution eps delta l0).
Proof.
  intros HT O; destruct (scheme_file_segments fsin fcos facos fasin hsin hcos s th w phi name d f HT O) as [c [l' [E [F [_ Q]]]]].
  exists c, l'; split; [auto|split; [auto|]]; intros l0 H0; apply (Q l0 H0).
Qed.

Theorem float_rotation_file fsin fcos facos fasin hsin hcos s th w phi name d f :
  accurate_trigonometry fsin fcos facos fasin -> ordinary_inputs s th w phi -> exact_scheme s ->
  exists c l', fl_build binary64 fsin fcos facos fasin float_pi s th w phi name = Ok c /\
    file_holds f (fl_export_to_file binary64 hsin hcos d c f FILE_FORMAT_QCTRL FILE_TYPE_JSON CYLINDRICAL) l' name /\
    close_to (2 * rotation_accuracy th) (evolution l') (rotation th phi).
Proof.
  intros HT O X; destruct (float_scheme_file fsin fcos facos fasin hsin hcos s th w phi name d f HT O) as [c [l' [E [F Q]]]].
  exists c, l'; split; [auto|split; [auto|]].
  destruct (build_accepts s th w phi name (ordinary_accepts s th w phi O)) as [c0 [l0 [E0 [D0 [DS _]]]]].
  specialize (Q l0 DS 0 0); replace (rotation th phi) with (noisy_evolution 0 0 l0).
  - eapply close_mono; [|exact Q].
    assert (B := float_cost_small s th w phi l0 O DS X).
    assert (N : INR (List.length l0) <= 6).
    { replace 6 with (INR 6) by (cbn; ring); apply le_INR; clear - DS X; destruct s; try contradiction; cbn [design] in DS;
        repeat match goal with H : exists _, _ |- _ => destruct H end; repeat match goal with H : _ /\ _ |- _ => destruct H end;
        subst l0; cbn; lia. }
    unfold scheme_file_error; rewrite Rplus_0_r, Rabs_R1, Rmult_1_l.
    assert (I40 : / 2 ^ 40 <= rotation_accuracy th).
    { unfold rotation_accuracy; destruct (Rle_dec _ _); [lra|apply Rinv_le_contravar; lra]. }
    replace (2 ^ 40) with 1099511627776 in I40 by ring; replace (2 ^ 50) with 1125899906842624 by ring; lra.
  - change (evolution l0 = rotation th phi); destruct s; try contradiction; cbn [build] in E0.
    + apply (primitive_spec _ _ _ _ _ _ E0 D0).
    + apply (bb1_spec _ _ _ _ _ _ E0 D0).
    + apply (sk1_spec _ _ _ _ _ _ E0 D0).
    + apply (corpse_spec _ _ _ _ _ _ E0 D0).
    + apply (corpse_in_bb1_spec _ _ _ _ _ _ E0 D0).
    + apply (corpse_in_sk1_spec _ _ _ _ _ _ E0 D0).
Qed.

Lemma seg_lists_equal : forall a b, map g_rabi a = map g_rabi b -> map g_phi a = map g_phi b -> map g_det a = map g_det b -> map g_dur a = map g_dur b -> a = b.
Proof.
  induction a as [|[r p d t] a IH]; intros [|[r' p' d' t'] b] A B C D; auto; try discriminate.
  cbn in A, B, C, D; injection A as -> A; injection B as -> B; injection C as -> C; injection D as -> D.
  rewrite (IH b) by auto; reflexivity.
Qed.
Lemma file_holds_unique f w l1 n1 l2 n2 : file_holds f w l1 n1 -> file_holds f w l2 n2 -> l1 = l2.
Proof.
  intros [d1 [f1 [A1 [B1 [_ E1]]]]] [d2 [f2 [A2 [B2 [_ E2]]]]].
  rewrite A1 in A2; injection A2 as <-; rewrite B1 in B2; injection B2 as <-; rewrite E1 in E2; injection E2 as Q1 Q2 Q3 Q4 _.
  apply seg_lists_equal; auto.
Qed.
