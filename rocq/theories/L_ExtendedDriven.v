(** * Composite pulses and Gaussians with NaN and infinities *)

From Coq Require Import Lia Lra.
From Verif Require Import Spec_Qubit L_Base L_Predefined L_Gaussian L_Extended L_ExtendedPredefined.
From Verif Require Export Spec_ExtendedPredefined.
Import ListNotations.
Open Scope string_scope.
Open Scope list_scope.
Open Scope R_scope.

Definition reangled (g : R -> xfloat) (c : driven_control) : xcontrol :=
  MkXControl (map Fin (rabi_rates c)) (map g (azimuthal_angles c)) (map Fin (detunings c)) (map Fin (durations c)) (dc_name c).
Lemma xcontrol_angles g ts r a d name :
  xDrivenControl (map Fin ts) (Some (map Fin r)) (Some (map g a)) (Some (map Fin d)) name =
  map_result (reangled g) (DrivenControl ts (Some r) (Some a) (Some d) name).
Proof.
  unfold xDrivenControl, DrivenControl.
  rewrite (forallb_map_ext Fin _ (fun d => ltb 0 d)) by auto; apply bind_map.
  replace (xinput_lengths _) with (input_lengths [Some r; Some a; Some d; Some ts]).
  2:{ unfold xinput_lengths, input_lengths; f_equal; cbn [flat_map opt_list app map option_map]; rewrite ?map_length; auto. }
  apply bind_map; cbv zeta; cbn [opt_default].
  rewrite (forallb_map_ext Fin _ (fun r => leb 0 r)) by auto; apply bind_map; reflexivity.
Qed.
Lemma repeat_fin x n : repeat (Fin x) n = map Fin (repeat x n).
Proof. induction n; cbn; f_equal; auto. Qed.
Lemma xconstant_angles g rots angs xangs w name : 0 < w -> xangs = map g angs ->
  xconstant_rate_control (map Fin rots) xangs (Fin w) name = map_result (reangled g) (constant_rate_control rots angs w name).
Proof.
  intros W ->; unfold xconstant_rate_control, constant_rate_control; cbv zeta; rewrite <- xcontrol_angles, map_length, !repeat_fin, !map_map.
  f_equal; apply map_ext; intros r; apply xdivide_fin; lra.
Qed.

(** the inverse functions are applied within their domain *)
Lemma xarc_in f x : -1 <= x <= 1 -> xarc f (Fin x) = Fin (f x).
Proof. intros [A B]; cbn; rewrite (proj2 (leb_true _ _)), (proj2 (leb_true _ _)) by auto; auto. Qed.
Lemma xcorpse_k_fin t : xcorpse_k (Fin t) = Fin (corpse_k t).
Proof.
  unfold xcorpse_k, corpse_k; rewrite xdivide_fin by lra; cbn [xsin]; rewrite xdivide_fin by lra; apply xarc_in.
  generalize (SIN_bound (t / 2)); lra.
Qed.
Lemma xcorpse_rotations_fin t : xcorpse_rotations (Fin t) = map Fin [2 * PI + t / 2 - corpse_k t; 2 * PI - 2 * corpse_k t; t / 2 - corpse_k t].
Proof. unfold xcorpse_rotations; rewrite xcorpse_k_fin, xdivide_fin by lra; reflexivity. Qed.
Lemma xscrofulous_fin t : supported t ->
  xscrofulous_phi_1 (scrofulous_theta_1 t) (Fin t) = Fin (scrofulous_phi_1 (scrofulous_theta_1 t) t) /\
  xscrofulous_phi_2 (scrofulous_theta_1 t) (Fin (scrofulous_phi_1 (scrofulous_theta_1 t) t)) =
    Fin (scrofulous_phi_2 (scrofulous_theta_1 t) (scrofulous_phi_1 (scrofulous_theta_1 t) t)).
Proof.
  intros S; generalize (scrofulous_angles_ok t S); cbv zeta; set (t1 := scrofulous_theta_1 t); set (p1 := scrofulous_phi_1 t1 t).
  intros [TB [_ [C1 [_ C2]]]]; apply scrofulous_theta_1_bounds in TB; assert (H := sin_half_lower t S); assert (P := PI_pos).
  unfold xscrofulous_phi_1, xscrofulous_phi_2; rewrite xdivide_fin by lra; cbn [xsin]; rewrite xdivide_fin by lra; split.
  - apply xarc_in; replace (- PI * cos t1 / 2 / t1 / sin (t / 2)) with (- PI * cos t1 / (2 * t1 * sin (t / 2))) by (field; lra).
    rewrite <- C1; apply COS_bound.
  - rewrite xarc_in; [reflexivity|]; replace (- PI / 2 / t1) with (- PI / (2 * t1)) by (field; lra); rewrite <- C2; apply COS_bound.
Qed.
Lemma wimperis_range t : leb (- (4) * PI) t && leb t (4 * PI) = true -> -1 <= - t / (4 * PI) <= 1.
Proof.
  intros H; apply andb_prop in H; destruct H as [A B]; apply leb_true in A, B; assert (P := PI_pos); apply ratio_bound; lra.
Qed.

Theorem xcontrols_shift s t w a b name g : (forall x, g (b + x) = xadd a (Fin x)) ->
  xbuild s (Fin t) (Fin w) a name = map_result (reangled g) (build s t w b name).
Proof.
  intros G.
  assert (V : forall (k : unit -> result driven_control) (k' : unit -> result xcontrol), (0 < w -> k' tt = map_result (reangled g) (k tt)) ->
    bind (xvalidate_rabi_parameters (Fin t) (Fin w)) k' = map_result (reangled g) (bind (validate_rabi_parameters t w) k)).
  { intros k k' H; unfold xvalidate_rabi_parameters, validate_rabi_parameters; change (xlt (Fin 0) (Fin w)) with (ltb 0 w).
    change (xneq (Fin t) (Fin 0)) with (neqb t 0); destruct (ltb 0 w) eqn:E; cbn [check_arguments bind]; [|reflexivity].
    apply ltb_true in E; destruct (neqb t 0); cbn [check_arguments bind]; [auto|reflexivity]. }
  assert (WI : forall (k : R -> result driven_control) (k' : xfloat -> result xcontrol), (forall p, k' (Fin p) = map_result (reangled g) (k p)) ->
    bind (xwimperis (Fin t)) k' = map_result (reangled g) (bind (get_transformed_rabi_rotation_wimperis t) k)).
  { intros k k' H; unfold xwimperis, get_transformed_rabi_rotation_wimperis; cbn [xle].
    change (xle (Fin (- (4) * PI)) (Fin t) && xle (Fin t) (Fin (4 * PI))) with (leb (- (4) * PI) t && leb t (4 * PI)).
    destruct (leb (- (4) * PI) t && leb t (4 * PI)) eqn:E; cbn [check_arguments bind]; [|reflexivity].
    assert (P := PI_pos); cbn [xopp]; rewrite xdivide_fin, xarc_in by (try lra; apply wimperis_range; auto); apply H. }
  assert (SU : forall (k : unit -> result driven_control) (k' : unit -> result xcontrol), (supported t -> k' tt = map_result (reangled g) (k tt)) ->
    bind (xcheck_supported_rotation (Fin t)) k' = map_result (reangled g) (bind (check_supported_rotation t) k)).
  { intros k k' H; unfold xcheck_supported_rotation, check_supported_rotation; cbn [xisclose].
    destruct (np_any _) eqn:E; cbn [check_arguments bind]; [|reflexivity]; apply H; unfold supported.
    unfold np_any in E; cbn [existsb] in E; rewrite !orb_true_iff, !L_Predefined.isclose_near in E; destruct E as [E|[E|[E|E]]]; auto; discriminate. }
  assert (Z : forall x y, y = b + x -> xadd a (Fin x) = g y) by (intros x y ->; auto).
  assert (Z0 : forall x, x = b -> a = g x)
    by (intros x ->; replace b with (b + 0) by ring; rewrite G; destruct a; cbn; [f_equal; ring|reflexivity|reflexivity]).
  assert (ZC : forall x y, y = b + x -> xadd (Fin x) a = g y)
    by (intros x y ->; rewrite G; destruct a; cbn; [f_equal; ring|reflexivity|reflexivity]).
  destruct s; cbn [xbuild build].
  - apply V; intros W; apply (xconstant_angles g [t]); auto; cbn; rewrite <- Z0; auto.
  - apply V; intros W; apply WI; intros p; apply (xconstant_angles g [t; PI; 2 * PI; PI]); auto; cbn [map xmul].
    rewrite <- Z0 by auto; repeat f_equal; apply Z; ring.
  - apply V; intros W; apply WI; intros p; apply (xconstant_angles g [t; 2 * PI; 2 * PI]); auto; cbn [map xmul xsub xopp].
    rewrite <- Z0 by auto; repeat f_equal; apply Z; ring.
  - apply V; intros W; apply SU; intros S; cbv zeta; change (xscrofulous_theta_1 (Fin t)) with (scrofulous_theta_1 t).
    destruct (xscrofulous_fin t S) as [-> ->]; set (t1 := scrofulous_theta_1 t).
    apply (xconstant_angles g [t1; PI; t1]); auto; cbn [map]; repeat f_equal; apply Z; ring.
  - apply V; intros W; cbv zeta; rewrite xcorpse_k_fin, xdivide_fin by lra.
    apply (xconstant_angles g [t / 2 + 2 * PI - corpse_k t; 2 * PI - 2 * corpse_k t; t / 2 - corpse_k t]); auto; cbn [map].
    rewrite <- !Z0 by auto; repeat f_equal; apply Z; ring.
  - apply V; intros W; apply WI; intros p; cbv zeta; rewrite xcorpse_rotations_fin.
    apply (xconstant_angles g [2 * PI + t / 2 - corpse_k t; 2 * PI - 2 * corpse_k t; t / 2 - corpse_k t; PI; 2 * PI; PI]); auto; cbn [map xmul].
    rewrite <- !Z0 by auto; repeat f_equal; apply Z; ring.
  - apply V; intros W; apply WI; intros p; cbv zeta; rewrite xcorpse_rotations_fin.
    apply (xconstant_angles g [2 * PI + t / 2 - corpse_k t; 2 * PI - 2 * corpse_k t; t / 2 - corpse_k t; 2 * PI; 2 * PI]); auto; cbn [map xsub xopp].
    rewrite <- !Z0 by auto; repeat f_equal; apply Z; ring.
  - apply V; intros W; apply SU; intros S; cbv zeta; change (xscrofulous_theta_1 (Fin t)) with (scrofulous_theta_1 t).
    destruct (xscrofulous_fin t S) as [-> ->]; set (t1 := scrofulous_theta_1 t).
    cbn [flat_map xcorpse_rows corpse_rows combine app map fst snd]; rewrite !xcorpse_rotations_fin; cbn [combine app map fst snd].
    match goal with |- _ = map_result _ (constant_rate_control ?r _ _ _) => apply (xconstant_angles g r); auto end.
    cbn [map xadd]; repeat f_equal; apply ZC; ring.
  - apply V; intros W; apply SU; intros S; change (xwamf1_thetas (Fin t)) with (wamf1_thetas t).
    generalize (wamf1_thetas_table t S); destruct (wamf1_thetas t) as [tp tm]; cbn [fst snd]; intros TB; apply wamf1_bounds in TB.
    unfold python_divide; change (xeq (Fin w) (Fin 0)) with (eqb w 0); rewrite (proj2 (eqb_false w 0)) by lra; cbn [bind]; rewrite xdivide_fin by lra.
    assert (D : tp / w <> 0) by (apply Rgt_not_eq, Rdiv_lt_0_compat; lra).
    cbn [map_result_list]; change (xeq (Fin (tp / w)) (Fin 0)) with (eqb (tp / w) 0); rewrite (proj2 (eqb_false (tp / w) 0)) by auto; cbn [bind].
    rewrite !xdivide_fin by auto; rewrite <- xcontrol_angles, !repeat_fin; f_equal; cbn [repeat map]; rewrite <- !Z0 by auto; auto.
Qed.

Theorem xcontrols_finite s t w a name : xbuild s (Fin t) (Fin w) (Fin a) name = map_result fin_control (build s t w a name).
Proof. rewrite (xcontrols_shift s t w (Fin a) a name Fin) by auto; reflexivity. Qed.
Theorem xcontrols_angle s t w a b name : ~ finite a -> xbuild s (Fin t) (Fin w) a name = map_result (with_angles a) (build s t w b name).
Proof.
  intros N; rewrite (xcontrols_shift s t w a b name (fun _ => a)); [reflexivity|]; intros x; destruct a; auto; exfalso; apply N; eexists; reflexivity.
Qed.

(** ** Rejected requests *)

Lemma xconstant_bad x rots angs w name : ~ Spec_Extended.positive (xdivide x w) -> argument_error (xconstant_rate_control (x :: rots) angs w name).
Proof. intros N; apply xcontrol_accepts; intros [P _]; apply N, P; left; reflexivity. Qed.
Lemma divide_inf x : ~ Spec_Extended.positive (xdivide x (Inf false)).
Proof. destruct x; cbn; auto; lra. Qed.
Lemma xsupported x : ~ (exists t, x = Fin t /\ supported t) -> argument_error (xcheck_supported_rotation x).
Proof.
  intros N; unfold xcheck_supported_rotation; rewrite check_false; [do 3 eexists; reflexivity|].
  destruct x as [t|b|]; [|destruct b; reflexivity|reflexivity].
  destruct (np_any _) eqn:E; auto; exfalso; apply N; exists t; split; auto.
  unfold np_any in E; cbn [existsb xisclose] in E; rewrite !orb_true_iff, !L_Predefined.isclose_near in E; destruct E as [E|[E|[E|E]]]; unfold supported; auto; discriminate.
Qed.
Lemma xsupported_ok t : supported t -> xcheck_supported_rotation (Fin t) = Ok tt.
Proof. exact (check_supported_ok t). Qed.

Lemma wimperis_cases x : (exists p, xwimperis x = Ok p) \/ argument_error (xwimperis x).
Proof. unfold xwimperis; destruct (xle _ x && _); [left; eexists; reflexivity|right; do 3 eexists; reflexivity]. Qed.
Lemma wimperis_special x : ~ finite x -> argument_error (xwimperis x).
Proof.
  intros N; unfold xwimperis; rewrite check_false; [do 3 eexists; reflexivity|].
  destruct x as [r|[]|]; cbn; auto; exfalso; apply N; eexists; reflexivity.
Qed.
Lemma supported_cases x : xcheck_supported_rotation x = Ok tt \/ argument_error (xcheck_supported_rotation x).
Proof. unfold xcheck_supported_rotation; destruct (np_any _); [left; reflexivity|right; do 3 eexists; reflexivity]. Qed.
Lemma validated {X} theta omega (k : unit -> result X) : xlt (Fin 0) omega = true -> xneq theta (Fin 0) = true ->
  bind (xvalidate_rabi_parameters theta omega) k = k tt.
Proof. intros A B; unfold xvalidate_rabi_parameters; rewrite A, B; reflexivity. Qed.
Lemma special_rate s theta a name : xneq theta (Fin 0) = true -> (s = WAMF1 -> ~ exists t, theta = Fin t /\ supported t) ->
  argument_error (xbuild s theta (Inf false) a name).
Proof.
  intros ET NS; destruct s; cbn [xbuild]; unfold xnew_primitive_control, xnew_bb1_control, xnew_sk1_control, xnew_scrofulous_control, xnew_corpse_control,
        xnew_corpse_in_bb1_control, xnew_corpse_in_sk1_control, xnew_corpse_in_scrofulous_control, xnew_wamf1_control;
    rewrite validated by auto; try (apply xconstant_bad, divide_inf);
    try (destruct (wimperis_cases theta) as [[p ->]|E]; [cbn [bind]; apply xconstant_bad, divide_inf|apply argument_bind; auto]);
    try (destruct (supported_cases theta) as [E|E]; [rewrite E; cbn [bind]; apply xconstant_bad, divide_inf|apply argument_bind; auto]).
  apply argument_bind, xsupported; auto.
Qed.
Lemma special_rotation s theta w a name : xneq theta (Fin 0) = true -> xlt (Fin 0) (Fin w) = true -> ~ finite theta ->
  (s = Primitive -> theta <> Inf false) -> argument_error (xbuild s theta (Fin w) a name).
Proof.
  intros ET EW NF NP; assert (W : 0 < w) by (apply ltb_true; auto); destruct s; cbn [xbuild]; unfold xnew_primitive_control, xnew_bb1_control, xnew_sk1_control, xnew_scrofulous_control, xnew_corpse_control,
        xnew_corpse_in_bb1_control, xnew_corpse_in_sk1_control, xnew_corpse_in_scrofulous_control, xnew_wamf1_control;
    rewrite validated by auto; try (apply argument_bind, wimperis_special; auto);
    try (apply argument_bind, xsupported; intros [t [-> _]]; apply NF; eexists; reflexivity).
  - apply xconstant_bad; destruct theta as [r|[]|]; [exfalso; apply NF; eexists; reflexivity| |exfalso; apply (NP eq_refl); reflexivity|auto].
    cbn; rewrite (proj2 (ltb_false w 0)) by lra; discriminate.
  - apply xconstant_bad; destruct theta as [r|n|]; [exfalso; apply NF; eexists; reflexivity| |]; auto.
Qed.

Theorem xcontrols_total s theta omega a name :
  (xaccepts s theta omega -> exists c, xbuild s theta omega a name = Ok c) /\
  (~ xaccepts s theta omega ->
   ~ (s = WAMF1 /\ omega = Inf false /\ exists t, theta = Fin t /\ supported t) -> argument_error (xbuild s theta omega a name)) /\
  (s = WAMF1 -> omega = Inf false -> (exists t, theta = Fin t /\ supported t) -> zero_division_error (xbuild s theta omega a name)).
Proof.
  assert (PI0 := PI_pos).
  split; [|split].
  - intros [[t [w [-> [-> A]]]]|[-> [-> [w [-> W]]]]].
    + destruct a as [a|n|].
      * rewrite xcontrols_finite; destruct (build_accepts s t w a name A) as [c [l [-> _]]]; eexists; reflexivity.
      * rewrite (xcontrols_angle s t w _ 0) by (intros [r E]; discriminate); destruct (build_accepts s t w 0 name A) as [c [l [-> _]]]; eexists; reflexivity.
      * rewrite (xcontrols_angle s t w _ 0) by (intros [r E]; discriminate); destruct (build_accepts s t w 0 name A) as [c [l [-> _]]]; eexists; reflexivity.
    + cbn [xbuild]; unfold xnew_primitive_control, xvalidate_rabi_parameters; rewrite check_true by (apply ltb_true; auto); cbn [bind].
      rewrite check_true by reflexivity; cbn [bind]; edestruct (proj1 (xcontrol_accepts [xdivide (Inf false) (Fin w)] (Some [Fin w]) (Some [a]) (Some [Fin 0]) name)) as [c [E _]];
        [|exists c; exact E].
      split; [|split; [|split]].
      * intros t [<-|[]]; cbn; rewrite (proj2 (ltb_false w 0)) by lra; reflexivity.
      * intros l E; injection E as <-; split; auto; intros x [<-|[]]; cbn; lra.
      * intros l E; injection E as <-; auto.
      * intros l E; injection E as <-; auto.
  - intros N NW.
    destruct (xlt (Fin 0) omega) eqn:EW.
    2:{ destruct s; cbn [xbuild]; unfold xnew_primitive_control, xnew_bb1_control, xnew_sk1_control, xnew_scrofulous_control, xnew_corpse_control,
          xnew_corpse_in_bb1_control, xnew_corpse_in_sk1_control, xnew_corpse_in_scrofulous_control, xnew_wamf1_control, xvalidate_rabi_parameters;
          rewrite EW; do 3 eexists; reflexivity. }
    destruct (xneq theta (Fin 0)) eqn:ET.
    2:{ destruct s; cbn [xbuild]; unfold xnew_primitive_control, xnew_bb1_control, xnew_sk1_control, xnew_scrofulous_control, xnew_corpse_control,
          xnew_corpse_in_bb1_control, xnew_corpse_in_sk1_control, xnew_corpse_in_scrofulous_control, xnew_wamf1_control, xvalidate_rabi_parameters;
          rewrite EW, ET; do 3 eexists; reflexivity. }
    destruct theta as [t|nt|], omega as [w|nw|]; try (destruct nw); try discriminate.
    + assert (NA : ~ accepts s t w) by (intros A; apply N; left; eauto).
      destruct a as [a|n|].
      * rewrite xcontrols_finite; destruct (build_rejects s t w a name NA) as [d [ar [-> _]]]; do 3 eexists; reflexivity.
      * rewrite (xcontrols_angle s t w _ 0) by (intros [r E]; discriminate); destruct (build_rejects s t w 0 name NA) as [d [ar [-> _]]]; do 3 eexists; reflexivity.
      * rewrite (xcontrols_angle s t w _ 0) by (intros [r E]; discriminate); destruct (build_rejects s t w 0 name NA) as [d [ar [-> _]]]; do 3 eexists; reflexivity.
    + apply special_rate; auto; intros -> ; intros [t0 [E S]]; apply NW; eauto.
    + apply special_rotation; auto; [intros [r E]; discriminate|intros -> E; apply N; right; split; auto; split; auto; eexists; split; [reflexivity|apply ltb_true; auto]].
    + apply special_rate; auto; intros -> ; intros [t0 [E S]]; apply NW; eauto.
    + apply special_rotation; auto; [intros [r E]; discriminate|discriminate].
    + apply special_rate; auto; intros -> ; intros [t0 [E S]]; apply NW; eauto.
  - intros -> -> [t [-> S]]; cbn [xbuild]; unfold xnew_wamf1_control, xvalidate_rabi_parameters; rewrite check_true by reflexivity; cbn [bind].
    assert (T : t <> 0) by (assert (H := sin_half_lower t S); intros ->; replace (0 / 2) with 0 in H by field; rewrite sin_0 in H; lra).
    rewrite check_true by (apply neqb_true; auto); cbn [bind]; rewrite (xsupported_ok t S); cbn [bind].
    destruct (xwamf1_thetas (Fin t)) as [tp tm]; unfold python_divide; cbn [xeq xdivide bind map_result_list].
    change (xeq (Fin 0) (Fin 0)) with (eqb 0 0); rewrite (proj2 (eqb_true 0 0)) by auto; eexists; reflexivity.
Qed.
Theorem xprimitive_endless w a name : 0 < w ->
  xbuild Primitive (Inf false) (Fin w) a name = Ok (MkXControl [Fin w] [a] [Fin 0] [Inf false] name).
Proof.
  intros W; cbn [xbuild]; unfold xnew_primitive_control; rewrite validated by (reflexivity || apply ltb_true; auto).
  unfold xconstant_rate_control, xDrivenControl; cbn [List.length repeat map xdivide xorb]; rewrite (proj2 (ltb_false w 0)) by lra.
  cbn [xorb xinput_lengths]; rewrite check_true by reflexivity; cbn [bind]; rewrite check_true by reflexivity; cbn [bind opt_default forallb].
  rewrite check_true by (rewrite Bool.andb_true_r; apply leb_true; lra); reflexivity.
Qed.

(** ** Modulated Gaussian *)

Lemma xsum_fin l : xsum (map Fin l) = Fin (np_sum l).
Proof. induction l as [|x l IH]; cbn; auto; unfold xsum in *; rewrite IH; auto. Qed.
Lemma xamax_fin l : xamax (map Fin l) = map_result Fin (np_amax l).
Proof.
  destruct l as [|x l]; cbn; auto; f_equal; revert x; induction l as [|y l IH]; intros x; cbn [map fold_left]; auto.
  change (xmaximum (Fin x) (Fin y)) with (xmax (Fin x) (Fin y)); rewrite xmax_fin, py_max_Rmax; apply IH.
Qed.
Lemma xbase_fin T t : T <> 0 -> xgaussian_base (Fin T) (Fin t) = Fin (gaussian_base T t).
Proof.
  intros H; unfold xgaussian_base, gaussian_base; cbn [xmul]; rewrite xsub_fin, xdivide_fin by (intros E; apply H; lra); cbn [xsquare xmul xexp].
  f_equal; f_equal; ring.
Qed.
Lemma zip_map {A B C D} (f : A -> B -> C) (g : D -> A) (h : D -> B) l : zip_with f (map g l) (map h l) = map (fun x => f (g x) (h x)) l.
Proof. induction l as [|x l IH]; cbn; auto; unfold zip_with in IH; rewrite IH; auto. Qed.
Lemma fold_max_nan l : fold_left xmaximum l NaN = NaN.
Proof. induction l; cbn; auto. Qed.
Lemma xamax_nan l : xamax (NaN :: l) = Ok NaN.
Proof. cbn; rewrite fold_max_nan; auto. Qed.

Lemma xmodulated_fin T f ms : T <> 0 ->
  zip_with xmul (map (xgaussian_base (Fin T)) (map Fin ms))
    (map (fun t => xsin (xmul (xmul (Fin (2 * PI)) (Fin f)) (xsub t (xdivide (Fin T) (Fin 2))))) (map Fin ms)) =
  map Fin (map (gaussian_modulated f T) ms).
Proof.
  intros H; rewrite !map_map, zip_map; apply map_ext; intros t; rewrite xbase_fin, xdivide_fin, xsub_fin by (auto; lra); reflexivity.
Qed.
Lemma xsegments_fin M m T f : gaussian_inputs M m T -> let n := gaussian_segment_count T m in
  xgaussian_segments (Fin M) (Fin T) (Fin f) (Fin (T / INR n)) (map Fin (gaussian_midpoints n (T / INR n))) =
  gaussian_segments M T f (T / INR n) (gaussian_midpoints n (T / INR n)).
Proof.
  intros V n; destruct (gaussian_inputs_ok M m T f V) as [C [N _]]; fold n in C, N; destruct V as [W [Hm [L B]]].
  assert (H : T <> 0) by lra; unfold xgaussian_segments, gaussian_segments; cbv zeta; rewrite xmodulated_fin by auto.
  change (xneq (Fin f) (Fin 0)) with (neqb f 0); destruct (neqb f 0) eqn:E.
  - rewrite xamax_fin; destruct (np_amax _) as [pk|]; cbn [map_result bind]; auto; rewrite !map_map; reflexivity.
  - rewrite map_map; rewrite (map_ext _ (fun t => Fin (gaussian_base T t))) by (intros; apply xbase_fin; auto).
    rewrite <- (map_map (gaussian_base T) Fin), xamax_fin, (gaussian_samples _ (envelope T)) by (try lia; intros; apply gaussian_base_envelope; auto).
    destruct (np_amax_ok (samples (envelope T) T n)) as [pk PK]; [apply samples_nonempty; lia|]; rewrite PK; cbn [map_result bind].
    apply np_amax_spec in PK.
    assert (AP : forall x, In x (samples (envelope T) T n) -> 0 < x)
      by (intros x Hx; unfold samples in Hx; apply in_map_iff in Hx; destruct Hx as [i [<- _]]; apply envelope_pos).
    assert (P0 : 0 < pk) by (apply AP, PK).
    assert (NM : map (fun b => xdivide b (Fin pk)) (map Fin (samples (envelope T) T n)) = map Fin (map (fun b => b / pk) (samples (envelope T) T n)))
      by (rewrite !map_map; apply map_ext; intros; apply xdivide_fin; lra).
    rewrite NM, xsum_fin.
    assert (DT : 0 < T / INR n) by (apply Rdiv_lt_0_compat; [lra|apply lt_0_INR; lia]).
    assert (SP : 0 < np_sum (map (fun b => b / pk) (samples (envelope T) T n))).
    { destruct (samples (envelope T) T n) as [|x xs] eqn:ES; [destruct PK as [[] _]|].
      assert (Z : forall l, (forall x, In x l -> 0 < x) -> 0 <= np_sum (map (fun b => b / pk) l)).
      { clear - P0; induction l as [|y l IH]; cbn; intros Q; [lra|]; assert (0 < y / pk) by (apply Rdiv_lt_0_compat; auto); assert (0 <= np_sum (map (fun b => b / pk) l)) by auto.
        unfold np_sum in *; lra. }
      cbn [map]; assert (0 < x / pk) by (apply Rdiv_lt_0_compat; auto; apply AP; left; auto).
      assert (0 <= np_sum (map (fun b => b / pk) xs)) by (apply Z; intros; apply AP; right; auto); unfold np_sum in *; cbn; lra. }
    cbn [xmul xmod]; rewrite xsub_fin, xmax_fin.
    set (S := np_sum _) in *; assert (AN : T / INR n * S * M <> 0) by (apply Rgt_not_eq, Rmult_lt_0_compat; [apply Rmult_lt_0_compat|]; auto).
    f_equal; rewrite !map_map; apply map_ext; intros v; rewrite xdivide_fin by auto; reflexivity.
Qed.

Lemma xmidpoints_fin n d : map (fun i => xadd (xmul (Fin (INR i)) (Fin d)) (xdivide (Fin d) (Fin 2))) (range 0 n) = map Fin (gaussian_midpoints n d).
Proof. unfold gaussian_midpoints; rewrite map_map; apply map_ext; intros i; rewrite xdivide_fin by lra; reflexivity. Qed.
Lemma all_finite_some l l' : all_finite l = Some l' -> l = map Fin l'.
Proof.
  revert l'; induction l as [|x l IH]; cbn; intros l' E; [injection E as <-; auto|].
  destruct x as [r| |]; [|discriminate|discriminate]; destruct (all_finite l) as [q|]; [|discriminate]; injection E as <-; cbn; f_equal; auto.
Qed.
Theorem xgaussian_finite M m T f :
  xnew_modulated_gaussian_control (Fin M) (Fin m) (Fin T) (Fin f) = map_result fin_control (new_modulated_gaussian_control M m T f).
Proof.
  destruct (gaussian_inputs_dec M m T) as [V|V].
  - destruct (gaussian_inputs_ok M m T f V) as [C [N E]]; cbv zeta in E; rewrite E.
    assert (SG := xsegments_fin M m T f V); cbv zeta in SG; assert (MO := gaussian_modulated_ok M m T f V).
    destruct V as [W [Hm [L B]]]; unfold xnew_modulated_gaussian_control.
    rewrite (bind_true (xlt (Fin 0) (Fin M))), (bind_true (xlt (Fin 0) (Fin m))), (bind_true (xlt (Fin m) (Fin T))) by (apply ltb_true; auto).
    cbv zeta; change (xmul (Fin (1 / 10)) (Fin T)) with (Fin (1 / 10 * T)); rewrite xdivide_fin by lra; rewrite bind_true.
    2:{ apply leb_true; rewrite gaussian_required by lra; apply (Rmult_le_reg_r T); [lra|]; unfold Rdiv; rewrite Rmult_assoc, Rinv_l by lra; lra. }
    rewrite xdivide_fin by lra; cbn [xceil bind]; fold (gaussian_segment_count T m); set (n := gaussian_segment_count T m) in *.
    assert (NZ : INR n <> 0) by (apply not_0_INR; lia); rewrite xdivide_fin by auto; rewrite xmidpoints_fin, SG.
    destruct (gaussian_segments _ _ _ _ _) as [sg|ex] eqn:ES; cbn [bind map_result]; [|reflexivity].
    assert (LS : List.length sg = n).
    { unfold gaussian_segments in ES; destruct (neqb f 0); destruct (np_amax _); cbn [bind] in ES; try discriminate; injection ES as <-;
        rewrite !map_length; unfold gaussian_midpoints; rewrite map_length; apply seq_length. }
    destruct (all_finite sg) as [l|] eqn:AF.
    + apply all_finite_some in AF; subst sg; rewrite <- xcontrol_finite; cbn [option_map]; rewrite !map_map, repeat_fin.
      unfold np_zeros, np_full, xzeros; rewrite repeat_fin; f_equal; f_equal; apply map_ext; intros v; change (xle (Fin 0) (Fin v)) with (leb 0 v); destruct (leb 0 v); auto.
    + assert (F : f <> 0).
      { intros ->; unfold gaussian_segments in ES; rewrite (proj2 (neqb_false 0 0) eq_refl) in ES; destruct (np_amax _); cbn [bind] in ES; [|discriminate].
        injection ES as <-; rewrite all_finite_map in AF; discriminate. }
      destruct (MO F) as [n' [pk [C' [_ [PK [[P [c [EC _]]]|[P [Z _]]]]]]]]; [rewrite E in EC; cbn [bind] in EC; rewrite AF in EC; discriminate|].
      assert (n' = n) by (apply (ceiling_unique _ _ _ C' C)); subst n'.
      unfold gaussian_segments in ES; rewrite (proj2 (neqb_true f 0) F) in ES; rewrite (gaussian_samples _ (signal f T)) in ES.
      2: lia. 2:{ intros t; unfold gaussian_modulated, signal; rewrite gaussian_base_envelope by lra; reflexivity. }
      destruct (np_amax_ok (samples (signal f T) T n)) as [pk' PK']; [apply samples_nonempty; lia|]; rewrite PK' in ES; cbn [bind] in ES; injection ES as <-.
      assert (pk' = 0) by (apply Z; apply np_amax_spec in PK'; apply PK'); subst pk'.
      assert (SN : map (fun v => xdiv (M * v) 0) (samples (signal f T) T n) = map (fun _ => NaN) (samples (signal f T) T n)).
      { apply map_ext_in; intros v I; rewrite (Z v I), Rmult_0_r; unfold xdiv; rewrite (proj2 (eqb_true 0 0)); auto. }
      rewrite SN in *; rewrite !map_map; unfold xDrivenControl.
      rewrite check_true; cbn [bind]. 2:{ apply forallb_forall; intros x I; apply repeat_spec in I; subst x; apply ltb_true, Rdiv_lt_0_compat; [lra|apply lt_0_INR; lia]. }
      rewrite check_true; cbn [bind opt_default].
      2:{ apply Nat.eqb_eq, xinput_lengths_one; rewrite repeat_length; split; [|split]; intros q Q; injection Q as <-; rewrite ?map_length in *; auto; apply repeat_length. }
      rewrite check_false; [reflexivity|].
      destruct (samples (signal f T) T n) eqn:QS; [cbn in LS; lia|]; reflexivity.
  - unfold xnew_modulated_gaussian_control, new_modulated_gaussian_control; change (xlt (Fin 0) (Fin M)) with (ltb 0 M); change (xlt (Fin 0) (Fin m)) with (ltb 0 m).
    change (xlt (Fin m) (Fin T)) with (ltb m T).
    destruct (ltb 0 M) eqn:E1; [|reflexivity]; destruct (ltb 0 m) eqn:E2; [|reflexivity]; destruct (ltb m T) eqn:E3; [|reflexivity]; cbn [check_arguments bind].
    apply ltb_true in E1, E2, E3; cbn [xmul]; rewrite xdivide_fin by lra; change (xle (Fin ?a) (Fin M)) with (leb a M).
    assert (F : leb (sqrt (2 * PI) / (1 / 10 * T)) M = false).
    { apply leb_false, Rnot_le_lt; rewrite gaussian_required by lra; intros Q; apply V; repeat (split; auto).
      apply (Rmult_le_compat_r T) in Q; [|lra]; unfold Rdiv in Q; rewrite Rmult_assoc, Rinv_l in Q by lra; lra. }
    rewrite F; reflexivity.
Qed.

Lemma xlt_below x y : xlt x y = true <-> strictly_below x y.
Proof.
  destruct x as [x|[]|], y as [y|[]|]; cbn; try (rewrite ltb_true; tauto); split; try discriminate; try tauto; auto.
  all: intros [? ?]; auto.
Qed.
Lemma nan_rates d ts a z name : d <> [] -> (forall x, In x d -> x = NaN) -> argument_error (xDrivenControl ts (Some d) a z name).
Proof.
  intros NE H; apply xcontrol_accepts; intros [_ [B _]]; destruct d as [|x d]; [tauto|]; destruct (B _ eq_refl) as [_ Q].
  specialize (Q x (or_introl eq_refl)); rewrite (H x (or_introl eq_refl)) in Q; exact Q.
Qed.
Lemma xarray_map {A B} (f : A -> B) l : l <> [] -> map f l <> [].
Proof. destruct l; cbn; [tauto|discriminate]. Qed.

(** past the four checks *)
Lemma xgaussian_body M m T f : Spec_Extended.positive M -> 0 < m -> m < T ->
  (M = Inf false \/ exists r, M = Fin r /\ 10 * sqrt (2 * PI) <= r * T) ->
  exists n, is_ceiling (T / m) n /\ (2 <= n)%nat /\
  xnew_modulated_gaussian_control M (Fin m) (Fin T) f =
  (let* segments := xgaussian_segments M (Fin T) f (Fin (T / INR n)) (map Fin (gaussian_midpoints n (T / INR n))) in
   xDrivenControl (repeat (Fin (T / INR n)) n) (Some (map xabs segments))
     (Some (map (fun v => if xle (Fin 0) v then Fin 0 else Fin PI) segments)) (Some (xzeros n)) None).
Proof.
  intros PM Hm L B.
  assert (X : 1 < T / m) by (apply (Rmult_lt_reg_r m); auto; unfold Rdiv; rewrite Rmult_assoc, Rinv_l by lra; lra).
  destruct (np_ceil_spec (T / m)) as [C C2]; [lra|]; exists (Z.to_nat (np_ceil (T / m))); split; [exact C|split; [apply C2; auto|]].
  set (n := Z.to_nat (np_ceil (T / m))) in *; assert (N : (2 <= n)%nat) by (apply C2; auto).
  unfold xnew_modulated_gaussian_control; rewrite (bind_true (xlt (Fin 0) M)) by (apply xlt_0; auto).
  rewrite (bind_true (xlt (Fin 0) (Fin m))), (bind_true (xlt (Fin m) (Fin T))) by (apply ltb_true; auto).
  cbv zeta; change (xmul (Fin (1 / 10)) (Fin T)) with (Fin (1 / 10 * T)); rewrite xdivide_fin by lra; rewrite bind_true.
  2:{ destruct B as [-> | [r [-> B]]]; [reflexivity|]; apply leb_true; rewrite gaussian_required by lra; apply (Rmult_le_reg_r T); [lra|].
      unfold Rdiv; rewrite Rmult_assoc, Rinv_l by lra; lra. }
  rewrite xdivide_fin by lra; cbn [xceil bind]; fold n; assert (NZ : INR n <> 0) by (apply not_0_INR; lia); rewrite xdivide_fin by auto.
  rewrite xmidpoints_fin; reflexivity.
Qed.
Lemma midpoints_nonempty n d : (2 <= n)%nat -> gaussian_midpoints n d <> [].
Proof. intros H E; apply (f_equal (@List.length R)) in E; unfold gaussian_midpoints, range in E; rewrite map_length, seq_length in E; cbn in E; lia. Qed.

Lemma xgaussian_checks M m T f : ~ Spec_Extended.positive M \/ ~ Spec_Extended.positive m \/ ~ strictly_below m T ->
  argument_error (xnew_modulated_gaussian_control M m T f).
Proof.
  intros H; unfold xnew_modulated_gaussian_control.
  destruct (xlt (Fin 0) M) eqn:E1; [rewrite bind_true by auto|apply bind_false; auto].
  destruct (xlt (Fin 0) m) eqn:E2; [rewrite bind_true by auto|apply bind_false; auto].
  destruct (xlt m T) eqn:E3; [|apply bind_false; auto].
  exfalso; apply xlt_0 in E1, E2; apply xlt_below in E3; tauto.
Qed.

Lemma xgaussian_required M m T f : Spec_Extended.positive M -> 0 < m -> m < T -> (forall r, M = Fin r -> r * T < 10 * sqrt (2 * PI)) -> M <> Inf false ->
  argument_error (xnew_modulated_gaussian_control M (Fin m) (Fin T) f).
Proof.
  intros PM Hm L B NI; unfold xnew_modulated_gaussian_control.
  rewrite (bind_true (xlt (Fin 0) M)) by (apply xlt_0; auto).
  rewrite (bind_true (xlt (Fin 0) (Fin m))), (bind_true (xlt (Fin m) (Fin T))) by (apply ltb_true; auto).
  cbv zeta; change (xmul (Fin (1 / 10)) (Fin T)) with (Fin (1 / 10 * T)); rewrite xdivide_fin by lra; apply bind_false.
  destruct M as [r|[]|]; [|cbn in PM; discriminate|congruence|destruct PM].
  apply leb_false; rewrite gaussian_required by lra; apply (Rmult_lt_reg_r T); [lra|]; unfold Rdiv; rewrite Rmult_assoc, Rinv_l by lra.
  specialize (B r eq_refl); lra.
Qed.

Theorem xgaussian_special M m T f :
  (~ Spec_Extended.positive M \/ ~ Spec_Extended.positive m \/ ~ strictly_below m T -> argument_error (xnew_modulated_gaussian_control M m T f)) /\
  (Spec_Extended.positive M -> Spec_Extended.positive m -> strictly_below m T -> T = Inf false ->
     overflow_error (xnew_modulated_gaussian_control M m T f)) /\
  (forall m0 T0, m = Fin m0 -> T = Fin T0 ->
      (~ finite f -> argument_error (xnew_modulated_gaussian_control M m T f)) /\
      (M = Inf false -> f = Fin 0 -> argument_error (xnew_modulated_gaussian_control M m T f)) /\
    (forall f0 n, M = Inf false -> f = Fin f0 -> f0 <> 0 -> 0 < m0 < T0 -> is_ceiling (T0 / m0) n ->
      ((forall i, (i < n)%nat -> signal f0 T0 (midpoint T0 n i) <> 0) ->
        xnew_modulated_gaussian_control M m T f =
          Ok (MkXControl (repeat (Inf false) n) (map (fun v => if Rle_dec 0 v then Fin 0 else Fin PI) (samples (signal f0 T0) T0 n))
                (repeat (Fin 0) n) (repeat (Fin (T0 / INR n)) n) None)) /\
      ((exists i, (i < n)%nat /\ signal f0 T0 (midpoint T0 n i) = 0) -> argument_error (xnew_modulated_gaussian_control M m T f)))).
Proof.
  split; [apply xgaussian_checks|]; split.
  - intros P1 P2 P3 ->; unfold xnew_modulated_gaussian_control; rewrite (bind_true (xlt (Fin 0) M)), (bind_true (xlt (Fin 0) m)) by (apply xlt_0; auto).
    rewrite (bind_true (xlt m (Inf false))) by (apply xlt_below; auto); cbv zeta.
    rewrite bind_true; [destruct m as [m|[]|]; cbn in P2, P3; try tauto; [|discriminate|destruct P3; discriminate]|].
    + cbn [xdivide xceil bind]; eexists; reflexivity.
    + cbn [xmul]; rewrite (proj2 (eqb_false (1 / 10) 0)), (proj2 (ltb_false (1 / 10) 0)) by lra; cbn [xorb xdivide].
      destruct M as [r|[]|]; cbn in P1 |- *; [apply leb_true; lra|discriminate|reflexivity|tauto].
  - intros m0 T0 -> ->; split; [|split].
    + intros NF.
      destruct (xlt (Fin 0) M) eqn:E1; [|apply xgaussian_checks; left; rewrite <- xlt_0, E1; discriminate].
      destruct (xlt (Fin 0) (Fin m0)) eqn:E2; [|apply xgaussian_checks; right; left; rewrite <- xlt_0, E2; discriminate].
      destruct (xlt (Fin m0) (Fin T0)) eqn:E3; [|apply xgaussian_checks; right; right; rewrite <- xlt_below, E3; discriminate].
      apply xlt_0 in E1, E2; apply xlt_below in E3; cbn in E2, E3.
      destruct (xle (Fin (10 * sqrt (2 * PI) / T0)) M) eqn:E4.
      2:{ apply xgaussian_required; auto.
          - intros r ->; apply leb_false in E4; apply (Rmult_lt_compat_r T0) in E4; [|lra]; unfold Rdiv in E4; rewrite Rmult_assoc, Rinv_l in E4 by lra; lra.
          - intros ->; discriminate. }
      destruct (xgaussian_body M m0 T0 f) as [n [C [N E]]]; auto.
      { destruct M as [r|[]|]; [|cbn in E1; discriminate|left; auto|destruct E1]; right; exists r; split; auto.
        apply leb_true, (Rmult_le_compat_r T0) in E4; [|lra]; unfold Rdiv in E4; rewrite Rmult_assoc, Rinv_l in E4 by lra; lra. }
      rewrite E; unfold xgaussian_segments; cbv zeta; replace (xneq f (Fin 0)) with true by (destruct f as [r|[]|]; auto; exfalso; apply NF; eexists; reflexivity).
      assert (SN : forall t, xsin (xmul (xmul (Fin (2 * PI)) f) t) = NaN).
      { intros t; destruct f as [r|b|]; [exfalso; apply NF; eexists; reflexivity| |destruct t; auto].
        cbn [xmul]; assert (P := PI_pos); rewrite (proj2 (eqb_false (2 * PI) 0)) by lra; destruct t as [x|b'|]; cbn; auto; destruct (eqb x 0); auto. }
      rewrite zip_map, (map_ext _ (fun _ => NaN)) by (intros t; rewrite SN; destruct (xgaussian_base (Fin T0) t); auto).
      assert (NE := midpoints_nonempty n (T0 / INR n) N); destruct (gaussian_midpoints n (T0 / INR n)) as [|t0 ms]; [tauto|].
      cbn [map]; rewrite xamax_nan; cbn [bind]; apply nan_rates; [discriminate|]; intros x I.
      apply in_map_iff in I; destruct I as [y [<- I]]; destruct I as [<-|I]; [destruct (xmul M NaN); reflexivity|].
      apply in_map_iff in I; destruct I as [v [<- _]]; destruct (xmul M v); reflexivity.
    + intros -> ->.
      destruct (xlt (Fin 0) (Fin m0)) eqn:E2; [|apply xgaussian_checks; right; left; rewrite <- xlt_0, E2; discriminate].
      destruct (xlt (Fin m0) (Fin T0)) eqn:E3; [|apply xgaussian_checks; right; right; rewrite <- xlt_below, E3; discriminate].
      apply xlt_0 in E2; apply xlt_below in E3; cbn in E2, E3.
      destruct (xgaussian_body (Inf false) m0 T0 (Fin 0)) as [n [C [N E]]]; auto; [reflexivity|].
      rewrite E; unfold xgaussian_segments; cbv zeta; change (xneq (Fin 0) (Fin 0)) with (neqb 0 0); rewrite (proj2 (neqb_false 0 0)) by auto.
      assert (H : T0 <> 0) by lra; rewrite map_map, (map_ext _ (fun t => Fin (gaussian_base T0 t))) by (intros; apply xbase_fin; auto).
      rewrite <- (map_map (gaussian_base T0) Fin), xamax_fin, (gaussian_samples _ (envelope T0)) by (try lia; intros; apply gaussian_base_envelope; auto).
      destruct (np_amax_ok (samples (envelope T0) T0 n)) as [pk PK]; [apply samples_nonempty; lia|]; rewrite PK; cbn [map_result bind]; apply np_amax_spec in PK.
      assert (P0 : pk <> 0).
      { destruct PK as [I _]; unfold samples in I; apply in_map_iff in I; destruct I as [i [<- _]]; generalize (envelope_pos T0 (midpoint T0 n i)); lra. }
      assert (NM : map (fun b => xdivide b (Fin pk)) (map Fin (samples (envelope T0) T0 n)) = map Fin (map (fun b => b / pk) (samples (envelope T0) T0 n)))
        by (rewrite !map_map; apply map_ext; intros; apply xdivide_fin; auto).
      rewrite NM, xsum_fin; set (S := np_sum _); set (l := map (fun b => b / pk) _).
      apply nan_rates.
      * apply xarray_map, xarray_map; unfold l; apply xarray_map, xarray_map, samples_nonempty; lia.
      * intros x I; apply in_map_iff in I; destruct I as [y [<- I]]; apply in_map_iff in I; destruct I as [v [<- _]].
        assert (Q : forall z, xmul (xmul (Fin (T0 / INR n)) (Fin S)) (Inf false) = z -> xsub z (xmod z (2 * PI)) = NaN).
        { intros z <-; cbn [xmul]; destruct (eqb _ 0); reflexivity. }
        rewrite (Q _ eq_refl); change (xmax NaN (Fin (2 * PI))) with NaN; change (xdivide NaN ?z) with NaN.
        destruct (xmul v (Inf false)); reflexivity.
    + intros f0 n -> -> F0 [Hm L] C.
      destruct (xgaussian_body (Inf false) m0 T0 (Fin f0)) as [n' [C' [N E]]]; auto; [reflexivity|].
      assert (n' = n) by (apply (ceiling_unique _ _ _ C' C)); subst n'; rewrite E.
      assert (H : T0 <> 0) by lra; unfold xgaussian_segments; cbv zeta; rewrite xmodulated_fin by auto.
      change (xneq (Fin f0) (Fin 0)) with (neqb f0 0); rewrite (proj2 (neqb_true f0 0)) by auto; rewrite xamax_fin.
      rewrite (gaussian_samples _ (signal f0 T0)) by (try lia; intros t; unfold gaussian_modulated, signal; rewrite gaussian_base_envelope by auto; reflexivity).
      destruct (np_amax_ok (samples (signal f0 T0) T0 n)) as [pk PK]; [apply samples_nonempty; lia|]; rewrite PK; cbn [map_result bind]; apply amax_is_maximum in PK.
      assert (SM : forall t, signal f0 T0 (T0 - t) = - signal f0 T0 t) by (intros; apply signal_mirror; auto).
      assert (LN : List.length (samples (signal f0 T0) T0 n) = n) by (unfold samples; rewrite map_length, seq_length; auto).
      assert (P0 : 0 <= pk) by (destruct PK as [I U]; assert (A := samples_bounded _ T0 n pk SM (conj I U) pk I); generalize (Rabs_pos pk); lra).
      split.
      * intros NZ.
        assert (VZ : forall v, In v (samples (signal f0 T0) T0 n) -> v <> 0) by (intros v I; apply in_samples in I; destruct I as [i [I ->]]; auto).
        assert (PP : 0 < pk) by (assert (pk <> 0) by (apply VZ, PK); lra).
        assert (SG : map (fun v => xdivide (xmul (Inf false) v) (Fin pk)) (map Fin (samples (signal f0 T0) T0 n)) =
                     map (fun v => Inf (ltb v 0)) (samples (signal f0 T0) T0 n)).
        { rewrite map_map; apply map_ext_in; intros v I; cbn [xmul]; rewrite (proj2 (eqb_false v 0)) by auto; cbn [xdivide].
          rewrite (proj2 (ltb_false pk 0)) by lra; destruct (ltb v 0); reflexivity. }
        rewrite SG, !map_map; unfold xDrivenControl.
        assert (DT : 0 < T0 / INR n) by (apply Rdiv_lt_0_compat; [lra|apply lt_0_INR; lia]).
        rewrite check_true; cbn [bind]. 2:{ apply forallb_forall; intros x I; apply repeat_spec in I; subst x; apply ltb_true; auto. }
        rewrite check_true; cbn [bind opt_default].
        2:{ apply Nat.eqb_eq, xinput_lengths_one; rewrite repeat_length; split; [|split]; intros q Q; injection Q as <-; rewrite ?map_length; auto; apply repeat_length. }
        rewrite check_true; cbn [bind]. 2:{ apply forallb_forall; intros x I; apply in_map_iff in I; destruct I as [v [<- _]]; reflexivity. }
        f_equal; f_equal.
        -- rewrite <- LN at 2; clear; induction (samples (signal f0 T0) T0 n); cbn; f_equal; auto.
        -- apply map_ext_in; intros v I; specialize (VZ v I); destruct (ltb v 0) eqn:EV; [apply ltb_true in EV|apply ltb_false in EV]; destruct (Rle_dec 0 v); cbn; auto; lra.
      * intros [i [I Z]]; apply xcontrol_accepts; intros [_ [Q _]]; destruct (Q _ eq_refl) as [_ R]; specialize (R NaN); apply R.
        rewrite !map_map; apply in_map_iff; exists (signal f0 T0 (midpoint T0 n i)); split; [|apply in_samples; eauto].
        rewrite Z; cbn [xmul]; rewrite (proj2 (eqb_true 0 0)) by auto; reflexivity.
Qed.
