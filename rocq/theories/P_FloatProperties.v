(** * C94, C95: the derived quantities of a control in floating point *)

From Coq Require Import Lia.
From Flocq Require Import Core.
From Verif Require Import L_Float L_DrivenControl L_FloatExport.
From Verif Require Import L_FloatProperties.
Import ListNotations.
Open Scope string_scope.
Open Scope list_scope.
Open Scope R_scope.

(** C95, partial.  Full statement: in binary64 the boundary times of a control start at 0, are
    strictly increasing, are within a relative error of i 2^-53 of the sums of the first i
    durations, and end at the reported duration of the control.
    Missing: the times are only non-decreasing, and the last one need not be the reported
    duration (it is for fewer than 8 segments); see the refutations below. *)
Theorem C95_times_partial :
  forall c, constructible c -> (forall t, In t (durations c) -> binary64_format t) ->
  List.length (fl_times binary64 c) = S (number_of_segments c) /\
  nth_error (fl_times binary64 c) 0 = Some 0 /\
  non_decreasing (fl_times binary64 c) /\
  (forall i a b d, nth_error (fl_times binary64 c) i = Some a -> nth_error (fl_times binary64 c) (S i) = Some b ->
     nth_error (durations c) i = Some d -> Rabs (b - a - d) <= (a + d) / 2 ^ 53) /\
  (forall i t, (i <= 2 ^ 26)%nat -> nth_error (fl_times binary64 c) i = Some t ->
     Rabs (t - total (firstn i (durations c))) <= INR i / 2 ^ 53 * total (firstn i (durations c))).
Proof. exact float_times. Qed.
Print Assumptions C95_times_partial.

(** C94: the reported duration, for up to 2^m segments *)
Theorem C94_duration :
  forall c m, constructible c -> (forall t, In t (durations c) -> binary64_format t) ->
  (number_of_segments c <= 2 ^ m)%nat -> (m <= 2 ^ 20)%nat ->
  Rabs (fl_duration binary64 c - total (durations c)) <= (INR m + 27) / 2 ^ 53 * total (durations c).
Proof. exact float_duration. Qed.
Print Assumptions C94_duration.

(** C94: the same for any order of the additions in which no number passes through more than k of them *)
Theorem C94_any_order :
  forall k l s, (k <= 2 ^ 26)%nat -> summed binary64 k l s -> (forall x, In x l -> binary64_format x /\ 0 <= x) ->
  Rabs (s - total l) <= (INR k + 1) / 2 ^ 53 * total l.
Proof. exact any_order. Qed.
Print Assumptions C94_any_order.

(** C95: with fewer than 8 segments the last time is the reported duration *)
Theorem C95_last_time_partial :
  forall c, constructible c -> (forall t, In t (durations c) -> binary64_format t) ->
  (number_of_segments c < 8)%nat ->
  nth_error (fl_times binary64 c) (number_of_segments c) = Some (fl_duration binary64 c).
Proof. exact float_last_time. Qed.
Print Assumptions C95_last_time_partial.

(** C95, refuted at full strength: two boundary times coincide *)
Theorem C95_times_refuted :
  ~ forall c, constructible c -> (forall t, In t (durations c) -> binary64_format t) -> strictly_increasing (fl_times binary64 c).
Proof.
  intros H; destruct times_coincide as [c [K [F E]]]; assert (S := H c K F); rewrite E in S; cbn in S; lra.
Qed.
Print Assumptions C95_times_refuted.

(** C95, refuted at full strength: the control lasts longer than its last boundary time *)
Theorem C95_last_time_refuted :
  exists c T, constructible c /\ (forall t, In t (durations c) -> binary64_format t) /\
    nth_error (fl_times binary64 c) (number_of_segments c) = Some T /\ T < fl_duration binary64 c.
Proof. exact last_time_differs. Qed.
Print Assumptions C95_last_time_refuted.

(** C94: amplitudes and rotation angles *)
Theorem C94_angles :
  forall fsin fcos c l i g, accurate_sine_cosine fsin fcos -> constructible c -> describes l c ->
  (forall g, In g l -> measurable g) -> nth_error l i = Some g ->
  exists x y a,
    nth_error (fl_amplitude_x binary64 fcos c) i = Some x /\ nth_error (fl_amplitude_y binary64 fsin c) i = Some y /\
    nth_error (fl_angles binary64 fsin fcos c) i = Some a /\
    Rabs (x - g_rabi g * cos (g_phi g)) <= g_rabi g / 2 ^ 49 /\
    Rabs (y - g_rabi g * sin (g_phi g)) <= g_rabi g / 2 ^ 49 /\
    Rabs (a - sqrt (g_rabi g * g_rabi g + g_det g * g_det g) * g_dur g) <=
      sqrt (g_rabi g * g_rabi g + g_det g * g_det g) * g_dur g / 2 ^ 47 + / 2 ^ 1075.
Proof. exact float_angles. Qed.
Print Assumptions C94_angles.

(** C94: directions, away from the tolerance *)
Theorem C94_directions :
  forall fsin fcos c l, accurate_sine_cosine fsin fcos -> constructible c -> describes l c -> l <> [] ->
  (forall g, In g l -> measurable g) ->
  exists m ds,
    is_maximum m (map seg_norm l) /\ fl_directions binary64 fsin fcos c = Ok ds /\
    List.length ds = number_of_segments c /\
    forall i g, nth_error l i = Some g ->
      exists dx dy dz, nth_error ds i = Some (dx, dy, dz) /\
        (threshold m * (1 + / 2 ^ 40) < seg_norm g ->
           Rabs (dx - seg_x g / seg_norm g) <= / 2 ^ 47 /\ Rabs (dy - seg_y g / seg_norm g) <= / 2 ^ 47 /\
           Rabs (dz - g_det g / seg_norm g) <= / 2 ^ 47 /\ Rabs (dx * dx + dy * dy + dz * dz - 1) <= / 2 ^ 43) /\
        (seg_norm g <= threshold m * (1 - / 2 ^ 40) ->
           Rabs (dx - seg_x g) <= g_rabi g / 2 ^ 49 /\ Rabs (dy - seg_y g) <= g_rabi g / 2 ^ 49 /\ dz = g_det g).
Proof. exact float_directions. Qed.
Print Assumptions C94_directions.

(** C94: the plotted amplitudes, divided by the maximum rate or not *)
Theorem C94_plot :
  forall fsin fcos c l (dim : bool) k, accurate_sine_cosine fsin fcos -> constructible c -> describes l c ->
  (forall g, In g l -> measurable g) ->
  (if dim then is_maximum k (map g_rabi l) /\ 0 < k else k = 1) ->
  exists x y x' y' : seg -> R,
    fl_export binary64 fsin fcos c "cartesian" dim =
      Ok [("X amplitude", track (fun g => PReal (Fin (x g))) l); ("Y amplitude", track (fun g => PReal (Fin (y g))) l);
          ("Detuning", track (fun g => PReal (Fin (g_det g))) l)] /\
    fl_export binary64 fsin fcos c "cylindrical" dim =
      Ok [("Rabi rate", track (fun g => PComplex (Fin (x' g)) (Fin (y' g))) l);
          ("Detuning", track (fun g => PReal (Fin (g_det g))) l)] /\
    forall g, In g l ->
      plotted (g_rabi g / k) (x g) (seg_x g / k) /\ plotted (g_rabi g / k) (y g) (seg_y g / k) /\
      plotted (g_rabi g / k) (x' g) (seg_x g / k) /\ plotted (g_rabi g / k) (y' g) (seg_y g / k).
Proof. exact float_plot. Qed.
Print Assumptions C94_plot.

(** C94: without rounding these are the functions of M_DrivenControl.v *)
Theorem C94_unrounded :
  forall c,
  fl_times (fun x => x) c = times c /\ fl_duration (fun x => x) c = duration c /\
  fl_angles (fun x => x) sin cos c = angles c /\ fl_directions (fun x => x) sin cos c = directions c /\
  forall coordinates dim, fl_export (fun x => x) sin cos c coordinates dim = export c coordinates dim.
Proof. exact float_properties_exact. Qed.
Print Assumptions C94_unrounded.

(** a rate of 3 and a detuning of 4 for 1 time unit: the rotation by 5 *)
Definition tilted : list seg := [Seg 3 1 4 1; Seg 1 0 0 (1 / 2)].

Lemma small_integer n : (Z.abs n < 2 ^ 53)%Z -> binary64_format (IZR n).
Proof.
  intros H; apply generic_format_FLT; exists (Float radix2 n 0); [unfold F2R; cbn [Fnum Fexp bpow]; ring|exact H|cbn; lia].
Qed.
Lemma sized_one x : 1 <= x -> sized x.
Proof.
  intros H; right; rewrite Rabs_pos_eq by lra; apply Rle_trans with (/ 2 ^ 0); [apply inv_pow_le; lia|cbn; lra].
Qed.
Lemma tilted_measurable g : In g tilted -> measurable g.
Proof.
  intros [<-|[<-|[]]]; unfold measurable; cbn [g_rabi g_phi g_det g_dur].
  - split; [apply (small_integer 3); lia|]; split; [apply (small_integer 1); lia|]; split; [apply (small_integer 4); lia|].
    split; [rewrite Rabs_pos_eq; lra|]; split; apply sized_one; lra.
  - split; [apply (small_integer 1); lia|]; split; [apply (small_integer 0); lia|]; split; [apply (small_integer 0); lia|].
    split; [rewrite Rabs_R0; lra|]; split; [apply sized_one; lra|left; auto].
Qed.

Example C94_case : exists c a, constructible c /\ describes tilted c /\
  nth_error (fl_angles binary64 sin cos c) 0 = Some a /\ Rabs (a - 5) <= / 2 ^ 44.
Proof.
  destruct (segments_constructible tilted None) as [c [E [D _]]].
  { intros g [<-|[<-|[]]]; cbn; lra. }
  assert (K : constructible c) by (do 5 eexists; exact E).
  assert (T : accurate_sine_cosine sin cos).
  { split; intros x _ _; rewrite Rminus_diag_eq, Rabs_R0 by auto; left; apply inv_pow_pos. }
  destruct (float_angles sin cos c tilted 0 _ T K D tilted_measurable eq_refl) as [x [y [a [_ [_ [A [_ [_ B]]]]]]]].
  exists c, a; split; [auto|split; [auto|split; [auto|]]].
  cbn [g_rabi g_det g_dur] in B; replace (3 * 3 + 4 * 4) with (5 * 5) in B by ring; rewrite sqrt_square, Rmult_1_r in B by lra.
  eapply Rle_trans; [exact B|].
  assert (Q : / 2 ^ 1075 <= / 2 ^ 47) by (apply inv_pow_le; lia).
  replace (2 ^ 47) with 140737488355328 in * by ring; replace (2 ^ 44) with 17592186044416 by ring; lra.
Qed.

Example C95_case : exists c, constructible c /\ describes tilted c /\
  fl_times binary64 c = [0; 1; 3 / 2] /\ fl_duration binary64 c = 3 / 2.
Proof.
  destruct (segments_constructible tilted None) as [c [E [D _]]].
  { intros g [<-|[<-|[]]]; cbn; lra. }
  assert (K : constructible c) by (do 5 eexists; exact E).
  assert (F2 : binary64_format (1 / 2)).
  { replace (1 / 2) with (bpow radix2 (-1)) by (cbn; lra); apply generic_format_bpow; unfold FLT_exp; cbn; lia. }
  assert (F3 : binary64_format (1 + 1 / 2)).
  { apply generic_format_FLT; exists (Float radix2 3 (-1)); [unfold F2R; cbn; lra|cbn; lia|cbn; lia]. }
  assert (F : forall t, In t (durations c) -> binary64_format t).
  { destruct D as [_ [_ [_ ->]]]; intros t [<-|[<-|[]]]; [apply (small_integer 1); lia|exact F2]. }
  assert (N : number_of_segments c = 2%nat) by (unfold number_of_segments; destruct D as [-> _]; reflexivity).
  assert (T : fl_times binary64 c = [0; 1; 3 / 2]).
  { unfold fl_times; destruct D as [_ [_ [_ ->]]]; cbn [tilted map g_dur fl_cumsum fl_accumulate].
    rewrite rnd_format by exact F3; repeat (f_equal; try lra). }
  exists c; split; [auto|split; [auto|split; [auto|]]].
  assert (L := float_last_time c K F ltac:(rewrite N; lia)); rewrite N, T in L; cbn in L; injection L as <-; reflexivity.
Qed.
