(** * Theorems: C110, reading and exporting objects in memory *)

From Coq Require Import Lia Lra.
From Verif Require Import L_HeapRead.
Import ListNotations.
Set Bullet Behavior "Strict Subproofs".
Open Scope string_scope.
Open Scope list_scope.
Open Scope R_scope.

(** C110: the numbers computed from a control are those of its current contents, and nothing is written *)
Theorem C110_numbers :
  forall c h,
  reads h (hnumber_of_segments c) (Ok (number_of_segments (control_at h c))) /\
  reads h (hmaximum_rabi_rate c) (maximum_rabi_rate (control_at h c)) /\
  reads h (hmaximum_detuning c) (maximum_detuning (control_at h c)) /\
  reads h (hmaximum_duration c) (maximum_duration (control_at h c)) /\
  reads h (hminimum_duration c) (minimum_duration (control_at h c)) /\
  reads h (hduration c) (Ok (duration (control_at h c))).
Proof. exact reads_numbers. Qed.
Print Assumptions C110_numbers.

(** C110: the arrays computed from a control are new *)
Theorem C110_arrays :
  forall c q h, control_lives h c -> reads_array h (read_property q c) (property_value q (control_at h c)).
Proof. exact reads_property. Qed.
Print Assumptions C110_arrays.
Theorem C110_directions :
  forall c h, control_lives h c ->
  exists res h', hdirections c h = (res, h') /\ preserves h h' /\
  map_result (fun m => triples (contents h' (m_data m))) res = directions (control_at h c) /\
  (forall m, res = Ok m -> lives h' (m_data m) /\ fresh h (m_data m) /\ float_array h' (m_data m) /\ m_columns m = 3%nat).
Proof. exact reads_directions. Qed.
Print Assumptions C110_directions.

(** C110: writing to such an array leaves the control as it was, and writing to older arrays leaves the computed one *)
Theorem C110_independent :
  forall c q h v h', control_lives h c -> read_property q c h = (Ok v, h') ->
  (forall h'', only_above (List.length h) h' h'' -> control_at h'' c = control_at h c) /\
  (forall h'', only_below (List.length h) h' h'' -> contents h'' v = property_value q (control_at h c)).
Proof. exact read_independent. Qed.
Print Assumptions C110_independent.

(** C110: exports and printed forms of a control write nothing in memory *)
Theorem C110_exports :
  forall c h, control_lives h c ->
  (forall coordinates dimensionless,
   reads h (hexport c coordinates dimensionless) (export (control_at h c) coordinates dimensionless)) /\
  (forall d filename file_format file_type coordinates,
   exists h', hexport_to_file d c filename file_format file_type coordinates h =
     (export_to_file d (control_at h c) filename file_format file_type coordinates, h') /\ preserves h h') /\
  (forall fmt, reads h (hdriven_control_str fmt c) (driven_control_str fmt (control_at h c))) /\
  (forall ra rn, reads h (hdriven_control_repr ra rn c) (driven_control_repr ra rn (control_at h c))).
Proof.
  intros c h L; split; [intros; apply reads_export; auto|split; [intros; apply reads_file; auto|split; [intros; apply reads_str; auto|intros; apply reads_repr]]].
Qed.
Print Assumptions C110_exports.

(** C110: nor do those of a sequence, including the conversion for its file *)
Theorem C110_sequences :
  forall s h, sequence_lives h s ->
  reads h (hdds_export s) (Ok (dds_export (sequence_at h s))) /\
  (forall d filename file_format file_type coordinates maxr maxd,
   exists h', hdds_export_to_file d s filename file_format file_type coordinates maxr maxd h =
     (dds_export_to_file d (sequence_at h s) filename file_format file_type coordinates maxr maxd, h') /\ preserves h h') /\
  (forall fmt, reads h (hdds_str fmt s) (Ok (dds_str fmt (sequence_at h s)))) /\
  (forall rf ra rn, reads h (hdds_repr rf ra rn s) (dds_repr rf ra rn (sequence_at h s))).
Proof.
  intros s h L; split; [apply reads_sequence_export|split; [intros; apply reads_sequence_file; auto|split; [intros; apply reads_sequence_str, L|intros; apply reads_sequence_repr]]].
Qed.
Print Assumptions C110_sequences.

(** a control whose Rabi rates and detunings are the same array: the times are a new array, and writing to it or to the durations keeps the two apart *)
Definition twin_heap : heap := [Cell true [2; 3]; Cell true [0; 0]; Cell true [1; 4]].
Definition twin : hcontrol := MkHControl (Array 0 [0; 1]%nat) (Array 1 [0; 1]%nat) (Array 0 [0; 1]%nat) (Array 2 [0; 1]%nat) None.
Example C110_case : exists v h', htimes twin twin_heap = (Ok v, h') /\ contents h' v = [0; 1; 5] /\
  control_at (write1 h' (nd_base v) 1 9) twin = control_at twin_heap twin /\
  contents (write1 h' 2 0 9) v = [0; 1; 5] /\ hd_error (durations (control_at (write1 h' 2 0 9) twin)) = Some 9.
Proof.
  assert (L : control_lives twin_heap twin).
  { intros v I; unfold control_attributes in I; cbn in I; destruct I as [<-|[<-|[<-|[<-|[]]]]];
      (split; [cbn; lia|intros p [<-|[<-|[]]]; cbn; lia]). }
  destruct (C110_arrays twin Times twin_heap L) as [v [h' [E [P [LV [F C]]]]]]; cbn [read_property] in E.
  destruct (C110_independent twin Times twin_heap v h' L E) as [I1 I2]; cbn [property_value] in *.
  assert (T : times (control_at twin_heap twin) = [0; 1; 5]) by (unfold times; cbn; repeat f_equal; lra).
  rewrite T in *; exists v, h'; split; auto; split; auto.
  split; [|split; [apply I2, write1_below; cbn; lia|]].
  - apply I1; split; [apply length_set_nth|]; intros b B; unfold cell_at, write1.
    apply nth_set_other; destruct F as [F _]; unfold fresh in F; lia.
  - destruct P as [l ->]; reflexivity.
Qed.
