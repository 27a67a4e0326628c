(** * Predefined sequences computed in memory *)

From Coq Require Import Reals Lia Lra.
From Verif Require Import Spec_Qubit L_DrivenControl L_HeapXY P_DDSConcat P_Heap.
Import ListNotations.
Open Scope string_scope.
Open Scope list_scope.
Open Scope R_scope.

(** C88: each builder, run on arrays in memory, computes what the functional model computes, writes nothing that exists and returns four new, separate arrays *)
Theorem C88_build :
  forall r T pre name h,
  exists res h', hbuild_sequence r T pre name h = (res, h') /\ preserves h h' /\
  map_result (sequence_at h') res = build_sequence r T pre name /\
  (forall s, res = Ok s -> sequence_lives h' s /\ (forall v, In v (sequence_arrays s) -> fresh h v) /\
     NoDup (map nd_base (sequence_arrays s))).
Proof. exact build_heap. Qed.
Print Assumptions C88_build.

(** C88: later assignments to older memory do not change the sequence; assignments to one of its arrays change neither older memory nor the other three *)
Theorem C88_independent :
  forall r T pre name h s h',
  hbuild_sequence r T pre name h = (Ok s, h') ->
  (forall h'', only_below (List.length h) h' h'' -> sequence_at h'' s = sequence_at h' s) /\
  (forall v h'' w, In v (sequence_arrays s) -> only_block v h' h'' ->
     (lives h w -> contents h'' w = contents h w) /\
     (In w (sequence_arrays s) -> nd_base w <> nd_base v -> contents h'' w = contents h' w)) /\
  (forall v w, In v (sequence_arrays s) -> In w (sequence_arrays s) -> nd_base v = nd_base w -> v = w).
Proof. exact build_independent. Qed.
Print Assumptions C88_independent.

(** C88: the same for building followed by conversion *)
Theorem C88_pipeline :
  forall r T pre name maxr maxd mn name' h,
  exists res h', (let! s := hbuild_sequence r T pre name in hconvert s maxr maxd mn name') h = (res, h') /\ preserves h h' /\
  map_result (control_at h') res = bind (build_sequence r T pre name) (fun s => convert_dds_to_driven_control s maxr maxd mn name') /\
  (forall c, res = Ok c -> (forall v, In v (control_attributes c) -> lives h' v /\ fresh h v) /\ NoDup (map nd_base (control_attributes c))).
Proof. exact pipeline_heap. Qed.
Print Assumptions C88_pipeline.

Example C88_case : exists s h', hbuild_sequence (XYConcatenated 1) 4 false None some_heap = (Ok s, h') /\
  refocuses (sequence_at h' s) /\ sequence_at (write1 h' 0 1 7) s = sequence_at h' s.
Proof.
  destruct (C88_build (XYConcatenated 1) 4 false None some_heap) as [res [h' [E [P [V _]]]]].
  destruct C40_case as [s0 [B R]]; cbn [build_sequence] in V; rewrite B in V; destruct res as [s|]; [|discriminate]; injection V as V.
  exists s, h'; split; auto; split; [rewrite V; auto|].
  destruct (C88_independent _ _ _ _ _ _ _ E) as [I _]; apply I, write1_below; cbn; lia.
Qed.
(** the blocks of an echo of duration 2, and an assignment to its offsets *)
Example C88_case_echo : exists s h', hbuild_sequence SpinEcho 2 false None some_heap = (Ok s, h') /\
  h' = some_heap ++ [Cell true [2 / 2]; Cell true [PI]; Cell true [0]; Cell true [0]] /\
  sequence_at (write1 h' 2 0 5) s = MkDDS 2 [5] [PI] [0] [0] None.
Proof.
  cbn [hbuild_sequence]; unfold hnew_spin_echo_sequence, check_duration; rewrite guard_run.
  replace (ltb 0 2) with true by (symmetry; apply ltb_true; lra).
  unfold zeros; rewrite new4; unfold hfinish, hDynamicDecouplingSequence.
  unfold pbind at 1, ret at 1; cbv beta iota; cbn [v_offsets v_rabi v_azimuthal v_detuning]; rewrite guard_run.
  replace (ltb 0 2) with true by (symmetry; apply ltb_true; lra).
  unfold pbind at 1, asarray at 1, ret at 1; rewrite get_run.
  match goal with |- context [contents ?h ?v] => change (contents h v) with [2 / 2] end.
  cbn [forallb]; replace (leb 0 (2 / 2)) with true by (symmetry; apply leb_true; lra).
  replace (leb (2 / 2) 2) with true by (symmetry; apply leb_true; lra); cbn [andb].
  eexists _, _; split; [reflexivity|]; split; reflexivity.
Qed.

