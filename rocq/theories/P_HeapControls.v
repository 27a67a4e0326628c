(** * Predefined controls computed in memory *)

From Coq Require Import Reals Lia Lra.
From Verif Require Import Spec_Qubit L_Symmetry L_DrivenControl L_HeapControls P_Heap.
Import ListNotations.
Open Scope string_scope.
Open Scope list_scope.
Open Scope R_scope.

(** C90: each builder, run on arrays in memory, computes what the functional model computes, writes nothing that exists and returns four new arrays without common memory *)
Theorem C90_build :
  forall s theta omega phi name h,
  exists res h', hbuild s theta omega phi name h = (res, h') /\ preserves h h' /\
  map_result (control_at h') res = build s theta omega phi name /\
  (forall c, res = Ok c -> (forall v, In v (control_attributes c) -> lives h' v /\ fresh h v) /\
     NoDup (map nd_base (control_attributes c))).
Proof. exact controls_heap. Qed.
Print Assumptions C90_build.

(** C90: the same for the modulated Gaussian *)
Theorem C90_gaussian :
  forall rate minimum T f h,
  exists res h', hnew_modulated_gaussian_control rate minimum T f h = (res, h') /\ preserves h h' /\
  map_result (control_at h') res = new_modulated_gaussian_control rate minimum T f /\
  (forall c, res = Ok c -> (forall v, In v (control_attributes c) -> lives h' v /\ fresh h v) /\
     NoDup (map nd_base (control_attributes c))).
Proof. exact gaussian_heap. Qed.
Print Assumptions C90_gaussian.

(** C90: later assignments to older memory do not change such a control; assignments to one of its arrays change neither older memory nor the other three *)
Theorem C90_independent :
  forall p h c h',
  (exists s theta omega phi name, p = hbuild s theta omega phi name) \/
  (exists rate minimum T f, p = hnew_modulated_gaussian_control rate minimum T f) ->
  p h = (Ok c, h') ->
  (forall h'', only_below (List.length h) h' h'' -> control_at h'' c = control_at h' c) /\
  (forall v h'' w, In v (control_attributes c) -> only_block v h' h'' ->
     (lives h w -> contents h'' w = contents h w) /\
     (In w (control_attributes c) -> nd_base w <> nd_base v -> contents h'' w = contents h' w)) /\
  (forall v w, In v (control_attributes c) -> In w (control_attributes c) -> nd_base v = nd_base w -> v = w).
Proof.
  intros p h c h' [[s [theta [omega [phi [name ->]]]]]|[rate [mn [T [f ->]]]]].
  - apply (yields_independent _ _ _ _ _ (controls_heap s theta omega phi name h)).
  - apply (yields_independent _ _ _ _ _ (gaussian_heap rate mn T f h)).
Qed.
Print Assumptions C90_independent.

Example C90_case : exists c h', hbuild CORPSE_in_SCROFULOUS PI 1 0 None some_heap = (Ok c, h') /\
  build CORPSE_in_SCROFULOUS PI 1 0 None = Ok (control_at h' c) /\
  control_at (write1 h' 0 1 7) c = control_at h' c.
Proof.
  destruct (C90_build CORPSE_in_SCROFULOUS PI 1 0 None some_heap) as [res [h' [E [P [V _]]]]].
  destruct (demo_build CORPSE_in_SCROFULOUS) as [c0 [l [B _]]]; rewrite B in V; destruct res as [c|]; [|discriminate]; injection V as V.
  exists c, h'; split; auto; split; [rewrite B, V; auto|].
  destruct (C90_independent _ _ _ _ (or_introl (ex_intro _ _ (ex_intro _ _ (ex_intro _ _ (ex_intro _ _ (ex_intro _ _ eq_refl)))))) E) as [I _].
  apply I, write1_below; cbn; lia.
Qed.
(** of that scheme the azimuthal angles are a view of every second entry of a block of 18 *)
Example C90_case_view : exists c h', hbuild CORPSE_in_SCROFULOUS PI 1 0 None some_heap = (Ok c, h') /\
  hc_azimuthal_angles c = Array 5 [1; 3; 5; 7; 9; 11; 13; 15; 17]%nat /\ List.length (c_values (cell_at h' 5)) = 18%nat.
Proof.
  destruct (C90_case) as [c [h' [E _]]]; exists c, h'; split; auto.
  cbn [hbuild] in E; unfold hnew_corpse_in_scrofulous_control in E.
  destruct (validate_rabi_parameters PI 1) as [[]|] eqn:V1; [|discriminate].
  destruct (check_supported_rotation PI) as [[]|] eqn:V2; [|discriminate].
  unfold pbind at 1, lift at 1 in E; unfold pbind at 1, lift at 1 in E.
  match type of E with ?p some_heap = _ => set (q := p some_heap) in E end.
  cbv - [hDrivenControl PI asin acos sin cos Rplus Rminus Rmult Rdiv Ropp Rinv IZR scrofulous_theta_1 scrofulous_phi_1 scrofulous_phi_2] in q.
  subst q; match type of E with hDrivenControl (AList _ ?ts) (Some (AList _ ?r)) (Some (AArray ?v)) (Some (AList _ ?d)) _ ?h = _ =>
    destruct (control_heap (AList true ts) (Some (AList true r)) (Some (AArray v)) (Some (AList false d)) None h) as [res [h2 [E2 [P2 [_ S]]]]]; cbn [arg_lives opt_lives]; auto;
    [|rewrite E in E2; injection E2 as <- <-; destruct (S c eq_refl) as [_ [_ [_ [[SA _] _]]]]; split; [apply (SA eq_refl)|
       rewrite (preserves_float h h' 5 P2) by (cbn; lia); reflexivity]] end.
  split; [cbn; lia|]; cbn; intros p I; repeat destruct I as [<-|I]; try lia; destruct I.
Qed.
