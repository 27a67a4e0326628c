(** * The project's tests of the sequences, on the model

    /repo/tests/test_predefined_dynamical_decoupling.py:41-291 and 482-561.  These check the model, they
    are no properties: each test's inputs and expected values, with [np.allclose] replaced by equality. *)

From Coq Require Import Reals ZArith Lia Lra.
From Verif Require Import Spec_Qubit P_DDS P_DDSConcat L_XYRec.
Import ListNotations.
Set Bullet Behavior "Strict Subproofs".
Open Scope string_scope.
Open Scope list_scope.
Open Scope R_scope.

Local Arguments IZR : simpl never.
Local Arguments INR : simpl never.
Local Arguments pow : simpl never.

Definition lists (r : result dds) (ts rabi angle detuning : list R) : Prop :=
  exists s, r = Ok s /\ offsets s = ts /\ rabi_rotations s = rabi /\ seq_azimuthal_angles s = angle /\ detuning_rotations s = detuning.

Lemma cons_eq {A} (x y : A) l l' : x = y -> l = l' -> x :: l = y :: l'.
Proof. congruence. Qed.
Lemma sine_eq a b : a = b -> 10 * sin a ^ 2 = 10 * sin b ^ 2.
Proof. congruence. Qed.
Ltac count := unfold truncates_to; rewrite ?INR_IZR_INZ; cbn [Z.of_nat Pos.of_succ_nat Pos.succ]; lra.
Ltac entries := cbn; rewrite ?INR_IZR_INZ; cbn [Z.of_nat Pos.of_succ_nat Pos.succ];
  repeat first [reflexivity | apply cons_eq]; try (apply sine_eq; field); try field; try lra.
Ltac columns := cbn [offsets rabi_rotations seq_azimuthal_angles detuning_rotations sequence_of with_pre_post map seq app];
  split; [|split; [|split]]; entries.

(** test_ramsey_sequence (41-69) *)
Example test_ramsey : lists (new_ramsey_sequence 10 false None)
  []
  []
  []
  [].
Proof. eexists; split; [apply C33_ramsey; lra|columns]. Qed.

(** with rotations at both ends *)
Example test_ramsey_pre_post : lists (new_ramsey_sequence 10 true None)
  [0; 10]
  [(PI / 2); (PI / 2)]
  [0; PI]
  [0; 0].
Proof. eexists; split; [apply C33_ramsey; lra|columns]. Qed.

(** test_spin_echo_sequence (72-102) *)
Example test_spin_echo : lists (new_spin_echo_sequence 10 false None)
  [(10 / 2)]
  [PI]
  [0]
  [0].
Proof. eexists; split; [apply C33_spin_echo; lra|columns]. Qed.

(** with rotations at both ends *)
Example test_spin_echo_pre_post : lists (new_spin_echo_sequence 10 true None)
  [0; (10 / 2); 10]
  [(PI / 2); PI; (PI / 2)]
  [0; 0; 0]
  [0; 0; 0].
Proof. eexists; split; [apply C33_spin_echo; lra|columns]. Qed.

(** test_carr_purcell_sequence (105-154) *)
Example test_carr_purcell : lists (new_carr_purcell_sequence 10 4 false None)
  [(10 / 4 * (1 / 2)); (10 / 4 * (1 / 2) + 1 * (10 / 4)); (10 / 4 * (1 / 2) + 2 * (10 / 4)); (10 / 4 * (1 / 2) + 3 * (10 / 4))]
  [PI; PI; PI; PI]
  [0; 0; 0; 0]
  [0; 0; 0; 0].
Proof. eexists; split; [apply (C34_carr_purcell 10 4 4); [lra|count|lia]|columns]. Qed.

(** with rotations at both ends *)
Example test_carr_purcell_pre_post : lists (new_carr_purcell_sequence 10 4 true None)
  [0; (10 / 4 * (1 / 2)); (10 / 4 * (1 / 2) + 1 * (10 / 4)); (10 / 4 * (1 / 2) + 2 * (10 / 4)); (10 / 4 * (1 / 2) + 3 * (10 / 4)); 10]
  [(PI / 2); PI; PI; PI; PI; (PI / 2)]
  [0; 0; 0; 0; 0; PI]
  [0; 0; 0; 0; 0; 0].
Proof. eexists; split; [apply (C34_carr_purcell 10 4 4); [lra|count|lia]|columns]. Qed.

(** test_cpmg_sequence (157-206) *)
Example test_cpmg : lists (new_cpmg_sequence 10 4 false None)
  [(10 / 4 * (1 / 2)); (10 / 4 * (1 / 2) + 1 * (10 / 4)); (10 / 4 * (1 / 2) + 2 * (10 / 4)); (10 / 4 * (1 / 2) + 3 * (10 / 4))]
  [PI; PI; PI; PI]
  [(PI / 2); (PI / 2); (PI / 2); (PI / 2)]
  [0; 0; 0; 0].
Proof. eexists; split; [apply (C34_cpmg 10 4 4); [lra|count|lia]|columns]. Qed.

(** with rotations at both ends *)
Example test_cpmg_pre_post : lists (new_cpmg_sequence 10 4 true None)
  [0; (10 / 4 * (1 / 2)); (10 / 4 * (1 / 2) + 1 * (10 / 4)); (10 / 4 * (1 / 2) + 2 * (10 / 4)); (10 / 4 * (1 / 2) + 3 * (10 / 4)); 10]
  [(PI / 2); PI; PI; PI; PI; (PI / 2)]
  [0; (PI / 2); (PI / 2); (PI / 2); (PI / 2); PI]
  [0; 0; 0; 0; 0; 0].
Proof. eexists; split; [apply (C34_cpmg 10 4 4); [lra|count|lia]|columns]. Qed.

(** test_uhrig_sequence (209-251) *)
Example test_uhrig : lists (new_uhrig_sequence 10 4 false None)
  [(10 * sin (PI * 1 * (1 / 2 / (4 + 1))) ^ 2); (10 * sin (PI * 2 * (1 / 2 / (4 + 1))) ^ 2); (10 * sin (PI * 3 * (1 / 2 / (4 + 1))) ^ 2); (10 * sin (PI * 4 * (1 / 2 / (4 + 1))) ^ 2)]
  [PI; PI; PI; PI]
  [(PI / 2); (PI / 2); (PI / 2); (PI / 2)]
  [0; 0; 0; 0].
Proof. eexists; split; [apply (C35_uhrig 10 4 4); [lra|count|lia]|columns]. Qed.

(** with rotations at both ends *)
Example test_uhrig_pre_post : lists (new_uhrig_sequence 10 4 true None)
  [0; (10 * sin (PI * 1 * (1 / 2 / (4 + 1))) ^ 2); (10 * sin (PI * 2 * (1 / 2 / (4 + 1))) ^ 2); (10 * sin (PI * 3 * (1 / 2 / (4 + 1))) ^ 2); (10 * sin (PI * 4 * (1 / 2 / (4 + 1))) ^ 2); 10]
  [(PI / 2); PI; PI; PI; PI; (PI / 2)]
  [0; (PI / 2); (PI / 2); (PI / 2); (PI / 2); PI]
  [0; 0; 0; 0; 0; 0].
Proof. eexists; split; [apply (C35_uhrig 10 4 4); [lra|count|lia]|columns]. Qed.

(** test_periodic_sequence (254-291) *)
Example test_periodic : lists (new_periodic_sequence 10 4 false None)
  [(10 * 1 * (1 / (4 + 1))); (10 * 2 * (1 / (4 + 1))); (10 * 3 * (1 / (4 + 1))); (10 * 4 * (1 / (4 + 1)))]
  [PI; PI; PI; PI]
  [0; 0; 0; 0]
  [0; 0; 0; 0].
Proof. eexists; split; [apply (C36_periodic 10 4 4); [lra|count|lia]|columns]. Qed.

(** with rotations at both ends *)
Example test_periodic_pre_post : lists (new_periodic_sequence 10 4 true None)
  [0; (10 * 1 * (1 / (4 + 1))); (10 * 2 * (1 / (4 + 1))); (10 * 3 * (1 / (4 + 1))); (10 * 4 * (1 / (4 + 1))); 10]
  [(PI / 2); PI; PI; PI; PI; (PI / 2)]
  [0; 0; 0; 0; 0; PI]
  [0; 0; 0; 0; 0; 0].
Proof. eexists; split; [apply (C36_periodic 10 4 4); [lra|count|lia]|columns]. Qed.

(** test_xy_concatenated_sequence (482-561) *)
Example test_xy_concatenated : lists (new_xy_concatenated_sequence 10 2 false None)
  [(1 * (10 / 16)); (2 * (10 / 16)); (3 * (10 / 16)); (4 * (10 / 16)); (5 * (10 / 16)); (6 * (10 / 16)); (7 * (10 / 16)); (9 * (10 / 16)); (10 * (10 / 16)); (11 * (10 / 16)); (12 * (10 / 16)); (13 * (10 / 16)); (14 * (10 / 16)); (15 * (10 / 16))]
  [PI; PI; PI; 0; PI; PI; PI; PI; PI; PI; 0; PI; PI; PI]
  [0; (PI / 2); 0; 0; 0; (PI / 2); 0; 0; (PI / 2); 0; 0; 0; (PI / 2); 0]
  [0; 0; 0; PI; 0; 0; 0; 0; 0; 0; PI; 0; 0; 0].
Proof. eexists; split; [apply (xy_model 10 2 2 _ None (xy_small 2)); [lra|count|lia|apply xy_small_slots; right; reflexivity|intros p I; apply (xy_small_bounds 2 p); auto; right; reflexivity]|columns]. Qed.

(** with rotations at both ends *)
Example test_xy_concatenated_pre_post : lists (new_xy_concatenated_sequence 10 2 true None)
  [0; (1 * (10 / 16)); (2 * (10 / 16)); (3 * (10 / 16)); (4 * (10 / 16)); (5 * (10 / 16)); (6 * (10 / 16)); (7 * (10 / 16)); (9 * (10 / 16)); (10 * (10 / 16)); (11 * (10 / 16)); (12 * (10 / 16)); (13 * (10 / 16)); (14 * (10 / 16)); (15 * (10 / 16)); 10]
  [(PI / 2); PI; PI; PI; 0; PI; PI; PI; PI; PI; PI; 0; PI; PI; PI; (PI / 2)]
  [0; 0; (PI / 2); 0; 0; 0; (PI / 2); 0; 0; (PI / 2); 0; 0; 0; (PI / 2); 0; PI]
  [0; 0; 0; 0; PI; 0; 0; 0; 0; 0; 0; PI; 0; 0; 0; 0].
Proof. eexists; split; [apply (xy_model 10 2 2 _ None (xy_small 2)); [lra|count|lia|apply xy_small_slots; right; reflexivity|intros p I; apply (xy_small_bounds 2 p); auto; right; reflexivity]|columns]. Qed.
