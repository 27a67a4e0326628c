(** * Properties of printed forms in floating point *)

From Coq Require Import Lra Lia.
From Flocq Require Import Core.
From Verif Require Import L_FloatPrinted.
Import ListNotations.
Set Bullet Behavior "Strict Subproofs".
Open Scope string_scope.
Open Scope list_scope.
Open Scope R_scope.

(** C111: the printed form of a control: its name, then four lines whose numbers, multiplied by the scale at the end of the line, are the attributes up to one rounding *)
Theorem C111_numbers :
  forall c mr md, constructible c -> (number_of_segments c <= 2 ^ 64)%nat ->
  (forall t, In t (durations c) -> binary64_format t) -> is_maximum mr (rabi_rates c) -> is_maximum md (detunings c) ->
  (md = 0 -> forall x, In x (detunings c) -> x = 0) -> control_prints c mr md ->
  exists rs ps ds ts smr smd sT,
    fl_driven_control_str binary64 float_pi c = Ok (String.concat newline (name_lines (dc_name c) ++
      [row_line "," "Rabi Rates" rs smr; row_line "," "Azimuthal Angles" ps "pi";
       row_line "," "Detunings" ds smd; row_line "," "Durations" ts sT])) /\
    Forall2 (prints_ratio mr) rs (rabi_rates c) /\ Forall2 (prints_ratio float_pi) ps (azimuthal_angles c) /\
    Forall2 (prints_ratio md) ds (detunings c) /\ Forall2 (prints_ratio (fl_duration binary64 c)) ts (durations c) /\
    read_float smr = Some (Fin mr) /\ read_float smd = Some (Fin md) /\ read_float sT = Some (Fin (fl_duration binary64 c)).
Proof. exact control_prints_numbers. Qed.
Print Assumptions C111_numbers.

(** C111: likewise for a sequence *)
Theorem C111_sequence_numbers :
  forall s, constructible_sequence s -> sequence_prints s ->
  exists ts rs ps ds sT,
    fl_dds_str binary64 float_pi s = String.concat newline (name_lines (seq_name s) ++
      [("Duration = " ++ sT)%string; row_line ", " "Offsets" ts sT; row_line ", " "Rabi Rotations" rs "pi";
       row_line ", " "Azimuthal Angles" ps "pi"; row_line ", " "Detuning Rotations" ds "pi"]) /\
    Forall2 (prints_ratio (seq_duration s)) ts (offsets s) /\ Forall2 (prints_ratio float_pi) rs (rabi_rotations s) /\
    Forall2 (prints_ratio float_pi) ps (seq_azimuthal_angles s) /\ Forall2 (prints_ratio float_pi) ds (detuning_rotations s) /\
    read_float sT = Some (Fin (seq_duration s)).
Proof. exact sequence_prints_numbers. Qed.
Print Assumptions C111_sequence_numbers.

(** C111, partial.  Full statement: the controls are equal.
    Missing: it is false, the quotients by the maximum are rounded (C111_exact_refuted), and as in C11 negative
    detunings whose maximum is 0 are not printed *)

(** C111: controls with the same printed form have the same name and scales, and attributes equal up to rounding *)
Theorem C111_control_partial :
  forall c c' mr mr' md md', constructible c -> constructible c' ->
  (number_of_segments c <= 2 ^ 64)%nat -> (forall t, In t (durations c) -> binary64_format t) ->
  is_maximum mr (rabi_rates c) -> is_maximum md (detunings c) ->
  is_maximum mr' (rabi_rates c') -> is_maximum md' (detunings c') ->
  (md = 0 -> forall x, In x (detunings c) -> x = 0) -> (md' = 0 -> forall x, In x (detunings c') -> x = 0) ->
  one_line_name (dc_name c) -> one_line_name (dc_name c') -> control_prints c mr md -> control_prints c' mr' md' ->
  fl_driven_control_str binary64 float_pi c = fl_driven_control_str binary64 float_pi c' ->
  dc_name c = dc_name c' /\ mr = mr' /\ md = md' /\ fl_duration binary64 c = fl_duration binary64 c' /\
  Forall2 (same_ratio mr) (rabi_rates c) (rabi_rates c') /\
  Forall2 (same_ratio float_pi) (azimuthal_angles c) (azimuthal_angles c') /\
  Forall2 (same_ratio md) (detunings c) (detunings c') /\
  Forall2 (same_ratio (fl_duration binary64 c)) (durations c) (durations c').
Proof. exact float_control_str. Qed.
Print Assumptions C111_control_partial.

(** C111: likewise for sequences *)
Theorem C111_sequence_partial :
  forall s s', constructible_sequence s -> constructible_sequence s' ->
  one_line_name (seq_name s) -> one_line_name (seq_name s') -> sequence_prints s -> sequence_prints s' ->
  fl_dds_str binary64 float_pi s = fl_dds_str binary64 float_pi s' ->
  seq_name s = seq_name s' /\ seq_duration s = seq_duration s' /\
  Forall2 (same_ratio (seq_duration s)) (offsets s) (offsets s') /\
  Forall2 (same_ratio float_pi) (rabi_rotations s) (rabi_rotations s') /\
  Forall2 (same_ratio float_pi) (seq_azimuthal_angles s) (seq_azimuthal_angles s') /\
  Forall2 (same_ratio float_pi) (detuning_rotations s) (detuning_rotations s').
Proof. exact float_sequence_str. Qed.
Print Assumptions C111_sequence_partial.

(** C111: two different controls with the same printed form, although every number in them is a binary64 number and no
    name or detuning is lost *)
Theorem C111_exact_refuted :
  ~ (forall c c' mr mr' md md', constructible c -> constructible c' ->
     (forall x, In x (rabi_rates c ++ azimuthal_angles c ++ detunings c ++ durations c) -> finite_binary64 x) ->
     (forall x, In x (rabi_rates c' ++ azimuthal_angles c' ++ detunings c' ++ durations c') -> finite_binary64 x) ->
     is_maximum mr (rabi_rates c) -> is_maximum md (detunings c) ->
     is_maximum mr' (rabi_rates c') -> is_maximum md' (detunings c') ->
     (md = 0 -> forall x, In x (detunings c) -> x = 0) -> (md' = 0 -> forall x, In x (detunings c') -> x = 0) ->
     one_line_name (dc_name c) -> one_line_name (dc_name c') -> control_prints c mr md -> control_prints c' mr' md' ->
     fl_driven_control_str binary64 float_pi c = fl_driven_control_str binary64 float_pi c' -> c = c').
Proof.
  intros H; assert (S : forall x m n, x = IZR m * / 2 ^ n -> (Z.abs m < 2 ^ 53)%Z -> (n <= 1074)%nat -> 0 <= x <= 3 / 2 ->
    forall y, In y (rabi_rates (two_rates x) ++ azimuthal_angles (two_rates x) ++ detunings (two_rates x) ++ durations (two_rates x)) -> finite_binary64 y).
  { intros x m n E M N B y I; cbn in I; repeat destruct I as [<-|I]; [| | | | | | | |contradiction].
    1: apply (finite_dyadic 3 1); try lia; [cbn; lra|rewrite Rabs_pos_eq; lra].
    1: apply (finite_dyadic m n); auto; rewrite Rabs_pos_eq; lra.
    1-4: apply (finite_dyadic 0 0); try lia; [cbn; lra|rewrite Rabs_R0; lra].
    1-2: apply (finite_dyadic 1 0); try lia; [cbn; lra|rewrite Rabs_pos_eq; lra]. }
  assert (A : 0 <= 1 <= 3 / 2) by lra; assert (B : 0 <= 1 - / 2 ^ 53 <= 3 / 2) by lra.
  destruct (two_maximum _ A) as [A1 A2]; destruct (two_maximum _ B) as [B1 B2].
  assert (Z : forall x, 0 = 0 -> forall y, In y (detunings (two_rates x)) -> y = 0) by (intros x _ y [<-|[<-|[]]]; reflexivity).
  assert (O : forall x, one_line_name (dc_name (two_rates x))) by (intros x n W; discriminate).
  assert (E := H _ _ _ _ _ _ (two_constructible _ A) (two_constructible _ B)
    (S 1 1%Z 0%nat ltac:(cbn; lra) ltac:(lia) ltac:(lia) A)
    (S (1 - / 2 ^ 53) 9007199254740991%Z 53%nat ltac:(lra) ltac:(lia) ltac:(lia) B)
    A1 A2 B1 B2 (Z 1) (Z (1 - / 2 ^ 53)) (O 1) (O (1 - / 2 ^ 53)) (two_prints _ A) (two_prints _ B) two_same_str).
  injection E as E; lra.
Qed.
Print Assumptions C111_exact_refuted.

(** C111: without rounding these are the printed forms of C11 and C64 *)
Theorem C111_unrounded :
  forall c s,
  fl_driven_control_str (fun x => x) PI c = driven_control_str (finite_text (fun x => x)) c /\
  fl_dds_str (fun x => x) PI s = dds_str (finite_text (fun x => x)) s.
Proof. exact float_str_exact. Qed.
Print Assumptions C111_unrounded.

(** the rates 3/2 and 1: the second is printed as a number within 2^-52 of 2/3 *)
Example C111_case : exists s a b rest,
  fl_driven_control_str binary64 float_pi (two_rates 1) = Ok (row_line "," "Rabi Rates" [a; b] s ++ String (Ascii.ascii_of_nat 10) rest)%string /\
  read_float s = Some (Fin (3 / 2)) /\ exists q, read_float b = Some (Fin q) /\ Rabs (q - 2 / 3) <= / 2 ^ 52.
Proof.
  assert (A : 0 <= 1 <= 3 / 2) by lra; destruct (two_maximum _ A) as [A1 A2].
  assert (N : (number_of_segments (two_rates 1) <= 2 ^ 64)%nat)
    by (change (number_of_segments (two_rates 1)) with 2%nat; apply Nat.le_trans with (2 ^ 1)%nat; [cbn; lia|apply Nat.pow_le_mono_r; lia]).
  assert (D : forall t, In t (durations (two_rates 1)) -> binary64_format t).
  { intros t I; destruct (finite_dyadic 1 0 1 ltac:(cbn; lra) ltac:(lia) ltac:(lia)) as [W _]; [rewrite Rabs_pos_eq; lra|].
    destruct I as [<-|[<-|[]]]; auto. }
  destruct (C111_numbers _ _ _ (two_constructible _ A) N D A1 A2 ltac:(intros _ y [<-|[<-|[]]]; reflexivity) (two_prints _ A))
    as [rs [ps [ds [ts [smr [smd [sT [E [R1 [_ [_ [_ [S1 _]]]]]]]]]]]]].
  cbn [two_rates rabi_rates] in R1; inversion R1 as [|a x rs' l Pa R2]; subst; inversion R2 as [|b y rs'' l' Pb R3]; subst; inversion R3; subst.
  exists smr, a, b; eexists; split; [rewrite E; unfold row_line at 1; cbn [name_lines app two_rates dc_name]; reflexivity|].
  split; [exact S1|]; destruct Pb as [q [Q W]]; exists q; split; auto.
  assert (T : 0 < / 2 ^ 1075 <= / 2 ^ 60).
  { split; [apply Rinv_0_lt_compat, pow_lt; lra|apply Rinv_le_contravar; [apply pow_lt; lra|apply Rle_pow; [lra|lia]]]. }
  rewrite Rabs_R1, (Rabs_pos_eq (3 / 2)) in W by lra; unfold Rdiv in W; generalize dependent (/ 2 ^ 1075); intros z W T.
  apply Rabs_le_inv in W; apply Rabs_le; lra.
Qed.
