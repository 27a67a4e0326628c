(** * Specification of dynamical decoupling sequences *)

From Verif Require Export Spec_Qubit Spec_DrivenControl M_DDSPredefined.
Import ListNotations.
Open Scope string_scope.
Open Scope list_scope.
Open Scope R_scope.

(** ** Sequences of instantaneous rotations *)

(** A rotation at time [e_time]: by [e_rabi] about (cos e_phi, sin e_phi, 0)
    and by [e_det] about Z. *)
Record event : Type := Event { e_time : R; e_rabi : R; e_phi : R; e_det : R }.

(** the sequence object with the events [l] *)
Definition sequence_of (T : R) (name : option string) (l : list event) : dds :=
  MkDDS T (map e_time l) (map e_rabi l) (map e_phi l) (map e_det l) name.

(** sequences a user can hold *)
Definition constructible_sequence (s : dds) : Prop :=
  exists T ts r a d name, DynamicDecouplingSequence T ts r a d name = Ok s.

Definition argument_error {A : Type} (r : result A) : Prop :=
  exists s args ex, r = Raise (ArgumentsValueError s args ex).

(** ** Pi pulses *)

Inductive axis : Type := AX | AY | AZ.

Definition pi_pulse (p : axis * R) : event :=
  match p with
  | (AX, t) => Event t PI 0 0
  | (AY, t) => Event t PI (PI / 2) 0
  | (AZ, t) => Event t 0 0 PI
  end.

Definition axis_eqb (a b : axis) : bool :=
  match a, b with AX, AX | AY, AY | AZ, AZ => true | _, _ => false end.

(** number of pulses about another axis than [b] *)
Definition count_not (b : axis) (l : list (axis * R)) : nat :=
  List.length (filter (fun p => negb (axis_eqb (fst p) b)) l).

Definition not_y (p : axis * R) : bool := match fst p with AY => false | _ => true end.

(** X pi/2 rotations at both ends; the closing one is inverted when the
    number of X and Z pulses is even *)
Definition closing_angle (l : list (axis * R)) : R :=
  if Nat.even (List.length (filter not_y l)) then PI else 0.
Definition with_pre_post (pre_post : bool) (T : R) (l : list (axis * R)) : list event :=
  if pre_post
  then Event 0 (PI / 2) 0 0 :: map pi_pulse l ++ [Event T (PI / 2) (closing_angle l) 0]
  else map pi_pulse l.

(** equal up to the tolerances of numpy *)
Definition near (x a : R) : Prop := Rabs (x - a) <= / 10 ^ 8 + / 10 ^ 5 * Rabs a.
Definition near_pi_pulse (e : event) : Prop :=
  exists a, let p := pi_pulse (a, e_time e) in
    near (e_rabi e) (e_rabi p) /\ near (e_phi e) (e_phi p) /\ near (e_det e) (e_det p).

(** the float [x] is read as the integer [n] *)
Definition truncates_to (x : R) (n : nat) : Prop := INR n <= x < INR n + 1.

(** ** Timings *)

(** the i-th of n Uhrig times *)
Definition uhrig_time (T : R) (n i : nat) : R := T * sin (INR i * PI / (2 * (INR n + 1))) ^ 2.

(** ** Evolution under a detuning that depends on time

    [B] is the accumulated detuning: the integral of the detuning from 0. *)
Definition pulse_unitary (e : event) : M2 :=
  segment_unitary (e_rabi e * cos (e_phi e)) (e_rabi e * sin (e_phi e)) (e_det e) 1.

Fixpoint evolution_from (B : R -> R) (t0 T : R) (l : list event) : M2 :=
  match l with
  | [] => z_rotation (B T - B t0)
  | e :: l' =>
      mmul (evolution_from B (e_time e) T l')
           (mmul (pulse_unitary e) (z_rotation (B (e_time e) - B t0)))
  end.
Definition dephased_evolution (B : R -> R) (T : R) (l : list event) : M2 :=
  evolution_from B 0 T l.

(** product of the ideal pulses alone *)
Fixpoint pulse_product (l : list event) : M2 :=
  match l with
  | [] => mone
  | e :: l' => mmul (pulse_product l') (pulse_unitary e)
  end.

(** alternating sum  (B t1 - B 0) - (B t2 - B t1) + ... : the integral of the
    detuning multiplied by a sign that flips at each time in [ts] *)
Fixpoint switched_from (B : R -> R) (sign t0 T : R) (ts : list R) : R :=
  match ts with
  | [] => sign * (B T - B t0)
  | t :: ts' => sign * (B t - B t0) + switched_from B (- sign) t T ts'
  end.
Definition switched (B : R -> R) (T : R) (ts : list R) : R := switched_from B 1 0 T ts.

(** polynomial with coefficients [c], lowest degree first *)
Fixpoint polynomial (c : list R) (t : R) : R :=
  match c with [] => 0 | a :: c' => a + t * polynomial c' t end.

(** integral of [f] with a sign that flips at each time in [ts] *)
Fixpoint switched_integral_from (f : R -> R) (sign t0 T : R) (ts : list R) : R :=
  match ts with
  | [] => sign * RInt f t0 T
  | t :: ts' => sign * RInt f t0 t + switched_integral_from f (- sign) t T ts'
  end.
Definition switched_integral (f : R -> R) (T : R) (ts : list R) : R :=
  switched_integral_from f 1 0 T ts.

(** the times of the pulses that flip the sign of a Z rotation *)
Fixpoint flip_times (l : list (axis * R)) : list R :=
  match l with
  | [] => []
  | (AZ, _) :: l' => flip_times l'
  | (_, t) :: l' => t :: flip_times l'
  end.

(** a constant detuning of any strength has no effect *)
Definition refocuses (s : dds) : Prop :=
  forall l, s = sequence_of (seq_duration s) (seq_name s) l ->
  forall delta, dephased_evolution (fun t => delta * t) (seq_duration s) l = pulse_product l.

(** some detuning changes the evolution, even up to a phase *)
Definition dephases (s : dds) : Prop :=
  forall l, s = sequence_of (seq_duration s) (seq_name s) l ->
  exists delta,
    ~ phase_equiv (dephased_evolution (fun t => delta * t) (seq_duration s) l) (pulse_product l).

(** a detuning that is a polynomial in time with the coefficients [c] has no effect *)
Definition cancels (c : list R) (s : dds) : Prop :=
  forall l, s = sequence_of (seq_duration s) (seq_name s) l ->
  dephased_evolution (fun t => RInt (polynomial c) 0 t) (seq_duration s) l = pulse_product l.

(** ** Walsh functions *)

Definition sgn (x : R) : R := if Rlt_dec 0 x then 1 else if Rlt_dec x 0 then -1 else 0.

(** the j-th Rademacher function on [0, 1] *)
Definition rademacher (j : nat) (x : R) : R := sgn (sin (2 ^ j * PI * x)).

(** the binary digits of [k], least significant first *)
Definition binary_digits (k : nat) : list bool := map (Nat.testbit k) (seq 0 (S (Nat.log2 k))).

(** product of the Rademacher functions j, j+1, ... selected by the digits *)
Fixpoint rademacher_product (j : nat) (bits : list bool) (x : R) : R :=
  match bits with
  | [] => 1
  | b :: bits' => (if b then rademacher j x else 1) * rademacher_product (S j) bits' x
  end.

(** Walsh function of Paley order [k] *)
Definition paley (k : nat) (x : R) : R := rademacher_product 1 (binary_digits k) x.

(** number of ones in the binary expansion *)
Definition ones (k : nat) : nat := List.length (filter (fun b => b) (binary_digits k)).

Definition changes_sign (f : R -> R) (t : R) : Prop :=
  exists eps, 0 < eps /\ forall s s', t - eps < s < t -> t < s' < t + eps -> f s * f s' < 0.

(** ** Quadratic sequence: Uhrig sequences of Z pulses nested in a Uhrig
    sequence of X pulses *)
Definition quadratic_block (T : R) (n1 n2 j : nat) : list (axis * R) :=
  let t0 := uhrig_time T n2 j in
  let t1 := uhrig_time T n2 (j + 1) in
  map (fun i => (AZ, t0 + uhrig_time (t1 - t0) n1 i)) (seq 1 n1) ++
  (if (j <? n2)%nat then [(AX, t1)] else []).
Definition quadratic_pulses (T : R) (n1 n2 : nat) : list (axis * R) :=
  List.concat (map (quadratic_block T n1 n2) (seq 0 (n2 + 1))).

(** ** Concatenated sequences *)

(** X pulses of C_l = C_{l-1} X C_{l-1} X between [t0] and [t0 + tau]; pulses
    at the same time are repeated *)
Fixpoint x_recursion (l : nat) (t0 tau : R) : list R :=
  match l with
  | O => []
  | S l' => x_recursion l' t0 (tau / 2) ++ [t0 + tau / 2] ++
            x_recursion l' (t0 + tau / 2) (tau / 2) ++ [t0 + tau]
  end.

(** number of pulses at time [t] *)
Definition multiplicity (t : R) (l : list R) : nat := count_occ Req_EM_T l t.

(** pulses of C_l = C X C Y C X C Y with C = C_{l-1} on a quarter of the time *)
Fixpoint xy_recursion (l : nat) (t0 tau : R) : list (axis * R) :=
  match l with
  | O => []
  | S l' =>
      let q := tau / 4 in
      xy_recursion l' t0 q ++ [(AX, t0 + q)] ++
      xy_recursion l' (t0 + q) q ++ [(AY, t0 + 2 * q)] ++
      xy_recursion l' (t0 + 2 * q) q ++ [(AX, t0 + 3 * q)] ++
      xy_recursion l' (t0 + 3 * q) q ++ [(AY, t0 + 4 * q)]
  end.

Definition times_about (a : axis) (l : list (axis * R)) : list R :=
  map snd (filter (fun p => axis_eqb (fst p) a) l).

(** the X and Y pulses of [l] at time [t] amount, up to a phase, to one pi
    pulse about the given axis: X X = Y Y = 1 and X Y = Z *)
Definition merges_to (l : list (axis * R)) (t : R) (a : axis) : Prop :=
  let nx := multiplicity t (times_about AX l) in
  let ny := multiplicity t (times_about AY l) in
  match a with
  | AX => Nat.Odd nx /\ Nat.Even ny
  | AY => Nat.Even nx /\ Nat.Odd ny
  | AZ => Nat.Odd nx /\ Nat.Odd ny
  end.
