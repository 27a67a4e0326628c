(** * Specification: noise along every direction *)

From Verif Require Export Spec_Noise.
Import ListNotations.
Open Scope string_scope.
Open Scope list_scope.
Open Scope R_scope.

(** [V] is the evolution from [t0] to [t1] under a noise with components [x], [y] and [z]: the value
    at [t1] of a solution of  U' = -i H U  with  H = (x(t) sx + y(t) sy + z(t) sz) / 2. *)
Definition wanders (x y z : R -> R) (t0 t1 : R) (V : M2) : Prop :=
  exists U : R -> M2,
    U t0 = mone /\
    (forall t, m_derive U t (mscale (0, -1) (mmul (hamiltonian (x t) (y t) (z t)) (U t)))) /\
    U t1 = V.

(** evolution of a sequence of instantaneous pulses under such a noise *)
Fixpoint vector_sequence (x y z : R -> R) (t0 T : R) (l : list event) (V : M2) : Prop :=
  match l with
  | [] => wanders x y z t0 T V
  | e :: l' =>
      exists V1 V2, wanders x y z t0 (e_time e) V1 /\ vector_sequence x y z (e_time e) T l' V2 /\
        V = mmul V2 (mmul (pulse_unitary e) V1)
  end.

(** the strength of the noise never exceeds [M] *)
Definition strength_below (x y z : R -> R) (M T : R) : Prop :=
  forall t, 0 <= t <= T -> x t ^ 2 + y t ^ 2 + z t ^ 2 <= M ^ 2.

(** the numbers of orders in time to which a predefined sequence suppresses noise about X, Y and Z *)
Definition vector_orders (r : request) (nx ny nz : nat) : Prop :=
  match r with
  | Quadratic x y => truncates_to x nx /\ ny = nx /\ truncates_to y nz
  | XYConcatenated x =>
      (truncates_to x 1 /\ nx = 1%nat /\ ny = 2%nat /\ nz = 1%nat) \/
      (truncates_to x 2 /\ nx = 2%nat /\ ny = 4%nat /\ nz = 2%nat)
  | CPMG _ | Uhrig _ => suppressed_order r nx /\ ny = 0%nat /\ nz = nx
  | _ => nx = 0%nat /\ suppressed_order r ny /\ nz = ny
  end.

(** the effect allowed for noise along one axis that is suppressed to order [n], its n-th derivative being at most [K] *)
Definition residue (n : nat) (K T : R) : R := K * T ^ (n + 1) / (2 * INR (fact (n + 1))).

(** the axis of all pulses of a sequence, if they share one *)
Definition pulse_axis (r : request) : option axis :=
  match r with
  | CPMG _ | Uhrig _ => Some AY
  | Quadratic _ _ | XYConcatenated _ => None
  | _ => Some AX
  end.

(** the component along [a'] of a vector of length [b] along [a] *)
Definition component (a a' : axis) (b : R) : R :=
  match a, a' with AX, AX | AY, AY | AZ, AZ => b | _, _ => 0 end.
