(** * Specification of requests for sequences and of their conversion *)

From Verif Require Export Spec_DDS.
Import ListNotations.
Open Scope string_scope.
Open Scope list_scope.
Open Scope R_scope.

(** ** The predefined sequences *)

Inductive request : Type :=
| Ramsey | SpinEcho
| CarrPurcell (n : R) | CPMG (n : R) | Uhrig (n : R) | Periodic (n : R)
| Walsh (k : R) | Quadratic (n1 n2 : R) | XConcatenated (l : R) | XYConcatenated (l : R).

Definition build_sequence (r : request) (T : R) (pre : bool) (name : option string) : result dds :=
  match r with
  | Ramsey => new_ramsey_sequence T pre name
  | SpinEcho => new_spin_echo_sequence T pre name
  | CarrPurcell n => new_carr_purcell_sequence T n pre name
  | CPMG n => new_cpmg_sequence T n pre name
  | Uhrig n => new_uhrig_sequence T n pre name
  | Periodic n => new_periodic_sequence T n pre name
  | Walsh k => new_walsh_sequence T k pre name
  | Quadratic n1 n2 => new_quadratic_sequence T n1 n2 pre name
  | XConcatenated l => new_x_concatenated_sequence T l pre name
  | XYConcatenated l => new_xy_concatenated_sequence T l pre name
  end.

Definition valid_request (r : request) : Prop :=
  match r with
  | Ramsey | SpinEcho => True
  | CarrPurcell x | CPMG x | Uhrig x | Periodic x | XConcatenated x | XYConcatenated x => 1 <= x
  | Walsh x => 1 <= x <= 2000
  | Quadratic x y => 1 <= x /\ 1 <= y
  end.

Definition is_xy (r : request) : bool := match r with XYConcatenated _ => true | _ => false end.

Fixpoint nondecreasing (l : list R) : Prop :=
  match l with
  | [] => True
  | x :: l' => (match l' with [] => True | y :: _ => x <= y end) /\ nondecreasing l'
  end.

(** the sequence [s] stretched by the factor [k] *)
Definition stretch (k : R) (s : dds) : dds :=
  MkDDS (k * seq_duration s) (map (Rmult k) (offsets s)) (rabi_rotations s)
    (seq_azimuthal_angles s) (detuning_rotations s) (seq_name s).

Definition map_result {A B : Type} (f : A -> B) (r : result A) : result B :=
  match r with Ok x => Ok (f x) | Raise e => Raise e end.

(** ** Conversion to a control with finite pulses *)

(** rotations that numpy does not distinguish from zero *)
Definition negligible (x : R) : Prop := Rabs x <= / 10 ^ 8.

(** duration of the pulse that implements an event at the maximum rates *)
Definition pulse_width (maxr maxd mn : R) (e : event) : R :=
  if Rle_dec (Rabs (e_rabi e)) (/ 10 ^ 8) then
    if Rle_dec (Rabs (e_det e)) (/ 10 ^ 8) then 0 else Rmax (Rabs (e_det e) / maxd) mn
  else Rmax (e_rabi e / maxr) mn.

(** the events, with idle ones added at the ends of the sequence *)
Definition idle (t : R) : event := Event t 0 0 0.
Definition with_ends (T : R) (l : list event) : list event :=
  (match l with
   | [] => [idle 0]
   | e :: _ => if Req_EM_T (e_time e) 0 then [] else [idle 0]
   end) ++ l ++ (if Req_EM_T (e_time (last l (idle 0))) T then [] else [idle T]).

(** pulses are centred at the time of the event; at the ends they are moved
    inside the sequence *)
Definition centre (T w t : R) : R :=
  if Req_EM_T t 0 then w / 2 else if Req_EM_T t T then T - w / 2 else t.
Definition window (T w t : R) : R * R := (centre T w t - w / 2, centre T w t + w / 2).

(** idle times between consecutive windows; negative where they overlap *)
Fixpoint gaps (l : list (R * R)) : list R :=
  match l with
  | (_, e) :: (((s, _) :: _) as l') => (s - e) :: gaps l'
  | _ => []
  end.
Definition idle_times (maxr maxd mn T : R) (l : list event) : list R :=
  gaps (map (fun e => window T (pulse_width maxr maxd mn e) (e_time e)) (with_ends T l)).

(** at least the minimum, up to the tolerance of numpy *)
Definition long_enough (mn g : R) : Prop := mn < g \/ near g mn.

(** requests that can be fulfilled *)
Definition convertible (maxr maxd mn T : R) (l : list event) : Prop :=
  0 < maxr /\ 0 < maxd /\ 0 <= mn /\
  (forall e, In e l -> 0 <= e_rabi e) /\
  (forall e, In e l -> ~ (0 < e_rabi e /\ 0 < e_det e)) /\
  strictly_increasing (map e_time l) /\
  (forall g, In g (idle_times maxr maxd mn T l) -> long_enough mn g).

(** total overlap of the windows *)
Definition overlap (l : list R) : R := total (map (fun g => Rmax 0 (- g)) l).

(** segments that rotate the qubit, and events that do *)
Definition active (g : seg) : bool :=
  if Req_EM_T (g_rabi g) 0 then if Req_EM_T (g_det g) 0 then false else true else true.
Definition effective (e : event) : bool :=
  if Rle_dec (Rabs (e_rabi e)) (/ 10 ^ 8) then
    if Rle_dec (Rabs (e_det e)) (/ 10 ^ 8) then false else true
  else true.

(** the segment [g] performs the rotation of the event [e] *)
Definition performs (e : event) (g : seg) : Prop :=
  (~ negligible (e_rabi e) /\ g_rabi g * g_dur g = e_rabi e /\ g_phi g = e_phi e /\ g_det g = 0) \/
  (negligible (e_rabi e) /\ g_rabi g = 0 /\ g_det g * g_dur g = e_det e).

(** the middle of each segment, the first one starting at [t] *)
Fixpoint midpoints (t : R) (l : list seg) : list (R * seg) :=
  match l with
  | [] => []
  | g :: l' => (t + g_dur g / 2, g) :: midpoints (t + g_dur g) l'
  end.

(** events with a single rotation that is either absent or not negligible *)
Definition clean (e : event) : Prop :=
  (e_det e = 0 /\ (e_rabi e = 0 \/ ~ negligible (e_rabi e))) \/
  (e_rabi e = 0 /\ ~ negligible (e_det e)).

(** ** How fast pulses must be for a predefined sequence to be converted *)

(** lower bound on the time between consecutive pulses, and between a pulse
    and the ends, for a sequence of unit duration *)
Definition spacing (r : request) : R :=
  match r with
  | Ramsey => 1
  | SpinEcho => 1 / 2
  | CarrPurcell x | CPMG x | Walsh x => 1 / (2 * x)
  | Uhrig x => sin (PI / (2 * (x + 1))) ^ 2
  | Periodic x => 1 / (x + 1)
  | Quadratic x y => sin (PI / (2 * (x + 1))) ^ 2 * sin (PI / (2 * (y + 1))) ^ 2
  | XConcatenated x => Rpower 2 (- x)
  | XYConcatenated _ => 1 / 16
  end.

(** sequences without simultaneous pulses: the last pulse of the XY
    concatenated sequence of order one is at the end *)
Definition separated (r : request) (pre : bool) : Prop :=
  match r with XYConcatenated x => (x < 2 /\ pre = false) \/ 2 <= x < 3 | _ => True end.

(** consecutive times differ by at least [d] *)
Fixpoint spaced (d : R) (l : list R) : Prop :=
  match l with
  | x :: ((y :: _) as l') => d <= y - x /\ spaced d l'
  | _ => True
  end.
