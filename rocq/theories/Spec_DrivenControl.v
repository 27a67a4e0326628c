(** * Specification of DrivenControl

    A control *is* a list of segments [seg] (Spec_Qubit.v).  Nothing here uses
    the functions of M_DrivenControl.v except its data types and, in
    [constructible], the constructor itself. *)

From Verif Require Export Spec_Qubit M_DrivenControl.
Open Scope string_scope.
Open Scope R_scope.

(** ** Construction *)

Definition fits (n : nat) (o : option (list R)) : Prop :=
  forall l, o = Some l -> List.length l = n.

Definition all_positive (l : list R) : Prop := forall x, In x l -> 0 < x.
Definition all_nonnegative (o : option (list R)) : Prop :=
  forall l, o = Some l -> forall x, In x l -> 0 <= x.

(** the inputs a user may pass *)
Definition valid_inputs (ts : list R) (r a d : option (list R)) : Prop :=
  all_positive ts /\
  fits (List.length ts) r /\ fits (List.length ts) a /\ fits (List.length ts) d /\
  all_nonnegative r.

(** the attribute is the supplied array, or zeros *)
Definition supplied_or_zeros (n : nat) (o : option (list R)) (l : list R) : Prop :=
  match o with
  | Some x => l = x
  | None => List.length l = n /\ forall x, In x l -> x = 0
  end.

(** which arguments an error may blame *)
Definition blames (ts : list R) (r a d : option (list R)) (args : list string) : Prop :=
  (args = ["durations"] /\ ~ all_positive ts) \/
  (args = ["rabi_rates"; "azimuthal_angles"; "detunings"; "durations"] /\
     ~ (fits (List.length ts) r /\ fits (List.length ts) a /\ fits (List.length ts) d)) \/
  (args = ["rabi_rates"] /\ ~ all_nonnegative r).

(** controls a user can hold *)
Definition constructible (c : driven_control) : Prop :=
  exists ts r a d name, DrivenControl ts r a d name = Ok c.

(** [c] consists of the segments [l], in order *)
Definition describes (l : list seg) (c : driven_control) : Prop :=
  rabi_rates c = map g_rabi l /\ azimuthal_angles c = map g_phi l /\
  detunings c = map g_det l /\ durations c = map g_dur l.

(** ** Extrema *)

Definition is_maximum (m : R) (l : list R) : Prop := In m l /\ forall x, In x l -> x <= m.
Definition is_minimum (m : R) (l : list R) : Prop := In m l /\ forall x, In x l -> m <= x.

Fixpoint total (l : list R) : R :=
  match l with [] => 0 | x :: l' => x + total l' end.

Fixpoint strictly_increasing (l : list R) : Prop :=
  match l with
  | [] => True
  | x :: l' => (match l' with [] => True | y :: _ => x < y end) /\ strictly_increasing l'
  end.

(** ** Vectors *)

Definition norm3 (x y z : R) : R := sqrt (x * x + y * y + z * z).

Definition seg_x (g : seg) : R := g_rabi g * cos (g_phi g).
Definition seg_y (g : seg) : R := g_rabi g * sin (g_phi g).
Definition seg_norm (g : seg) : R := norm3 (seg_x g) (seg_y g) (g_det g).

(** the tolerance below which [directions] does not normalise *)
Definition threshold (m : R) : R := Rmin (m / 10 ^ 20) (/ 10 ^ 8).

(** ** Plotting *)

Definition track (f : seg -> plot_value) (l : list seg) : list plot_point :=
  map (fun g => MkPoint (f g) (g_dur g)) l.

(** the dictionary [export] should return when amplitudes are divided by [k] *)
Definition cartesian_plot (k : R) (l : list seg) : list (string * list plot_point) :=
  [("X amplitude", track (fun g => PReal (Fin (seg_x g / k))) l);
   ("Y amplitude", track (fun g => PReal (Fin (seg_y g / k))) l);
   ("Detuning", track (fun g => PReal (Fin (g_det g))) l)].
Definition cylindrical_plot (k : R) (l : list seg) : list (string * list plot_point) :=
  [("Rabi rate", track (fun g => PComplex (Fin (seg_x g / k)) (Fin (seg_y g / k))) l);
   ("Detuning", track (fun g => PReal (Fin (g_det g))) l)].

Definition modulus (v : plot_value) (m : R) : Prop :=
  match v with
  | PReal (Fin x) => m = Rabs x
  | PComplex (Fin x) (Fin y) => m = sqrt (x * x + y * y)
  | _ => False
  end.

(** ** Reading back files *)

Fixpoint lookup {A : Type} (k : string) (d : list (string * A)) : option A :=
  match d with
  | [] => None
  | (k', v) :: d' => if string_dec k k' then Some v else lookup k d'
  end.

Fixpoint finite_values (l : list xfloat) : option (list R) :=
  match l with
  | [] => Some []
  | Fin r :: l' => match finite_values l' with Some rs => Some (r :: rs) | None => None end
  | _ :: _ => None
  end.

Definition read_num (k : string) (d : info) : option R :=
  match lookup k d with Some (VNum r) => Some r | _ => None end.
Definition read_list (k : string) (d : info) : option (list R) :=
  match lookup k d with Some (VList l) => finite_values l | _ => None end.
Definition read_name (d : info) : option string :=
  match lookup "name" d with Some (VStr s) => Some s | _ => None end.

(** decode a JSON object whose amplitude fields are called [f1] (normalised
    by the maximum Rabi rate) and [f2] (normalised iff [norm2]) *)
Definition read_json (f1 f2 : string) (norm2 : bool) (d : info)
  : option (list R * list R * list R * list R * option string) :=
  match read_num "maximum_rabi_rate" d, read_list f1 d, read_list f2 d,
        read_list "detuning" d, read_list "duration" d with
  | Some m, Some a, Some b, Some z, Some t =>
      Some (map (fun x => m * x) a,
            if norm2 then map (fun x => m * x) b else b, z, t, read_name d)
  | _, _, _, _, _ => None
  end.

(** a row as association list: column title to cell *)
Definition csv_cell_of (header : list string) (row : list xfloat) (k : string) : option xfloat :=
  lookup k (combine header row).

(** the file systems agree except possibly at [p] *)
Definition same_except (p : string) (d d' : fs) : Prop :=
  forall q, q <> p -> d' q = d q.

(** ** Printed form *)

(** string [s] denotes the number [v], numbers being printed by [fmt] *)
Definition prints (fmt : R -> string) (s : string) (v : R) : Prop :=
  s = fmt v \/ (s = "0" /\ v = 0).

(** [s] is the line "title = [..] x scale" and denotes [values] *)
Definition scaled_line (fmt : R -> string) (title : string) (scale : R)
    (scale_text : string) (values : list R) (s : string) : Prop :=
  exists strs quotients,
    Forall2 (prints fmt) strs quotients /\
    map (fun q => q * scale) quotients = values /\
    s = title ++ " = [" ++ str_join "," strs ++ "] x " ++ scale_text.
