(** * Specification: symmetries of conversion and of the predefined sequences *)

From Verif Require Export Spec_Conversion.
Import ListNotations.
Open Scope string_scope.
Open Scope list_scope.
Open Scope R_scope.

(** both calls fail, or both succeed and [F] maps the segments of the first
    control to those of the second *)
Definition corresponds (F : list seg -> list seg) (r r' : result driven_control) : Prop :=
  match r, r' with
  | Ok c, Ok c' => (forall segs, describes segs c -> describes (F segs) c') /\ dc_name c = dc_name c'
  | Raise _, Raise _ => argument_error r /\ argument_error r'
  | _, _ => False
  end.

(** time reversed *)
Definition mirror (T : R) (e : event) : event := Event (T - e_time e) (e_rabi e) (e_phi e) (e_det e).
Definition backwards (T : R) (l : list event) : list event := rev (map (mirror T) l).

(** azimuthal angles shifted by [a]; idle segments and detuned ones have none *)
Definition turn (a : R) (e : event) : event := Event (e_time e) (e_rabi e) (e_phi e + a) (e_det e).
Definition turned (a : R) (g : seg) : seg :=
  if Req_EM_T (g_rabi g) 0 then g else Seg (g_rabi g) (g_phi g + a) (g_det g) (g_dur g).

(** the opposite detuning *)
Definition conjugate (e : event) : event := Event (e_time e) (e_rabi e) (e_phi e) (- e_det e).
Definition conjugated (g : seg) : seg := Seg (g_rabi g) (g_phi g) (- g_det g) (g_dur g).

(** another unit of time *)
Definition rescale (k : R) (e : event) : event := Event (k * e_time e) (e_rabi e) (e_phi e) (e_det e).
Definition rescaled (k : R) (g : seg) : seg := Seg (g_rabi g / k) (g_phi g) (g_det g / k) (k * g_dur g).

(** requests for sequences that are their own time reverse *)
Definition palindromic (r : request) : Prop := match r with XYConcatenated x => 2 <= x < 3 | _ => True end.
