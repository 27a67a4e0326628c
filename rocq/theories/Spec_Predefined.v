(** * Specification of the predefined driven controls

    The segment tables are those of the docstrings of
    /repo/qctrlopencontrols/driven_controls/predefined.py; the auxiliary angles
    are characterised by equations instead of [arccos]/[arcsin]. *)

From Verif Require Export Spec_Qubit Spec_DrivenControl M_DrivenPredefined.
Open Scope R_scope.

Inductive scheme : Type :=
| Primitive | BB1 | SK1 | SCROFULOUS | CORPSE
| CORPSE_in_BB1 | CORPSE_in_SK1 | CORPSE_in_SCROFULOUS | WAMF1.

(** the public constructor of each scheme *)
Definition build (s : scheme) : R -> R -> R -> option string -> result driven_control :=
  match s with
  | Primitive => new_primitive_control
  | BB1 => new_bb1_control
  | SK1 => new_sk1_control
  | SCROFULOUS => new_scrofulous_control
  | CORPSE => new_corpse_control
  | CORPSE_in_BB1 => new_corpse_in_bb1_control
  | CORPSE_in_SK1 => new_corpse_in_sk1_control
  | CORPSE_in_SCROFULOUS => new_corpse_in_scrofulous_control
  | WAMF1 => new_wamf1_control
  end.

(** numpy's closeness with its default tolerances *)
Definition near (a b : R) : Prop := Rabs (a - b) <= 1 / 10 ^ 8 + 1 / 10 ^ 5 * Rabs b.
Definition supported (theta : R) : Prop :=
  near theta PI \/ near theta (PI / 2) \/ near theta (PI / 4).

(** inputs for which the scheme has a control *)
Definition accepts (s : scheme) (theta omega : R) : Prop :=
  0 < omega /\ 0 < theta /\
  match s with
  | Primitive | CORPSE => True
  | BB1 | SK1 | CORPSE_in_BB1 | CORPSE_in_SK1 => theta <= 4 * PI
  | SCROFULOUS | CORPSE_in_SCROFULOUS | WAMF1 => supported theta
  end.

(** auxiliary angles *)
Definition wimperis_angle (theta p : R) : Prop := 0 <= p <= PI /\ cos p = - theta / (4 * PI).
Definition corpse_angle (theta k : R) : Prop := - (PI / 2) <= k <= PI / 2 /\ sin k = sin (theta / 2) / 2.

(** the tabulated first angle of SCROFULOUS, in degrees: 180, 115.2 and 96.7 *)
Definition scrofulous_table (theta theta1 : R) : Prop :=
  (near theta PI /\ theta1 = PI) \/
  (~ near theta PI /\ near theta (PI / 2) /\ theta1 = PI * (1152 / 1800)) \/
  (~ near theta PI /\ ~ near theta (PI / 2) /\ theta1 = PI * (967 / 1800)).
Definition scrofulous_angles (theta theta1 phi1 phi2 : R) : Prop :=
  scrofulous_table theta theta1 /\
  0 <= phi1 <= PI /\ cos phi1 = - PI * cos theta1 / (2 * theta1 * sin (theta / 2)) /\
  0 <= phi1 - phi2 <= PI /\ cos (phi1 - phi2) = - PI / (2 * theta1).

(** the tabulated Walsh coefficients of WAMF1 *)
Definition wamf1_table (theta a b : R) : Prop :=
  (near theta PI /\ a = PI /\ b = PI / 2) \/
  (~ near theta PI /\ near theta (PI / 2) /\
     a = PI / 4 * (25 / 10 + 65667825 / 10 ^ 8) /\ b = PI / 4 * (25 / 10 - 65667825 / 10 ^ 8)) \/
  (~ near theta PI /\ ~ near theta (PI / 2) /\
     a = PI / 4 * (225 / 100 + 36256159 / 10 ^ 8) /\ b = PI / 4 * (225 / 100 - 36256159 / 10 ^ 8)).

(** CORPSE pulses for one rotation *)
Definition corpse_pulses (theta phi k : R) : list (R * R) :=
  [(2 * PI + theta / 2 - k, phi); (2 * PI - 2 * k, phi + PI); (theta / 2 - k, phi)].

(** the segments of each scheme *)
Definition design (s : scheme) (theta omega phi : R) (l : list seg) : Prop :=
  match s with
  | Primitive => l = pulses omega [(theta, phi)]
  | BB1 => exists p, wimperis_angle theta p /\
      l = pulses omega [(theta, phi); (PI, phi + p); (2 * PI, phi + 3 * p); (PI, phi + p)]
  | SK1 => exists p, wimperis_angle theta p /\
      l = pulses omega [(theta, phi); (2 * PI, phi - p); (2 * PI, phi + p)]
  | CORPSE => exists k, corpse_angle theta k /\ l = pulses omega (corpse_pulses theta phi k)
  | CORPSE_in_BB1 => exists p k, wimperis_angle theta p /\ corpse_angle theta k /\
      l = pulses omega (corpse_pulses theta phi k ++
            [(PI, phi + p); (2 * PI, phi + 3 * p); (PI, phi + p)])
  | CORPSE_in_SK1 => exists p k, wimperis_angle theta p /\ corpse_angle theta k /\
      l = pulses omega (corpse_pulses theta phi k ++ [(2 * PI, phi - p); (2 * PI, phi + p)])
  | SCROFULOUS => exists t1 p1 p2, scrofulous_angles theta t1 p1 p2 /\
      l = pulses omega [(t1, phi + p1); (PI, phi + p2); (t1, phi + p1)]
  | CORPSE_in_SCROFULOUS => exists t1 p1 p2 k1 k2, scrofulous_angles theta t1 p1 p2 /\
      corpse_angle t1 k1 /\ corpse_angle PI k2 /\
      l = pulses omega (corpse_pulses t1 (phi + p1) k1 ++ corpse_pulses PI (phi + p2) k2 ++
                        corpse_pulses t1 (phi + p1) k1)
  | WAMF1 => exists a b, wamf1_table theta a b /\
      l = [Seg omega phi 0 (a / omega); Seg (omega * (b / a)) phi 0 (a / omega);
           Seg (omega * (b / a)) phi 0 (a / omega); Seg omega phi 0 (a / omega)]
  end.

(** add [a] to every azimuthal angle *)
Definition rotate_axes (a : R) (l : list seg) : list seg :=
  map (fun g => Seg (g_rabi g) (g_phi g + a) (g_det g) (g_dur g)) l.

(** entrywise distance of two matrices *)
Definition close_to (eps : R) (U V : M2) : Prop :=
  Rabs (fst (m00 U) - fst (m00 V)) <= eps /\ Rabs (snd (m00 U) - snd (m00 V)) <= eps /\
  Rabs (fst (m01 U) - fst (m01 V)) <= eps /\ Rabs (snd (m01 U) - snd (m01 V)) <= eps /\
  Rabs (fst (m10 U) - fst (m10 V)) <= eps /\ Rabs (snd (m10 U) - snd (m10 V)) <= eps /\
  Rabs (fst (m11 U) - fst (m11 V)) <= eps /\ Rabs (snd (m11 U) - snd (m11 V)) <= eps.

(** the tabulated rotation a supported angle stands for *)
Definition nominal (theta theta0 : R) : Prop :=
  (near theta PI /\ theta0 = PI) \/
  (~ near theta PI /\ near theta (PI / 2) /\ theta0 = PI / 2) \/
  (~ near theta PI /\ ~ near theta (PI / 2) /\ theta0 = PI / 4).

(** total duration of each scheme *)
Definition scheme_duration (s : scheme) (theta omega d : R) : Prop :=
  match s with
  | Primitive => d = theta / omega
  | BB1 | SK1 => d = (theta + 4 * PI) / omega
  | CORPSE => exists k, corpse_angle theta k /\ d = (theta + 4 * PI - 4 * k) / omega
  | CORPSE_in_BB1 | CORPSE_in_SK1 =>
      exists k, corpse_angle theta k /\ d = (theta + 8 * PI - 4 * k) / omega
  | SCROFULOUS => exists t1, scrofulous_table theta t1 /\ d = (2 * t1 + PI) / omega
  | CORPSE_in_SCROFULOUS => exists t1 k1 k2,
      scrofulous_table theta t1 /\ corpse_angle t1 k1 /\ corpse_angle PI k2 /\
      d = (2 * (t1 + 4 * PI - 4 * k1) + (5 * PI - 4 * k2)) / omega
  | WAMF1 => exists a b, wamf1_table theta a b /\ d = 4 * a / omega
  end.

(** speed up by a factor [k] *)
Definition speed_up (k : R) (l : list seg) : list seg :=
  map (fun g => Seg (k * g_rabi g) (g_phi g) (k * g_det g) (g_dur g / k)) l.
