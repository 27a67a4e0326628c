(** * Properties C27-C30: the modulated Gaussian control *)

From Verif Require Import L_Gaussian.
Import ListNotations.
Open Scope string_scope.
Open Scope list_scope.
Open Scope R_scope.

(** C27: acceptance domain; every other input raises ArgumentsValueError *)
Theorem C27_acceptance :
  forall omega m T f,
  ((exists c, new_modulated_gaussian_control omega m T f = Ok c) <->
   gaussian_inputs omega m T /\ has_signal m T f) /\
  (~ (gaussian_inputs omega m T /\ has_signal m T f) ->
   exists s args ex, new_modulated_gaussian_control omega m T f = Raise (ArgumentsValueError s args ex)).
Proof. exact gaussian_accepts. Qed.
Print Assumptions C27_acceptance.

(** C27: ceil(T/m) equal segments adding up to T, no detuning, angles 0 or pi *)
Theorem C27_segmentation :
  forall omega m T f c,
  new_modulated_gaussian_control omega m T f = Ok c ->
  constructible c /\
  exists n, is_ceiling (T / m) n /\ (2 <= n)%nat /\
    durations c = repeat (T / INR n) n /\ total (durations c) = T /\
    List.length (rabi_rates c) = n /\
    detunings c = repeat 0 n /\
    List.length (azimuthal_angles c) = n /\
    (forall phi, In phi (azimuthal_angles c) -> phi = 0 \/ phi = PI).
Proof. exact gaussian_segmentation. Qed.
Print Assumptions C27_segmentation.

(** C27: closed form of every segment *)
Theorem C27_shape :
  forall omega m T f c,
  new_modulated_gaussian_control omega m T f = Ok c ->
  gaussian_inputs omega m T /\
  exists n vs, is_ceiling (T / m) n /\ (2 <= n)%nat /\ List.length vs = n /\
    describes (map (signed_seg (T / INR n)) vs) c /\
    (f <> 0 -> exists peak, 0 < peak /\ is_maximum peak (samples (signal f T) T n) /\
       vs = map (fun v => omega * v / peak) (samples (signal f T) T n)) /\
    (f = 0 -> exists peak k, 0 < peak /\ is_maximum peak (samples (envelope T) T n) /\ (1 <= k)%nat /\
       0 < available_rotation omega T n peak /\
       (2 * PI <= available_rotation omega T n peak ->
         2 * PI * INR k <= available_rotation omega T n peak < 2 * PI * INR (S k)) /\
       (available_rotation omega T n peak < 2 * PI -> k = 1%nat) /\
       vs = map (fun v => omega * (v / peak) * (2 * PI * INR k / available_rotation omega T n peak))
                (samples (envelope T) T n)).
Proof. exact gaussian_shape. Qed.
Print Assumptions C27_shape.

Example C27_case : exists c, new_modulated_gaussian_control 100 (1 / 2) 1 (1 / 2) = Ok c.
Proof. exact gaussian_demo. Qed.

(** C28: Rabi rates never exceed the maximum; whole number of turns for zero frequency *)
Theorem C28_rates :
  forall omega m T f c l,
  new_modulated_gaussian_control omega m T f = Ok c -> describes l c ->
  (f <> 0 -> is_maximum omega (rabi_rates c)) /\
  (f = 0 -> exists n peak k,
     is_ceiling (T / m) n /\ is_maximum peak (samples (envelope T) T n) /\ (1 <= k)%nat /\
     total (map (fun g => g_rabi g * g_dur g) l) = 2 * PI * INR k /\
     (available_rotation omega T n peak < 2 * PI -> k = 1%nat) /\
     (2 * PI <= available_rotation omega T n peak ->
        2 * PI * INR k <= available_rotation omega T n peak < 2 * PI * INR (S k) /\
        forall r, In r (rabi_rates c) -> 0 < r <= omega)).
Proof. exact gaussian_rates. Qed.
Print Assumptions C28_rates.

Example C28_case : exists c, new_modulated_gaussian_control 100 (1 / 3) 1 0 = Ok c.
Proof. exact gaussian_demo0. Qed.

(** C29: identity evolution, for any amplitude error when the frequency is non-zero *)
Theorem C29_identity :
  forall omega m T f c l,
  new_modulated_gaussian_control omega m T f = Ok c -> describes l c ->
  (f <> 0 -> evolution l = mone /\ forall e, -1 < e -> noisy_evolution e 0 l = mone) /\
  (f = 0 -> exists k : nat, (1 <= k)%nat /\
      total (map (fun g => g_rabi g * g_dur g) l) = 2 * PI * INR k /\
      evolution l = mscale (RtoC ((-1) ^ k)) mone /\ phase_equiv (evolution l) mone).
Proof. exact gaussian_gate. Qed.
Print Assumptions C29_identity.

Example C29_case : exists c, new_modulated_gaussian_control 100 (1 / 2) 1 (1 / 2) = Ok c.
Proof. exact gaussian_demo. Qed.

(** C30, refuted: segments can be shorter than minimum_segment_duration *)
Theorem C30_minimum_refuted :
  ~ (forall omega m T f c, new_modulated_gaussian_control omega m T f = Ok c ->
       forall d, In d (durations c) -> m <= d).
Proof. exact gaussian_minimum_refuted. Qed.
Print Assumptions C30_minimum_refuted.

(** C30, partial.  Full statement: m <= d.  Missing: it holds exactly when T is a
    multiple of m; otherwise the segments are shorter than m, but longer than m/2 *)
Theorem C30_minimum_partial :
  forall omega m T f c,
  new_modulated_gaussian_control omega m T f = Ok c ->
  forall d, In d (durations c) ->
  m / 2 < d <= m /\ (d = m <-> exists k : nat, T = INR k * m).
Proof. exact gaussian_minimum. Qed.
Print Assumptions C30_minimum_partial.

Example C30_case : exists c, new_modulated_gaussian_control 100 (1 / 3) 1 0 = Ok c.
Proof. exact gaussian_demo0. Qed.

