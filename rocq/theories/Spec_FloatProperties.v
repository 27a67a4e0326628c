(** * Specification of the derived quantities in floating point *)

From Coq Require Import Permutation.
From Verif Require Export Spec_FloatExport M_FloatProperties.
Import ListNotations.
Open Scope string_scope.
Open Scope list_scope.
Open Scope R_scope.

(** sine and cosine with an absolute error of at most 8 units 2^-53 *)
Definition accurate_sine_cosine (fsin fcos : R -> R) : Prop :=
  (forall x, binary64_format x -> Rabs x <= 8 -> Rabs (fsin x - sin x) <= / 2 ^ 50) /\
  (forall x, binary64_format x -> Rabs x <= 8 -> Rabs (fcos x - cos x) <= / 2 ^ 50).

(** the squares of the rates do not underflow *)
Definition sized (x : R) : Prop := x = 0 \/ / 2 ^ 400 <= Rabs x.
Definition measurable (g : seg) : Prop :=
  binary64_format (g_rabi g) /\ binary64_format (g_phi g) /\ binary64_format (g_det g) /\
  Rabs (g_phi g) <= 8 /\ sized (g_rabi g) /\ sized (g_det g).

(** [s] is a sum of [l] in some order, every number passing through at most
    [k] additions *)
Inductive summed (rnd : R -> R) : nat -> list R -> R -> Prop :=
| summed_none k : summed rnd k [] 0
| summed_one k x : summed rnd k [x] x
| summed_two k l1 l2 l a b : summed rnd k l1 a -> summed rnd k l2 b -> Permutation (l1 ++ l2) l ->
    summed rnd (S k) l (rnd (a + b)).

Fixpoint non_decreasing (l : list R) : Prop :=
  match l with
  | [] => True
  | x :: l' => (match l' with [] => True | y :: _ => x <= y end) /\ non_decreasing l'
  end.

(** a plotted amplitude [v] of a segment of normalised rate [r] *)
Definition plotted (r v v0 : R) : Prop := Rabs (v - v0) <= r / 2 ^ 49 + / 2 ^ 1073.
