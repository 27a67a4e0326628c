(** * 2x2 complex matrices (mathematics only; models nothing of /repo) *)

From Coq Require Export Reals Lra.
From Coquelicot Require Export Coquelicot.
Open Scope R_scope.

Record M2 : Type := mk2 { m00 : C; m01 : C; m10 : C; m11 : C }.

Definition madd (a b : M2) : M2 :=
  mk2 (m00 a + m00 b)%C (m01 a + m01 b)%C (m10 a + m10 b)%C (m11 a + m11 b)%C.
Definition mscale (k : C) (a : M2) : M2 :=
  mk2 (k * m00 a)%C (k * m01 a)%C (k * m10 a)%C (k * m11 a)%C.
Definition mmul (a b : M2) : M2 :=
  mk2 (m00 a * m00 b + m01 a * m10 b)%C (m00 a * m01 b + m01 a * m11 b)%C
      (m10 a * m00 b + m11 a * m10 b)%C (m10 a * m01 b + m11 a * m11 b)%C.
Definition mone : M2 := mk2 (RtoC 1) (RtoC 0) (RtoC 0) (RtoC 1).
Definition mzero : M2 := mk2 (RtoC 0) (RtoC 0) (RtoC 0) (RtoC 0).
(** conjugate transpose *)
Definition madj (a : M2) : M2 :=
  mk2 (Cconj (m00 a)) (Cconj (m10 a)) (Cconj (m01 a)) (Cconj (m11 a)).

Definition unitary (a : M2) : Prop := mmul (madj a) a = mone /\ mmul a (madj a) = mone.

(** equality up to a global phase *)
Definition phase_equiv (a b : M2) : Prop :=
  exists z : C, Cmod z = 1 /\ a = mscale z b.

(** entrywise derivative of a matrix valued function of a real variable *)
Definition c_derive (f : R -> C) (x : R) (d : C) : Prop :=
  is_derive (fun t => fst (f t)) x (fst d) /\ is_derive (fun t => snd (f t)) x (snd d).
Definition m_derive (f : R -> M2) (x : R) (d : M2) : Prop :=
  c_derive (fun t => m00 (f t)) x (m00 d) /\ c_derive (fun t => m01 (f t)) x (m01 d) /\
  c_derive (fun t => m10 (f t)) x (m10 d) /\ c_derive (fun t => m11 (f t)) x (m11 d).

Lemma c_eq (a b : C) : fst a = fst b -> snd a = snd b -> a = b.
Proof. destruct a, b; simpl; intros -> ->; reflexivity. Qed.

Lemma m_eq (a b : M2) :
  m00 a = m00 b -> m01 a = m01 b -> m10 a = m10 b -> m11 a = m11 b -> a = b.
Proof. destruct a, b; simpl; intros -> -> -> ->; reflexivity. Qed.

(** reduce a matrix equality to eight real equalities *)
Ltac m_real :=
  apply m_eq; simpl; apply c_eq; simpl.

Lemma mmul_assoc a b c : mmul a (mmul b c) = mmul (mmul a b) c.
Proof. apply m_eq; simpl; ring. Qed.
Lemma mmul_1_l a : mmul mone a = a.
Proof. m_real; ring. Qed.
Lemma mmul_1_r a : mmul a mone = a.
Proof. m_real; ring. Qed.
Lemma mscale_mmul_l k a b : mmul (mscale k a) b = mscale k (mmul a b).
Proof. apply m_eq; simpl; ring. Qed.
Lemma mscale_mmul_r k a b : mmul a (mscale k b) = mscale k (mmul a b).
Proof. apply m_eq; simpl; ring. Qed.
Lemma mscale_mscale k l a : mscale k (mscale l a) = mscale (k * l)%C a.
Proof. apply m_eq; simpl; ring. Qed.
Lemma mscale_1 a : mscale (RtoC 1) a = a.
Proof. m_real; ring. Qed.
Lemma madj_mmul a b : madj (mmul a b) = mmul (madj b) (madj a).
Proof. m_real; ring. Qed.

Lemma phase_equiv_refl a : phase_equiv a a.
Proof. exists (RtoC 1); split; [rewrite Cmod_1; auto|symmetry; apply mscale_1]. Qed.
Lemma phase_equiv_mmul a b c d :
  phase_equiv a b -> phase_equiv c d -> phase_equiv (mmul a c) (mmul b d).
Proof.
  intros [z [Hz ->]] [w [Hw ->]]; exists (z * w)%C; split.
  - rewrite Cmod_mult, Hz, Hw; ring.
  - rewrite mscale_mmul_l, mscale_mmul_r, mscale_mscale; reflexivity.
Qed.
Lemma phase_equiv_trans a b c : phase_equiv a b -> phase_equiv b c -> phase_equiv a c.
Proof.
  intros [z [Hz ->]] [w [Hw ->]]; exists (z * w)%C; split.
  - rewrite Cmod_mult, Hz, Hw; ring.
  - apply mscale_mscale.
Qed.
Lemma phase_equiv_sym a b : phase_equiv a b -> phase_equiv b a.
Proof.
  intros [z [Hz ->]]; exists (/ z)%C.
  assert (z <> RtoC 0) by (intros ->; rewrite Cmod_0 in Hz; lra).
  split.
  - rewrite Cmod_inv, Hz; auto; field.
  - rewrite mscale_mscale, Cinv_l, mscale_1; auto.
Qed.
