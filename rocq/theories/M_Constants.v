(** * Model of constants.py *)

From Verif Require Export Matrix2.
Open Scope R_scope.

(** /repo/qctrlopencontrols/constants.py:21 *)
Definition SIGMA_X : M2 := mk2 (RtoC 0) (RtoC 1) (RtoC 1) (RtoC 0).
(** constants.py:22 *)
Definition SIGMA_Y : M2 := mk2 (RtoC 0) (- Ci)%C Ci (RtoC 0).
(** constants.py:23 *)
Definition SIGMA_Z : M2 := mk2 (RtoC 1) (RtoC 0) (RtoC 0) (RtoC (-1)).
(** constants.py:24 *)
Definition SIGMA_M : M2 := mk2 (RtoC 0) (RtoC 1) (RtoC 0) (RtoC 0).
(** constants.py:25 *)
Definition SIGMA_P : M2 := mk2 (RtoC 0) (RtoC 0) (RtoC 1) (RtoC 0).
