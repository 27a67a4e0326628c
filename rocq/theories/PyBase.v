(** * PyBase: the fragment of Python and numpy that the package relies on.

    Nothing in this file models a function of /repo; it models the *runtime*
    (Python exceptions, IEEE special values, numpy array primitives) that the
    functions of /repo call.  Every later model file cites /repo.

    Simplification used throughout the development: a finite Python/numpy
    float is modelled as an exact real number ([R]); rounding is not modelled
    (see DESIGN.md, "Trusted base").  Wherever the code can divide by zero the
    model uses [xfloat] below, so that NaN / inf are explicit and never hidden
    behind Coq's total division. *)

From Coq Require Export Reals List String Bool ZArith Arith.
Export ListNotations.
Open Scope R_scope.

(** ** Exceptions as values *)

(** The exceptions the modelled code can raise.
    [ArgumentsValueError] is /repo/qctrlopencontrols/exceptions.py:27-56; it
    carries the description and the *names* of the arguments and extras that
    are reported (simplification: their values are dropped here; the message
    text itself is modelled in M_Utils.v).
    [KeyError]   : Python dict lookup/pop of an absent key.
    [ValueError] : numpy "zero-size array to reduction operation".
    [IndexError] : Python list index out of range.
    [AttributeError] : [getattr] of an absent attribute. *)
Inductive exn : Type :=
| ArgumentsValueError (description : string) (arguments extras : list string)
| KeyError (key : string)
| ValueError (message : string)
| IndexError
| AttributeError (name : string)
| OverflowError (message : string)
| ZeroDivisionError (message : string).

Inductive result (A : Type) : Type :=
| Ok (a : A)
| Raise (e : exn).
Arguments Ok {A} a.
Arguments Raise {A} e.

Definition bind {A B : Type} (x : result A) (f : A -> result B) : result B :=
  match x with
  | Ok a => f a
  | Raise e => Raise e
  end.

Notation "'let*' x ':=' e1 'in' e2" := (bind e1 (fun x => e2))
  (at level 200, x name, e1 at level 100, e2 at level 200, right associativity).
Notation "'do*' e1 'in' e2" := (bind e1 (fun _ => e2))
  (at level 200, e1 at level 100, e2 at level 200, right associativity).

(** ** Boolean comparisons on finite floats *)

Definition ltb (x y : R) : bool := if Rlt_dec x y then true else false.
Definition leb (x y : R) : bool := if Rle_dec x y then true else false.
Definition eqb (x y : R) : bool := if Req_EM_T x y then true else false.
Definition neqb (x y : R) : bool := negb (eqb x y).

(** ** Python builtins *)

(** [int(x)] truncates towards zero. *)
Definition py_int (x : R) : Z :=
  if Rle_dec 0 x then Int_part x else (- Int_part (- x))%Z.

(** float modulo for a positive modulus: [x % y = x - y*floor(x/y)]. *)
Definition py_mod (x y : R) : R := x - y * IZR (Int_part (x / y)).

(** Python's [max(a, b)]. *)
Definition py_max (a b : R) : R := if ltb a b then b else a.
(** Python's [min(a, b)]. *)
Definition py_min (a b : R) : R := if ltb b a then b else a.

(** [int(np.ceil(x))]. *)
Definition np_ceil (x : R) : Z := (- Int_part (- x))%Z.

(** [range(a, a+n)]. *)
Definition range (a n : nat) : list nat := seq a n.

(** ** numpy primitives on 1-D arrays (lists of reals) *)

(** numpy.isclose: [|a - b| <= atol + rtol*|b|], defaults rtol=1e-5, atol=1e-8. *)
Definition np_isclose_tol (atol a b : R) : bool :=
  leb (Rabs (a - b)) (atol + / 100000 * Rabs b).
Definition np_isclose (a b : R) : bool := np_isclose_tol (/ 100000000) a b.

Definition np_all (l : list bool) : bool := forallb (fun b => b) l.
Definition np_any (l : list bool) : bool := existsb (fun b => b) l.

(** numpy.cumsum *)
Fixpoint cumsum_from (acc : R) (l : list R) : list R :=
  match l with
  | [] => []
  | x :: l' => (acc + x) :: cumsum_from (acc + x) l'
  end.
Definition np_cumsum (l : list R) : list R := cumsum_from 0 l.

(** numpy.sum *)
Definition np_sum (l : list R) : R := fold_right Rplus 0 l.

(** numpy.diff *)
Fixpoint np_diff (l : list R) : list R :=
  match l with
  | x :: ((y :: _) as l') => (y - x) :: np_diff l'
  | _ => []
  end.

(** numpy.amax / numpy.amin: ValueError on an empty array. *)
Definition np_amax (l : list R) : result R :=
  match l with
  | [] => Raise (ValueError "zero-size array to reduction operation maximum which has no identity")
  | x :: l' => Ok (fold_left Rmax l' x)
  end.
Definition np_amin (l : list R) : result R :=
  match l with
  | [] => Raise (ValueError "zero-size array to reduction operation minimum which has no identity")
  | x :: l' => Ok (fold_left Rmin l' x)
  end.

(** [np.zeros(n)], [np.full(n, v)] *)
Definition np_full (n : nat) (v : R) : list R := repeat v n.
Definition np_zeros (n : nat) : list R := np_full n 0.

(** [np.insert(a, [0, len(a)], [x, y])]: numpy inserts before the given
    indices *of the original array*, i.e. at the front and at the back. *)
Definition np_insert_ends {A : Type} (a : list A) (x y : A) : list A :=
  x :: a ++ [y].

(** [a[:-1]] *)
Definition drop_last {A : Type} (l : list A) : list A := removelast l.

(** [np.unique(a, return_counts=True)]: sorted distinct values with their
    multiplicities.  Stated for any element type with a decidable order so
    that the same algorithm can be run on integers. *)
Section Unique.
  Context {T : Type} (le_b eq_b : T -> T -> bool).

  Fixpoint sort_insert (x : T) (l : list T) : list T :=
    match l with
    | [] => [x]
    | y :: l' => if le_b x y then x :: y :: l' else y :: sort_insert x l'
    end.
  Definition sort (l : list T) : list T := fold_right sort_insert [] l.

  (** run-length encoding of a sorted list *)
  Fixpoint group (l : list T) : list (T * nat) :=
    match l with
    | [] => []
    | x :: l' =>
        match group l' with
        | (y, c) :: g => if eq_b x y then (y, S c) :: g else (x, 1%nat) :: (y, c) :: g
        | [] => [(x, 1%nat)]
        end
    end.
  Definition unique_counts (l : list T) : list (T * nat) := group (sort l).
End Unique.
Definition np_unique_counts (l : list R) : list (R * nat) := unique_counts leb eqb l.

(** ** IEEE special values, used only where the code may divide by zero *)

Inductive xfloat : Type :=
| Fin (r : R)
| Inf (negative : bool)
| NaN.

(** numpy true division of finite numbers (zero is taken as +0). *)
Definition xdiv (x y : R) : xfloat :=
  if eqb y 0 then (if eqb x 0 then NaN else Inf (ltb x 0)) else Fin (x / y).

(** multiplication of an [xfloat] by a finite number *)
Definition xscale (x : xfloat) (k : R) : xfloat :=
  match x with
  | Fin r => Fin (r * k)
  | Inf n => if eqb k 0 then NaN else Inf (xorb n (ltb k 0))
  | NaN => NaN
  end.

Definition xabs (x : xfloat) : xfloat :=
  match x with
  | Fin r => Fin (Rabs r)
  | Inf _ => Inf false
  | NaN => NaN
  end.

(** [x >= 0] for an [xfloat]; any comparison with NaN is False. *)
Definition xge0 (x : xfloat) : bool :=
  match x with
  | Fin r => leb 0 r
  | Inf n => negb n
  | NaN => false
  end.
