# Formal model of python-open-controls in Rocq (Coq 8.16.1)

## Layout (`rocq/theories`, logical name `Verif`)

| file | role |
| --- | --- |
| `PyBase.v` | the Python/numpy fragment used by the package: exceptions as values, `isclose`, `cumsum`, `amax`, `unique`, IEEE special values |
| `M_Utils.v` | model of `utils.py`, `exceptions.py` |
| `M_Constants.v` | model of `constants.py` (complex matrices) |
| `M_DrivenControl.v` | model of `driven_controls/driven_control.py` |
| `M_DrivenPredefined.v` | model of `driven_controls/predefined.py` |
| `M_DDS.v` | model of `dynamic_decoupling_sequences/dynamic_decoupling_sequence.py` |
| `M_DDSPredefined.v` | model of `dynamic_decoupling_sequences/predefined.py` |
| `M_Float.v` | the sequence builders of `predefined.py` again, in IEEE binary64 arithmetic |
| `M_FloatConvert.v` | `convert_dds_to_driven_control` again, in IEEE binary64 arithmetic |
| `M_FloatControls.v` | the composite pulses of `driven_controls/predefined.py` again, in IEEE binary64 arithmetic |
| `M_FloatText.v` | how Python prints a float (`repr`, `json`) |
| `M_FloatExport.v` | `export_to_file` of a control again, in binary64 arithmetic, down to the characters |
| `M_Extended.v` | constructors and conversion again, on all floats including NaN and infinities |
| `M_Heap.v` | constructors and conversion again, as programs on a heap of arrays with views and in-place assignment |
| `M_HeapPredefined.v` | the builders of predefined sequences as programs on the heap |
| `Spec_Drive.v`, `L_Drive.v`, `L_DriveControl.v`, `L_DrivePulse.v`, `L_DriveExists.v` | solutions of the Schroedinger equation under noise that varies in time |
| `M_HeapControls.v`, `Spec_HeapControls.v`, `L_HeapControls.v` | predefined controls as programs on the heap |
| `Spec_Segments.v` | rows of Cartesian amplitudes |
| `T_Conversion.v`, `T_Sequences.v` | tests of the project on the model (no claims) |
| `Spec_Diagnosis.v`, `L_Diagnosis.v` | which error a rejected call raises |
| `M_FloatFiles.v`, `Spec_FloatFiles.v`, `L_FloatFiles.v` | from the request to the file in floating point |
| `M_FloatProperties.v`, `Spec_FloatProperties.v`, `L_FloatProperties.v` | times, duration, angles, directions and plots in floating point |
| `M_FloatGaussian.v`, `Spec_FloatGaussian.v`, `L_FloatGaussian.v` | the modulated Gaussian control in floating point |
| `Spec_FirstOrder.v`, `L_FirstOrder.v`, `L_FirstOrderFamilies.v` | derivative of the evolution of a converted sequence with respect to the noise |
| `Spec_ConvertSymmetry.v`, `L_ConvertSymmetry.v`, `L_Palindromes.v` | symmetries of conversion, sequences symmetric in time |
| `Spec_Orders.v`, `L_Orders.v` | exact orders of the composite pulses |
| `Spec_Remainder.v`, `L_Remainder.v`, `L_RemainderControl.v` | distance of noisy evolutions for finite errors |
| `L_NoisyFiles.v` | composite pulses in floating point under finite errors |
| `L_Drift.v` | errors that vary in time about a constant |
| `M_HeapRead.v`, `Spec_HeapRead.v`, `L_HeapRead.v` | properties, exports and printed forms as programs on the heap |
| `M_FloatPrinted.v`, `Spec_FloatPrinted.v`, `L_FloatPrinted.v` | printed forms in floating point |
| `Spec_VectorNoise.v`, `L_VectorNoise.v` | noise along every direction on instantaneous pulses |
| `Spec_VectorControl.v`, `L_VectorControl.v` | the same noise on converted sequences |
| `Spec_VectorFile.v`, `L_VectorFile.v` | the same noise on sequences from the request to the file |
| `L_DriftFiles.v`, `L_GaussianFiles.v` | composite pulses and Gaussian controls from the request to the file under drifting errors |
| `Spec_FirstOrderEnds.v`, `L_FirstOrderEnds.v` | first-order sensitivity between pi/2 rotations |
| `Spec_GaussianErrors.v`, `L_GaussianErrors.v` | Gaussian controls under constant errors |
| `L_FastNoise.v` | detuning noise of small accumulated phase |
| `Spec_Response.v`, `L_Response.v`, `L_ResponseThms.v` | first-order response to noise |
| `Spec_Fidelity.v`, `L_Fidelity.v` | fidelity of the final state |
| `Spec_Filter.v`, `L_Filter.v` | dephasing noise of one frequency, filter function |
| `M_ExtendedPredefined.v` | the predefined sequences and controls again, on all floats including NaN and infinities |
| `M_Text.v` | the text `json.dump` and `csv.DictWriter` write |
| `Spec_*.v` | specifications, independent of the model's helpers |
| `L_*.v` | lemmas and proofs |
| `P_*.v` | the property theorems only, each `exact`ing a lemma, with `Print Assumptions` and a non-vacuity `Example` |

## Trusted base

* Coq's kernel (8.16.1). Coquelicot and Flocq are used as libraries of definitions and
  theorems; neither adds axioms.
* What `Print Assumptions` lists under each theorem: subsets of four axioms of the
  standard library, `ClassicalDedekindReals.sig_forall_dec`,
  `ClassicalDedekindReals.sig_not_dec`,
  `FunctionalExtensionality.functional_extensionality_dep` and
  `Classical_Prop.classic`. No axiom is added by this development. The table
  "Assumptions of each theorem" at the end lists them theorem by theorem.
* The reading of the Python source as the `M_*.v` files. Every definition cites
  the file and lines it models. The code is never run here.

### Simplifications

* Finite floats are exact reals in all models but `M_Float.v`, `M_FloatConvert.v`,
  `M_FloatControls.v` and `M_FloatExport.v`, which round every operation of the sequence
  builders on times, of the conversion, of the composite pulses and of the export to binary64 (no overflow;
  gradual underflow included). There the trigonometric functions and the square are any
  functions accurate to a few units in the last place on the arguments where the claims need it. The builders keep pulse angles as exact
  multiples of pi; `stored_angles` replaces pi by `np.pi` before the sequence is
  converted (C76). Elsewhere rounding, overflow and
  underflow are not modelled. Where the code can divide by zero (`export`, `export_to_file`,
  `__str__`, modulated Gaussian) the model uses `xfloat` with explicit
  `Inf`/`NaN`. `np.isclose`/`np.allclose` are modelled with their exact
  tolerances, so tolerance-dependent behaviour *is* modelled.
* Arrays are 1-D lists of finite floats, except in `M_Extended.v` and
  `M_ExtendedPredefined.v`: the two constructors, the conversion, the predefined sequences
  and controls on all floats including NaN and infinities (signs of zeros not
  modelled), proved to agree with the finite model on finite numbers.
  Elsewhere NaN/inf inputs are outside the model, and complex, multi-dimensional or
  non-numeric ones always. Attributes are not mutated after construction,
  except in `M_Heap.v`: arrays as views of shared memory whose element type is float64 or
  not; pure array expressions are evaluated on lists, lists passed as arguments are values.
* `np.sin`, `np.cos`, `np.exp`, `np.arccos`, `np.arcsin`, `np.sqrt`, `np.pi` are
  the real functions/constant.
* `str(float)` and `repr(array)` are parameters (oracles) of the text functions.
  `M_FloatText.v` models `str(float)` and its JSON form; the digit search of David
  Gay's `dtoa` (mode 0) is taken at its specification. `repr(array)` stays an oracle.
* Files are structured values (CSV header + rows, JSON object), a file system is
  a function from paths to contents; I/O errors of `open`/`write` are not modelled.
  `M_Text.v` gives the characters of those files: the encoders of the standard
  library's `json` and `csv` as the package calls them, characters below code point
  256, no newline translation, printed floats as an oracle.
* `ArgumentsValueError` carries description and argument names; the message text
  is modelled separately (`error_message`).
* `numpy`'s deprecated `np.float`/`np.complex` aliases are read as `float`/`complex`.
* Not modelled: package metadata, `__init__.py` re-exports, the documentation,
  tests, the example notebooks, logging.

### Physics specification (`Spec_Qubit.v`)

2x2 complex matrices; `H = 1/2 (Omega cos phi sx + Omega sin phi sy + Delta sz)`
(the Hamiltonian matching the documented rotation direction); the evolution over a segment is
specified as *the* solution of `U' = -i H U`, `U(0)=1` (existence and uniqueness
proved), the evolution of a control as the product over segments, later
segments on the left. Noise: `Omega -> (1+eps) Omega` on every segment and/or
`Delta -> Delta + delta`. Robustness to order k: the first k derivatives at 0
of every matrix entry vanish.

## Per property

What is proved and how; "refuted" means the full statement is false of the code
and a witness is proved, beside the strongest true form (`_partial`).

* C01 iff-characterisation of the constructor; a control is a list of segments.
* C02, C03 induction on the durations list; empty controls raise `ValueError`.
* C04 the segment unitary is the unique solution of the Schroedinger equation.
* C05 refuted for segments at most `min(1e-20*max, 1e-8)`; proved above that.
* C06 proved for positive maximum or no normalisation; all-zero controls give NaN.
* C07 JSON round trip. C08 refuted for unnamed controls (`KeyError`), proved for
  named ones. C09 refuted for cylindrical coordinates, proved for Cartesian ones.
* C10 frame property of both exports. C11 refuted when the maximum detuning is 0
  and some detunings are negative, otherwise proved.
* C12-C19 quaternion algebra; robustness by explicit derivatives of all entries.
* C20 amplitude robustness exact for every accepted rotation (not only the three
  nominal ones); the net rotation is exact iff theta = pi, with proved error bounds
  for the tabulated angles. C21 inherits both.
* C22 net rotation exact; first-order dephasing robustness exact only near pi,
  otherwise the derivative is bounded by 1e-8 per unit Rabi rate.
* C23-C26 case analysis over all schemes (`scheme` datatype).
* C27-C29 modulated Gaussian: acceptance, segmentation, bounds, identity by
  antisymmetry. C30 refuted: segments equal the minimum iff the duration is a
  multiple of it, otherwise they lie in (m/2, m).
* C31-C38 exact offsets. Walsh: signs of sines at dyadic midpoints against the bits
  of the order. C39, C61 run-length induction on the order.
* C40 proved for orders 1 and 2, refuted for every order >= 3.
* C41 parity argument in the Pauli group for arbitrary lists of pi pulses.
* C42, C43, C60, C61 toggling frame for arbitrary lists of pi pulses and any
  integrable detuning; moments by Chebyshev sums and dyadic recursion.
* C44, C45, C59, C62, C63 quantify over all builders through the datatype
  `request` of `Spec_Conversion.v`.
* C46-C55 arbitrary lists of pulses. The 1e-8 overlap tolerance falsifies the exact
  duration and timing (C46, C49); the exact excess is proved.
* C56-C58, C64 strings as Coq strings, `repr`/`str` of numbers as an oracle; equal
  printed forms are cut back into lines and lists, so they determine the object.
* C65, C66 forward error analysis of every builder over Flocq's `round`; the exact
  spacing exceeds twice the error, so no two times are swapped or merged. Walsh needs
  the sign of every sine; concatenation needs exact ties between repeated offsets.
  Error in the times becomes error in the toggling-frame angle, then in quaternion
  norm.
* C67 perturbation bounds for unit quaternions (`L_QuatNorm.v`): the quaternion
  exponential is Lipschitz, errors of factors add; induction over pulses and gaps.
* C68-C70 case analysis on special values: any infinite or NaN pulse width makes a gap
  NaN or -inf, which the gap check rejects; so all widths in use are finite.
* C71, C72 a JSON lexer and parser and a CSV reader, written as specifications, are
  shown to invert the encoders for all values; numbers are compared as printed.
* C73-C76 forward error analysis of the conversion: absolute errors in units of
  `T/2^53` for windows, widths and gaps, then relative errors of the rates and of the
  angles. Angles are far more accurate than rates because the rate is the angle
  divided by the rounded width. C74 and C75 are false near the resolution of floats,
  by a computed witness and for every sequence with fast enough pulses. C76 chains
  C65, C73, C67 and the error of `np.pi`; of the XY sequences only
  order 2 is covered (order 1 ends with a pulse at the end, the others cannot be converted).

* C77-C79 (`Spec_Noise.v`) existence and uniqueness of solutions of the Schroedinger
  equation with time-dependent detuning; Taylor's theorem moves the cancellation of
  polynomials to detunings with bounded derivatives. Exactness: the next moment of
  every family is computed and is not zero, a small multiple of it then changes the
  evolution. The bound on the number of pulses multiplies the switching function by
  the polynomial with the same sign changes, whose integral is positive.

* C80, C81 (`M_FloatControls.v`, `Spec_FloatControls.v`) the composite pulses in binary64.
  Absolute errors are propagated in units of 2^-53; arccosines use that the cosine
  expands distances by its slope (or quadratically near 4 pi). The closeness tests of
  the tabulated schemes are decided away from their thresholds.

* C82 (`M_FloatText.v`, `Spec_FloatText.v`) `repr` of a float as CPython computes it:
  the digit search is stated as its specification in the C source (shortest string
  that rounds to the float, nearest among those), the layout function by function.
  The reader is an independent parser of decimal numbers followed by rounding. It
  discharges the assumption of C71 and C72 on printed numbers.
* C83 (`M_FloatExport.v`, `Spec_FloatExport.v`) the export of C07-C10 with rounded
  operations, written out as text by `M_Text.v` and `M_FloatText.v` and read back.

* C84, C85 (`M_ExtendedPredefined.v`, `Spec_ExtendedPredefined.v`) the predefined sequences
  and controls with NaN and infinite arguments. Agreement with the finite model makes
  every earlier property carry over; special values are covered case by case. How
  `np.unique` treats NaN changed in numpy 1.21 and is a parameter.

* C86, C87 (`M_Heap.v`, `Spec_Heap.v`) sharing, copying and in-place assignment. A heap of
  memory blocks; arrays are views (block and positions). The constructors and the
  conversion are written as programs on it, with the loops, indices and assignments of the
  source, and proved to compute what the functional model computes; so the earlier
  properties hold of the imperative program too.

* C88 (`M_HeapPredefined.v`) the ten builders of predefined sequences as programs on the
  heap: `_concatenation_xy` with its slices and assignments to the last entry, the masked
  assignments, the merging `while` loops (with fuel; running out of it raises, so the
  theorem shows that they end) and the insertion of Z pulses by overlapping slice
  assignment while iterating over the array that is being changed.

* C89 (`Spec_Drive.v`) noise that varies while the pulses are on. `driven` is a solution of
  the Schroedinger equation of one segment with amplitude (1 + eps(t)) rabi and detuning
  det + beta(t). Existence is by Picard iteration (`L_DriveExists.v`), uniqueness and the
  bounds by comparing solutions of nearby equations (`L_Drive.v`). The theorems on converted
  sequences ask for `duration c = T` (no overlapping pulse windows; C46 says when).

* C90 (`M_HeapControls.v`) the builders of predefined controls as programs on the heap of
  C86. Lists stay lists; `np.abs`, `np.zeros`, `np.array` and `np.vstack` allocate; the two
  columns of CORPSE in SCROFULOUS are views (the azimuthal angles of that control occupy
  every second entry of a block of 18). The temporaries inside one numpy expression (the
  Gaussian envelope, the sinc) are not separate blocks.
* C91 (`Spec_Segments.v`) `_derive_segments`, which nothing in the package calls.

* C92 (`Spec_Diagnosis.v`) for each function a list of requirements, each with the error
  reported where it fails; the theorems say that the call reports the first that fails. The
  descriptions and names were compared with the source by a script. Values of arguments in
  the text of the message are not part of it (C56).

* C93 (`Spec_FloatFiles.v`) composes C65/C80, C73, C76 and C83: the evolution of the
  numbers read from the file against the exact sequence or the design of the scheme. The
  sizes of the segments needed by C83 are derived from the conversion (`segments_moderate`).

* C94, C95 (`M_FloatProperties.v`): `np.sum` is modelled in the order of numpy's pairwise
  summation (fewer than 8 numbers in turn; up to 128 in eight partial sums; longer arrays
  halved at a multiple of 8) and `np.cumsum` in turn. `C94_any_order` covers any other order,
  e.g. that of a build with different vector instructions. `x ** 2` and `np.sqrt` are
  correctly rounded; `r * np.exp(1j * theta)` has the parts `r cos` and `r sin`.

* C96-C98 (`M_FloatGaussian.v`): `new_modulated_gaussian_control` with every operation
  rounded to binary64, the literal 0.1 rounded, `np.sum` pairwise as in C94, `np.ceil` and the
  remainder of two positive numbers (C `fmod`) exact. `np.exp` and `np.sin` are arbitrary
  functions with an error of at most 2^-50 (relative and absolute); correctly rounded ones
  qualify (`rounded_exp_accurate`, `rounded_sine_accurate`). Overflow is not represented.

* C99-C100 (`L_FirstOrder.v`, `L_FirstOrderFamilies.v`): the derivative, at zero noise, of the
  evolution of a converted sequence of pi pulses, and for every predefined sequence without pre-
  and post-rotations whether it vanishes. The noise is a constant detuning or a constant
  relative error of the Rabi rate, as in C67; the conversion is the one of C46-C49 with no overlap.

* C101-C103 (`L_ConvertSymmetry.v`, `L_Palindromes.v`): relations between two runs of the
  conversion (reversed, turned, with opposite detunings, in another unit of time), and the
  predefined sequences that equal their time reverse. C102 is partial: it is refuted for pulses
  with both rotations and for the tolerance on short gaps.

* C104-C105 (`L_Orders.v`): the robustness theorems C14-C22 say which orders cancel; these say
  that no further order does. Entries of the evolution are sums of sines in the amplitude error,
  whose derivatives of every order are explicit.

* C106-C107 (`L_Remainder.v`): the robustness theorems are about derivatives at zero error; these
  bound the effect of errors of any size. To first and second order the noisy segment is compared
  with the ideal one in the toggling frame, whose derivative in time is explicit; for higher orders
  on resonance a family of functions, each the derivative of the one before, is carried through
  the product of segments with its bound.

* C108 (`L_NoisyFiles.v`) joins the floating-point chain of C80 and C93 to the remainder bounds of
  C107.

* C109 (`L_Drift.v`): the evolution under errors that vary about the constants e and d is that of
  the control with e and d built in, under the deviations alone. C89 then bounds the effect of the
  deviations, C106 and C107 that of the constants.

* C110 (`M_HeapRead.v`, `Spec_HeapRead.v`, `L_HeapRead.v`): properties, exports and printed
  forms as programs on the heap of C86. `reads h p v` says that the program p started in heap h
  gives v and only allocates. Simplification: arrays divided by a rate that may be 0 are lists of
  extended numbers and not heap arrays; they are turned into lists (`tolist`) or text at once.
* C111 (`M_FloatPrinted.v`, `Spec_FloatPrinted.v`, `L_FloatPrinted.v`): `__str__` with rounded
  quotients, the numbers printed as in C82. Overflow of a quotient is excluded by
  `control_prints` and `sequence_prints`.

* C112 (`Spec_VectorNoise.v`, `L_VectorNoise.v`): noise with a component along each axis, as a
  term of the Hamiltonian between instantaneous pulses. `vector_orders` names the order along each
  axis; it says nothing about XY concatenation above order 2, which does not refocus (findings 8 and
  13). The proof expands the evolution to second order and uses the moments of the
  times at which the pulses turn each component around.
* C113 (`Spec_VectorControl.v`, `L_VectorControl.v`): the same noise on the converted control, with
  pulses of finite width. As in C89 the windows of the pulses may not overlap.

* C114 (`Spec_VectorFile.v`, `L_VectorFile.v`): C93 and C113 joined. The noise and the amplitude
  error are bounded at all times from 0 on, since the durations in the file may add up to slightly
  more than T. The segments of the file are compared with those of the exact conversion one by one,
  with the shift of their start carried along.

* C115 (`L_DriftFiles.v`), C116 (`L_GaussianFiles.v`): C109 applied to the segments read from the
  file, joined with C108 for the composite pulses, and with C96 and C97 for the Gaussian controls.
  The bounds on the errors hold for as long as the segments of the file last.

* C117 (`L_FirstOrderEnds.v`): C99 and C100 with `pre_post_rotation=True`.  The pi/2 rotations
  are half as long as the pi pulses, or as long as `minimum_segment_duration`, and add a term of
  their own to the first-order condition.  `duration c = T` excludes windows that overlap within
  the tolerance of the conversion.
* C118 (`L_GaussianErrors.v`): a drive along X read backwards is the transpose of the evolution.
  The samples of the pulse are even (zero frequency) or odd (otherwise) about the middle, which
  removes one component of the error for every amplitude error and detuning.

* C119 (`L_FastNoise.v`): in the frame that follows the accumulated phase B(t) the detuning noise
  is gone and the drive turns by -B(t), so only its total angle matters.
* C120 (`Spec_Response.v`, `L_Response.v`, `L_ResponseThms.v`): first order of the Dyson series with
  an explicit bound of the rest, for any control.  The response is defined segment by segment, each
  an integral of a continuous function.

* C121 (`Spec_Fidelity.v`, `L_Fidelity.v`): states are pairs of amplitudes; the largest infidelity is
  found exactly (one minus the square of the real part of the relative quaternion) and attained by a
  state on the equator.  The mean over all states is an integral over polar angles and azimuths of states
  with a real first amplitude; C121_states shows that these are all states up to a phase.

* C122 (`Spec_Filter.v`, `L_Filter.v`): `switched_integral` integrates with the sign that flips at each X
  or Y pulse; the filter function is defined by two such integrals, of cos (w t) and sin (w t), not by a
  formula of the model.  The closed forms are multiplied out, so that they also hold where a denominator
  vanishes.

## Findings about the code

1. `export_to_file` with the default CSV type raises `KeyError` for unnamed controls.
2. Cylindrical CSV column order differs from the documented one.
3. Dimensionless export of a control with all-zero Rabi rates produces NaN.
4. `str()` prints all-zero detunings when their maximum is 0 but some are negative.
5. Very small but non-zero segments (relative 1e-20) get non-normalised directions.
6. Negative rotations pass the parameter check but are rejected later.
7. Modulated Gaussian segments can be shorter than the requested minimum.
8. XY concatenated sequences of order >= 3 do not follow the recursion; order 1
   keeps a pulse at the end, so `pre_post_rotation` yields duplicate offsets.
9. Conversion accepts Rabi pulses with *negative* simultaneous detuning and drops it.
10. Conversion turns sequences of duration <= 1e-8 into free evolution.
11. Conversion tolerates overlaps of up to 1e-8, then the control is longer than
    the sequence.
12. With the package's SIGMA_M/SIGMA_P the documented Hamiltonian has the opposite sign of
    the sigma_y term from the documented rotation direction.
13. XY concatenated sequences of order >= 3 (and of order 1 with pre/post
    rotations) contain simultaneous pulses and can never be converted.
14. SCROFULOUS with its tabulated angles is not exact for pi/2 and pi/4 (by less than
    the table's rounding), WAMF1 likewise for dephasing.
15. Conversion with infinite maximum rates and zero minimum segment duration silently
    drops every pulse (widths are 0).
16. NaN azimuthal angles, detunings and sequence rotations pass the constructors (NaN
    durations, offsets and Rabi rates do not). An infinite offset count passes the
    `>= 1` check of the sequence builders and then `int(inf)` raises `OverflowError`,
    not `ArgumentsValueError` (C84); an infinite Gaussian duration does the same (C85).
17. In binary64 arithmetic the conversion can exceed the maximum Rabi rate when a pulse
    is as short as the spacing of floats at its time (by a factor 1.5 in C74).
18. Pulses shorter than that are silently dropped, the control is idle (C75).
19. In binary64 arithmetic WAMF1 can exceed the requested maximum Rabi rate by one unit
    in the last place (C81); BB1 and SK1 lose half the digits of their azimuthal
    angles for rotations near 4 pi (C80).
20. An infinite duration is accepted by most sequence builders; X concatenated sequences
    then silently lose all pulses (C84).
21. The azimuthal angle of the composite pulses is not validated; NaN and infinities pass
    into the control. An infinite primitive rotation is accepted. WAMF1 with an infinite
    rate raises `ZeroDivisionError` (C85).
22. `np.asarray` keeps a reference to the caller's array of floats (and to any array given as
    offsets). Assigning to it later silently changes the control or sequence, even to one the
    constructor rejects, and assigning to an attribute changes the caller's array (C86).
23. The documented default amplitude of `_derive_segments` is 1, the code's is 2 pi; any
    non-zero amplitude gives the same rotations (C91).
24. A negative `rabi_rotation` passes the checks of the builders and is reported as a
    negative duration (C92_case_negative); BB1, SK1 and their CORPSE variants even check for
    angles down to -4 pi, none of which below 0 can succeed.
25. In floating point the boundary times of a control need not be strictly increasing, and the
    last one can be smaller than the reported duration (C95_times_refuted,
    C95_last_time_refuted): `times` adds in turn, `duration` in pairs.
26. A modulation with a node at the midpoint of every segment (T = 1, m = 1/2, f = 2) is
    rejected in exact arithmetic, as every sample is 0. In floating point the samples are
    rounding errors, the largest of which is scaled to the maximum Rabi rate: the call returns
    a control at the full rate (C98_noise). The number of segments can also be one less than
    the ceiling of T/m, when the quotient rounds down to an integer (C98_count_refuted), and
    the segments are then fewer and longer.
27. Conversion to finite pulses does not preserve the first-order insensitivity to a constant
    detuning that C42 and C60 show for ideal pulses. It is lost for the spin echo and all
    sequences of an odd number of equal pulses, because a detuning tilts each pulse, and for the
    XY concatenated sequence of order 1, because its last pulse, at the end of the sequence, is
    moved inside (C99_predefined).
28. Conversion treats the two signs of a detuning rotation differently: a pulse with both a Rabi
    rotation and a detuning rotation is rejected if the latter is positive, and accepted, with
    the detuning rotation dropped, if it is negative (C102_detuning_refuted). Whether a gap is too
    short is decided with an absolute tolerance of 1e-8, so the same sequence can be accepted in
    one unit of time and rejected in another (C102_units_refuted).
29. Different controls can have the same printed form: those with the rates 3/2, 1 and with
    3/2, 1 - 2^-53 print alike, because each quotient by the maximum is rounded to a binary64
    number (C111_exact_refuted).

## The project's own tests, on the model

`T_Conversion.v` and `T_Sequences.v` run tests of the project (ten of the conversion and
fourteen of the sequences) on the model: the same inputs, the same expected lists, and
equality where the test asks for `np.allclose`. They are checks of the model on literals
and no claim rests on them.

## Testing the theorems against wrong programs

`seeded/LOG.jsonl` records every seeded bug: the model definition edited, the edit,
the claim it breaks, the theorems that stopped proving and the theorems tightened.
The runs are done in a scratch copy: the edited definition's dependents are
recompiled, every proof that breaks is replaced by `Admitted` there, and the
property theorems whose `Print Assumptions` then lists an admitted lemma are
reported as failed.

## Assumptions of each theorem

<!-- assumptions begin -->
* no axioms (closed under the global context): C71_json, C71_ascii, C72_csv, C56_check_arguments, C56_message_lines, C56_names, C57_create_repr, C57_create_repr_rejects.
* `classic`: C92_determined.
* `functional_extensionality_dep`, `sig_forall_dec`: C92_control, C92_sequence, C01_construction, C01_segments_complete, C68_control, C68_sequence, C68_control_finite, C68_sequence_finite, C69_finite, C69_total, C69_endless, C70_infinite_partial, C73_unrounded, C86_control, C86_sequence, C86_control_partial, C86_control_refuted, C86_sequence_partial, C86_sequence_refuted, C87_convert, C87_independent, C110_numbers, C58_pauli, C58_ladder.
* `classic`, `functional_extensionality_dep`, `sig_forall_dec`: C46_duration_partial, C46_duration_refuted, C47_rates, C48_pulses, C49_timing_partial, C49_timing_refuted, C50_minimum, C51_acceptance, C53_simultaneous_partial, C53_ignores_detuning, C54_keeps_pulses_partial, C54_keeps_pulses_refuted, C101_reversal, C101_azimuth, C102_detuning_partial, C102_detuning_refuted, C102_units_partial, C102_units_refuted, C31_construction, C92_conversion, C01_segments, C02_times, C03_extrema, C69_values, C70_infinite_refuted, C86_corrupt, C106_turned, C57_control, C57_sequence, C57_control_identified, C57_sequence_identified.
* `functional_extensionality_dep`, `sig_forall_dec`, `sig_not_dec`: C55_file_export, C32_export, C33_ramsey, C34_rejections, C41_product, C92_plots, C05_directions_partial, C05_directions_refuted, C06_export_unnormalised, C06_export_normalised, C06_export_invalid, C06_export_zero, C06_export_zero_refuted, C07_json_round_trip, C08_csv_partial, C08_csv_unnamed, C08_csv_refuted, C09_csv_layout_partial, C09_csv_layout_cylindrical, C09_csv_layout_refuted, C11_printed_form_refuted, C84_finite, C84_rejected, C84_ramsey, C84_quadratic, C85_gaussian_finite, C85_gaussian, C65_float_rejections, C65_unrounded, C93_unrounded, C96_unrounded, C94_unrounded, C83_unrounded, C27_acceptance, C27_segmentation, C27_shape, C28_rates, C29_identity, C30_minimum_refuted, C30_minimum_partial, C90_gaussian, C88_build, C88_independent, C88_pipeline, C110_arrays, C110_directions, C110_independent, C110_exports, C110_sequences, C64_printed_sequence, C71_control, C72_control, C58_hamiltonian_partial, C58_hamiltonian_sign, C58_hamiltonian_refuted, C113_detuning, C112_dephasing, C120_linear, C120_parts.
* `classic`, `functional_extensionality_dep`, `sig_forall_dec`, `sig_not_dec`: C52_net_operation, C53_simultaneous_refuted, C10_sequence_frame, C103_sequences, C103_controls, C103_xy, C33_spin_echo, C34_carr_purcell, C34_cpmg, C35_uhrig, C36_periodic, C37_walsh, C38_quadratic, C38_cancels, C41_acceptance, C41_exact, C42_refocusing, C43_uhrig, C60_walsh, C39_x_concatenation, C40_xy_concatenation_partial, C40_xy_concatenation_refuted, C40_xy_sequence, C40_xy_refocusing, C61_x_cancels, C92_schemes, C92_gaussian, C92_requests, C92_files, C92_sequence_files, C109_drift, C109_schemes, C109_sequences, C89_solution, C89_constant, C89_control, C89_finite_pulses, C89_predefined, C04_amplitudes_and_angles, C06_export_normalised_range, C06_export_empty, C10_export_frame, C11_printed_form_partial, C12_primitive, C13_bb1, C14_bb1_robust, C15_sk1, C16_corpse, C17_corpse_robust, C18_corpse_in_bb1, C19_corpse_in_sk1, C20_scrofulous_partial, C20_scrofulous_refuted, C21_corpse_in_scrofulous, C21_same_as_scrofulous, C22_wamf1, C22_wamf1_dephasing_partial, C22_wamf1_dephasing_refuted, C23_acceptance, C24_rates_and_duration, C25_azimuthal, C25_azimuthal_exists, C26_scaling, C84_stretched, C84_x_concatenated, C84_xy_concatenated, C85_finite, C85_total, C85_primitive, C85_angle, C67_finite_pulses, C67_decoupling, C99_detuning, C99_predefined, C100_amplitude, C100_predefined, C65_float_sequences, C65_sine_exists, C65_square_exists, C66_float_evolution, C80_float_controls, C80_float_rotation, C80_trigonometry, C80_unrounded, C81_float_rates_partial, C81_float_rates_refuted, C73_float_conversion, C73_float_evolution, C74_float_rates_partial, C74_float_rates_refuted, C75_float_pulses_partial, C75_float_pulses_refuted, C76_float_pipeline, C76_float_decoupling, C76_stored_format, C76_sequence_float_pulses, C93_sequence_file, C93_sequence_export, C93_scheme_file, C93_numbers, C96_zero_frequency, C97_modulated, C98_acceptance_refuted, C98_noise, C98_count_refuted, C98_acceptance_partial, C111_numbers, C111_sequence_numbers, C111_control_partial, C111_sequence_partial, C111_exact_refuted, C111_unrounded, C95_times_partial, C94_duration, C94_any_order, C95_last_time_partial, C95_times_refuted, C95_last_time_refuted, C94_angles, C94_directions, C94_plot, C82_round_trip, C82_distinct, C82_shortest, C82_closest, C83_json_cylindrical, C83_json_cartesian, C83_csv, C90_build, C90_independent, C77_schroedinger, C78_suppression, C78_predefined, C79_exact, C79_pulse_count, C108_noisy_file, C104_amplitude_order, C104_next_order_remains, C105_detuning_first_order, C11_determines_partial, C64_determines, C106_distance, C106_distance_single, C106_sequences, C107_resonant, C107_schemes, C44_validity, C45_scaling, C59_conversion, C59_rates, C59_convertibility, C62_net, C63_xy_never_converts, C91_rotations, C91_schemes, C113_finite_pulses, C114_pulses, C114_request, C114_export, C115_pulses, C115_rotation, C116_control, C116_zero_frequency, C116_modulated, C113_predefined, C113_solution, C112_smooth, C112_static, C112_exposed, C112_solution, C117_detuning, C117_amplitude, C117_predefined, C117_not_both, C117_remainder, C118_axis, C118_amplitude, C118_detuning, C118_two_segments, C117_drift, C118_drift, C119_control, C119_schemes, C119_sequences, C119_oscillating, C120_response, C120_first_order, C120_cancelled, C120_derivative, C120_constant, C120_noise, C121_worst, C121_average, C121_states, C121_control, C121_response, C121_schemes, C121_sequences, C121_decoupling, C121_vector, C121_converted, C121_files, C122_phase, C122_smooth, C122_tone, C122_loss, C122_spectrum, C122_mean, C122_rolloff, C122_sums, C122_forms, C122_walsh.
<!-- assumptions end -->
