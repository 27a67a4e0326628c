{"id": "C01", "title": "DrivenControl accepts exactly the valid inputs", "statement": "DrivenControl(...) succeeds if and only if every duration is > 0, every supplied array has as many entries as durations, and every Rabi rate is >= 0. On success the attributes are the supplied arrays (zeros for omitted ones), with equal lengths; otherwise it raises ArgumentsValueError naming the offending argument(s).", "quantifier": "all finite arrays of any length, every combination of omitted arguments, every name", "why_tests_cant": "Inputs of every length and every pattern of omitted arrays; tests sample a few.", "anchors": ["qctrlopencontrols/driven_controls/driven_control.py:DrivenControl.__init__", "qctrlopencontrols/utils.py:check_arguments"]}
{"id": "C02", "title": "Segment boundary times", "statement": "times has number_of_segments+1 entries, starts at 0, is strictly increasing, its consecutive differences are durations, and its last entry is duration, the sum of the durations.", "quantifier": "every constructible control of any number of segments", "why_tests_cant": "A cumulative property over unbounded segment counts.", "anchors": ["qctrlopencontrols/driven_controls/driven_control.py:DrivenControl.times", "qctrlopencontrols/driven_controls/driven_control.py:DrivenControl.duration", "qctrlopencontrols/driven_controls/driven_control.py:DrivenControl.number_of_segments"]}
{"id": "C03", "title": "Extremal properties are true extrema", "statement": "For a non-empty control maximum_rabi_rate, maximum_detuning and maximum_duration are attained upper bounds of the respective array and minimum_duration is an attained lower bound; number_of_segments*minimum_duration <= duration <= number_of_segments*maximum_duration. For an empty control each of them raises ValueError.", "quantifier": "every constructible control", "why_tests_cant": "Attained-upper-bound over arbitrary arrays cannot be settled by samples.", "anchors": ["qctrlopencontrols/driven_controls/driven_control.py:DrivenControl.maximum_rabi_rate", "qctrlopencontrols/driven_controls/driven_control.py:DrivenControl.maximum_detuning", "qctrlopencontrols/driven_controls/driven_control.py:DrivenControl.maximum_duration", "qctrlopencontrols/driven_controls/driven_control.py:DrivenControl.minimum_duration"]}
{"id": "C04", "title": "Cartesian amplitudes and rotation angles describe the evolution", "statement": "On each segment amplitude_x^2+amplitude_y^2 is the squared Rabi rate, angles is sqrt(Rabi^2+detuning^2)*duration, and the Schroedinger evolution of the qubit over the segment is a rotation by exactly angles[n] about the vector (amplitude_x, amplitude_y, detuning).", "quantifier": "every constructible control and every segment", "why_tests_cant": "A statement about the solution of a differential equation for all real parameters.", "anchors": ["qctrlopencontrols/driven_controls/driven_control.py:DrivenControl.amplitude_x", "qctrlopencontrols/driven_controls/driven_control.py:DrivenControl.amplitude_y", "qctrlopencontrols/driven_controls/driven_control.py:DrivenControl.angles"]}
{"id": "C05", "title": "Directions are unit vectors", "statement": "Each row of directions is v/||v|| with v=(Rabi cos phi, Rabi sin phi, detuning), hence a unit vector whenever v is not zero.", "quantifier": "every constructible control and every segment", "why_tests_cant": "Fails only for extreme ratios between segments (1e20), which no example based test explores.", "anchors": ["qctrlopencontrols/driven_controls/driven_control.py:DrivenControl.directions"]}
{"id": "C06", "title": "Plotting export describes the control", "statement": "export() returns exactly the documented keys for each coordinate system; every entry has one point per segment with the segment's duration; values are x/y amplitudes or Rabi*exp(i phi), divided by the maximum Rabi rate when dimensionless, and detunings. With dimensionless Rabi rate and a positive maximum every modulus is in [0,1] and 1 is attained.", "quantifier": "every non-empty control, both coordinate systems, both normalisations; unsupported coordinates raise", "why_tests_cant": "Must hold for arbitrary segment data.", "anchors": ["qctrlopencontrols/driven_controls/driven_control.py:DrivenControl.export"]}
{"id": "C07", "title": "JSON export round trip", "statement": "The object written by export_to_file with file type JSON contains exactly the documented fields, sorted by key, and (when the maximum Rabi rate is positive) multiplying the normalised arrays by maximum_rabi_rate gives back the control's Rabi rates/angles or x/y amplitudes, detunings, durations and name.", "quantifier": "every constructible non-empty control with positive maximum Rabi rate, both coordinate systems, named or not", "why_tests_cant": "Round trip over arbitrary data.", "anchors": ["qctrlopencontrols/driven_controls/driven_control.py:DrivenControl.export_to_file", "qctrlopencontrols/driven_controls/driven_control.py:DrivenControl._export_to_qctrl_expanded_format"]}
{"id": "C08", "title": "CSV export succeeds for every control", "statement": "export_to_file with file type CSV (the default) succeeds on every non-empty control and writes one title row and one row per segment whose cells are the normalised amplitudes, detuning, duration and the maximum Rabi rate of that segment.", "quantifier": "every non-empty control, with or without a name", "why_tests_cant": "Tests always pass a name; the unnamed default is not exercised.", "anchors": ["qctrlopencontrols/driven_controls/driven_control.py:DrivenControl.export_to_file", "qctrlopencontrols/driven_controls/driven_control.py:DrivenControl._export_to_qctrl_expanded_format"]}
{"id": "C09", "title": "CSV column layout", "statement": "In the CSV file the first four columns hold the amplitude, detuning and duration data and the fifth column holds the maximum Rabi rate, with the same value in each row.", "quantifier": "every named non-empty control, both coordinate systems", "why_tests_cant": "Layout must hold for every control, not the fixture's.", "anchors": ["qctrlopencontrols/driven_controls/driven_control.py:DrivenControl.export_to_file"]}
{"id": "C10", "title": "File export touches only the target, and nothing on failure", "statement": "export_to_file changes no path other than filename; if it raises, the whole file system is unchanged. This holds for controls and for decoupling sequences.", "quantifier": "every file system state, control or sequence, and argument combination including invalid ones", "why_tests_cant": "Ranges over all prior file system states and all failure points.", "anchors": ["qctrlopencontrols/driven_controls/driven_control.py:DrivenControl.export_to_file", "qctrlopencontrols/dynamic_decoupling_sequences/dynamic_decoupling_sequence.py:DynamicDecouplingSequence.export_to_file"]}
{"id": "C11", "title": "Printed form determines the control", "statement": "str() of a non-empty control lists name, Rabi rates, azimuthal angles, detunings and durations; each printed list multiplied by its printed scale is the control's array.", "quantifier": "every non-empty control", "why_tests_cant": "Fails only when the scale is zero while the data are not, a case no test covers.", "anchors": ["qctrlopencontrols/driven_controls/driven_control.py:DrivenControl.__str__"]}
{"id": "C12", "title": "Primitive control implements the requested rotation", "statement": "new_primitive_control(theta, Omega, phi) returns one segment and its evolution is the rotation by theta about (cos phi, sin phi, 0); duration is theta/Omega.", "quantifier": "all Omega > 0, theta > 0, all phi", "why_tests_cant": "Continuum of angles and rates.", "anchors": ["qctrlopencontrols/driven_controls/predefined.py:new_primitive_control"]}
{"id": "C13", "title": "BB1 implements the requested rotation", "statement": "The noiseless evolution of new_bb1_control(theta, Omega, phi) equals the rotation by theta about (cos phi, sin phi, 0) exactly.", "quantifier": "all Omega > 0, 0 < theta <= 4 pi, all phi", "why_tests_cant": "Trigonometric identity over a continuum.", "anchors": ["qctrlopencontrols/driven_controls/predefined.py:new_bb1_control", "qctrlopencontrols/driven_controls/predefined.py:_get_transformed_rabi_rotation_wimperis"]}
{"id": "C14", "title": "BB1 is robust to amplitude errors", "statement": "If every Rabi rate is scaled by 1+eps, the evolution of new_bb1_control agrees with the noiseless one up to and including second order in eps (first and second derivative of every matrix entry vanish at 0).", "quantifier": "all valid theta, Omega, phi", "why_tests_cant": "A limit statement; no finite set of eps decides it.", "anchors": ["qctrlopencontrols/driven_controls/predefined.py:new_bb1_control"]}
{"id": "C15", "title": "SK1 implements the rotation and is robust to amplitude errors", "statement": "The noiseless evolution of new_sk1_control is exactly the requested rotation and its first derivative with respect to a relative amplitude error vanishes.", "quantifier": "all Omega > 0, 0 < theta <= 4 pi, all phi", "why_tests_cant": "Limit statement over a continuum.", "anchors": ["qctrlopencontrols/driven_controls/predefined.py:new_sk1_control"]}
{"id": "C16", "title": "CORPSE implements the requested rotation", "statement": "The noiseless evolution of new_corpse_control is exactly the requested rotation; with relative amplitude error eps it is exactly the rotation by theta(1+eps).", "quantifier": "all Omega > 0, theta > 0, all phi, all eps", "why_tests_cant": "Continuum.", "anchors": ["qctrlopencontrols/driven_controls/predefined.py:new_corpse_control"]}
{"id": "C17", "title": "CORPSE is robust to dephasing", "statement": "The first derivative of the evolution of new_corpse_control with respect to a constant detuning added to every segment vanishes at zero detuning.", "quantifier": "all Omega > 0, theta > 0, all phi", "why_tests_cant": "Limit statement over a continuum.", "anchors": ["qctrlopencontrols/driven_controls/predefined.py:new_corpse_control"]}
{"id": "C18", "title": "CORPSE in BB1", "statement": "The noiseless evolution of new_corpse_in_bb1_control is exactly the requested rotation; it is robust to amplitude errors to second order and to constant detuning to first order.", "quantifier": "all Omega > 0, 0 < theta <= 4 pi, all phi", "why_tests_cant": "Limit statement over a continuum.", "anchors": ["qctrlopencontrols/driven_controls/predefined.py:new_corpse_in_bb1_control"]}
{"id": "C19", "title": "CORPSE in SK1", "statement": "The noiseless evolution of new_corpse_in_sk1_control is exactly the requested rotation; it is robust to amplitude errors and to constant detuning, each to first order.", "quantifier": "all Omega > 0, 0 < theta <= 4 pi, all phi", "why_tests_cant": "Limit statement over a continuum.", "anchors": ["qctrlopencontrols/driven_controls/predefined.py:new_corpse_in_sk1_control"]}
{"id": "C20", "title": "SCROFULOUS", "statement": "For the supported rotations pi, pi/2, pi/4 the noiseless evolution of new_scrofulous_control is the requested rotation and its first derivative with respect to a relative amplitude error vanishes.", "quantifier": "theta in {pi, pi/2, pi/4}, all Omega > 0, all phi", "why_tests_cant": "Exactness and vanishing derivative are not decidable from floating point samples; tabulated angles are rounded.", "anchors": ["qctrlopencontrols/driven_controls/predefined.py:new_scrofulous_control"]}
{"id": "C21", "title": "CORPSE in SCROFULOUS", "statement": "For theta = pi the noiseless evolution of new_corpse_in_scrofulous_control is the requested rotation, first-order robust to relative amplitude errors and to constant detuning; for every supported theta it has the same noiseless evolution and the same evolution under amplitude error as SCROFULOUS.", "quantifier": "theta in {pi, pi/2, pi/4}, all Omega > 0, all phi, all eps", "why_tests_cant": "Continuum and limits.", "anchors": ["qctrlopencontrols/driven_controls/predefined.py:new_corpse_in_scrofulous_control"]}
{"id": "C22", "title": "WAMF1", "statement": "For the supported rotations the noiseless evolution of new_wamf1_control is the requested rotation up to a global sign (rotation by theta + 2 pi), and first-order robust to constant detuning.", "quantifier": "theta in {pi, pi/2, pi/4}, all Omega > 0, all phi", "why_tests_cant": "Limit statement; tabulated constants are numerical optima.", "anchors": ["qctrlopencontrols/driven_controls/predefined.py:new_wamf1_control"]}
{"id": "C23", "title": "Predefined controls: exact acceptance domain", "statement": "Each predefined driven control is returned exactly when the maximum Rabi rate and the rotation are positive (and the rotation is at most 4 pi for BB1/SK1 based schemes, or within tolerance of pi, pi/2, pi/4 for SCROFULOUS/WAMF1 based ones); every other input raises ArgumentsValueError.", "quantifier": "all real theta, Omega, phi, every scheme", "why_tests_cant": "Total characterisation of an infinite input space.", "anchors": ["qctrlopencontrols/driven_controls/predefined.py:_validate_rabi_parameters", "qctrlopencontrols/driven_controls/predefined.py"]}
{"id": "C24", "title": "Predefined controls never exceed the maximum Rabi rate", "statement": "Every returned predefined control has maximum_rabi_rate equal to the requested one, all its Rabi rates in (0, Omega], zero detunings, and total duration equal to the sum of its rotation angles divided by Omega (as documented per scheme).", "quantifier": "all valid inputs of all nine schemes", "why_tests_cant": "Continuum of inputs.", "anchors": ["qctrlopencontrols/driven_controls/predefined.py"]}
{"id": "C25", "title": "Azimuthal covariance", "statement": "Changing the azimuthal angle argument of any predefined control from phi to phi + alpha adds alpha to every segment's azimuthal angle, changes nothing else, and conjugates the evolution (with or without amplitude error and detuning noise) by the rotation by alpha about Z.", "quantifier": "all valid inputs, all alpha, all eps, delta", "why_tests_cant": "Relates infinitely many pairs of calls.", "anchors": ["qctrlopencontrols/driven_controls/predefined.py"]}
{"id": "C26", "title": "Rate/time scaling", "statement": "Multiplying the maximum Rabi rate of any predefined control by c > 0 divides every duration by c, multiplies every Rabi rate by c, leaves angles unchanged, and leaves the noiseless evolution unchanged.", "quantifier": "all valid inputs, all c > 0", "why_tests_cant": "Relates infinitely many pairs of calls.", "anchors": ["qctrlopencontrols/driven_controls/predefined.py"]}
{"id": "C27", "title": "Modulated Gaussian: segmentation", "statement": "A returned modulated Gaussian control has ceil(duration/minimum_segment_duration) segments of equal duration that add up to exactly the requested duration, zero detuning and azimuthal angles 0 or pi; invalid arguments raise ArgumentsValueError.", "quantifier": "all real arguments", "why_tests_cant": "All ratios of durations.", "anchors": ["qctrlopencontrols/driven_controls/predefined.py:new_modulated_gaussian_control"]}
{"id": "C28", "title": "Modulated Gaussian: Rabi rate bound", "statement": "With a non-zero modulation frequency no Rabi rate exceeds the maximum and the maximum is attained. With zero frequency no Rabi rate exceeds the maximum whenever the discretised pulse admits a full rotation, and the total rotation is a positive multiple of 2 pi.", "quantifier": "all accepted arguments", "why_tests_cant": "Maximum over data-dependent segment counts.", "anchors": ["qctrlopencontrols/driven_controls/predefined.py:new_modulated_gaussian_control"]}
{"id": "C29", "title": "Modulated Gaussian: identity gate", "statement": "The noiseless evolution of every returned modulated Gaussian control is the identity (up to a global sign for zero modulation frequency).", "quantifier": "all accepted arguments, any number of segments", "why_tests_cant": "Antisymmetry argument over unbounded segment counts.", "anchors": ["qctrlopencontrols/driven_controls/predefined.py:new_modulated_gaussian_control"]}
{"id": "C30", "title": "Modulated Gaussian: minimum segment duration", "statement": "Every segment of a returned modulated Gaussian control is at least minimum_segment_duration long.", "quantifier": "all accepted arguments", "why_tests_cant": "Fails only for non-integer ratios, not covered by the test values.", "anchors": ["qctrlopencontrols/driven_controls/predefined.py:new_modulated_gaussian_control"]}
{"id": "C31", "title": "DynamicDecouplingSequence accepts exactly the valid inputs", "statement": "Construction succeeds if and only if duration > 0, every offset lies in [0, duration] and the three rotation arrays have as many entries as offsets; the attributes are then the inputs; otherwise ArgumentsValueError.", "quantifier": "all finite arrays of any length", "why_tests_cant": "Unbounded arrays.", "anchors": ["qctrlopencontrols/dynamic_decoupling_sequences/dynamic_decoupling_sequence.py:DynamicDecouplingSequence.__init__"]}
{"id": "C32", "title": "Sequence plotting export", "statement": "export() of a sequence lists for every offset, in order, the complex Rabi rotation rabi*exp(i phi) and the detuning rotation; the sequence can be recovered up to azimuthal angle modulo 2 pi for non-negative rotations.", "quantifier": "every sequence", "why_tests_cant": "Arbitrary data.", "anchors": ["qctrlopencontrols/dynamic_decoupling_sequences/dynamic_decoupling_sequence.py:DynamicDecouplingSequence.export"]}
{"id": "C33", "title": "Ramsey and spin echo timing", "statement": "new_ramsey_sequence has no pulses and new_spin_echo_sequence one X pi pulse at duration/2; with pre_post_rotation, X pi/2 pulses at 0 and duration are added. Non-positive duration raises ArgumentsValueError.", "quantifier": "all real durations, all names", "why_tests_cant": "Continuum.", "anchors": ["qctrlopencontrols/dynamic_decoupling_sequences/predefined.py:new_ramsey_sequence", "qctrlopencontrols/dynamic_decoupling_sequences/predefined.py:new_spin_echo_sequence"]}
{"id": "C34", "title": "Carr-Purcell and CPMG timing", "statement": "For any n >= 1 (a float is truncated) the offsets are exactly duration/n*(i-1/2), i=1..n, with X pi (Carr-Purcell) or Y pi (CPMG) pulses.", "quantifier": "all durations > 0, all n >= 1", "why_tests_cant": "Unbounded n.", "anchors": ["qctrlopencontrols/dynamic_decoupling_sequences/predefined.py:new_carr_purcell_sequence", "qctrlopencontrols/dynamic_decoupling_sequences/predefined.py:new_cpmg_sequence", "qctrlopencontrols/dynamic_decoupling_sequences/predefined.py:_carr_purcell_meiboom_gill_offsets"]}
{"id": "C35", "title": "Uhrig timing", "statement": "For any n >= 1 the Uhrig offsets are exactly duration*sin^2(i pi/(2(n+1))), i=1..n, with Y pi pulses.", "quantifier": "all durations > 0, all n >= 1", "why_tests_cant": "Unbounded n.", "anchors": ["qctrlopencontrols/dynamic_decoupling_sequences/predefined.py:new_uhrig_sequence", "qctrlopencontrols/dynamic_decoupling_sequences/predefined.py:_uhrig_single_axis_offsets"]}
{"id": "C36", "title": "Periodic timing", "statement": "For any n >= 1 the periodic offsets are i*duration/(n+1), i=1..n, with X pi pulses.", "quantifier": "all durations > 0, all n >= 1", "why_tests_cant": "Unbounded n.", "anchors": ["qctrlopencontrols/dynamic_decoupling_sequences/predefined.py:new_periodic_sequence"]}
{"id": "C37", "title": "Walsh sequence switches exactly where the Walsh function does", "statement": "The offsets of new_walsh_sequence(duration, k) are exactly the times t in (0, duration) at which the Walsh function PAL_k(t/duration), the product of Rademacher functions selected by the bits of k, changes sign, in increasing order; all pulses are X pi.", "quantifier": "all durations > 0, all orders k accepted", "why_tests_cant": "Two thousand orders times a continuum of durations; sign of sine at every dyadic midpoint.", "anchors": ["qctrlopencontrols/dynamic_decoupling_sequences/predefined.py:new_walsh_sequence"]}
{"id": "C38", "title": "Quadratic sequence is nested Uhrig", "statement": "For any n1, n2 >= 1 the quadratic sequence has n1+n2(n1+1) pulses: X pi at the Uhrig times of order n2 and, in each of the n2+1 intervals, Z pi at the Uhrig times of order n1 of that interval, in increasing time order.", "quantifier": "all durations > 0, all n1, n2 >= 1", "why_tests_cant": "Two unbounded parameters.", "anchors": ["qctrlopencontrols/dynamic_decoupling_sequences/predefined.py:new_quadratic_sequence"]}
{"id": "C39", "title": "X concatenated sequence follows its recursion", "statement": "The X concatenated sequence of order l has the pulses of the documented recursion C_l = C_{l-1} X C_{l-1} X with coinciding pulses cancelled, except that for odd l the closing X at the end of the sequence is omitted.", "quantifier": "all durations > 0, all l >= 1", "why_tests_cant": "Exponential recursion of unbounded depth.", "anchors": ["qctrlopencontrols/dynamic_decoupling_sequences/predefined.py:new_x_concatenated_sequence", "qctrlopencontrols/dynamic_decoupling_sequences/predefined.py:_concatenation_x"]}
{"id": "C40", "title": "XY concatenated sequence follows its recursion", "statement": "The XY concatenated sequence of order l has exactly the pulses of the documented recursion C_l = C X C Y C X C Y (C = C_{l-1} on a quarter of the time), with coinciding pulses merged into one Pauli pulse.", "quantifier": "all durations > 0, all l >= 1", "why_tests_cant": "Exponential recursion of unbounded depth; tests stop at order 2.", "anchors": ["qctrlopencontrols/dynamic_decoupling_sequences/predefined.py:new_xy_concatenated_sequence", "qctrlopencontrols/dynamic_decoupling_sequences/predefined.py:_concatenation_xy"]}
{"id": "C41", "title": "Pre/post rotations leave an identity or a Z gate", "statement": "With pre_post_rotation=True the product of all pulses of any predefined sequence is, up to a global phase, the identity or Z, and the first/last pulses are X pi/2 rotations at times 0 and duration with azimuthal angle 0 and 0 or pi.", "quantifier": "every predefined sequence and every list of X/Y/Z pi pulses of any length", "why_tests_cant": "Parity argument over unbounded pulse lists.", "anchors": ["qctrlopencontrols/dynamic_decoupling_sequences/predefined.py:_add_pre_post_rotations"]}
{"id": "C42", "title": "Decoupling sequences refocus static dephasing", "statement": "Under a constant detuning of any strength, the evolution of the spin echo, Carr-Purcell, CPMG, Uhrig, Walsh, X concatenated (and periodic for odd n) sequences with ideal pulses is independent of the detuning; Ramsey and even periodic sequences are not.", "quantifier": "all detunings, all durations, all orders", "why_tests_cant": "Holds for every noise strength and order.", "anchors": ["qctrlopencontrols/dynamic_decoupling_sequences/predefined.py"]}
{"id": "C43", "title": "Uhrig sequence cancels n orders of time dependence", "statement": "For the Uhrig sequence of n pulses the sign-switched integral of any polynomial detuning of degree < n over [0, duration] vanishes.", "quantifier": "all n >= 1, all durations, all polynomials of degree < n", "why_tests_cant": "Infinite family of integrals.", "anchors": ["qctrlopencontrols/dynamic_decoupling_sequences/predefined.py:new_uhrig_sequence"]}
{"id": "C44", "title": "Predefined sequences are valid for every input", "statement": "For every duration > 0 and every order/count >= 1 the builders return a sequence (never raise); without pre/post rotations its offsets are strictly increasing and strictly inside (0, duration) (except XY concatenation).", "quantifier": "all valid inputs of all builders", "why_tests_cant": "Unbounded orders.", "anchors": ["qctrlopencontrols/dynamic_decoupling_sequences/predefined.py"]}
{"id": "C45", "title": "Duration scaling of sequences", "statement": "Building a predefined sequence with duration c*tau gives the offsets of duration tau multiplied by c, and the same rotations.", "quantifier": "all builders, all c > 0, all valid inputs", "why_tests_cant": "Relates infinitely many pairs of calls.", "anchors": ["qctrlopencontrols/dynamic_decoupling_sequences/predefined.py"]}
{"id": "C46", "title": "Conversion preserves the total duration", "statement": "If convert_dds_to_driven_control returns, the control's total duration equals the sequence duration.", "quantifier": "every sequence, every maximum rates and minimum segment duration", "why_tests_cant": "Telescoping sum over arbitrary pulse lists; tolerance comparisons make it fail only in corner cases.", "anchors": ["qctrlopencontrols/dynamic_decoupling_sequences/dynamic_decoupling_sequence.py:convert_dds_to_driven_control"]}
{"id": "C47", "title": "Conversion respects the maximum rates", "statement": "In a converted control no Rabi rate exceeds maximum_rabi_rate and no absolute detuning exceeds maximum_detuning_rate, and no segment has both.", "quantifier": "every sequence, every rates", "why_tests_cant": "Arbitrary pulse lists.", "anchors": ["qctrlopencontrols/dynamic_decoupling_sequences/dynamic_decoupling_sequence.py:convert_dds_to_driven_control"]}
{"id": "C48", "title": "Conversion preserves rotations", "statement": "The segments of a converted control with non-zero rate are, in order, one per non-negligible pulse of the sequence, each with rotation angle and azimuthal angle (or signed detuning rotation) equal to the pulse's; all other segments are free evolution.", "quantifier": "every sequence longer than 1e-8 accepted by the conversion (shorter ones: C54)", "why_tests_cant": "Arbitrary pulse lists.", "anchors": ["qctrlopencontrols/dynamic_decoupling_sequences/dynamic_decoupling_sequence.py:convert_dds_to_driven_control"]}
{"id": "C49", "title": "Conversion centres pulses on their offsets", "statement": "Each pulse segment of a converted control is centred at the pulse's offset, except that pulses at the ends are moved to start at 0 or end at the sequence duration.", "quantifier": "every sequence longer than 1e-8 accepted by the conversion (shorter ones: C54)", "why_tests_cant": "Arbitrary pulse lists.", "anchors": ["qctrlopencontrols/dynamic_decoupling_sequences/dynamic_decoupling_sequence.py:convert_dds_to_driven_control"]}
{"id": "C50", "title": "Conversion respects the minimum segment duration", "statement": "Every segment of a converted control lasts at least minimum_segment_duration (up to the documented numerical tolerance).", "quantifier": "every sequence accepted by the conversion and every minimum segment duration", "why_tests_cant": "Arbitrary pulse lists.", "anchors": ["qctrlopencontrols/dynamic_decoupling_sequences/dynamic_decoupling_sequence.py:convert_dds_to_driven_control"]}
{"id": "C51", "title": "Conversion rejects exactly the impossible requests", "statement": "convert_dds_to_driven_control raises (always ArgumentsValueError) if and only if a rate is not positive, the minimum duration is negative, a Rabi rotation is negative, a pulse has a positive Rabi and a positive detuning rotation, offsets are not strictly increasing, or two pulse windows are closer than the minimum segment duration (up to tolerance).", "quantifier": "every sequence and every rates", "why_tests_cant": "Total characterisation of an infinite input space.", "anchors": ["qctrlopencontrols/dynamic_decoupling_sequences/dynamic_decoupling_sequence.py:convert_dds_to_driven_control", "qctrlopencontrols/dynamic_decoupling_sequences/dynamic_decoupling_sequence.py:_check_valid_operation"]}
{"id": "C52", "title": "Conversion preserves the net operation", "statement": "In the absence of noise the evolution of the converted control equals the ordered product of the sequence's ideal pulses.", "quantifier": "every accepted sequence longer than 1e-8 whose pulses are non-negligible or null", "why_tests_cant": "Product over arbitrary pulse lists.", "anchors": ["qctrlopencontrols/dynamic_decoupling_sequences/dynamic_decoupling_sequence.py:convert_dds_to_driven_control"]}
{"id": "C53", "title": "Simultaneous Rabi and detuning rotations are rejected", "statement": "A sequence with a pulse that has both a non-zero Rabi rotation and a non-zero detuning rotation is rejected by the conversion.", "quantifier": "every sequence", "why_tests_cant": "Sign of the detuning matters; tests use positive ones only.", "anchors": ["qctrlopencontrols/dynamic_decoupling_sequences/dynamic_decoupling_sequence.py:_check_valid_operation", "qctrlopencontrols/dynamic_decoupling_sequences/dynamic_decoupling_sequence.py:convert_dds_to_driven_control"]}
{"id": "C54", "title": "Conversion keeps the pulses of short sequences", "statement": "The conversion never drops a pulse because of the absolute time scale: a sequence with a non-negligible pulse is converted to a control with a pulse.", "quantifier": "every sequence of every positive duration", "why_tests_cant": "Only fails at time scales below 1e-8, which tests in natural units miss.", "anchors": ["qctrlopencontrols/dynamic_decoupling_sequences/dynamic_decoupling_sequence.py:convert_dds_to_driven_control"]}
{"id": "C55", "title": "Sequence file export is the export of its conversion", "statement": "export_to_file of a sequence writes exactly the file that export_to_file of its converted control (same rates, same name, no minimum segment duration) writes, and raises exactly when the conversion or that export raises.", "quantifier": "every sequence, rates, format arguments and file system state", "why_tests_cant": "All inputs and failure points.", "anchors": ["qctrlopencontrols/dynamic_decoupling_sequences/dynamic_decoupling_sequence.py:DynamicDecouplingSequence.export_to_file"]}
{"id": "C56", "title": "Argument errors carry the full diagnosis", "statement": "check_arguments raises exactly when its condition is false; the exception message consists of the description followed by one line name=value per argument and per extra, in order.", "quantifier": "all conditions, descriptions, argument and extra dictionaries", "why_tests_cant": "Arbitrary dictionaries.", "anchors": ["qctrlopencontrols/utils.py:check_arguments", "qctrlopencontrols/exceptions.py:ArgumentsValueError.__init__"]}
{"id": "C57", "title": "repr lists every attribute in order", "statement": "repr() of a control or sequence is ClassName(attr=value,...) with exactly the constructor's argument names, it is the call that recreates the object, and two objects with the same repr are equal (arrays of at most 1000 elements, which numpy does not abbreviate); create_repr_from_attributes rejects a missing instance, a missing list, a non-string or absent attribute and handles an empty list.", "quantifier": "every object and attribute list", "why_tests_cant": "Arbitrary attribute lists.", "anchors": ["qctrlopencontrols/utils.py:create_repr_from_attributes", "qctrlopencontrols/driven_controls/driven_control.py:DrivenControl.__repr__", "qctrlopencontrols/dynamic_decoupling_sequences/dynamic_decoupling_sequence.py:DynamicDecouplingSequence.__repr__"]}
{"id": "C58", "title": "Pauli constants and the documented Hamiltonian", "statement": "SIGMA_X, SIGMA_Y, SIGMA_Z satisfy the Pauli algebra, SIGMA_M and SIGMA_P are (SIGMA_X +- i SIGMA_Y)/2, and the documented Hamiltonian of a driven control with complex amplitude Rabi*exp(i phi) is (amplitude_x SIGMA_X + amplitude_y SIGMA_Y + detuning SIGMA_Z)/2.", "quantifier": "all Rabi rates, phases and detunings", "why_tests_cant": "Matrix identity over all parameters; sign conventions are never tested.", "anchors": ["qctrlopencontrols/constants.py:SIGMA_X", "qctrlopencontrols/driven_controls/driven_control.py:DrivenControl"]}
{"id": "C59", "title": "Predefined sequences convert for fast enough pulses", "statement": "For every predefined sequence without simultaneous pulses there is an explicit maximum Rabi rate and detuning rate above which convert_dds_to_driven_control succeeds, and the control lasts exactly the sequence duration. With a minimum segment duration the same holds when two pulses plus the minimum fit between neighbouring offsets.", "quantifier": "all builders (XY concatenation: order 2, and order 1 without pre/post rotations), all durations, all orders", "why_tests_cant": "Unbounded orders.", "anchors": ["qctrlopencontrols/dynamic_decoupling_sequences/predefined.py", "qctrlopencontrols/dynamic_decoupling_sequences/dynamic_decoupling_sequence.py:convert_dds_to_driven_control"]}
{"id": "C60", "title": "Walsh sequence filters polynomials up to the number of ones", "statement": "If the binary expansion of k has r ones, the sign-switched integral of any polynomial detuning of degree < r under the Walsh sequence of Paley order k vanishes.", "quantifier": "all accepted k, all durations, all polynomials", "why_tests_cant": "Infinite family of integrals.", "anchors": ["qctrlopencontrols/dynamic_decoupling_sequences/predefined.py:new_walsh_sequence"]}
{"id": "C61", "title": "X concatenated sequence of order l cancels l orders", "statement": "The sign-switched integral of any polynomial detuning of degree < l under the X concatenated sequence of order l vanishes, and the sequence equals the Walsh sequence of Paley order 2^l - 1 when that order is supported.", "quantifier": "all l >= 1, all durations, all polynomials", "why_tests_cant": "Infinite family of integrals.", "anchors": ["qctrlopencontrols/dynamic_decoupling_sequences/predefined.py:new_x_concatenated_sequence", "qctrlopencontrols/dynamic_decoupling_sequences/predefined.py:new_walsh_sequence"]}
{"id": "C62", "title": "Converted predefined sequences implement the ideal operation", "statement": "Whenever a predefined sequence (duration above 1e-8) is converted to a driven control, noiseless evolution under the control's segments is exactly the product of the sequence's ideal pulses; with pre/post rotations it is the identity or a Z rotation by pi up to phase.", "quantifier": "all builders, durations, orders, maximum rates and minimum durations for which conversion succeeds", "why_tests_cant": "Unbounded orders and real parameters.", "anchors": ["qctrlopencontrols/dynamic_decoupling_sequences/predefined.py", "qctrlopencontrols/dynamic_decoupling_sequences/dynamic_decoupling_sequence.py:convert_dds_to_driven_control"]}
{"id": "C63", "title": "XY concatenated sequences that can never be converted", "statement": "XY concatenated sequences of order three or more, and of order one with pre/post rotations, contain simultaneous pulses: converting them raises ArgumentsValueError whatever the maximum rates and minimum duration.", "quantifier": "all durations, all such orders, all conversion parameters", "why_tests_cant": "Unbounded orders and conversion parameters.", "anchors": ["qctrlopencontrols/dynamic_decoupling_sequences/predefined.py:new_xy_concatenated_sequence", "qctrlopencontrols/dynamic_decoupling_sequences/dynamic_decoupling_sequence.py:convert_dds_to_driven_control"]}
{"id": "C64", "title": "Printed form of a sequence determines the sequence", "statement": "str() of a sequence is its name line (if named), the duration, and the offsets, Rabi rotations, azimuthal angles and detuning rotations, each list divided by its printed scale; two sequences with the same printed form are equal.", "quantifier": "all constructible sequences with one-line names, and every number printer that distinguishes the printed numbers and uses no comma, bracket or newline", "why_tests_cant": "Unbounded arrays of arbitrary numbers; tests print two literal sequences.", "anchors": ["qctrlopencontrols/dynamic_decoupling_sequences/dynamic_decoupling_sequence.py:DynamicDecouplingSequence.__str__"]}
{"id": "C65", "title": "Predefined sequences survive floating point rounding", "statement": "Built in IEEE binary64 arithmetic, every predefined sequence is accepted exactly when its arguments are valid, has the same pulses in the same order as the exact sequence, at times that differ by at most a stated tiny fraction of the duration (2^-50 for Carr-Purcell, CPMG and periodic, 2^-47 Uhrig, 2^-53 Walsh, 2^-45 quadratic, 2^(l-53) and 2^(2l-53) for the concatenated sequences of order l, 0 for Ramsey and spin echo); all times are binary64 numbers in [0, duration], sorted, and strictly increasing except for XY concatenation.", "quantifier": "all schemes and sizes up to stated limits (2^40 offsets; 2^20 for Uhrig and quadratic; all Walsh orders; concatenation orders below 26 and 13), all binary64 durations between 2^-900 and 2^900, every sine and square accurate to a few units in the last place", "why_tests_cant": "Rounding depends on every bit of the duration and of the count; tests compare a few literals with a tolerance and cannot exclude an extra, missing or swapped pulse.", "anchors": ["qctrlopencontrols/dynamic_decoupling_sequences/predefined.py:new_ramsey_sequence", "qctrlopencontrols/dynamic_decoupling_sequences/predefined.py:new_spin_echo_sequence", "qctrlopencontrols/dynamic_decoupling_sequences/predefined.py:new_carr_purcell_sequence", "qctrlopencontrols/dynamic_decoupling_sequences/predefined.py:new_cpmg_sequence", "qctrlopencontrols/dynamic_decoupling_sequences/predefined.py:new_uhrig_sequence", "qctrlopencontrols/dynamic_decoupling_sequences/predefined.py:new_periodic_sequence", "qctrlopencontrols/dynamic_decoupling_sequences/predefined.py:new_walsh_sequence", "qctrlopencontrols/dynamic_decoupling_sequences/predefined.py:new_quadratic_sequence", "qctrlopencontrols/dynamic_decoupling_sequences/predefined.py:new_x_concatenated_sequence", "qctrlopencontrols/dynamic_decoupling_sequences/predefined.py:new_xy_concatenated_sequence"]}
{"id": "C66", "title": "Rounding barely changes the evolution", "statement": "Under a detuning bounded by M, the qubit evolution of the sequence computed in binary64 differs from that of the exact sequence by at most (number of pulses) * M * (time error of C65) in every matrix component.", "quantifier": "all requests and durations of C65, with or without pre/post rotations, every detuning with accumulated phase Lipschitz with constant M", "why_tests_cant": "Quantifies over all noise functions and all binary64 durations.", "anchors": ["qctrlopencontrols/dynamic_decoupling_sequences/predefined.py:new_ramsey_sequence", "qctrlopencontrols/dynamic_decoupling_sequences/predefined.py:new_spin_echo_sequence", "qctrlopencontrols/dynamic_decoupling_sequences/predefined.py:new_carr_purcell_sequence", "qctrlopencontrols/dynamic_decoupling_sequences/predefined.py:new_cpmg_sequence", "qctrlopencontrols/dynamic_decoupling_sequences/predefined.py:new_uhrig_sequence", "qctrlopencontrols/dynamic_decoupling_sequences/predefined.py:new_periodic_sequence", "qctrlopencontrols/dynamic_decoupling_sequences/predefined.py:new_walsh_sequence", "qctrlopencontrols/dynamic_decoupling_sequences/predefined.py:new_quadratic_sequence", "qctrlopencontrols/dynamic_decoupling_sequences/predefined.py:new_x_concatenated_sequence", "qctrlopencontrols/dynamic_decoupling_sequences/predefined.py:new_xy_concatenated_sequence"]}
{"id": "C67", "title": "Finite pulses under noise", "statement": "Under a constant detuning delta and a relative Rabi rate error eps, the evolution of the converted control differs from the evolution of the ideal sequence under delta by at most |delta| * (total pulse width + excess duration / 2) + |eps| * (total Rabi rotation) / 2 in every matrix component; so if the sequence cancels a constant detuning, the control performs the product of the pulses up to that error, however long the sequence is.", "quantifier": "all constructible sequences longer than 1e-8 whose pulses are clean (about one axis, above the tolerance), all rates and minimum durations the conversion accepts, all delta and eps", "why_tests_cant": "Quantifies over all sequences, rates and noise strengths; tests only inspect segment values of literal conversions.", "anchors": ["qctrlopencontrols/dynamic_decoupling_sequences/dynamic_decoupling_sequence.py:convert_dds_to_driven_control"]}
{"id": "C68", "title": "Constructors on NaN and infinities", "statement": "DrivenControl accepts its arguments exactly when all durations are positive, all Rabi rates nonnegative and the lengths match, where NaN is neither positive nor nonnegative and +inf is both; DynamicDecouplingSequence exactly when the duration is positive, all offsets lie in [0, duration] and the lengths match. Everything else is rejected with ArgumentsValueError. On finite values they are the constructors of the finite model.", "quantifier": "all lists of finite, infinite or NaN numbers, all optional arguments, all names", "why_tests_cant": "The tests never pass NaN or infinities, and a check written as `any(x <= 0)` instead of `all(x > 0)` would pass them all.", "anchors": ["qctrlopencontrols/driven_controls/driven_control.py:DrivenControl", "qctrlopencontrols/dynamic_decoupling_sequences/dynamic_decoupling_sequence.py:DynamicDecouplingSequence"]}
{"id": "C69", "title": "Conversion introduces no special values", "statement": "For any constructible sequence and any limits, possibly NaN or infinite, the conversion either raises ArgumentsValueError or returns a valid control with finite Rabi rates and detunings, positive durations (finite if the sequence duration is finite) and azimuthal angles that are 0 or taken from the sequence. A sequence of infinite duration without pulses becomes one idle segment of infinite duration, whatever the limits. On finite values it is the conversion of the finite model.", "quantifier": "all sequences and all limits over finite, infinite and NaN numbers", "why_tests_cant": "Infinite and NaN values propagate through several subtractions and comparisons; tests use finite literals only.", "anchors": ["qctrlopencontrols/dynamic_decoupling_sequences/dynamic_decoupling_sequence.py:convert_dds_to_driven_control"]}
{"id": "C70", "title": "Infinite maximum rates", "statement": "With infinite maximum Rabi and detuning rates the converted control still performs the pulses of the sequence.", "quantifier": "all finite sequences, all minimum segment durations", "why_tests_cant": "The tests never use an infinite rate; that the pulses vanish silently only for a zero minimum duration needs the case split.", "anchors": ["qctrlopencontrols/dynamic_decoupling_sequences/dynamic_decoupling_sequence.py:convert_dds_to_driven_control"]}
{"id": "C71", "title": "JSON files as text", "statement": "The characters written by a JSON export are plain ASCII and, read by an independent JSON reader (RFC 8259), give back the amplitudes, angles, detunings, durations and name of the control, whatever characters the name contains, provided each number in the file is read back as it was printed.", "quantifier": "all constructible controls with positive maximum Rabi rate, both coordinate systems, all names (code points below 256), all ways of printing and reading numbers; the encoder itself for all JSON values", "why_tests_cant": "Tests parse a few files with the same library that wrote them and never use names with quotes, backslashes or non-ASCII characters.", "anchors": ["qctrlopencontrols/driven_controls/driven_control.py:_export_to_qctrl_expanded_format", "qctrlopencontrols/driven_controls/driven_control.py:export_to_file"]}
{"id": "C72", "title": "CSV files as text", "statement": "The characters written by a CSV export of a named control, read by an independent CSV reader (RFC 4180), form a table with a title row and one row per segment, with the printed normalised amplitudes, detuning, duration and maximum Rabi rate under their titles.", "quantifier": "all named constructible controls with segments, both coordinate systems, all ways of printing numbers; the encoder itself for all nonempty rows of arbitrary strings", "why_tests_cant": "Quantifies over all controls and all fields, including those that need quoting.", "anchors": ["qctrlopencontrols/driven_controls/driven_control.py:_export_to_qctrl_expanded_format", "qctrlopencontrols/driven_controls/driven_control.py:export_to_file"]}
{"id": "C73", "title": "Conversion in floating point", "statement": "In binary64 arithmetic the conversion accepts every convertible sequence whose pulses and idle times are at least 2^-40 of its duration, and yields the segments of the exact conversion: same number, same azimuthal angles, durations within T/2^48, rates within T/(segment duration)/2^48 relative error, rotation angles within 2^-53 relative error. With any amplitude error and detuning the evolutions of the two controls differ by at most the sum of these errors.", "quantifier": "all constructible sequences with 2e-8 <= T <= 2^20 whose rotations are 0 or at least 2e-8, all rates and minimum durations, all eps and delta", "why_tests_cant": "Quantifies over all binary64 rounding errors of all sequences; tests compare literals with a tolerance.", "anchors": ["qctrlopencontrols/dynamic_decoupling_sequences/dynamic_decoupling_sequence.py:convert_dds_to_driven_control"]}
{"id": "C74", "title": "Maximum rates in floating point", "statement": "In binary64 arithmetic no rate of a converted sequence exceeds the maximum rate.", "quantifier": "all sequences and rates accepted by the conversion", "why_tests_cant": "The excess depends on the relation of pulse width and float spacing at the pulse time.", "anchors": ["qctrlopencontrols/dynamic_decoupling_sequences/dynamic_decoupling_sequence.py:convert_dds_to_driven_control"]}
{"id": "C75", "title": "No pulse is lost in floating point", "statement": "In binary64 arithmetic every pulse of a sequence is performed by exactly one segment of the converted control, in order, up to a relative angle error of 2^-53.", "quantifier": "all sequences and rates accepted by the conversion", "why_tests_cant": "Tests use pulse widths far above the resolution of floats.", "anchors": ["qctrlopencontrols/dynamic_decoupling_sequences/dynamic_decoupling_sequence.py:convert_dds_to_driven_control"]}
{"id": "C76", "title": "From the request to the control in floating point", "statement": "A predefined sequence that is built, stored with np.pi and converted in binary64 arithmetic performs, under a constant detuning delta and a relative amplitude error eps, the evolution of the exact ideal sequence up to |delta| * (N * longest pulse + N * time error + (N + 2) T / 2^48) + |eps| N pi / 2 + (1 + |eps|) N pi / 2^54 + 4e-16 N in every matrix component, N being the number of pulses; if the exact sequence cancels a constant detuning, it performs the product of the pulses up to that error.", "quantifier": "all builders, all moderate orders, XY concatenation only of order 2 (order 1 ends with a pulse at the end, orders from 3 on cannot be converted, C63), all binary64 durations between 2e-8 and 2^20, with or without pre/post rotations, all rates that resolve and separate the pulses, all eps and delta, every accurate sine and square", "why_tests_cant": "Chains three programs with rounding at every operation and continuous noise parameters.", "anchors": ["qctrlopencontrols/dynamic_decoupling_sequences/predefined.py:new_ramsey_sequence", "qctrlopencontrols/dynamic_decoupling_sequences/predefined.py:new_spin_echo_sequence", "qctrlopencontrols/dynamic_decoupling_sequences/predefined.py:new_carr_purcell_sequence", "qctrlopencontrols/dynamic_decoupling_sequences/predefined.py:new_cpmg_sequence", "qctrlopencontrols/dynamic_decoupling_sequences/predefined.py:new_uhrig_sequence", "qctrlopencontrols/dynamic_decoupling_sequences/predefined.py:new_periodic_sequence", "qctrlopencontrols/dynamic_decoupling_sequences/predefined.py:new_walsh_sequence", "qctrlopencontrols/dynamic_decoupling_sequences/predefined.py:new_quadratic_sequence", "qctrlopencontrols/dynamic_decoupling_sequences/predefined.py:new_x_concatenated_sequence", "qctrlopencontrols/dynamic_decoupling_sequences/dynamic_decoupling_sequence.py:convert_dds_to_driven_control", "qctrlopencontrols/dynamic_decoupling_sequences/predefined.py:new_xy_concatenated_sequence"]}
{"id": "C77", "title": "Pulse sequences under noise obey the Schroedinger equation", "statement": "Between the pulses of a sequence a qubit with detuning beta(t) follows U' = -i beta(t) sz/2 U, and every pulse acts instantaneously; the resulting evolution exists, is unique, and is the product of pulses and z rotations by the integral of beta over each gap.", "quantifier": "all continuous detunings, all sequences of pulses, all durations", "why_tests_cant": "Quantifies over all functions of time and asserts uniqueness of the solution of a differential equation.", "anchors": ["qctrlopencontrols/dynamic_decoupling_sequences/dynamic_decoupling_sequence.py:DynamicDecouplingSequence"]}
{"id": "C78", "title": "Smooth dephasing noise is suppressed to the order of the sequence", "statement": "If the n-th derivative of the detuning is bounded by M, the evolution differs from the noiseless one by at most M T^(n+1) / (2 (n+1)!) in every matrix component, where n is 0 for Ramsey, 1 for spin echo, 2 for Carr-Purcell and CPMG with an even number of pulses and 1 otherwise, 0 or 1 for periodic sequences with an even or odd number, the number of offsets for Uhrig, the number of ones in the order for Walsh, the outer number of offsets for quadratic, the order for X concatenation, and the order (1 or 2) for XY concatenation.", "quantifier": "all builders, all valid parameters, all durations, with or without pre/post rotations, all n times differentiable detunings (XY concatenation: orders 1 and 2)", "why_tests_cant": "Quantifies over all smooth noise functions and all sequence lengths.", "anchors": ["qctrlopencontrols/dynamic_decoupling_sequences/predefined.py:new_ramsey_sequence", "qctrlopencontrols/dynamic_decoupling_sequences/predefined.py:new_spin_echo_sequence", "qctrlopencontrols/dynamic_decoupling_sequences/predefined.py:new_carr_purcell_sequence", "qctrlopencontrols/dynamic_decoupling_sequences/predefined.py:new_cpmg_sequence", "qctrlopencontrols/dynamic_decoupling_sequences/predefined.py:new_uhrig_sequence", "qctrlopencontrols/dynamic_decoupling_sequences/predefined.py:new_periodic_sequence", "qctrlopencontrols/dynamic_decoupling_sequences/predefined.py:new_walsh_sequence", "qctrlopencontrols/dynamic_decoupling_sequences/predefined.py:new_quadratic_sequence", "qctrlopencontrols/dynamic_decoupling_sequences/predefined.py:new_x_concatenated_sequence", "qctrlopencontrols/dynamic_decoupling_sequences/predefined.py:new_xy_concatenated_sequence"]}
{"id": "C79", "title": "The suppressed order is exact and Uhrig is optimal", "statement": "For every predefined sequence some polynomial detuning of degree n, the order of C78, changes the evolution even up to a global phase; and no sequence of n pi pulses at increasing times inside the duration that flip the sign of the detuning cancels all polynomials of degree n, so the Uhrig sequence cancels as many orders as n pulses can.", "quantifier": "all builders, all valid parameters, all durations, with or without pre/post rotations; all lists of pulse times (XY concatenation: orders 1 and 2)", "why_tests_cant": "An impossibility statement over all sequences with n pulses.", "anchors": ["qctrlopencontrols/dynamic_decoupling_sequences/predefined.py:new_ramsey_sequence", "qctrlopencontrols/dynamic_decoupling_sequences/predefined.py:new_spin_echo_sequence", "qctrlopencontrols/dynamic_decoupling_sequences/predefined.py:new_carr_purcell_sequence", "qctrlopencontrols/dynamic_decoupling_sequences/predefined.py:new_cpmg_sequence", "qctrlopencontrols/dynamic_decoupling_sequences/predefined.py:new_uhrig_sequence", "qctrlopencontrols/dynamic_decoupling_sequences/predefined.py:new_periodic_sequence", "qctrlopencontrols/dynamic_decoupling_sequences/predefined.py:new_walsh_sequence", "qctrlopencontrols/dynamic_decoupling_sequences/predefined.py:new_quadratic_sequence", "qctrlopencontrols/dynamic_decoupling_sequences/predefined.py:new_x_concatenated_sequence", "qctrlopencontrols/dynamic_decoupling_sequences/predefined.py:new_xy_concatenated_sequence"]}
{"id": "C80", "title": "Composite pulses are accurate in floating point", "statement": "In binary64 arithmetic, with trigonometric functions of absolute error at most 2^-50, every scheme accepts the request and its control agrees with the documented table: each rotation angle within 2^-46 rad, each duration within 2^-46 / Omega, each azimuthal angle within 2^-45 rad (2^-22 rad for BB1 and SK1 with rotations above 2 pi, whose arccosine is ill-conditioned), detunings exactly 0; the evolution under every amplitude and detuning error agrees accordingly, and the schemes of C12-C19 perform the requested rotation within 2^-40 (2^-16 above 2 pi).", "quantifier": "all nine schemes, all floats with rotation in [2^-20, 4 np.pi] (tabulated schemes: within 9e-6 of a tabulated angle), Rabi rate in [2^-900, 2^900], azimuthal angle in [-8, 8]; all amplitude and detuning errors; all accurate trigonometric functions", "why_tests_cant": "Bounds the rounding error of every intermediate operation for all floats and all libraries of trigonometric functions.", "anchors": ["qctrlopencontrols/driven_controls/predefined.py:new_primitive_control", "qctrlopencontrols/driven_controls/predefined.py:new_bb1_control", "qctrlopencontrols/driven_controls/predefined.py:new_sk1_control", "qctrlopencontrols/driven_controls/predefined.py:new_scrofulous_control", "qctrlopencontrols/driven_controls/predefined.py:new_corpse_control", "qctrlopencontrols/driven_controls/predefined.py:new_corpse_in_bb1_control", "qctrlopencontrols/driven_controls/predefined.py:new_corpse_in_sk1_control", "qctrlopencontrols/driven_controls/predefined.py:new_corpse_in_scrofulous_control", "qctrlopencontrols/driven_controls/predefined.py:new_wamf1_control"]}
{"id": "C81", "title": "Rabi rates of composite pulses in floating point", "statement": "In binary64 arithmetic no segment of a composite pulse exceeds the requested maximum Rabi rate.", "quantifier": "as C80", "why_tests_cant": "The excess is one unit in the last place and occurs only for some rates.", "anchors": ["qctrlopencontrols/driven_controls/predefined.py:new_primitive_control", "qctrlopencontrols/driven_controls/predefined.py:new_bb1_control", "qctrlopencontrols/driven_controls/predefined.py:new_sk1_control", "qctrlopencontrols/driven_controls/predefined.py:new_scrofulous_control", "qctrlopencontrols/driven_controls/predefined.py:new_corpse_control", "qctrlopencontrols/driven_controls/predefined.py:new_corpse_in_bb1_control", "qctrlopencontrols/driven_controls/predefined.py:new_corpse_in_sk1_control", "qctrlopencontrols/driven_controls/predefined.py:new_corpse_in_scrofulous_control", "qctrlopencontrols/driven_controls/predefined.py:new_wamf1_control"]}
{"id": "C82", "title": "Printed floats read back", "statement": "The decimal text Python writes for a float - the shortest digits that round to it, laid out as repr does - is read back as exactly that float, also in JSON; different floats have different texts; no decimal number with fewer significant digits rounds to the float, and among those with as many digits that do, the printed one is closest.", "quantifier": "all finite binary64 numbers, and nan and infinities for reading back; negative zero not represented", "why_tests_cant": "2^64 floats, with subnormal numbers and powers of ten as corner cases.", "anchors": ["qctrlopencontrols/driven_controls/driven_control.py:DrivenControl._export_to_qctrl_expanded_format", "qctrlopencontrols/driven_controls/driven_control.py:DrivenControl.export_to_file"]}
{"id": "C83", "title": "Exported files in floating point", "statement": "In binary64 arithmetic, a control of finite floats with a positive maximum rate, exported to JSON or CSV and read back from the text, has exactly the original durations, detunings, azimuthal angles and name; each rate differs by at most one relative rounding 2^-53 (plus underflow), the maximal rate is exact and idle segments stay idle, and the evolution under every amplitude and detuning error agrees up to the integral of the rate over 2^54; in Cartesian coordinates, with accurate sine and cosine, amplitudes differ by at most 2^-49 of the rate.", "quantifier": "all accepted controls of finite floats with a positive rate; Cartesian: angles in [-8, 8], rates at most 2^1000, all accurate sine and cosine functions; CSV: named controls", "why_tests_cant": "Quantifies over all floats and follows the value through division, printing and reading.", "anchors": ["qctrlopencontrols/driven_controls/driven_control.py:DrivenControl._qctrl_expanded_export_content", "qctrlopencontrols/driven_controls/driven_control.py:DrivenControl._export_to_qctrl_expanded_format", "qctrlopencontrols/driven_controls/driven_control.py:DrivenControl.export_to_file", "qctrlopencontrols/driven_controls/driven_control.py:DrivenControl.amplitude_x", "qctrlopencontrols/driven_controls/driven_control.py:DrivenControl.amplitude_y"]}
{"id": "C84", "title": "Sequence requests with NaN and infinities", "statement": "On finite numbers the extended builders agree with the exact ones. A duration that is NaN, -inf or not positive is rejected with the documented error; then a count or order that is NaN or out of range is rejected; a count or order of +inf raises OverflowError. An infinite duration is accepted for spin echo, Carr-Purcell, CPMG, Uhrig, periodic and Walsh sequences, which put every pulse that is not at the start at infinity; Ramsey is accepted only without pre/post rotations; quadratic is rejected; X concatenated loses all its pulses; XY concatenated is rejected, or keeps a Y pulse at infinity and an identity at the start, depending on how np.unique treats NaN.", "quantifier": "all ten schemes, all requests of floats including NaN and infinities, both options, both behaviours of np.unique on NaN", "why_tests_cant": "Special values pass through comparisons, rounding and set operations in combinations nobody enumerates.", "anchors": ["qctrlopencontrols/dynamic_decoupling_sequences/predefined.py:new_ramsey_sequence", "qctrlopencontrols/dynamic_decoupling_sequences/predefined.py:new_spin_echo_sequence", "qctrlopencontrols/dynamic_decoupling_sequences/predefined.py:new_carr_purcell_sequence", "qctrlopencontrols/dynamic_decoupling_sequences/predefined.py:new_cpmg_sequence", "qctrlopencontrols/dynamic_decoupling_sequences/predefined.py:new_uhrig_sequence", "qctrlopencontrols/dynamic_decoupling_sequences/predefined.py:new_periodic_sequence", "qctrlopencontrols/dynamic_decoupling_sequences/predefined.py:new_walsh_sequence", "qctrlopencontrols/dynamic_decoupling_sequences/predefined.py:new_quadratic_sequence", "qctrlopencontrols/dynamic_decoupling_sequences/predefined.py:new_x_concatenated_sequence", "qctrlopencontrols/dynamic_decoupling_sequences/predefined.py:new_xy_concatenated_sequence"]}
{"id": "C85", "title": "Control requests with NaN and infinities", "statement": "On finite numbers the extended builders agree with the exact ones. A composite pulse is built exactly when rotation and rate are finite and accepted by the scheme, or the scheme is primitive and the rotation +inf (one segment of infinite duration); everything else raises ArgumentsValueError, except WAMF1 with infinite rate, which raises ZeroDivisionError. The azimuthal angle is not validated: if it is NaN or infinite, every segment gets it and the rest of the control is unchanged. The modulated Gaussian rejects NaN, raises OverflowError for an infinite duration, and with an infinite rate yields infinite rates when no sample of the modulation vanishes and is rejected otherwise.", "quantifier": "all nine schemes and the modulated Gaussian, all arguments including NaN and infinities", "why_tests_cant": "Special values pass through comparisons, trigonometric functions and divisions in combinations nobody enumerates.", "anchors": ["qctrlopencontrols/driven_controls/predefined.py:new_primitive_control", "qctrlopencontrols/driven_controls/predefined.py:new_bb1_control", "qctrlopencontrols/driven_controls/predefined.py:new_sk1_control", "qctrlopencontrols/driven_controls/predefined.py:new_scrofulous_control", "qctrlopencontrols/driven_controls/predefined.py:new_corpse_control", "qctrlopencontrols/driven_controls/predefined.py:new_corpse_in_bb1_control", "qctrlopencontrols/driven_controls/predefined.py:new_corpse_in_sk1_control", "qctrlopencontrols/driven_controls/predefined.py:new_corpse_in_scrofulous_control", "qctrlopencontrols/driven_controls/predefined.py:new_wamf1_control", "qctrlopencontrols/driven_controls/predefined.py:new_modulated_gaussian_control"]}
{"id": "C86", "title": "Objects keep the values they were given", "statement": "A control or sequence, once constructed, keeps its values whatever the caller later assigns to the arrays that were passed. (False for arrays of floats, and for any array passed as the offsets: np.asarray stores the caller's array itself.) Construction itself writes to no existing array, and arguments that are copied or defaulted get arrays of their own.", "quantifier": "all states of memory, all arguments (lists, arrays, views), all later assignments to memory that existed before the call", "why_tests_cant": "Sharing depends on the type and the view structure of each argument, and its effect on assignments made later elsewhere.", "anchors": ["qctrlopencontrols/driven_controls/driven_control.py:DrivenControl.__init__", "qctrlopencontrols/dynamic_decoupling_sequences/dynamic_decoupling_sequence.py:DynamicDecouplingSequence.__init__"]}
{"id": "C87", "title": "In-place conversion", "statement": "convert_dds_to_driven_control, with its preallocated matrices, index arithmetic and assignments in loops, computes the control that the equations describe, raising the same errors and no IndexError. It writes to no existing array, leaves the sequence as it was, and returns a control of four new arrays: later assignments to the sequence do not change the control, nor the other way round.", "quantifier": "all states of memory, all sequences (their arrays may be views of shared memory), all rates and minimum durations, all later assignments", "why_tests_cant": "A wrong index or a shared view shows only for particular numbers of pulses or after later assignments.", "anchors": ["qctrlopencontrols/dynamic_decoupling_sequences/dynamic_decoupling_sequence.py:convert_dds_to_driven_control"]}
{"id": "C88", "title": "Predefined sequences computed in place", "statement": "Every builder of predefined sequences, with its preallocated arrays, assignments to slices, rows, columns and masks, and its while loops over two and three lists of pulse times, computes the sequence that the functional description gives and raises the same errors: no index is out of range, every loop ends. It writes to no existing array and returns four new arrays that share no memory with one another; the same holds of building followed by conversion.", "quantifier": "all ten families, all durations, counts and orders, with and without pre/post rotations, all states of memory, all later assignments", "why_tests_cant": "The number of iterations and the indices grow with the order; sharing shows only after later assignments.", "anchors": ["qctrlopencontrols/dynamic_decoupling_sequences/predefined.py:new_xy_concatenated_sequence", "qctrlopencontrols/dynamic_decoupling_sequences/predefined.py:_concatenation_xy", "qctrlopencontrols/dynamic_decoupling_sequences/predefined.py:new_quadratic_sequence", "qctrlopencontrols/dynamic_decoupling_sequences/predefined.py:new_walsh_sequence", "qctrlopencontrols/dynamic_decoupling_sequences/predefined.py:_add_pre_post_rotations"]}
{"id": "C89", "title": "Controls under noise that varies in time", "statement": "Under a relative amplitude error eps(t) and an additional detuning beta(t), both continuous, the Schroedinger equation of a control has exactly one solution; it is the product of segment rotations when both are constant. If |eps| <= E and |beta| <= M, every control deviates from its ideal evolution by at most (M * duration + E * total rotation angle) / 2. A converted sequence of duration T deviates from the instantaneous pulses under the same beta by at most M * total pulse width + E * total angle / 2; for a predefined sequence of suppressed order n the deviation from the ideal pulses is at most this plus K T^(n+1) / (2 (n+1)!), K a bound of the n-th derivative of beta.", "quantifier": "all controls, all constructible sequences whose conversion keeps the duration and whose events are not rounded away, all requests for predefined sequences, all rates and minimum durations, all continuous noise", "why_tests_cant": "A simulation uses finitely many noise functions and time steps.", "anchors": ["qctrlopencontrols/dynamic_decoupling_sequences/dynamic_decoupling_sequence.py:convert_dds_to_driven_control"]}
{"id": "C90", "title": "Predefined controls computed in memory", "statement": "Every builder of predefined controls, with its lists, new arrays and views of columns, computes the control that the functional description gives and raises the same errors. It writes to no existing array; the control's four arrays are new and share no memory with one another, so later assignments to older arrays do not change the control and assignments to one of its arrays change nothing else.", "quantifier": "all nine schemes and the modulated Gaussian, all arguments, all states of memory, all later assignments", "why_tests_cant": "Sharing shows only after later assignments, and the number of segments of the Gaussian is unbounded.", "anchors": ["qctrlopencontrols/driven_controls/predefined.py:new_primitive_control", "qctrlopencontrols/driven_controls/predefined.py:new_corpse_in_scrofulous_control", "qctrlopencontrols/driven_controls/predefined.py:new_wamf1_control", "qctrlopencontrols/driven_controls/predefined.py:new_modulated_gaussian_control"]}
{"id": "C91", "title": "Segments derived from angles", "statement": "Under the rows [amplitude cos phi, amplitude sin phi, 0, theta / amplitude] derived from a list of (theta, phi) the qubit undergoes the rotations by theta about phi, in the order of the list. The rows of every predefined control of constant Rabi rate are those derived from its rotation angles and azimuthal angles.", "quantifier": "all lists of angles, all non-zero amplitudes, all schemes except WAMF1 and all their arguments", "why_tests_cant": "All lengths and real angles; the evolution is defined by a differential equation.", "anchors": ["qctrlopencontrols/driven_controls/predefined.py:_derive_segments"]}
{"id": "C92", "title": "Every rejection names the first requirement that fails", "statement": "A rejected call raises the error of the first requirement, in the documented order of checks, that its arguments do not meet: the description, the names of the arguments blamed and the names of the additional facts are those of that requirement. A call succeeds exactly where every requirement holds. This covers the two constructors, the nine schemes, the modulated Gaussian, the ten sequences, the conversion, both exports to files and the export for plotting.", "quantifier": "all arguments of these functions (sequences to be converted, and controls to be exported, are those a constructor accepts)", "why_tests_cant": "The tests check that some error is raised for single inputs; which of several failing requirements is reported, and that nothing else is ever reported, is a statement about all combinations.", "anchors": ["qctrlopencontrols/driven_controls/driven_control.py:DrivenControl.__init__", "qctrlopencontrols/driven_controls/driven_control.py:export_to_file", "qctrlopencontrols/driven_controls/driven_control.py:export", "qctrlopencontrols/dynamic_decoupling_sequences/dynamic_decoupling_sequence.py:DynamicDecouplingSequence.__init__", "qctrlopencontrols/dynamic_decoupling_sequences/dynamic_decoupling_sequence.py:convert_dds_to_driven_control", "qctrlopencontrols/driven_controls/predefined.py:_validate_rabi_parameters", "qctrlopencontrols/dynamic_decoupling_sequences/predefined.py:new_walsh_sequence"]}
{"id": "C93", "title": "From the request to the file in floating point", "statement": "A predefined sequence that is built, stored with np.pi, converted and exported as cylindrical JSON in binary64 arithmetic is written without error, and the numbers and the name a reader finds in the file drive a qubit, under a constant detuning and a relative amplitude error, as the exact ideal sequence does, up to the error of C76 plus (1 + |eps|) N pi / 2^53; if the exact sequence cancels a constant detuning, they perform the product of its pulses up to that error. The numbers found in the file of a composite pulse drive a qubit as its design does up to the error of C80 plus |1 + eps| n / 2^50 for n segments, and perform the requested rotation up to 2^-39 (up to 2^-15 above 2 pi). Every number of a converted sequence or of a composite pulse is a binary64 number.", "quantifier": "all builders and moderate orders as in C76, except a Ramsey sequence without pre/post rotations (its control has maximum rate 0); all schemes and ordinary inputs as in C80; all file names and contents of the disk, all eps and delta, every accurate sine, cosine, inverse and square", "why_tests_cant": "Chains four programs with rounding at every operation and a decimal text in between, for continuous parameters; the tests compare exported text with the expressions of the code.", "anchors": ["qctrlopencontrols/dynamic_decoupling_sequences/dynamic_decoupling_sequence.py:export_to_file", "qctrlopencontrols/dynamic_decoupling_sequences/dynamic_decoupling_sequence.py:convert_dds_to_driven_control", "qctrlopencontrols/driven_controls/driven_control.py:_qctrl_expanded_export_content", "qctrlopencontrols/driven_controls/driven_control.py:export_to_file", "qctrlopencontrols/driven_controls/predefined.py:new_bb1_control", "qctrlopencontrols/dynamic_decoupling_sequences/predefined.py:new_cpmg_sequence"]}
{"id": "C94", "title": "Derived quantities of a control in floating point", "statement": "In binary64 arithmetic the reported duration of a control with at most 2^m segments is the sum of its durations up to a relative error of (m + 27) 2^-53, and a sum in any other order in which no number passes through more than k additions is accurate to (k + 1) 2^-53; the amplitudes are Omega cos(phi) and Omega sin(phi) up to Omega 2^-49; each rotation angle is sqrt(Omega^2 + Delta^2) dt up to a relative error of 2^-47; each direction is within 2^-47 of the unit vector, except for segments at or below the tolerance, for which it is the amplitude itself; the plotted values, normalised or not, in both coordinate systems, are within 2^-49 of the exact ones relative to the rate. Without rounding all these are the exact properties.", "quantifier": "all controls whose fields are binary64 numbers with |phi| <= 8 and rates that are 0 or at least 2^-400, any number of segments; every sine and cosine with error at most 2^-50", "why_tests_cant": "Numpy sums in blocks of eight and halves long arrays, so rounding depends on the number of segments; the tests compare a few values with np.allclose.", "anchors": ["qctrlopencontrols/driven_controls/driven_control.py:duration", "qctrlopencontrols/driven_controls/driven_control.py:angles", "qctrlopencontrols/driven_controls/driven_control.py:directions", "qctrlopencontrols/driven_controls/driven_control.py:amplitude_x", "qctrlopencontrols/driven_controls/driven_control.py:amplitude_y", "qctrlopencontrols/driven_controls/driven_control.py:export"]}
{"id": "C95", "title": "Boundary times in floating point", "statement": "In binary64 arithmetic the boundary times of a control start at 0, are strictly increasing, exceed the sum of the first i durations by at most a relative i 2^-53, and end at the reported duration.", "quantifier": "all constructible controls whose durations are binary64 numbers", "why_tests_cant": "Depends on the sizes of all durations: times coincide when a duration is below the resolution of the time, and the two ways of summing differ only for 8 or more segments.", "anchors": ["qctrlopencontrols/driven_controls/driven_control.py:times", "qctrlopencontrols/driven_controls/driven_control.py:duration"]}
{"id": "C96", "title": "Gaussian control at zero frequency in floating point", "statement": "In binary64 arithmetic an accepted Gaussian control without modulation has n segments of the rounded duration T/n with zero azimuth and detuning, n being the ceiling of T/m or the integer just below it; each rate is positive and is the rate of the formula up to a relative 2^-42; the rotations sum to a whole number k >= 1 of turns up to a relative 2^-46, where k is the largest number of available turns (at least 1) up to a relative 2^-43 of the available rotation; the evolution is (-1)^k times the identity up to k pi 2^-46. Without rounding the program is the exact one.", "quantifier": "all binary64 maximum Rabi rates between 2^-200 and 2^200, minimum segment durations and durations of at most 2^39 segments; every exponential with relative error at most 2^-50", "why_tests_cant": "The remainder by 2 pi is discontinuous: a rounding error in the available rotation changes the number of turns by one; the tests try one rate and compare one angle.", "anchors": ["qctrlopencontrols/driven_controls/predefined.py:new_modulated_gaussian_control"]}
{"id": "C97", "title": "Modulated Gaussian control in floating point", "statement": "In binary64 arithmetic, when the largest sample of the modulated Gaussian is at least four times the bound (|f| T + 8) 2^-47 on the rounding errors, every signed rate is the one of the formula up to three times the maximum Rabi rate times the ratio of the bound and the largest sample, its sign is carried by an azimuth of 0 or numpy.pi, and the evolution is the identity up to the corresponding error for every relative error of the Rabi rate.", "quantifier": "all binary64 arguments in the range of C96 with 2^-200 <= |f| and |f| T <= 2^12; every sine with absolute error at most 2^-50 and every exponential with relative error at most 2^-50", "why_tests_cant": "The cancellation of the two halves of the pulse depends on the rounding of every midpoint and on the phase of the sine at each; the tests check one frequency.", "anchors": ["qctrlopencontrols/driven_controls/predefined.py:new_modulated_gaussian_control"]}
{"id": "C98", "title": "Gaussian controls accepted in floating point", "statement": "In binary64 arithmetic a Gaussian control is accepted if and only if it is accepted in exact arithmetic, with the same number of segments, and the rejections are ArgumentsValueError.", "quantifier": "all binary64 arguments in the range of C96 and C97", "why_tests_cant": "The differences need a modulation with nodes at every midpoint, or a quotient T/m just above an integer.", "anchors": ["qctrlopencontrols/driven_controls/predefined.py:new_modulated_gaussian_control"]}
{"id": "C99", "title": "Finite pulses and a constant detuning to first order", "statement": "The evolution of a converted sequence of pi pulses is independent of a small constant detuning to first order if and only if the signed idle times around the centres of the pulses sum to zero and the pulses about x (and those about y) sum to zero with the sign changed by every pulse about another axis than y (than x). Without pre- and post-rotations this holds for the Carr-Purcell, CPMG, Uhrig and X concatenated sequences of even order, Walsh sequences whose Paley order has an even number of binary ones, quadratic sequences with both orders even, and the XY concatenated sequence of order 2; it fails for all other predefined sequences, among them Ramsey, the spin echo and every periodic sequence.", "quantifier": "all requests for predefined sequences, all lists of pi pulses accepted by the constructor, all maximum rates, minimum segment durations and durations above 1e-8 for which the conversion succeeds without overlapping pulses", "why_tests_cant": "No test evolves a state; the derivative of the evolution and the exact set of sequences are statements about infinitely many orders and rates.", "anchors": ["qctrlopencontrols/dynamic_decoupling_sequences/dynamic_decoupling_sequence.py:convert_dds_to_driven_control", "qctrlopencontrols/dynamic_decoupling_sequences/predefined.py"]}
{"id": "C100", "title": "Finite pulses and an error of the Rabi rate to first order", "statement": "The evolution of a converted sequence of pi pulses is independent of a small relative error of the Rabi rate to first order if and only if the pulses about x (and those about y) sum to zero with the sign changed by every pulse about another axis. Without pre- and post-rotations this holds for Ramsey, the XY concatenated sequences, and quadratic sequences with odd inner and even outer order, and fails for all other predefined sequences.", "quantifier": "as in C99", "why_tests_cant": "As in C99.", "anchors": ["qctrlopencontrols/dynamic_decoupling_sequences/dynamic_decoupling_sequence.py:convert_dds_to_driven_control", "qctrlopencontrols/dynamic_decoupling_sequences/predefined.py"]}
{"id": "C101", "title": "Conversion commutes with time reversal and with a shift of the azimuthal angles", "statement": "Reversing a sequence in time (a pulse at t moves to T - t) reverses the segments of the converted control, and adding an angle to every azimuthal angle of the sequence adds it to the azimuthal angle of every driven segment and changes nothing else; each pair of calls is accepted or rejected together.", "quantifier": "all sequences accepted by the constructor (for the reversal of duration above 1e-8), all maximum rates, minimum segment durations and angles", "why_tests_cant": "A relation between two runs for every sequence; the boundary pulses, which are moved inside the sequence on one side by addition and on the other by subtraction, and the gap filling have to agree exactly.", "anchors": ["qctrlopencontrols/dynamic_decoupling_sequences/dynamic_decoupling_sequence.py:convert_dds_to_driven_control"]}
{"id": "C102", "title": "Conversion with the opposite detunings and in another unit of time", "statement": "Negating every detuning rotation of a sequence negates the detunings of the converted control; converting a sequence with all times multiplied by k > 0 and the maximum rates divided by k gives the control with durations multiplied by k and rates divided by k.", "quantifier": "all sequences accepted by the constructor, all maximum rates, minimum segment durations and factors", "why_tests_cant": "A relation between two runs for every sequence and every unit; the tests use one unit.", "anchors": ["qctrlopencontrols/dynamic_decoupling_sequences/dynamic_decoupling_sequence.py:convert_dds_to_driven_control"]}
{"id": "C103", "title": "Predefined sequences are symmetric in time", "statement": "Without pre- and post-rotations every predefined sequence other than the XY concatenated ones, and the XY concatenated sequence of order 2, is its own time reverse, and every array of the control it is converted to is a palindrome. The XY concatenated sequence of order 1 is not.", "quantifier": "all accepted requests, durations (above 1e-8 for the conversion), maximum rates and minimum segment durations for which the conversion succeeds", "why_tests_cant": "The tests compare the offsets of one order per scheme; the symmetry of Walsh and concatenated sequences depends on the reflection of a product of sign functions for every order.", "anchors": ["qctrlopencontrols/dynamic_decoupling_sequences/dynamic_decoupling_sequence.py:convert_dds_to_driven_control", "qctrlopencontrols/dynamic_decoupling_sequences/predefined.py"]}
{"id": "C104", "title": "Exact order in the amplitude error of every composite pulse", "statement": "For a relative error eps of every Rabi rate the evolution is insensitive to exactly the first two orders in eps for BB1 and CORPSE in BB1, to exactly the first for SK1, CORPSE in SK1, SCROFULOUS and CORPSE in SCROFULOUS, and to none for the primitive pulse, CORPSE and WAMF1: the next derivative of some matrix entry does not vanish. The only exception is theta = 4 pi for the BB1 and SK1 families, where all orders vanish.", "quantifier": "all nine schemes, all accepted theta, Omega, phi, all orders", "why_tests_cant": "Derivatives of every order over a continuum of requests; that an order does not cancel cannot be read off finitely many samples either.", "anchors": ["qctrlopencontrols/driven_controls/predefined.py:new_bb1_control", "qctrlopencontrols/driven_controls/predefined.py:new_corpse_control", "qctrlopencontrols/driven_controls/predefined.py:new_corpse_in_bb1_control", "qctrlopencontrols/driven_controls/predefined.py:new_corpse_in_scrofulous_control", "qctrlopencontrols/driven_controls/predefined.py:new_corpse_in_sk1_control", "qctrlopencontrols/driven_controls/predefined.py:new_scrofulous_control", "qctrlopencontrols/driven_controls/predefined.py:new_sk1_control", "qctrlopencontrols/driven_controls/predefined.py:new_wamf1_control", "qctrlopencontrols/driven_controls/predefined.py:new_primitive_control"]}
{"id": "C105", "title": "Which composite pulses cancel a constant detuning to first order", "statement": "The first derivative of the evolution with respect to a constant detuning vanishes for CORPSE and the CORPSE concatenated schemes always, for the primitive pulse, BB1 and SK1 if and only if sin(theta/2) = 0, for WAMF1 if and only if theta is (numerically) pi, and for SCROFULOUS never.", "quantifier": "all nine schemes, all accepted theta, Omega, phi", "why_tests_cant": "An equivalence about a derivative over a continuum of requests.", "anchors": ["qctrlopencontrols/driven_controls/predefined.py:new_bb1_control", "qctrlopencontrols/driven_controls/predefined.py:new_corpse_control", "qctrlopencontrols/driven_controls/predefined.py:new_corpse_in_bb1_control", "qctrlopencontrols/driven_controls/predefined.py:new_corpse_in_scrofulous_control", "qctrlopencontrols/driven_controls/predefined.py:new_corpse_in_sk1_control", "qctrlopencontrols/driven_controls/predefined.py:new_scrofulous_control", "qctrlopencontrols/driven_controls/predefined.py:new_sk1_control", "qctrlopencontrols/driven_controls/predefined.py:new_wamf1_control", "qctrlopencontrols/driven_controls/predefined.py:new_primitive_control"]}
{"id": "C106", "title": "Finite errors move the evolution of a control by a bounded amount", "statement": "Let Theta be the sum of rabi_rate * duration over the segments and T the duration. A relative error e of every Rabi rate together with a constant detuning d moves no entry of the evolution by more than (|e| Theta + |d| T)/2, and by no more than (|e| Theta + |d| T)^2/8 if both errors cancel to first order; with one error alone it suffices that this one cancels. Theta is at most maximum_rabi_rate * T. The second bound holds for the predefined dynamical decoupling sequences that keep first-order insensitivity to both errors with finite pulses.", "quantifier": "all controls, all real errors e and d; all predefined sequences and conversions", "why_tests_cant": "A bound on the remainder for errors of every size and controls of every length, not a derivative at one point.", "anchors": ["qctrlopencontrols/driven_controls/driven_control.py:DrivenControl", "qctrlopencontrols/dynamic_decoupling_sequences/dynamic_decoupling_sequence.py:convert_dds_to_driven_control", "qctrlopencontrols/dynamic_decoupling_sequences/dynamic_decoupling_sequence.py:_check_valid_operation"]}
{"id": "C107", "title": "Error of order k+1 for a control on resonance", "statement": "If a control without detunings cancels the first k orders of a relative error of the Rabi rates, then an error e > -1 moves no entry of the evolution by more than (|e| Theta / 2)^(k+1) / (k+1)!. Every composite pulse satisfies this with the order of C104 and Theta at most maximum_rabi_rate * duration; those that cancel a detuning move by at most (d T)^2/8, and those that cancel both errors by at most ((|e| Omega + |d|) T)^2/8.", "quantifier": "all controls without detunings, all k, all errors e > -1; all nine schemes and all accepted theta, Omega, phi", "why_tests_cant": "A Taylor remainder of every order, uniform over a continuum of requests and errors.", "anchors": ["qctrlopencontrols/driven_controls/driven_control.py:DrivenControl", "qctrlopencontrols/driven_controls/predefined.py:new_bb1_control", "qctrlopencontrols/driven_controls/predefined.py:new_corpse_control", "qctrlopencontrols/driven_controls/predefined.py:new_corpse_in_bb1_control", "qctrlopencontrols/driven_controls/predefined.py:new_corpse_in_scrofulous_control", "qctrlopencontrols/driven_controls/predefined.py:new_corpse_in_sk1_control", "qctrlopencontrols/driven_controls/predefined.py:new_scrofulous_control", "qctrlopencontrols/driven_controls/predefined.py:new_sk1_control", "qctrlopencontrols/driven_controls/predefined.py:new_wamf1_control", "qctrlopencontrols/driven_controls/predefined.py:new_primitive_control"]}
{"id": "C108", "title": "Composite pulses from the request to the experiment with errors", "statement": "A composite pulse (primitive, BB1, SK1, CORPSE, CORPSE in BB1, CORPSE in SK1) built in binary64 arithmetic, exported to JSON, read back and driven with a relative error -1 < e <= 1 of every Rabi rate and a constant detuning d performs the requested rotation up to (3 + |d|/Omega) times the rounding error of C80 plus: (|e| Omega + |d|) T / 2 in general; (|e| Omega T / 2)^(k+1) / (k+1)! for d = 0, with k the order of C104; ((|e| Omega + |d|) T)^2 / 8 for schemes that cancel the errors to first order. T is the documented duration.", "quantifier": "all six schemes, all ordinary binary64 theta, Omega, phi, all math libraries accurate to 2^-50, all errors e in (-1, 1] and d", "why_tests_cant": "Rounding of every request combined with errors of every size; the bound concerns the whole chain of functions.", "anchors": ["qctrlopencontrols/driven_controls/predefined.py:new_bb1_control", "qctrlopencontrols/driven_controls/predefined.py:new_corpse_control", "qctrlopencontrols/driven_controls/predefined.py:new_corpse_in_bb1_control", "qctrlopencontrols/driven_controls/predefined.py:new_corpse_in_scrofulous_control", "qctrlopencontrols/driven_controls/predefined.py:new_corpse_in_sk1_control", "qctrlopencontrols/driven_controls/predefined.py:new_scrofulous_control", "qctrlopencontrols/driven_controls/predefined.py:new_sk1_control", "qctrlopencontrols/driven_controls/predefined.py:new_wamf1_control", "qctrlopencontrols/driven_controls/predefined.py:new_primitive_control", "qctrlopencontrols/driven_controls/driven_control.py:_qctrl_expanded_export_content", "qctrlopencontrols/driven_controls/driven_control.py:export_to_file"]}
{"id": "C109", "title": "Errors that vary in time about a constant", "statement": "If the relative amplitude error stays within E of a constant e > -1 and the detuning error within M of a constant d while a control is driven, no entry of the evolution differs by more than (E Theta + M T)/2 from that under the constant errors e and d, with Theta the total rotation angle and T the duration. Composite pulses and the predefined sequences of pi pulses that cancel both errors therefore still cancel the constant part: the distance from the error-free evolution is that term plus the remainder of C106 and C107.", "quantifier": "all constructible controls, all six composite-pulse schemes and every balanced predefined sequence and its conversion, all error functions of time for which the Schroedinger equation has a solution, all e > -1, d, E, M", "why_tests_cant": "Ranges over functions of time and over every control.", "anchors": ["qctrlopencontrols/driven_controls/driven_control.py:DrivenControl", "qctrlopencontrols/dynamic_decoupling_sequences/dynamic_decoupling_sequence.py:convert_dds_to_driven_control", "qctrlopencontrols/dynamic_decoupling_sequences/dynamic_decoupling_sequence.py:_check_valid_operation"]}
{"id": "C110", "title": "Reading and exporting objects in memory", "statement": "With arrays as views of shared memory: reading any property of a control, exporting it, printing it or writing it to a file leaves every array as it was, and the result is the one of the control's current contents. The arrays returned by amplitude_x, amplitude_y, angles, directions and times are new arrays of floats: writing to them does not change the control, and writing to the control's attributes does not change them. Likewise for the export, file export (with its conversion) and printed forms of a sequence.", "quantifier": "all controls and sequences in all states of memory, including attributes that share memory, every file, format and coordinate choice", "why_tests_cant": "Sharing and in-place modification are invisible in returned values; tests compare values only.", "anchors": ["qctrlopencontrols/driven_controls/driven_control.py:DrivenControl.amplitude_x", "qctrlopencontrols/driven_controls/driven_control.py:DrivenControl.amplitude_y", "qctrlopencontrols/driven_controls/driven_control.py:DrivenControl.angles", "qctrlopencontrols/driven_controls/driven_control.py:DrivenControl.directions", "qctrlopencontrols/driven_controls/driven_control.py:DrivenControl.times", "qctrlopencontrols/driven_controls/driven_control.py:DrivenControl.export", "qctrlopencontrols/driven_controls/driven_control.py:DrivenControl.export_to_file", "qctrlopencontrols/driven_controls/driven_control.py:DrivenControl.__str__", "qctrlopencontrols/driven_controls/driven_control.py:DrivenControl.__repr__", "qctrlopencontrols/dynamic_decoupling_sequences/dynamic_decoupling_sequence.py:DynamicDecouplingSequence.export", "qctrlopencontrols/dynamic_decoupling_sequences/dynamic_decoupling_sequence.py:DynamicDecouplingSequence.export_to_file", "qctrlopencontrols/dynamic_decoupling_sequences/dynamic_decoupling_sequence.py:DynamicDecouplingSequence.__str__", "qctrlopencontrols/dynamic_decoupling_sequences/dynamic_decoupling_sequence.py:DynamicDecouplingSequence.__repr__"]}
{"id": "C111", "title": "Printed forms in floating point", "statement": "In binary64 arithmetic str() of a control or sequence shows the name and the scales exactly, and every list as texts that read back to numbers whose product with the scale is the attribute up to one rounding of a quotient; two objects with the same printed form have the same name and scales and attributes equal up to that rounding. They are the same object.", "quantifier": "all constructible controls of at most 2^64 segments and all sequences whose printed numbers are finite, with one-line names", "why_tests_cant": "Two different controls print alike only for particular pairs of numbers; tests print literals with exact quotients.", "anchors": ["qctrlopencontrols/driven_controls/driven_control.py:DrivenControl.__str__", "qctrlopencontrols/dynamic_decoupling_sequences/dynamic_decoupling_sequence.py:DynamicDecouplingSequence.__str__"]}
{"id": "C112", "title": "Predefined sequences under noise along every direction", "statement": "Let a noise with components x(t), y(t), z(t) of strength at most M act while a predefined sequence of instantaneous pulses runs for a time T. The evolution, as the solution of the Schroedinger equation between the pulses, is the product of the pulses up to (M T)^2/8 plus, for every axis, K T^(n+1)/(2 (n+1)!) where n is the number of orders the sequence suppresses along that axis and K bounds the n-th derivative of that component. n is the order of C78 for Z and for the axis across the pulses and 0 along the pulses for single-axis sequences; it is the inner count for X and Y and the outer count for Z for quadratic sequences; it is (1, 2, 1) and (2, 4, 2) for XY concatenation of order 1 and 2. So quadratic sequences and XY concatenation of order 1 and 2 remove static noise of any direction to first order, while single-axis sequences leave static noise along their pulses: the evolution is at least |sin(b T/4)| away.", "quantifier": "every valid request, duration, pre/post rotation and name; every continuous noise with bounded derivatives; every bound", "why_tests_cant": "The statement is about all functions of time in three directions and a solution of a differential equation; a test can integrate a few numerically.", "anchors": ["qctrlopencontrols/dynamic_decoupling_sequences/predefined.py:new_ramsey_sequence", "qctrlopencontrols/dynamic_decoupling_sequences/predefined.py:new_spin_echo_sequence", "qctrlopencontrols/dynamic_decoupling_sequences/predefined.py:new_carr_purcell_sequence", "qctrlopencontrols/dynamic_decoupling_sequences/predefined.py:new_cpmg_sequence", "qctrlopencontrols/dynamic_decoupling_sequences/predefined.py:new_uhrig_sequence", "qctrlopencontrols/dynamic_decoupling_sequences/predefined.py:new_periodic_sequence", "qctrlopencontrols/dynamic_decoupling_sequences/predefined.py:new_walsh_sequence", "qctrlopencontrols/dynamic_decoupling_sequences/predefined.py:new_quadratic_sequence", "qctrlopencontrols/dynamic_decoupling_sequences/predefined.py:new_x_concatenated_sequence", "qctrlopencontrols/dynamic_decoupling_sequences/predefined.py:new_xy_concatenated_sequence"]}
{"id": "C113", "title": "Converted sequences under noise along every direction", "statement": "A driven control made from a sequence in time order by convert_dds_to_driven_control, with pulses of finite width that do not overlap, under an amplitude error of at most E and a noise along every direction of strength at most M, evolves like the instantaneous pulses under the same noise up to M times the total pulse width plus E/2 times the total rotation angle. For the predefined sequences the suppression of C112 holds with this error added. The evolution exists and is unique, and a noise along Z alone is the detuning error of C89.", "quantifier": "every constructible sequence in time order with clean pulses and every predefined one, every conversion that keeps the duration, every continuous noise and amplitude error with the stated bounds", "why_tests_cant": "The statement is about all functions of time in three directions and a solution of a differential equation; a test can integrate a few numerically.", "anchors": ["qctrlopencontrols/dynamic_decoupling_sequences/dynamic_decoupling_sequence.py:convert_dds_to_driven_control"]}
{"id": "C114", "title": "From the request to the file under noise along every direction", "statement": "A predefined sequence is built, converted and exported in binary64 arithmetic with accurate sine and square, and the JSON text of the file is read back. An amplitude error of at most E and a noise along every direction of strength at most M, both functions of time, act while the segments that were read are applied. The evolution, as the solution of the Schroedinger equation, is the one of the exact instantaneous pulses under the same noise up to M (2 N D + N a T + (2 N + 5)^2 T/2^48) + E N pi (1 + 2^-50)/2 + N pi/2^52 + 4 N/10^16, where N is the number of pulses, D the longest pulse width and a the accuracy of the pulse times. With the orders of C112 along every axis it is the product of the pulses up to this error, (M T)^2/8 and the residues of C112.", "quantifier": "every request, duration and rate as in C93, every order of C112, every continuous noise and amplitude error with the stated bounds, every file name, disk and pre/post rotation", "why_tests_cant": "The statement spans rounding, text and a differential equation with arbitrary functions of time; a test can integrate a few cases numerically.", "anchors": ["qctrlopencontrols/dynamic_decoupling_sequences/dynamic_decoupling_sequence.py:export_to_file", "qctrlopencontrols/dynamic_decoupling_sequences/dynamic_decoupling_sequence.py:convert_dds_to_driven_control", "qctrlopencontrols/driven_controls/driven_control.py:_qctrl_expanded_export_content", "qctrlopencontrols/driven_controls/driven_control.py:export_to_file", "qctrlopencontrols/dynamic_decoupling_sequences/predefined.py:new_cpmg_sequence", "qctrlopencontrols/dynamic_decoupling_sequences/predefined.py:new_quadratic_sequence", "qctrlopencontrols/dynamic_decoupling_sequences/predefined.py:new_xy_concatenated_sequence"]}
{"id": "C115", "title": "Composite pulses from the request to the experiment with drifting errors", "statement": "A composite pulse is built and exported in binary64 arithmetic with accurate trigonometry, and the JSON text of the file is read back. While the segments that were read are applied, the relative error of the Rabi rate stays within E of a constant e > -1 and the detuning within M of a constant d, both functions of time. The durations in the file add up to the documented duration T of the scheme within 2^-42/w. The evolution, as the solution of the Schroedinger equation, is that of the designed pulse under the constant errors e and d, up to (E w + M)(T + 2^-42/w)/2 and the rounding errors of C93. For the schemes that are exact without errors it is the requested rotation up to these and the remainder of C108 for e and d.", "quantifier": "every scheme, rotation angle, Rabi rate and azimuthal angle as in C93, every pair of error functions with the stated bounds, every constant e > -1 (e <= 1 for the rotation) and d, every file name, disk and control name", "why_tests_cant": "The statement spans rounding, text and a differential equation with arbitrary functions of time; a test can integrate a few cases numerically.", "anchors": ["qctrlopencontrols/driven_controls/predefined.py:new_primitive_control", "qctrlopencontrols/driven_controls/predefined.py:new_bb1_control", "qctrlopencontrols/driven_controls/predefined.py:new_sk1_control", "qctrlopencontrols/driven_controls/predefined.py:new_corpse_control", "qctrlopencontrols/driven_controls/predefined.py:new_wamf1_control", "qctrlopencontrols/driven_controls/driven_control.py:_qctrl_expanded_export_content", "qctrlopencontrols/driven_controls/driven_control.py:export_to_file"]}
{"id": "C116", "title": "Gaussian controls from the request to the experiment with drifting errors", "statement": "The JSON file of any control of finite binary64 numbers with a positive maximum Rabi rate m, read back and driven with errors within E and M of the constants e and d, is the control under e and d up to E (turned angle (1 + 2^-53) + m duration/2^1075)/2 + M duration/2 and the cost of the division by m. For the Gaussian control at zero frequency, built in binary64 arithmetic with an accurate exponential, the file makes k whole turns: the evolution is (-1)^k times the identity up to pi k/2^45 + (2 pi k E (1 + 2^-45) + M T (1 + 2^-53))/2, where k is 1 or the number of turns available at the maximum Rabi rate up to 2^-43. At a non-zero frequency, with an accurate sine and a largest sample of at least four times the sample error, the evolution is the identity up to 3 (1 + e) omega T (sample error/peak) + E omega T + M T (1 + 2^-53)/2, whatever the constant error e > -1 of the Rabi rate. In both cases the file has as many segments as the control and its durations add up to T within T/2^53.", "quantifier": "every constructible control of finite binary64 numbers; every maximum Rabi rate, minimum segment duration, duration and frequency as in C96 and C97; every pair of error functions with the stated bounds; every file name and disk", "why_tests_cant": "The statement spans rounding, text and a differential equation with arbitrary functions of time; a test can integrate a few cases numerically.", "anchors": ["qctrlopencontrols/driven_controls/predefined.py:new_modulated_gaussian_control", "qctrlopencontrols/driven_controls/driven_control.py:_qctrl_expanded_export_content", "qctrlopencontrols/driven_controls/driven_control.py:export_to_file"]}
{"id": "C117", "title": "First-order sensitivity of converted sequences with pre and post rotations", "statement": "A sequence of pi pulses about x, y and z between the pi/2 rotations of pre_post_rotation is converted to a driven control whose duration is that of the sequence. The evolution is independent of a constant detuning to first order if and only if the pulses about y cancel with their signs, the pulses about x together last, with their signs, as long as the two pi/2 rotations, and the switched time integral of the sequence equals (1 + s)(1 - 2/pi) times the length of a pi/2 rotation, where s is the sign given to z by the pulses about x and y. It is independent of a constant relative error of the Rabi rate to first order if and only if the signed number of pulses about y is zero and twice that of the pulses about x is s - 1. Among the predefined sequences a detuning cancels exactly for the spin echo, Carr-Purcell, periodic and X concatenated sequences of odd order, Walsh sequences whose order has an odd number of ones, and quadratic sequences of even inner and odd outer order, and only if the minimum segment duration is at most pi/(2 maximum_rabi_rate). An error of the Rabi rate cancels exactly for Ramsey, XY concatenated and quadratic sequences of odd inner order. No predefined sequence cancels both. What is left is at most (d T)^2/8, or the square of e times the turned angle over 8. If the errors vary with time within E and M of such a constant detuning, or of such an error of the Rabi rate, at most half of E times the turned angle plus M times the duration is added.", "quantifier": "every constructible sequence of pi pulses between two pi/2 rotations, every predefined sequence with pre_post_rotation=True, every duration above 10^-8, every maximum Rabi rate, maximum detuning rate and minimum segment duration for which the conversion succeeds without changing the duration", "why_tests_cant": "The statement is about a derivative and an equivalence over all sequences; a test can compare finite differences for a few.", "anchors": ["qctrlopencontrols/dynamic_decoupling_sequences/predefined.py:_add_pre_post_rotations", "qctrlopencontrols/dynamic_decoupling_sequences/dynamic_decoupling_sequence.py:convert_dds_to_driven_control"]}
{"id": "C118", "title": "Gaussian controls under constant amplitude and detuning errors", "statement": "Whatever the constant relative error of the Rabi rate and the constant detuning, a modulated Gaussian control of non-zero frequency turns the qubit about an axis without x component, and one of zero frequency about an axis without y component. An error of the Rabi rate is cancelled to every order at a non-zero frequency; at zero frequency it multiplies the angle 2 pi k, so it is not cancelled to first order. A detuning is cancelled to first order if and only if the time integrals of the cosine and of the sine of the angle turned so far vanish, and at zero frequency the second always does. With two segments the control of zero frequency always cancels a detuning to first order, and one of non-zero frequency if and only if maximum_rabi_rate times duration is a multiple of 4 pi. With an error of the Rabi rate that stays within E of any constant above -1, and a detuning below M, the modulated control of non-zero frequency ends within half of E times the turned angle plus M times the duration of the identity.", "quantifier": "every maximum Rabi rate, minimum segment duration, duration and frequency for which new_modulated_gaussian_control returns a control; every constant error of the Rabi rate and every constant detuning", "why_tests_cant": "The symmetry and the orders are statements over all errors and derivatives; a test can evaluate a few.", "anchors": ["qctrlopencontrols/driven_controls/predefined.py:new_modulated_gaussian_control"]}
{"id": "C119", "title": "Detuning noise of small accumulated phase", "statement": "Let a detuning error vary in time about a constant d, and let its deviation from d, integrated from the start, never exceed b; let the relative error of the Rabi rate stay within E of a constant e > -1. Then every entry of the evolution of a control differs from that under the constant errors e and d by at most (E A + b (1 + (1 + e) A))/2, where A is the sum of rabi_rate * duration over the segments. The bound does not contain the strength of the noise or the duration. For a detuning a cos(f t + p) it is |a|/f (1 + A). Composite pulses cancel the constant part to their order, and a converted predefined sequence performs the product of its pulses up to (E A + b (1 + A))/2.", "quantifier": "every constructible driven control, every composite pulse and every converted predefined sequence; every detuning error with an integral, every error of the Rabi rate; all e > -1, d, E, b, a, f > 0, p", "why_tests_cant": "The noise is an arbitrary function of time and the control is arbitrary; a simulation covers one of each.", "anchors": ["qctrlopencontrols/driven_controls/driven_control.py:DrivenControl", "qctrlopencontrols/driven_controls/predefined.py:new_bb1_control", "qctrlopencontrols/driven_controls/predefined.py:new_corpse_control", "qctrlopencontrols/driven_controls/predefined.py:new_corpse_in_bb1_control", "qctrlopencontrols/driven_controls/predefined.py:new_corpse_in_scrofulous_control", "qctrlopencontrols/driven_controls/predefined.py:new_corpse_in_sk1_control", "qctrlopencontrols/driven_controls/predefined.py:new_scrofulous_control", "qctrlopencontrols/driven_controls/predefined.py:new_sk1_control", "qctrlopencontrols/driven_controls/predefined.py:new_wamf1_control", "qctrlopencontrols/driven_controls/predefined.py:new_primitive_control", "qctrlopencontrols/dynamic_decoupling_sequences/dynamic_decoupling_sequence.py:convert_dds_to_driven_control"]}
{"id": "C120", "title": "First-order response of a control to noise", "statement": "The response W of a control to a relative error eps(t) of the Rabi rate and a detuning error beta(t) is the time integral of -i times the Hamiltonian of the errors, seen from the frame that moves with the control. For continuous errors it exists and is unique. It is linear in the errors and the generator of a rotation by at most E A + M T (A the turned angle, T the duration, |eps| <= E, |beta| <= M). The evolution differs from that without errors times 1 + W by at most (E A + M T)^2/8 in every entry, so noise without response has an effect of second order only. W is the derivative of the evolution with respect to the strength of the noise. A control cancels a constant detuning, or a constant error of the Rabi rate, to first order if and only if its response to it is zero. More generally it cancels any noise to first order in the strength of the noise if and only if its response to that noise is zero. The response of two parts played one after the other is that of the first plus that of the second seen through the evolution of the first, so two parts that cancel a noise cancel it together.", "quantifier": "every constructible driven control; every error of the Rabi rate and every detuning error, as functions of time, bounded by E and M during the control", "why_tests_cant": "The statement is about a limit and holds for every control and every function of time; a test can compare a few simulations.", "anchors": ["qctrlopencontrols/driven_controls/driven_control.py:DrivenControl"]}
{"id": "C121", "title": "Fidelity of the final state under noise", "statement": "Let the infidelity of a state be the probability that the state is not found, after the evolution with errors, where the evolution without errors takes it. Some state is affected most, with infidelity x; the mean over the six states along the axes and the mean over all states are 2 x / 3; and if no entry of the two evolutions differs by more than e then x <= (2 e)^2. For a control with errors bounded by E (Rabi rate) and M (detuning), x <= ((E A + M T)/2)^2, with A the sum of rabi_rate * duration and T the duration, and sqrt(x) differs from half of the angle the control responds with to first order (C120) by at most (E A + M T)^2/8. Composite pulses and converted predefined sequences that cancel errors obey the square of twice the bounds of C109, pulses read back from an exported file the square of twice those of C115 against the requested rotation. Under noise along every direction of strength at most M (C113), x <= ((E A + M T)/2)^2 for any control, and the square of twice the bound of C113 for a converted predefined sequence against the product of its pulses. A predefined sequence of ideal pulses that suppresses n orders (C78) has x <= (M T^(n+1)/(n+1)!)^2 under a detuning whose n-th derivative is bounded by M.", "quantifier": "every normalised state; every constructible driven control, every composite pulse, every predefined sequence (ideal or converted), every composite pulse exported to a file and read back; every error of the Rabi rate, every detuning error and every noise vector, as functions of time", "why_tests_cant": "The worst state, the control and the noise are arbitrary; a simulation evaluates a few states under one noise.", "anchors": ["qctrlopencontrols/driven_controls/driven_control.py:DrivenControl", "qctrlopencontrols/driven_controls/predefined.py:new_bb1_control", "qctrlopencontrols/driven_controls/predefined.py:new_corpse_control", "qctrlopencontrols/driven_controls/predefined.py:new_corpse_in_bb1_control", "qctrlopencontrols/driven_controls/predefined.py:new_corpse_in_scrofulous_control", "qctrlopencontrols/driven_controls/predefined.py:new_corpse_in_sk1_control", "qctrlopencontrols/driven_controls/predefined.py:new_scrofulous_control", "qctrlopencontrols/driven_controls/predefined.py:new_sk1_control", "qctrlopencontrols/driven_controls/predefined.py:new_wamf1_control", "qctrlopencontrols/driven_controls/predefined.py:new_primitive_control", "qctrlopencontrols/dynamic_decoupling_sequences/dynamic_decoupling_sequence.py:convert_dds_to_driven_control", "qctrlopencontrols/driven_controls/driven_control.py:DrivenControl.export_to_file", "qctrlopencontrols/dynamic_decoupling_sequences/predefined.py:new_ramsey_sequence", "qctrlopencontrols/dynamic_decoupling_sequences/predefined.py:new_spin_echo_sequence", "qctrlopencontrols/dynamic_decoupling_sequences/predefined.py:new_carr_purcell_sequence", "qctrlopencontrols/dynamic_decoupling_sequences/predefined.py:new_cpmg_sequence", "qctrlopencontrols/dynamic_decoupling_sequences/predefined.py:new_uhrig_sequence", "qctrlopencontrols/dynamic_decoupling_sequences/predefined.py:new_periodic_sequence", "qctrlopencontrols/dynamic_decoupling_sequences/predefined.py:new_walsh_sequence", "qctrlopencontrols/dynamic_decoupling_sequences/predefined.py:new_quadratic_sequence", "qctrlopencontrols/dynamic_decoupling_sequences/predefined.py:new_x_concatenated_sequence", "qctrlopencontrols/dynamic_decoupling_sequences/predefined.py:new_xy_concatenated_sequence"]}
{"id": "C122", "title": "Exact infidelity under dephasing and the filter function of a sequence", "statement": "For every predefined sequence of ideal pulses, with or without pre/post rotations, and every continuous detuning, the largest infidelity over all states (C121) equals sin(phi/2)^2 and the mean 2/3 of that, where phi is the integral of the detuning over the duration with a sign that flips at each X or Y pulse. |phi| <= M T^(n+1)/(n+1)! if the n-th derivative of the detuning is bounded by M and n is the order of C78. For the detuning a cos(w t + p), let F(w) be the squared modulus of the same integral of e^(i w t): phi^2 <= a^2 F(w) for every p, with equality for some p, its mean over p is a^2 F(w)/2, and the infidelity is at most a^2 F(w)/4. For a sum of such tones with independent phases the mean of phi^2 is the sum over the tones of a^2 F(w)/2. The mean of the largest infidelity is then exactly (1 - product over the tones of J0(a sqrt(F(w))))/2, J0(x) being the mean of cos(x cos p) over p. sqrt(F(w)) <= |w|^n T^(n+1)/(n+1)!. w^2 F(w) is 4 sin(wT/2)^2 for Ramsey, 16 sin(wT/4)^4 for spin echo and, for Carr-Purcell and CPMG with n pulses, 16 sin(wT/4n)^4 / cos(wT/2n)^2 times sin(wT/2)^2 (n even) or cos(wT/2)^2 (n odd); for periodic sequences it is 4 tan(wT/(2n+2))^2 times cos(wT/2)^2 (n even) or sin(wT/2)^2 (n odd); for Walsh sequences it is 4 sin(wT/2^(m+1))^2 times the product over the m binary digits of the Paley order, from the lowest, j = 1..m, of 4 sin(wT/2^(j+1))^2 (digit 1) or 4 cos(wT/2^(j+1))^2 (digit 0), and for X concatenation of order l the same with l digits 1.", "quantifier": "every predefined sequence, duration, count or order, pre/post rotation, continuous detuning, and every finite list of amplitudes, frequencies and phases", "why_tests_cant": "The detuning is an arbitrary continuous function and the counts are unbounded; a simulation evaluates one noise trace of one sequence.", "anchors": ["qctrlopencontrols/dynamic_decoupling_sequences/predefined.py:new_ramsey_sequence", "qctrlopencontrols/dynamic_decoupling_sequences/predefined.py:new_spin_echo_sequence", "qctrlopencontrols/dynamic_decoupling_sequences/predefined.py:new_carr_purcell_sequence", "qctrlopencontrols/dynamic_decoupling_sequences/predefined.py:new_cpmg_sequence", "qctrlopencontrols/dynamic_decoupling_sequences/predefined.py:new_uhrig_sequence", "qctrlopencontrols/dynamic_decoupling_sequences/predefined.py:new_periodic_sequence", "qctrlopencontrols/dynamic_decoupling_sequences/predefined.py:new_walsh_sequence", "qctrlopencontrols/dynamic_decoupling_sequences/predefined.py:new_quadratic_sequence", "qctrlopencontrols/dynamic_decoupling_sequences/predefined.py:new_x_concatenated_sequence", "qctrlopencontrols/dynamic_decoupling_sequences/predefined.py:new_xy_concatenated_sequence"]}
