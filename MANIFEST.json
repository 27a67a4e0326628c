{
 "claims": [
  {
   "property": "C01",
   "status": "proved",
   "theorems": [
    "C01_construction",
    "C01_segments",
    "C01_segments_complete"
   ],
   "note": ""
  },
  {
   "property": "C02",
   "status": "proved",
   "theorems": [
    "C02_times"
   ],
   "note": ""
  },
  {
   "property": "C03",
   "status": "proved",
   "theorems": [
    "C03_extrema"
   ],
   "note": ""
  },
  {
   "property": "C04",
   "status": "proved",
   "theorems": [
    "C04_amplitudes_and_angles"
   ],
   "note": ""
  },
  {
   "property": "C05",
   "status": "partial",
   "theorems": [
    "C05_directions_partial",
    "C05_directions_refuted"
   ],
   "note": "True for segments above the tolerance min(1e-20*max,1e-8); refuted at full strength (tiny non-zero segments are not normalised)."
  },
  {
   "property": "C06",
   "status": "partial",
   "theorems": [
    "C06_export_unnormalised",
    "C06_export_normalised",
    "C06_export_normalised_range",
    "C06_export_invalid",
    "C06_export_empty",
    "C06_export_zero",
    "C06_export_zero_refuted"
   ],
   "note": "Full for un-normalised exports and for positive maximum Rabi rate; with all-zero Rabi rates the normalised values are NaN (C06_export_zero, C06_export_zero_refuted)."
  },
  {
   "property": "C07",
   "status": "proved",
   "theorems": [
    "C07_json_round_trip"
   ],
   "note": ""
  },
  {
   "property": "C08",
   "status": "partial",
   "theorems": [
    "C08_csv_partial",
    "C08_csv_unnamed",
    "C08_csv_refuted"
   ],
   "note": "Named controls proved; every unnamed control raises KeyError('name')."
  },
  {
   "property": "C09",
   "status": "partial",
   "theorems": [
    "C09_csv_layout_partial",
    "C09_csv_layout_cylindrical",
    "C09_csv_layout_refuted"
   ],
   "note": "Cartesian proved; in cylindrical coordinates the fifth column is rabi_rates."
  },
  {
   "property": "C10",
   "status": "proved",
   "theorems": [
    "C10_sequence_frame",
    "C10_export_frame"
   ],
   "note": ""
  },
  {
   "property": "C11",
   "status": "partial",
   "theorems": [
    "C11_printed_form_partial",
    "C11_printed_form_refuted",
    "C11_determines_partial"
   ],
   "note": "Proved unless the maximum detuning is 0 with some negative detunings, where the printed detunings are all 0."
  },
  {
   "property": "C12",
   "status": "proved",
   "theorems": [
    "C12_primitive"
   ],
   "note": ""
  },
  {
   "property": "C13",
   "status": "proved",
   "theorems": [
    "C13_bb1"
   ],
   "note": ""
  },
  {
   "property": "C14",
   "status": "proved",
   "theorems": [
    "C14_bb1_robust"
   ],
   "note": ""
  },
  {
   "property": "C15",
   "status": "proved",
   "theorems": [
    "C15_sk1"
   ],
   "note": ""
  },
  {
   "property": "C16",
   "status": "proved",
   "theorems": [
    "C16_corpse"
   ],
   "note": ""
  },
  {
   "property": "C17",
   "status": "proved",
   "theorems": [
    "C17_corpse_robust"
   ],
   "note": ""
  },
  {
   "property": "C18",
   "status": "proved",
   "theorems": [
    "C18_corpse_in_bb1"
   ],
   "note": ""
  },
  {
   "property": "C19",
   "status": "proved",
   "theorems": [
    "C19_corpse_in_sk1"
   ],
   "note": ""
  },
  {
   "property": "C20",
   "status": "partial",
   "theorems": [
    "C20_scrofulous_partial",
    "C20_scrofulous_refuted"
   ],
   "note": "Net rotation exact only for theta = pi (the 3-decimal phase table is inexact elsewhere; error bounds proved); first-order amplitude robustness holds for every accepted rotation."
  },
  {
   "property": "C21",
   "status": "proved",
   "theorems": [
    "C21_corpse_in_scrofulous",
    "C21_same_as_scrofulous"
   ],
   "note": ""
  },
  {
   "property": "C22",
   "status": "partial",
   "theorems": [
    "C22_wamf1",
    "C22_wamf1_dephasing_partial",
    "C22_wamf1_dephasing_refuted"
   ],
   "note": "Net rotation proved; first-order dephasing robustness is exact only near pi, otherwise the derivative is bounded by 1e-8/w."
  },
  {
   "property": "C23",
   "status": "proved",
   "theorems": [
    "C23_acceptance"
   ],
   "note": ""
  },
  {
   "property": "C24",
   "status": "proved",
   "theorems": [
    "C24_rates_and_duration"
   ],
   "note": ""
  },
  {
   "property": "C25",
   "status": "proved",
   "theorems": [
    "C25_azimuthal",
    "C25_azimuthal_exists"
   ],
   "note": ""
  },
  {
   "property": "C26",
   "status": "proved",
   "theorems": [
    "C26_scaling"
   ],
   "note": ""
  },
  {
   "property": "C27",
   "status": "proved",
   "theorems": [
    "C27_acceptance",
    "C27_segmentation",
    "C27_shape"
   ],
   "note": ""
  },
  {
   "property": "C28",
   "status": "proved",
   "theorems": [
    "C28_rates"
   ],
   "note": ""
  },
  {
   "property": "C29",
   "status": "proved",
   "theorems": [
    "C29_identity"
   ],
   "note": ""
  },
  {
   "property": "C30",
   "status": "partial",
   "theorems": [
    "C30_minimum_refuted",
    "C30_minimum_partial"
   ],
   "note": "Segments equal the minimum duration iff T is a multiple of it; otherwise they lie in (m/2, m)."
  },
  {
   "property": "C31",
   "status": "proved",
   "theorems": [
    "C31_construction"
   ],
   "note": ""
  },
  {
   "property": "C32",
   "status": "proved",
   "theorems": [
    "C32_export"
   ],
   "note": ""
  },
  {
   "property": "C33",
   "status": "proved",
   "theorems": [
    "C33_ramsey",
    "C33_spin_echo"
   ],
   "note": ""
  },
  {
   "property": "C34",
   "status": "proved",
   "theorems": [
    "C34_carr_purcell",
    "C34_cpmg",
    "C34_rejections"
   ],
   "note": ""
  },
  {
   "property": "C35",
   "status": "proved",
   "theorems": [
    "C35_uhrig",
    "C34_rejections"
   ],
   "note": ""
  },
  {
   "property": "C36",
   "status": "proved",
   "theorems": [
    "C36_periodic",
    "C34_rejections"
   ],
   "note": ""
  },
  {
   "property": "C37",
   "status": "proved",
   "theorems": [
    "C37_walsh"
   ],
   "note": ""
  },
  {
   "property": "C38",
   "status": "proved",
   "theorems": [
    "C38_quadratic",
    "C38_cancels"
   ],
   "note": ""
  },
  {
   "property": "C39",
   "status": "proved",
   "theorems": [
    "C39_x_concatenation"
   ],
   "note": ""
  },
  {
   "property": "C40",
   "status": "partial",
   "theorems": [
    "C40_xy_concatenation_partial",
    "C40_xy_concatenation_refuted",
    "C40_xy_sequence",
    "C40_xy_refocusing"
   ],
   "note": "Holds for orders 1 and 2; false for every order >= 3, where pulses of the recursion are missing (order 3 does not refocus static dephasing)."
  },
  {
   "property": "C41",
   "status": "proved",
   "theorems": [
    "C41_acceptance",
    "C41_exact",
    "C41_product"
   ],
   "note": ""
  },
  {
   "property": "C42",
   "status": "proved",
   "theorems": [
    "C42_refocusing",
    "C38_cancels",
    "C60_walsh",
    "C61_x_cancels"
   ],
   "note": "Walsh, X concatenated and quadratic sequences: refocuses conjunct of C60_walsh, C61_x_cancels, C38_cancels."
  },
  {
   "property": "C43",
   "status": "proved",
   "theorems": [
    "C43_uhrig"
   ],
   "note": ""
  },
  {
   "property": "C44",
   "status": "proved",
   "theorems": [
    "C44_validity"
   ],
   "note": ""
  },
  {
   "property": "C45",
   "status": "proved",
   "theorems": [
    "C45_scaling"
   ],
   "note": ""
  },
  {
   "property": "C46",
   "status": "partial",
   "theorems": [
    "C46_duration_partial",
    "C46_duration_refuted"
   ],
   "note": "Exact unless pulse windows overlap within the absolute tolerance 1e-8; exact excess proved; refuted at full strength by pulses overlapping by 1e-9."
  },
  {
   "property": "C47",
   "status": "proved",
   "theorems": [
    "C47_rates"
   ],
   "note": ""
  },
  {
   "property": "C48",
   "status": "proved",
   "theorems": [
    "C48_pulses"
   ],
   "note": ""
  },
  {
   "property": "C49",
   "status": "partial",
   "theorems": [
    "C49_timing_partial",
    "C49_timing_refuted"
   ],
   "note": "Exact unless pulse windows overlap within the absolute tolerance 1e-8; delay bounded by the total overlap; refuted at full strength."
  },
  {
   "property": "C50",
   "status": "proved",
   "theorems": [
    "C50_minimum"
   ],
   "note": ""
  },
  {
   "property": "C51",
   "status": "proved",
   "theorems": [
    "C51_acceptance"
   ],
   "note": ""
  },
  {
   "property": "C52",
   "status": "proved",
   "theorems": [
    "C52_net_operation"
   ],
   "note": ""
  },
  {
   "property": "C53",
   "status": "partial",
   "theorems": [
    "C53_simultaneous_partial",
    "C53_simultaneous_refuted",
    "C53_ignores_detuning"
   ],
   "note": "Proved for positive detuning rotations; a negative detuning rotation together with a Rabi rotation is accepted and silently dropped."
  },
  {
   "property": "C54",
   "status": "partial",
   "theorems": [
    "C54_keeps_pulses_partial",
    "C54_keeps_pulses_refuted"
   ],
   "note": "Proved for durations above 1e-8; below, np.allclose treats the whole sequence as empty and the pulses are lost."
  },
  {
   "property": "C55",
   "status": "proved",
   "theorems": [
    "C55_file_export"
   ],
   "note": ""
  },
  {
   "property": "C56",
   "status": "proved",
   "theorems": [
    "C56_check_arguments",
    "C56_message_lines",
    "C56_names"
   ],
   "note": ""
  },
  {
   "property": "C57",
   "status": "proved",
   "theorems": [
    "C57_create_repr",
    "C57_create_repr_rejects",
    "C57_control",
    "C57_sequence",
    "C57_control_identified",
    "C57_sequence_identified"
   ],
   "note": ""
  },
  {
   "property": "C58",
   "status": "partial",
   "theorems": [
    "C58_pauli",
    "C58_ladder",
    "C58_hamiltonian_partial",
    "C58_hamiltonian_sign",
    "C58_hamiltonian_refuted"
   ],
   "note": "Pauli algebra and ladder operators proved. The documented Hamiltonian with the constants as named has the opposite sign of the y amplitude (C58_hamiltonian_sign, C58_hamiltonian_refuted); it agrees when sigma_- and sigma_+ are exchanged."
  },
  {
   "property": "C59",
   "status": "proved",
   "theorems": [
    "C59_conversion",
    "C59_rates",
    "C59_convertibility"
   ],
   "note": ""
  },
  {
   "property": "C60",
   "status": "proved",
   "theorems": [
    "C60_walsh"
   ],
   "note": ""
  },
  {
   "property": "C61",
   "status": "proved",
   "theorems": [
    "C61_x_cancels"
   ],
   "note": ""
  },
  {
   "property": "C62",
   "status": "proved",
   "theorems": [
    "C62_net"
   ],
   "note": ""
  },
  {
   "property": "C63",
   "status": "proved",
   "theorems": [
    "C63_xy_never_converts"
   ],
   "note": ""
  },
  {
   "property": "C64",
   "status": "proved",
   "theorems": [
    "C64_printed_sequence",
    "C64_determines"
   ],
   "note": ""
  },
  {
   "property": "C65",
   "status": "proved",
   "theorems": [
    "C65_float_sequences",
    "C65_float_rejections",
    "C65_unrounded",
    "C65_sine_exists",
    "C65_square_exists"
   ],
   "note": ""
  },
  {
   "property": "C66",
   "status": "proved",
   "theorems": [
    "C66_float_evolution"
   ],
   "note": ""
  },
  {
   "property": "C67",
   "status": "proved",
   "theorems": [
    "C67_finite_pulses",
    "C67_decoupling"
   ],
   "note": ""
  },
  {
   "property": "C68",
   "status": "proved",
   "theorems": [
    "C68_control",
    "C68_sequence",
    "C68_control_finite",
    "C68_sequence_finite"
   ],
   "note": ""
  },
  {
   "property": "C69",
   "status": "proved",
   "theorems": [
    "C69_finite",
    "C69_values",
    "C69_total",
    "C69_endless"
   ],
   "note": ""
  },
  {
   "property": "C70",
   "status": "partial",
   "theorems": [
    "C70_infinite_partial",
    "C70_infinite_refuted"
   ],
   "note": "Proved for a positive minimum segment duration (the result is that at a large finite rate). Refuted for a zero minimum: every pulse is silently dropped."
  },
  {
   "property": "C71",
   "status": "proved",
   "theorems": [
    "C71_json",
    "C71_ascii",
    "C71_control"
   ],
   "note": ""
  },
  {
   "property": "C72",
   "status": "proved",
   "theorems": [
    "C72_csv",
    "C72_control"
   ],
   "note": ""
  },
  {
   "property": "C73",
   "status": "proved",
   "theorems": [
    "C73_float_conversion",
    "C73_unrounded",
    "C73_float_evolution"
   ],
   "note": ""
  },
  {
   "property": "C74",
   "status": "partial",
   "theorems": [
    "C74_float_rates_partial",
    "C74_float_rates_refuted"
   ],
   "note": "Partial: the excess is bounded by the relative resolution T/width/2^48 of the shortest pulse. Refuted as stated: a witness exceeds the maximum rate by half."
  },
  {
   "property": "C75",
   "status": "partial",
   "theorems": [
    "C75_float_pulses_partial",
    "C75_float_pulses_refuted"
   ],
   "note": "Proved when pulses and idle times are at least 2^-40 of the duration. Refuted in general: fast enough pulses are all lost in every sequence."
  },
  {
   "property": "C76",
   "status": "proved",
   "theorems": [
    "C76_float_pipeline",
    "C76_float_decoupling",
    "C76_stored_format",
    "C76_sequence_float_pulses"
   ],
   "note": "Of the XY concatenated sequences only order 2 is covered; those from order 3 on cannot be converted (C63)."
  },
  {
   "property": "C77",
   "status": "proved",
   "theorems": [
    "C77_schroedinger"
   ],
   "note": ""
  },
  {
   "property": "C78",
   "status": "proved",
   "theorems": [
    "C78_suppression",
    "C78_predefined"
   ],
   "note": "XY concatenation: orders 1 and 2, as stated; higher orders do not refocus (C40)."
  },
  {
   "property": "C79",
   "status": "proved",
   "theorems": [
    "C79_exact",
    "C79_pulse_count"
   ],
   "note": "XY concatenation: orders 1 and 2."
  },
  {
   "property": "C80",
   "status": "proved",
   "theorems": [
    "C80_float_controls",
    "C80_float_rotation",
    "C80_trigonometry",
    "C80_unrounded"
   ],
   "note": ""
  },
  {
   "property": "C81",
   "status": "partial",
   "theorems": [
    "C81_float_rates_partial",
    "C81_float_rates_refuted"
   ],
   "note": "All schemes except WAMF1 use exactly the requested rate; the rate of WAMF1 is bounded by (1 + 3/2^53) of it, and the witness (pi, rate 61) exceeds it."
  },
  {
   "property": "C82",
   "status": "proved",
   "theorems": [
    "C82_round_trip",
    "C82_distinct",
    "C82_shortest",
    "C82_closest"
   ],
   "note": ""
  },
  {
   "property": "C83",
   "status": "proved",
   "theorems": [
    "C83_json_cylindrical",
    "C83_json_cartesian",
    "C83_csv",
    "C83_unrounded"
   ],
   "note": ""
  },
  {
   "property": "C84",
   "status": "proved",
   "theorems": [
    "C84_finite",
    "C84_rejected",
    "C84_stretched",
    "C84_ramsey",
    "C84_quadratic",
    "C84_x_concatenated",
    "C84_xy_concatenated"
   ],
   "note": ""
  },
  {
   "property": "C85",
   "status": "proved",
   "theorems": [
    "C85_finite",
    "C85_total",
    "C85_primitive",
    "C85_angle",
    "C85_gaussian_finite",
    "C85_gaussian"
   ],
   "note": ""
  },
  {
   "property": "C86",
   "status": "partial",
   "theorems": [
    "C86_control",
    "C86_sequence",
    "C86_control_partial",
    "C86_control_refuted",
    "C86_corrupt",
    "C86_sequence_partial",
    "C86_sequence_refuted"
   ],
   "note": "Proved when no argument is an array of floats (for sequences: and the offsets are no array); false otherwise (refuted). C86_control and C86_sequence say exactly what is stored."
  },
  {
   "property": "C87",
   "status": "proved",
   "theorems": [
    "C87_convert",
    "C87_independent"
   ],
   "note": ""
  },
  {
   "property": "C88",
   "status": "proved",
   "theorems": [
    "C88_build",
    "C88_independent",
    "C88_pipeline"
   ],
   "note": ""
  },
  {
   "property": "C89",
   "status": "proved",
   "theorems": [
    "C89_solution",
    "C89_constant",
    "C89_control",
    "C89_finite_pulses",
    "C89_predefined"
   ],
   "note": ""
  },
  {
   "property": "C90",
   "status": "proved",
   "theorems": [
    "C90_build",
    "C90_gaussian",
    "C90_independent"
   ],
   "note": ""
  },
  {
   "property": "C91",
   "status": "proved",
   "theorems": [
    "C91_rotations",
    "C91_schemes"
   ],
   "note": ""
  },
  {
   "property": "C92",
   "status": "proved",
   "theorems": [
    "C92_determined",
    "C92_control",
    "C92_sequence",
    "C92_schemes",
    "C92_gaussian",
    "C92_requests",
    "C92_conversion",
    "C92_files",
    "C92_sequence_files",
    "C92_plots"
   ],
   "note": ""
  },
  {
   "property": "C93",
   "status": "proved",
   "theorems": [
    "C93_sequence_file",
    "C93_sequence_export",
    "C93_scheme_file",
    "C93_numbers",
    "C93_unrounded"
   ],
   "note": "Sequences as in C76, except a Ramsey sequence without pre/post rotations."
  },
  {
   "property": "C94",
   "status": "proved",
   "theorems": [
    "C94_duration",
    "C94_any_order",
    "C94_angles",
    "C94_directions",
    "C94_plot",
    "C94_unrounded"
   ],
   "note": ""
  },
  {
   "property": "C95",
   "status": "partial",
   "theorems": [
    "C95_times_partial",
    "C95_last_time_partial",
    "C95_times_refuted",
    "C95_last_time_refuted"
   ],
   "note": "Proved: start, order without strictness, error of each time, last time equal to the duration for fewer than 8 segments. Refuted: strictness, and the last time for more segments."
  },
  {
   "property": "C96",
   "status": "proved",
   "theorems": [
    "C96_zero_frequency",
    "C96_unrounded"
   ],
   "note": ""
  },
  {
   "property": "C97",
   "status": "proved",
   "theorems": [
    "C97_modulated"
   ],
   "note": ""
  },
  {
   "property": "C98",
   "status": "partial",
   "theorems": [
    "C98_acceptance_refuted",
    "C98_noise",
    "C98_count_refuted",
    "C98_acceptance_partial"
   ],
   "note": "Proved: accepted calls satisfy the documented requirements up to 2^-50, the others raise ArgumentsValueError, and calls satisfying them by 2^-50 are accepted at f = 0, or when one sample exceeds the rounding errors, with the ceiling of T/m or the integer just below as the number of segments. Refuted: acceptance of the same calls, and the number of segments."
  },
  {
   "property": "C99",
   "status": "proved",
   "theorems": [
    "C99_detuning",
    "C99_predefined"
   ],
   "note": ""
  },
  {
   "property": "C100",
   "status": "proved",
   "theorems": [
    "C100_amplitude",
    "C100_predefined"
   ],
   "note": ""
  },
  {
   "property": "C101",
   "status": "proved",
   "theorems": [
    "C101_reversal",
    "C101_azimuth"
   ],
   "note": ""
  },
  {
   "property": "C102",
   "status": "partial",
   "theorems": [
    "C102_detuning_partial",
    "C102_detuning_refuted",
    "C102_units_partial",
    "C102_units_refuted"
   ],
   "note": "Proved for sequences in which no pulse has both a Rabi and a detuning rotation (detunings), and when no idle time is shorter than the minimum and both durations exceed 1e-8 (unit of time). Refuted without these: pulses with both rotations are rejected for one sign only, and the tolerance on gaps is absolute."
  },
  {
   "property": "C103",
   "status": "proved",
   "theorems": [
    "C103_sequences",
    "C103_controls",
    "C103_xy"
   ],
   "note": ""
  },
  {
   "property": "C104",
   "status": "proved",
   "theorems": [
    "C104_amplitude_order",
    "C104_next_order_remains"
   ],
   "note": ""
  },
  {
   "property": "C105",
   "status": "proved",
   "theorems": [
    "C105_detuning_first_order"
   ],
   "note": ""
  },
  {
   "property": "C106",
   "status": "proved",
   "theorems": [
    "C106_distance",
    "C106_distance_single",
    "C106_turned",
    "C106_sequences"
   ],
   "note": ""
  },
  {
   "property": "C107",
   "status": "proved",
   "theorems": [
    "C107_resonant",
    "C107_schemes"
   ],
   "note": ""
  },
  {
   "property": "C108",
   "status": "proved",
   "theorems": [
    "C108_noisy_file"
   ],
   "note": ""
  },
  {
   "property": "C109",
   "status": "proved",
   "theorems": [
    "C109_drift",
    "C109_schemes",
    "C109_sequences"
   ],
   "note": ""
  },
  {
   "property": "C110",
   "status": "proved",
   "theorems": [
    "C110_numbers",
    "C110_arrays",
    "C110_directions",
    "C110_independent",
    "C110_exports",
    "C110_sequences"
   ],
   "note": ""
  },
  {
   "property": "C111",
   "status": "partial",
   "theorems": [
    "C111_numbers",
    "C111_sequence_numbers",
    "C111_control_partial",
    "C111_sequence_partial",
    "C111_exact_refuted",
    "C111_unrounded"
   ],
   "note": "Equal printed forms give attributes equal up to one rounding; exact equality is refuted by rates 3/2, 1 and 3/2, 1-2^-53 (C111_exact_refuted). As in C11, negative detunings whose maximum is 0 are excluded."
  },
  {
   "property": "C112",
   "status": "proved",
   "theorems": [
    "C112_smooth",
    "C112_static",
    "C112_exposed",
    "C112_solution",
    "C112_dephasing"
   ],
   "note": ""
  },
  {
   "property": "C113",
   "status": "proved",
   "theorems": [
    "C113_finite_pulses",
    "C113_predefined",
    "C113_solution",
    "C113_detuning"
   ],
   "note": ""
  },
  {
   "property": "C114",
   "status": "proved",
   "theorems": [
    "C114_pulses",
    "C114_request",
    "C114_export"
   ],
   "note": ""
  },
  {
   "property": "C115",
   "status": "proved",
   "theorems": [
    "C115_pulses",
    "C115_rotation"
   ],
   "note": ""
  },
  {
   "property": "C116",
   "status": "proved",
   "theorems": [
    "C116_control",
    "C116_zero_frequency",
    "C116_modulated"
   ],
   "note": ""
  },
  {
   "property": "C117",
   "status": "proved",
   "theorems": [
    "C117_detuning",
    "C117_amplitude",
    "C117_predefined",
    "C117_not_both",
    "C117_remainder",
    "C117_drift"
   ],
   "note": ""
  },
  {
   "property": "C118",
   "status": "proved",
   "theorems": [
    "C118_axis",
    "C118_amplitude",
    "C118_detuning",
    "C118_two_segments",
    "C118_drift"
   ],
   "note": ""
  },
  {
   "property": "C119",
   "status": "proved",
   "theorems": [
    "C119_control",
    "C119_schemes",
    "C119_sequences",
    "C119_oscillating"
   ],
   "note": ""
  },
  {
   "property": "C120",
   "status": "proved",
   "theorems": [
    "C120_response",
    "C120_first_order",
    "C120_cancelled",
    "C120_linear",
    "C120_derivative",
    "C120_constant",
    "C120_noise",
    "C120_parts"
   ],
   "note": ""
  },
  {
   "property": "C121",
   "status": "proved",
   "theorems": [
    "C121_worst",
    "C121_average",
    "C121_states",
    "C121_control",
    "C121_response",
    "C121_schemes",
    "C121_sequences",
    "C121_decoupling",
    "C121_vector",
    "C121_converted",
    "C121_files"
   ],
   "note": ""
  },
  {
   "property": "C122",
   "status": "proved",
   "theorems": [
    "C122_phase",
    "C122_smooth",
    "C122_tone",
    "C122_loss",
    "C122_spectrum",
    "C122_mean",
    "C122_rolloff",
    "C122_sums",
    "C122_forms",
    "C122_walsh"
   ],
   "note": ""
  }
 ]
}