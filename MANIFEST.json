{
 "claims": [
  {
   "property": "C01",
   "status": "proved",
   "theorems": [
    "C01_sqrt_fixed",
    "C01_niirf_fixed",
    "C01_sqrt_zero"
   ],
   "note": ""
  },
  {
   "property": "C02",
   "status": "partial",
   "theorems": [
    "C02_doc_accuracy_refuted",
    "C02_doc_accuracy_partial"
   ],
   "note": "REFUTED: with two iterations only one update is made and the error at 1/2 is above 7e-4; the sharp bound 703e-6 + 1.45 ulp is proved instead. See C52 for three iterations."
  },
  {
   "property": "C03",
   "status": "proved",
   "theorems": [
    "C03_negative_fixed",
    "C03_negative_f32",
    "C03_negative_f64"
   ],
   "note": ""
  },
  {
   "property": "C04",
   "status": "partial",
   "theorems": [
    "C04_three_int_bits_refuted",
    "C04_sqrt_panic_iff_partial"
   ],
   "note": "REFUTED on formats with three integer bits; the panicking inputs are characterised exactly."
  },
  {
   "property": "C05",
   "status": "partial",
   "theorems": [
    "C05_unsigned_refuted",
    "C05_unsigned_partial"
   ],
   "note": "REFUTED: the formats with a panicking input are characterised exactly (4 or >= 6 fractional bits); every debug call returns an accurate root or panics."
  },
  {
   "property": "C06",
   "status": "proved",
   "theorems": [
    "C06_niirf_f32",
    "C06_niirf_f64",
    "C06_special_f32",
    "C06_special_f64"
   ],
   "note": ""
  },
  {
   "property": "C07",
   "status": "partial",
   "theorems": [
    "C07_int_refuted",
    "C07_int_min"
   ],
   "note": "REFUTED: the result is 0 for every integer type, value, iteration count and profile (panic for the most negative value in debug)."
  },
  {
   "property": "C08",
   "status": "proved",
   "theorems": [
    "C08_wrap_phase_fixed"
   ],
   "note": ""
  },
  {
   "property": "C09",
   "status": "partial",
   "theorems": [
    "C09_wrap_phase_refuted",
    "C09_wrap_phase_panic_iff_partial"
   ],
   "note": "REFUTED: with three integer bits every call panics in debug builds; the panicking formats are characterised exactly. In release C08 covers these formats too."
  },
  {
   "property": "C10",
   "status": "proved",
   "theorems": [
    "C10_wrap_range_f32",
    "C10_wrap_range_f64"
   ],
   "note": ""
  },
  {
   "property": "C100",
   "status": "partial",
   "theorems": [
    "C100_cos_f32_refuted",
    "C100_cos_f64_refuted",
    "C100_cos_far_f32_refuted",
    "C100_cos_bounded_f32_partial",
    "C100_cos_bounded_f64_partial",
    "C100_cos_f32_partial",
    "C100_cos_f64_partial",
    "C100_cos_iff_f32_partial",
    "C100_cos_iff_f64_partial"
   ],
   "note": "REFUTED: for |x| >= 2^28 (f32), 2^57 (f64) and infinities the call never returns; the set of returning arguments is characterised exactly. Accuracy proved up to 2^22 (2^51)."
  },
  {
   "property": "C101",
   "status": "partial",
   "theorems": [
    "C101_norm_int",
    "C101_norm_fixed_refuted",
    "C101_norm_fixed_partial",
    "C101_norm_float",
    "C101_conj_mul_fixed",
    "C34_conj_float",
    "C101_conj_mul_int",
    "C34_conj_homomorphism"
   ],
   "note": "REFUTED on fixed types: the imaginary part is -1 ulp exactly when re*im is not a multiple of an ulp. Integers, floats and the real part are proved."
  },
  {
   "property": "C102",
   "status": "proved",
   "theorems": [
    "C102_rot_int",
    "C102_rot_fixed",
    "C102_rot_float",
    "C102_rot4_int",
    "C102_rot4_fixed",
    "C102_rot4_float"
   ],
   "note": ""
  },
  {
   "property": "C103",
   "status": "proved",
   "theorems": [
    "C103_distr_fixed"
   ],
   "note": ""
  },
  {
   "property": "C104",
   "status": "proved",
   "theorems": [
    "C104_guess",
    "C104_guess_sharp",
    "C104_guess_f32",
    "C104_guess_f64"
   ],
   "note": ""
  },
  {
   "property": "C105",
   "status": "proved",
   "theorems": [
    "C105_exact_fixed",
    "C105_only_total_matters_fixed",
    "C105_drift_f32",
    "C105_drift_f64"
   ],
   "note": ""
  },
  {
   "property": "C106",
   "status": "proved",
   "theorems": [
    "C106_error_fixed",
    "C106_returns_fixed",
    "C106_stable_fixed"
   ],
   "note": ""
  },
  {
   "property": "C107",
   "status": "proved",
   "theorems": [
    "C107_float_to_fixed",
    "C107_fixed_to_float",
    "C107_fixed_int",
    "C107_float_int",
    "C107_float_float",
    "C107_int_int_fit",
    "C107_int_int_wraps"
   ],
   "note": ""
  },
  {
   "property": "C108",
   "status": "proved",
   "theorems": [
    "C108_sin",
    "C108_atan2",
    "C108_niirf"
   ],
   "note": ""
  },
  {
   "property": "C109",
   "status": "proved",
   "theorems": [
    "C109_mac_float"
   ],
   "note": ""
  },
  {
   "property": "C11",
   "status": "partial",
   "theorems": [
    "C11_wrap_terminates_refuted",
    "C11_wrap_terminates_f32_partial",
    "C11_wrap_terminates_f64_partial"
   ],
   "note": "REFUTED: the code loops forever for |phi| > 2^27 (f32), 2^56 (f64) and infinities; termination and divergence are characterised exactly."
  },
  {
   "property": "C110",
   "status": "proved",
   "theorems": [
    "C110_error_float",
    "C110_stable_float"
   ],
   "note": ""
  },
  {
   "property": "C111",
   "status": "proved",
   "theorems": [
    "C111_cartesian_mul_polar_f32",
    "C111_cartesian_mul_polar_f64"
   ],
   "note": ""
  },
  {
   "property": "C112",
   "status": "partial",
   "theorems": [
    "C112_far_f32_refuted",
    "C112_near_f32_partial",
    "C112_near_f64_partial"
   ],
   "note": "REFUTED: f32 angle 40960 wraps to an angle more than 2.4 rad away from 40960 modulo 2 pi. Proved: true for |phi| <= 700 (f32) and |phi| <= 1.6e7 (f64); C85 gives the bound for every angle."
  },
  {
   "property": "C113",
   "status": "proved",
   "theorems": [
    "C113_atan2_order_fixed",
    "C113_atan2_order_float"
   ],
   "note": ""
  },
  {
   "property": "C114",
   "status": "proved",
   "theorems": [
    "C114_sin_order_fixed",
    "C114_sin_order_float"
   ],
   "note": ""
  },
  {
   "property": "C115",
   "status": "proved",
   "theorems": [
    "C115_atan2_sincos_fixed",
    "C115_atan2_sincos_f32",
    "C115_atan2_sincos_f64"
   ],
   "note": ""
  },
  {
   "property": "C116",
   "status": "proved",
   "theorems": [
    "C116_sqrt_of_square_fixed",
    "C116_square_of_sqrt_fixed",
    "C116_niirf_of_square_f32",
    "C116_niirf_of_square_f64",
    "C116_square_of_niirf_f32",
    "C116_square_of_niirf_f64"
   ],
   "note": ""
  },
  {
   "property": "C117",
   "status": "proved",
   "theorems": [
    "C117_sqrt_of_square_float",
    "C117_mag_axis_float",
    "C117_square_of_sqrt_float"
   ],
   "note": "The square root of the platform is assumed correctly rounded."
  },
  {
   "property": "C118",
   "status": "proved",
   "theorems": [
    "C118_order",
    "C118_parts",
    "C118_sum",
    "C118_normalise"
   ],
   "note": "The square root of the platform is assumed correctly rounded."
  },
  {
   "property": "C119",
   "status": "partial",
   "theorems": [
    "C119_short_refuted",
    "C119_bounds_partial"
   ],
   "note": "REFUTED: the magnitude of 0.75 + 0i is less than 0.75 on every signed format with at least ten fractional bits. Proved instead: the claim up to 0.1 percent and a few ulp."
  },
  {
   "property": "C12",
   "status": "proved",
   "theorems": [
    "C12_wrap_identity_fixed",
    "C12_wrap_identity_f32",
    "C12_wrap_identity_f64"
   ],
   "note": ""
  },
  {
   "property": "C120",
   "status": "proved",
   "theorems": [
    "C120_product_fixed",
    "C120_product_float"
   ],
   "note": "Floats: square root of the platform assumed correctly rounded."
  },
  {
   "property": "C121",
   "status": "proved",
   "theorems": [
    "C121_polar_times_cartesian",
    "C121_polar_times_cartesian_float"
   ],
   "note": "The arctangent enters with its assumed accuracy."
  },
  {
   "property": "C122",
   "status": "proved",
   "theorems": [
    "C122_wide_scalar",
    "C122_wide_conversions",
    "C122_wide_complex",
    "C122_wide_external",
    "C122_wide_int"
   ],
   "note": ""
  },
  {
   "property": "C123",
   "status": "proved",
   "theorems": [
    "C123_sum_float",
    "C123_product_float",
    "C123_magnitude_float",
    "C123_angle_f32",
    "C123_angle_f64",
    "C123_sum_fixed"
   ],
   "note": "Fixed products do not scale exactly; the example shows one."
  },
  {
   "property": "C124",
   "status": "proved",
   "theorems": [
    "C124_assoc_fixed",
    "C124_assoc_float"
   ],
   "note": ""
  },
  {
   "property": "C125",
   "status": "proved",
   "theorems": [
    "C125_rotate_fixed",
    "C125_rotor_sum_fixed",
    "C125_rotate_f32",
    "C125_rotate_f64",
    "C125_rotor_sum_f32",
    "C125_rotor_sum_f64"
   ],
   "note": ""
  },
  {
   "property": "C126",
   "status": "proved",
   "theorems": [
    "C126_fourier_fixed",
    "C126_fourier_f32",
    "C126_fourier_f64"
   ],
   "note": ""
  },
  {
   "property": "C127",
   "status": "proved",
   "theorems": [
    "C127_unit_fixed",
    "C127_unit_float"
   ],
   "note": ""
  },
  {
   "property": "C128",
   "status": "proved",
   "theorems": [
    "C128_triangle_fixed",
    "C128_triangle_float"
   ],
   "note": ""
  },
  {
   "property": "C129",
   "status": "proved",
   "theorems": [
    "C129_direction_fixed",
    "C129_product_fixed",
    "C129_difference_fixed",
    "C129_arg_product_fixed",
    "C129_arg_difference_fixed",
    "C129_product_f32",
    "C129_product_f64",
    "C129_difference_f32",
    "C129_difference_f64",
    "C129_arg_float"
   ],
   "note": ""
  },
  {
   "property": "C13",
   "status": "proved",
   "theorems": [
    "C13_int_sign_abs",
    "C13_fixed_sign_abs",
    "C13_f32_sign_abs",
    "C13_f64_sign_abs"
   ],
   "note": "All integer types, all supported fixed formats, f32, f64; both profiles."
  },
  {
   "property": "C130",
   "status": "proved",
   "theorems": [
    "C130_to_db",
    "C130_from_db",
    "C130_there_and_back",
    "C130_back_and_there",
    "C130_product",
    "C130_order",
    "C130_zero",
    "C130_best_routines"
   ],
   "note": ""
  },
  {
   "property": "C131",
   "status": "proved",
   "theorems": [
    "C131_exp",
    "C131_law",
    "C131_inverse",
    "C131_euler_f32",
    "C131_euler_f64",
    "C131_best_routines"
   ],
   "note": ""
  },
  {
   "property": "C132",
   "status": "proved",
   "theorems": [
    "C132_average_fixed",
    "C132_average_same",
    "C132_average_float"
   ],
   "note": ""
  },
  {
   "property": "C133",
   "status": "proved",
   "theorems": [
    "C133_lerp_fixed",
    "C133_lerp_order_fixed",
    "C133_lerp_float",
    "C133_lerp_order_float"
   ],
   "note": ""
  },
  {
   "property": "C134",
   "status": "proved",
   "theorems": [
    "C134_smooth_fixed",
    "C134_smooth_float",
    "C134_constant"
   ],
   "note": ""
  },
  {
   "property": "C135",
   "status": "partial",
   "theorems": [
    "C135_endpoint_refuted",
    "C135_overshoot_refuted",
    "C135_average_refuted",
    "C135_constant_refuted",
    "C135_constant_iff_partial",
    "C135_constant_rest_partial"
   ],
   "note": "REFUTED: f32 interpolation from 2^25 to 1 ends at 0, from -2^24 to 3 ends at 4; the f64 average of ten times 0.1 is below 0.1; fixed-point smoothing from below stays away from the input unless alpha is 1. Proved instead: exactly when smoothing arrives (from above or alpha = 1) and how far away it stays otherwise; the float errors are bounded by C132 and C133."
  },
  {
   "property": "C136",
   "status": "proved",
   "theorems": [
    "C136_horner_fixed",
    "C136_horner_checked",
    "C136_horner_float",
    "C136_horner_nonneg"
   ],
   "note": ""
  },
  {
   "property": "C137",
   "status": "proved",
   "theorems": [
    "C137_law",
    "C137_inverse",
    "C137_euler",
    "C137_routines"
   ],
   "note": ""
  },
  {
   "property": "C138",
   "status": "proved",
   "theorems": [
    "C138_atan2_fixed",
    "C138_atan2_f32",
    "C138_atan2_f64",
    "C138_cut_f32",
    "C138_cut_f64",
    "C138_sin_fixed",
    "C138_sin_f32",
    "C138_sin_f64",
    "C138_sqrt_f32",
    "C138_sqrt_f64"
   ],
   "note": ""
  },
  {
   "property": "C139",
   "status": "proved",
   "theorems": [
    "C139_unwrap_fixed",
    "C139_step_fixed",
    "C139_unwrap_f32",
    "C139_unwrap_f64"
   ],
   "note": ""
  },
  {
   "property": "C14",
   "status": "partial",
   "theorems": [
    "C14_is_positive_refuted",
    "C14_nonzero_partial",
    "C14_at_zero_iff",
    "C14_at_zero_fixed",
    "C14_at_zero_float"
   ],
   "note": "REFUTED: the code violates the property at zero (unsigned types and +0.0 are \"positive\"). Proved for every non-zero value; exact characterisation at zero."
  },
  {
   "property": "C140",
   "status": "proved",
   "theorems": [
    "C140_floor",
    "C140_ceil",
    "C140_mirror",
    "C140_order",
    "C140_to_int"
   ],
   "note": "libm's floor and ceil are taken to be IEEE 754 roundToIntegral (stated in FloatRound.v)."
  },
  {
   "property": "C141",
   "status": "proved",
   "theorems": [
    "C141_sincos_float",
    "C141_sincos_fixed",
    "C141_sin_asin",
    "C141_cos_acos",
    "C141_inverse_fixed",
    "C141_sinh_asinh",
    "C141_cosh_acosh",
    "C141_tanh_atanh",
    "C141_tan_cos",
    "C141_tanh_cosh",
    "C141_exp_log",
    "C141_log_exp",
    "C141_pow_powi",
    "C141_cbrt_cube",
    "C141_routines"
   ],
   "note": ""
  },
  {
   "property": "C142",
   "status": "proved",
   "theorems": [
    "C142_moving_release",
    "C142_moving_debug",
    "C142_cic_release",
    "C142_cic_exact",
    "C142_moving_float",
    "C142_moving_drift"
   ],
   "note": ""
  },
  {
   "property": "C143",
   "status": "partial",
   "theorems": [
    "C143_product_partial",
    "C143_unit_release",
    "C143_unit_debug",
    "C143_direction_refuted",
    "C143_wrapped",
    "C143_unit_float",
    "C143_product_float",
    "C143_wrapped_f32",
    "C143_wrapped_f64"
   ],
   "note": "REFUTED: the direction is wrong in release builds once the sum of the angles leaves the word (C143_direction_refuted). Proved: the magnitude, the exact angle in both builds, when debug panics, and that reducing the angle after each product repairs it."
  },
  {
   "property": "C144",
   "status": "partial",
   "theorems": [
    "C144_mixer_fixed_partial",
    "C144_mixer_f32_partial",
    "C144_mixer_f64_partial",
    "C144_drift_refuted"
   ],
   "note": "REFUTED in fixed point: the stored pi differs from pi on every format, and the difference accumulates once per turn. The _partial theorems bound the error of every sample of every run, with the growing part explicit."
  },
  {
   "property": "C145",
   "status": "proved",
   "theorems": [
    "C145_round_trip_fixed",
    "C145_round_trip_f32",
    "C145_round_trip_f64"
   ],
   "note": ""
  },
  {
   "property": "C146",
   "status": "proved",
   "theorems": [
    "C146_release",
    "C146_exact",
    "C146_debug",
    "C146_order",
    "C146_superposition",
    "C146_impulse_int",
    "C146_impulse_fixed"
   ],
   "note": ""
  },
  {
   "property": "C147",
   "status": "partial",
   "theorems": [
    "C147_order_refuted",
    "C147_superposition_refuted",
    "C147_one_partial",
    "C147_room_partial",
    "C147_two_partial",
    "C147_orders_partial"
   ],
   "note": "REFUTED: the taps 1/2 and 2 in the two orders turn one ulp into 0 or 1; the tap 1/2 loses both of two ulps but keeps their sum. What holds: every output within one ulp per tap of the exact convolution (real part; two ulps, from below, imaginary part), explicit bounds for two filters in a row and for the difference between the two orders, and a condition on the sum of the taps under which the filter returns."
  },
  {
   "property": "C148",
   "status": "proved",
   "theorems": [
    "C148_tracks",
    "C148_locks",
    "C148_tracks_f32",
    "C148_tracks_f64"
   ],
   "note": ""
  },
  {
   "property": "C149",
   "status": "proved",
   "theorems": [
    "C149_wrap_fixed",
    "C149_wrap_slow_i64",
    "C149_wrap_f32",
    "C149_wrap_f64",
    "C149_sqrt_fixed",
    "C149_sqrt_f32",
    "C149_sqrt_f64"
   ],
   "note": ""
  },
  {
   "property": "C15",
   "status": "proved",
   "theorems": [
    "C15_int_powi",
    "C15_trig_powi"
   ],
   "note": "Both profiles, all integer types."
  },
  {
   "property": "C150",
   "status": "proved",
   "theorems": [
    "C150_fft4_int",
    "C150_fft_fixed",
    "C150_back_fixed",
    "C150_fft_f32",
    "C150_fft_f64",
    "C150_back_f32",
    "C150_back_f64",
    "C150_tables_fixed",
    "C150_tables_f32",
    "C150_tables_f64"
   ],
   "note": ""
  },
  {
   "property": "C151",
   "status": "proved",
   "theorems": [
    "C151_quotient_fixed",
    "C151_quotient_f32",
    "C151_quotient_f64",
    "C151_quotient_int"
   ],
   "note": ""
  },
  {
   "property": "C152",
   "status": "proved",
   "theorems": [
    "C152_order_int",
    "C152_order_fixed",
    "C152_powers_fixed",
    "C152_order_f32",
    "C152_order_f64",
    "C152_powers_f32",
    "C152_powers_f64"
   ],
   "note": ""
  },
  {
   "property": "C153",
   "status": "proved",
   "theorems": [
    "C153_symmetric_fixed",
    "C153_symmetric_float",
    "C153_distance_fixed",
    "C153_distance_float",
    "C153_nearest_fixed",
    "C153_decision_fixed",
    "C153_decision_float"
   ],
   "note": ""
  },
  {
   "property": "C154",
   "status": "proved",
   "theorems": [
    "C154_correlate_int",
    "C154_energy_int",
    "C154_correlate_fixed",
    "C154_energy_fixed",
    "C154_correlate_f32",
    "C154_correlate_f64",
    "C154_energy_f32",
    "C154_energy_f64",
    "C154_parseval_int",
    "C154_parseval_fixed",
    "C154_parseval_f32",
    "C154_parseval_f64"
   ],
   "note": ""
  },
  {
   "property": "C155",
   "status": "proved",
   "theorems": [
    "C155_sin_fixed",
    "C155_wrap_sin_fixed",
    "C155_cos_fixed",
    "C155_f32",
    "C155_f64"
   ],
   "note": ""
  },
  {
   "property": "C156",
   "status": "proved",
   "theorems": [
    "C156_fixed",
    "C156_f32",
    "C156_f64",
    "C156_jump_fixed",
    "C156_jump_all_fixed",
    "C156_jump_f32",
    "C156_jump_f64"
   ],
   "note": ""
  },
  {
   "property": "C157",
   "status": "proved",
   "theorems": [
    "C157_padded",
    "C157_conv4_int",
    "C157_conv_fixed",
    "C157_conv_f32",
    "C157_conv_f64"
   ],
   "note": "The convolution theorem is proved over the reals for every length; the error is an explicit function of the magnitudes, of the table error and of the format."
  },
  {
   "property": "C158",
   "status": "proved",
   "theorems": [
    "C158_sin_fixed",
    "C158_sin_f32",
    "C158_sin_f64",
    "C158_no_further"
   ],
   "note": ""
  },
  {
   "property": "C159",
   "status": "proved",
   "theorems": [
    "C159_two_pass_fixed",
    "C159_same_fixed",
    "C159_sign_float",
    "C159_two_pass_float",
    "C159_one_pass_fixed",
    "C159_one_pass_f32",
    "C159_one_pass_f64"
   ],
   "note": ""
  },
  {
   "property": "C16",
   "status": "proved",
   "theorems": [
    "C16_fixed_powi"
   ],
   "note": "All supported formats, both profiles."
  },
  {
   "property": "C160",
   "status": "proved",
   "theorems": [
    "C160_poly_fixed",
    "C160_arg_fixed",
    "C160_poly_f32",
    "C160_poly_f64",
    "C160_arg_float"
   ],
   "note": ""
  },
  {
   "property": "C161",
   "status": "proved",
   "theorems": [
    "C161_fixed",
    "C161_float",
    "C161_near_zero_fixed"
   ],
   "note": ""
  },
  {
   "property": "C162",
   "status": "proved",
   "theorems": [
    "C162_deviation_fixed",
    "C162_rms_fixed",
    "C162_deviation_float",
    "C162_rms_float"
   ],
   "note": ""
  },
  {
   "property": "C163",
   "status": "proved",
   "theorems": [
    "C163_fixed",
    "C163_float",
    "C163_symbols_fixed",
    "C163_symbols_float"
   ],
   "note": ""
  },
  {
   "property": "C164",
   "status": "proved",
   "theorems": [
    "C164_fixed",
    "C164_float",
    "C164_agree",
    "C164_rewrite",
    "C164_wide",
    "C164_int_debug",
    "C164_int_release"
   ],
   "note": ""
  },
  {
   "property": "C165",
   "status": "proved",
   "theorems": [
    "C165_fixed",
    "C165_float",
    "C165_agree",
    "C165_rewrite",
    "C165_wide",
    "C165_int_release",
    "C165_int_debug"
   ],
   "note": ""
  },
  {
   "property": "C166",
   "status": "proved",
   "theorems": [
    "C166_fixed",
    "C166_f32",
    "C166_f64",
    "C166_wide"
   ],
   "note": ""
  },
  {
   "property": "C167",
   "status": "proved",
   "theorems": [
    "C167_fixed",
    "C167_float",
    "C167_settles_fixed",
    "C167_settles_float"
   ],
   "note": ""
  },
  {
   "property": "C168",
   "status": "proved",
   "theorems": [
    "C168_unsigned",
    "C168_underflow"
   ],
   "note": ""
  },
  {
   "property": "C169",
   "status": "proved",
   "theorems": [
    "C169_fixed",
    "C169_float",
    "C169_settles_fixed",
    "C169_settles_float",
    "C169_forgets"
   ],
   "note": ""
  },
  {
   "property": "C17",
   "status": "partial",
   "theorems": [
    "C17_negative_powi_refuted",
    "C17_negative_exponent_iff",
    "C17_negative_fixed_partial",
    "C17_negative_integral"
   ],
   "note": "REFUTED: the code violates the property on integer and fixed types (a negative exponent is reinterpreted as a huge positive one). Exact behaviour proved: integers in both builds; fixed point for every value in the checked build and for |x| <= 1 and every integral value in the unchecked one."
  },
  {
   "property": "C170",
   "status": "proved",
   "theorems": [
    "C170_real_fixed",
    "C170_complex_fixed",
    "C170_real_float",
    "C170_complex_float"
   ],
   "note": "Complex division is left out (see the claims about it); the quotient can be written out with the operations covered."
  },
  {
   "property": "C171",
   "status": "proved",
   "theorems": [
    "C171_fixed",
    "C171_float",
    "C171_settles_fixed",
    "C171_settles_float"
   ],
   "note": ""
  },
  {
   "property": "C172",
   "status": "proved",
   "theorems": [
    "C172_fixed",
    "C172_float"
   ],
   "note": ""
  },
  {
   "property": "C173",
   "status": "proved",
   "theorems": [
    "C173_fixed",
    "C173_float"
   ],
   "note": ""
  },
  {
   "property": "C174",
   "status": "proved",
   "theorems": [
    "C174_formulas",
    "C174_loops",
    "C174_chains",
    "C174_int_release",
    "C174_int_wide"
   ],
   "note": ""
  },
  {
   "property": "C175",
   "status": "proved",
   "theorems": [
    "C175_pair_float",
    "C175_sum_float",
    "C175_fixed",
    "C175_int"
   ],
   "note": ""
  },
  {
   "property": "C176",
   "status": "proved",
   "theorems": [
    "C176_pair_float",
    "C176_dot_float",
    "C176_fixed",
    "C176_int"
   ],
   "note": ""
  },
  {
   "property": "C177",
   "status": "partial",
   "theorems": [
    "C177_parts_refuted",
    "C177_compensated_partial"
   ],
   "note": "REFUTED for the operator: cancellation can lose a part altogether. The _partial theorem gives the bound for a product the user writes with compensated dot products; C84 gives the operator's own bound."
  },
  {
   "property": "C178",
   "status": "partial",
   "theorems": [
    "C178_product_float",
    "C178_turn_float",
    "C178_product_fixed_partial",
    "C178_turn_fixed_partial",
    "C178_turn_refuted",
    "C178_sign_fixed_iff"
   ],
   "note": "REFUTED for the imaginary part in fixed point; floats and the fixed-point real part are proved in full, and the _partial theorems give the exact extent of the failure."
  },
  {
   "property": "C179",
   "status": "partial",
   "theorems": [
    "C179_difference_float_partial",
    "C179_difference_float_refuted",
    "C179_difference_fixed_partial",
    "C179_difference_fixed_refuted",
    "C179_products_float",
    "C179_products_fixed",
    "C179_difference_int_partial",
    "C179_products_int"
   ],
   "note": "REFUTED for differences of equal infinities and for fixed-point differences that do not fit; the _partial theorems show that these are the only exceptions. Products are proved in full."
  },
  {
   "property": "C18",
   "status": "proved",
   "theorems": [
    "C18_float_powi"
   ],
   "note": "f32 and f64."
  },
  {
   "property": "C180",
   "status": "partial",
   "theorems": [
    "C180_fixed",
    "C180_int",
    "C180_peak_float",
    "C180_clamp_float",
    "C180_sort_float_partial",
    "C180_sort_float_refuted"
   ],
   "note": "REFUTED only for sorting floats with a NaN among them; everything else is proved in full."
  },
  {
   "property": "C181",
   "status": "partial",
   "theorems": [
    "C181_fixed_partial",
    "C181_int_partial",
    "C181_fixed_refuted",
    "C181_float",
    "C181_float_nan"
   ],
   "note": "REFUTED in fixed point when the limits leave no room for one more input; with that room, and on floats, proved in full."
  },
  {
   "property": "C182",
   "status": "partial",
   "theorems": [
    "C182_fixed_partial",
    "C182_fixed_refuted",
    "C182_float_partial"
   ],
   "note": "REFUTED as an exact maximum (C182_fixed_refuted); the _partial theorems bound by how much another sample can be stronger."
  },
  {
   "property": "C183",
   "status": "proved",
   "theorems": [
    "C183_fixed",
    "C183_int",
    "C183_arrival",
    "C183_unsigned"
   ],
   "note": ""
  },
  {
   "property": "C184",
   "status": "partial",
   "theorems": [
    "C184_fixed",
    "C184_int",
    "C184_spike_float_partial",
    "C184_edge_float",
    "C184_nan_refuted"
   ],
   "note": "REFUTED only for a NaN in the middle of the window; everything else is proved in full."
  },
  {
   "property": "C19",
   "status": "proved",
   "theorems": [
    "C19_sin_fixed"
   ],
   "note": ""
  },
  {
   "property": "C20",
   "status": "partial",
   "theorems": [
    "C20_sin_panics_refuted",
    "C20_sin_total_partial"
   ],
   "note": "REFUTED: every call panics in debug with fewer than 20 integer bits, and in release with at most 7; all other formats are shown panic-free."
  },
  {
   "property": "C21",
   "status": "proved",
   "theorems": [
    "C21_cos_fixed"
   ],
   "note": ""
  },
  {
   "property": "C22",
   "status": "proved",
   "theorems": [
    "C22_sin_f32",
    "C22_sin_f64"
   ],
   "note": ""
  },
  {
   "property": "C23",
   "status": "proved",
   "theorems": [
    "C23_axes_fixed",
    "C23_axes_float"
   ],
   "note": ""
  },
  {
   "property": "C24",
   "status": "proved",
   "theorems": [
    "C24_atan2_fixed",
    "C24_atan2_debug"
   ],
   "note": ""
  },
  {
   "property": "C25",
   "status": "partial",
   "theorems": [
    "C25_small_panics_refuted",
    "C25_small_total_partial"
   ],
   "note": "REFUTED: for every signed format with a fraction bit, two non-zero coordinates whose larger one squares to less than one ulp are divided by zero. The partial theorem is the exact characterisation: every other pair of magnitude at most one returns."
  },
  {
   "property": "C26",
   "status": "partial",
   "theorems": [
    "C26_accuracy_fixed_refuted",
    "C26_accuracy_float_refuted",
    "C26_documented_fixed_partial",
    "C26_documented_f32_partial",
    "C26_documented_f64_partial"
   ],
   "note": "REFUTED: at y = x = 1 the error exceeds the documented 0.028 degrees on every signed format with at least eight fraction bits and on both float types. The documented bound holds where the smaller coordinate is at most 0.21 of the larger (the _partial theorems). The true bound, 0.282 degrees, is C24 and C55."
  },
  {
   "property": "C27",
   "status": "proved",
   "theorems": [
    "C27_odd_float",
    "C27_quadrant_f32",
    "C27_quadrant_f64",
    "C27_infinite"
   ],
   "note": ""
  },
  {
   "property": "C28",
   "status": "partial",
   "theorems": [
    "C28_tiny_nan_refuted",
    "C28_nan_iff_f32_partial",
    "C28_nan_iff_f64_partial",
    "C28_defined_partial"
   ],
   "note": "REFUTED: every pair of non-zero coordinates below 2^-75 (f32) or 2^-538 (f64) gives NaN. The iff theorems give the exact set of finite arguments with a NaN result (square of the larger magnitude underflows, or the product overflows); every other result is finite."
  },
  {
   "property": "C29",
   "status": "proved",
   "theorems": [
    "C29_add_sub"
   ],
   "note": "All integer and fixed component types, both profiles."
  },
  {
   "property": "C30",
   "status": "partial",
   "theorems": [
    "C30_compound_assign_refuted",
    "C30_compound_assign_iff_partial",
    "C30_assign_iff_partial",
    "C30_assign_float_partial"
   ],
   "note": "REFUTED: the code violates the property (imaginary part is computed from the new real part). Exact condition for agreement proved."
  },
  {
   "property": "C31",
   "status": "partial",
   "theorems": [
    "C31_accumulate_refuted",
    "C31_history_partial",
    "C31_history_any_partial"
   ],
   "note": "REFUTED, same root cause as C30. Closed form of any history proved; the property holds for the real part."
  },
  {
   "property": "C32",
   "status": "proved",
   "theorems": [
    "C32_scalar_int",
    "C32_scalar_fixed",
    "C32_scalar_generic",
    "C32_scalar_iff"
   ],
   "note": ""
  },
  {
   "property": "C33",
   "status": "proved",
   "theorems": [
    "C33_mul_int",
    "C33_mul_ring",
    "C33_mul_fixed",
    "C33_mul_comm",
    "C33_mul_int_debug",
    "C33_mul_fixed_debug",
    "C33_mul_fixed_room"
   ],
   "note": ""
  },
  {
   "property": "C34",
   "status": "proved",
   "theorems": [
    "C34_conj_word",
    "C34_conj_fixed",
    "C34_conj_homomorphism",
    "C34_conj_float"
   ],
   "note": "On floats a zero imaginary part may differ in sign."
  },
  {
   "property": "C35",
   "status": "partial",
   "theorems": [
    "C35_div_refuted",
    "C35_div_partial",
    "C35_div_ignores_im",
    "C35_div_imaginary_fixed",
    "C35_div_fixed_partial",
    "C35_div_float_partial",
    "C35_div_float_refuted"
   ],
   "note": "REFUTED: the code violates the property (the divisor's real part is used for its imaginary part). Exact behaviour proved."
  },
  {
   "property": "C36",
   "status": "partial",
   "theorems": [
    "C36_div_zero",
    "C36_div_assign_zero_refuted",
    "C36_div_zero_float",
    "C36_div_assign_zero_float_refuted"
   ],
   "note": "REFUTED for /=: it panics (integers, fixed) or gives infinities (floats) on every type. The binary operator and the functions are proved."
  },
  {
   "property": "C37",
   "status": "partial",
   "theorems": [
    "C37_div_scalar_refuted",
    "C37_div_scalar_partial"
   ],
   "note": "REFUTED: the zero test is done before a lossy conversion. Exact condition proved; integer scalars are safe in debug."
  },
  {
   "property": "C38",
   "status": "proved",
   "theorems": [
    "C38_polar_mul_word",
    "C38_polar_one",
    "C38_polar_mul_f64",
    "C38_polar_mul_float",
    "C38_polar_one_float",
    "C38_scale"
   ],
   "note": ""
  },
  {
   "property": "C39",
   "status": "proved",
   "theorems": [
    "C39_to_cartesian_periodic"
   ],
   "note": "For any sine/cosine routine."
  },
  {
   "property": "C40",
   "status": "proved",
   "theorems": [
    "C40_same_everywhere",
    "C40_symmetric_fixed",
    "C40_symmetric_float",
    "C40_accuracy_fixed",
    "C40_overflow_fixed",
    "C40_zero_fixed"
   ],
   "note": "Integer types have no square root in the API, so no magnitude."
  },
  {
   "property": "C41",
   "status": "proved",
   "theorems": [
    "C41_int_conversions"
   ],
   "note": ""
  },
  {
   "property": "C42",
   "status": "proved",
   "theorems": [
    "C42_float_to_fixed",
    "C42_fixed_to_float",
    "C42_fixed_roundtrip",
    "C42_float_widening",
    "C42_float_narrowing"
   ],
   "note": ""
  },
  {
   "property": "C43",
   "status": "partial",
   "theorems": [
    "C43_to_int_rounding_refuted",
    "C43_to_int_partial"
   ],
   "note": "REFUTED: fixed types round down, floats truncate, so every negative non-integral value differs. The partial theorem shows they agree exactly on non-negative and integral values."
  },
  {
   "property": "C44",
   "status": "proved",
   "theorems": [
    "C44_complex_conv"
   ],
   "note": "For any pair of component types."
  },
  {
   "property": "C45",
   "status": "proved",
   "theorems": [
    "C45_text",
    "C45_unambiguous",
    "C45_unambiguous_any_digits",
    "C45_unambiguous_fixed"
   ],
   "note": ""
  },
  {
   "property": "C46",
   "status": "partial",
   "theorems": [
    "C46_display_panics_refuted",
    "C46_int_panics_iff_partial",
    "C46_fixed_panics_iff_partial",
    "C46_release_minimum"
   ],
   "note": "REFUTED: a minimum component panics in debug builds (0 - MIN overflows) and prints two signs in release builds. The iff theorems show nothing else panics."
  },
  {
   "property": "C47",
   "status": "proved",
   "theorems": [
    "C47_db_f64",
    "C47_db_f32"
   ],
   "note": "For any log10/exp10."
  },
  {
   "property": "C48",
   "status": "proved",
   "theorems": [
    "C48_cartesian_order",
    "C48_polar_order",
    "C48_default_zero",
    "C48_cartesian_order_float",
    "C48_polar_order_float",
    "C48_default_zero_float"
   ],
   "note": ""
  },
  {
   "property": "C49",
   "status": "proved",
   "theorems": [
    "C49_exp_value",
    "C49_exp_conj",
    "C49_exp_fixed"
   ],
   "note": "For any sine/cosine/exp routines; accuracy for routines of stated accuracy."
  },
  {
   "property": "C50",
   "status": "proved",
   "theorems": [
    "C50_pi_fixed",
    "C50_pi_float",
    "C50_unit_int",
    "C50_unit_fixed",
    "C50_unit_float"
   ],
   "note": ""
  },
  {
   "property": "C51",
   "status": "proved",
   "theorems": [
    "C51_profile_scalar_int",
    "C51_profile_scalar_fixed",
    "C51_profile_niirf",
    "C51_profile_complex_int",
    "C51_profile_complex_fixed",
    "C51_profile_external",
    "C51_profile_display",
    "C51_profile_converse_refuted"
   ],
   "note": "The converse is refuted by C51_profile_converse_refuted."
  },
  {
   "property": "C52",
   "status": "proved",
   "theorems": [
    "C52_three_iterations",
    "C52_three_iterations_f32",
    "C52_three_iterations_f64"
   ],
   "note": ""
  },
  {
   "property": "C53",
   "status": "proved",
   "theorems": [
    "C53_no_fraction",
    "C53_one_fraction_bit"
   ],
   "note": ""
  },
  {
   "property": "C54",
   "status": "proved",
   "theorems": [
    "C54_cos_f32",
    "C54_cos_f64"
   ],
   "note": ""
  },
  {
   "property": "C55",
   "status": "proved",
   "theorems": [
    "C55_atan2_f32",
    "C55_atan2_f64"
   ],
   "note": ""
  },
  {
   "property": "C56",
   "status": "proved",
   "theorems": [
    "C56_atan_fixed",
    "C56_atan_float"
   ],
   "note": ""
  },
  {
   "property": "C57",
   "status": "partial",
   "theorems": [
    "C57_nan_lost_refuted",
    "C57_nan_kept_partial"
   ],
   "note": "REFUTED: atan2_poly(0, NaN) = 0 and atan2_poly(NaN, 0) = pi/2. A NaN beside anything but a zero gives NaN."
  },
  {
   "property": "C58",
   "status": "proved",
   "theorems": [
    "C58_int_fixed",
    "C58_fixed_to_int",
    "C58_int_float",
    "C58_float_to_int",
    "C58_int_rounds",
    "C58_int_side"
   ],
   "note": ""
  },
  {
   "property": "C59",
   "status": "proved",
   "theorems": [
    "C59_accuracy_float"
   ],
   "note": "The platform square root is a parameter, assumed correctly rounded by an explicit hypothesis."
  },
  {
   "property": "C60",
   "status": "partial",
   "theorems": [
    "C60_float_overflow_refuted",
    "C60_float_underflow_refuted",
    "C60_fixed_underflow_refuted",
    "C60_fixed_zero_iff_partial",
    "C60_float_iff_f32_partial",
    "C60_float_iff_f64_partial"
   ],
   "note": "REFUTED: |z| is computed as sqrt(re^2+im^2) without scaling, so f32 components from 2^64 give infinity, components up to 2^-76 give zero, and fixed components below the square root of an ulp give zero. C40_accuracy_fixed and C59_accuracy_float give the region where it holds."
  },
  {
   "property": "C61",
   "status": "partial",
   "theorems": [
    "C61_two_signs_refuted",
    "C61_text_partial",
    "C61_fneg"
   ],
   "note": "REFUTED: a negative zero imaginary part prints as +-0i. The partial theorem gives the text for every other float."
  },
  {
   "property": "C62",
   "status": "proved",
   "theorems": [
    "C62_polar_unambiguous",
    "C62_polar_unambiguous_int"
   ],
   "note": ""
  },
  {
   "property": "C63",
   "status": "proved",
   "theorems": [
    "C63_to_cartesian_fixed"
   ],
   "note": "For any sine/cosine routine of stated accuracy d."
  },
  {
   "property": "C64",
   "status": "proved",
   "theorems": [
    "C64_roundtrip_fixed",
    "C64_roundtrip_zero"
   ],
   "note": "For any sine/cosine and arctangent routines of stated accuracy."
  },
  {
   "property": "C65",
   "status": "proved",
   "theorems": [
    "C65_polar_conj_fixed",
    "C65_polar_conj_float",
    "C65_polar_conj_cartesian",
    "C65_cartesian_conj_polar"
   ],
   "note": ""
  },
  {
   "property": "C66",
   "status": "proved",
   "theorems": [
    "C66_mul_polar_fixed",
    "C66_mul_polar_assign",
    "C66_mul_polar_fixed_room"
   ],
   "note": ""
  },
  {
   "property": "C67",
   "status": "partial",
   "theorems": [
    "C67_powi_phase_refuted",
    "C67_powi_phase_over",
    "C67_powi_fixed_partial",
    "C67_powi_zero"
   ],
   "note": "REFUTED: powi multiplies the angle by n without reducing it, so a phase beyond the range of the format panics although the power is representable, e.g. (-1)^3 in FixedI32<U28>. The partial theorem bounds the error whenever the phase is representable."
  },
  {
   "property": "C68",
   "status": "proved",
   "theorems": [
    "C68_arg_fixed"
   ],
   "note": "For any arctangent routine of stated accuracy."
  },
  {
   "property": "C69",
   "status": "proved",
   "theorems": [
    "C69_div_scalar_int",
    "C69_div_scalar_fixed",
    "C69_div_same_fixed"
   ],
   "note": ""
  },
  {
   "property": "C70",
   "status": "proved",
   "theorems": [
    "C70_ident_int",
    "C70_ident_fixed",
    "C70_ident_float",
    "C70_embed_int",
    "C70_embed_fixed",
    "C70_mixed_abs",
    "C70_null_float",
    "C70_embed_float"
   ],
   "note": ""
  },
  {
   "property": "C71",
   "status": "partial",
   "theorems": [
    "C71_quadrant_refuted",
    "C71_quadrant_partial"
   ],
   "note": "REFUTED: near the origin the rounded quotient exceeds one, so atan2_poly(u,-u) > pi and atan2_poly(-u,u) > 0 for some u, in every signed format with at least 3 fractional bits. Holds as soon as the larger magnitude squares to 2 ulp."
  },
  {
   "property": "C72",
   "status": "partial",
   "theorems": [
    "C72_sin_exceeds_refuted",
    "C72_sin_bound_fixed_partial",
    "C72_sin_le_one_iff_partial",
    "C72_sin_bound_float_partial"
   ],
   "note": "REFUTED: sin(pi/2) exceeds 1 in every FixedI64 with 16 to 44 fractional bits. The bound holds exactly for the formats with at most six fractional bits (iff). The excess is at most 3.62e-6 + 4.05 ulp (fixed), 5e-6 (floats)."
  },
  {
   "property": "C73",
   "status": "partial",
   "theorems": [
    "C73_release_sin_refuted",
    "C73_release_sin_16_refuted",
    "C73_release_sin_partial",
    "C73_release_sin_8_partial",
    "C73_release_cos_partial",
    "C73_release_cos_zero_refuted",
    "C73_release_sin_8_refuted",
    "C19_sin_fixed"
   ],
   "note": "REFUTED: in release builds sin(pi/2) is off by more than 0.019 with 8 to 15 integer bits (1.451 in FixedI32<U22>) and by more than 0.0004 with 16 to 19 integer bits (64-bit types), because 9! wraps. The largest deviation is bounded, nearly sharply, for every format with 8 to 19 integer bits; with at least 20 integer bits the property holds (C19, either profile)."
  },
  {
   "property": "C74",
   "status": "proved",
   "theorems": [
    "C74_wrap_period_fixed"
   ],
   "note": ""
  },
  {
   "property": "C75",
   "status": "proved",
   "theorems": [
    "C75_extreme_int",
    "C75_extreme_fixed",
    "C75_extreme_float"
   ],
   "note": ""
  },
  {
   "property": "C76",
   "status": "proved",
   "theorems": [
    "C76_sum_release",
    "C76_sum_debug",
    "C76_sum_order",
    "C76_sum_quadrant"
   ],
   "note": ""
  },
  {
   "property": "C77",
   "status": "proved",
   "theorems": [
    "C77_radix_text",
    "C77_radix_unambiguous"
   ],
   "note": ""
  },
  {
   "property": "C78",
   "status": "proved",
   "theorems": [
    "C78_flags_radix",
    "C78_flags_decimal",
    "C78_width"
   ],
   "note": ""
  },
  {
   "property": "C79",
   "status": "proved",
   "theorems": [
    "C79_scale_up_fixed",
    "C79_scale_down_fixed",
    "C79_scale_f32",
    "C79_scale_f64"
   ],
   "note": ""
  },
  {
   "property": "C80",
   "status": "partial",
   "theorems": [
    "C80_monotone_refuted",
    "C80_monotone_partial",
    "C80_monotone_iff_partial"
   ],
   "note": "REFUTED: with 10 or more fractional bits the root of 1/2 is smaller than the root of the value just below it, because the update gain is looked up per sixteenth of the normalised range. Inside one sixteenth of [1/4,1) the order is kept up to one unit in the last place. The order is kept everywhere exactly by the formats with 0, 1 or 3 to 9 fractional bits (iff)."
  },
  {
   "property": "C81",
   "status": "partial",
   "theorems": [
    "C81_squares_fixed_refuted",
    "C81_frac2_refuted",
    "C81_squares_iff_partial",
    "C81_squares_f32_refuted",
    "C81_squares_f64_refuted"
   ],
   "note": "REFUTED: the root of every power of four is more than 0.07 % too large, on fixed formats with 11 or more fractional bits and on both float types; with two fractional bits it is half the true value. Roots of powers of four are exact exactly for 1 and 3 to 10 fractional bits (iff). C01 and C06 bound the error."
  },
  {
   "property": "C82",
   "status": "proved",
   "theorems": [
    "C82_positive",
    "C01_sqrt_zero"
   ],
   "note": ""
  },
  {
   "property": "C83",
   "status": "proved",
   "theorems": [
    "C83_convergence_fixed",
    "C83_convergence_f32",
    "C83_convergence_f64",
    "C83_convergence_fixed_all",
    "C83_convergence_tight_f32",
    "C83_convergence_tight_f64"
   ],
   "note": ""
  },
  {
   "property": "C84",
   "status": "proved",
   "theorems": [
    "C84_add_sub",
    "C84_mul",
    "C84_scalar"
   ],
   "note": ""
  },
  {
   "property": "C85",
   "status": "proved",
   "theorems": [
    "C85_wrap_f32",
    "C85_wrap_f64"
   ],
   "note": ""
  },
  {
   "property": "C86",
   "status": "proved",
   "theorems": [
    "C86_to_cartesian_f32",
    "C86_to_cartesian_f64"
   ],
   "note": "The sine/cosine routine is a parameter with stated accuracy (libm is not modelled)."
  },
  {
   "property": "C87",
   "status": "proved",
   "theorems": [
    "C87_round_trip_f32",
    "C87_round_trip_f64"
   ],
   "note": "The libm routines are parameters with stated accuracy."
  },
  {
   "property": "C88",
   "status": "proved",
   "theorems": [
    "C88_pythagoras_fixed",
    "C88_pythagoras_f32",
    "C88_pythagoras_f64"
   ],
   "note": ""
  },
  {
   "property": "C89",
   "status": "proved",
   "theorems": [
    "C89_polar_product_fixed",
    "C89_polar_product_f32",
    "C89_polar_product_f64"
   ],
   "note": "Sine/cosine routine (cordic or libm) is a parameter of stated accuracy."
  },
  {
   "property": "C90",
   "status": "proved",
   "theorems": [
    "C90_reflect_fixed",
    "C90_cos_even_fixed",
    "C90_reflect_f32",
    "C90_reflect_f64"
   ],
   "note": ""
  },
  {
   "property": "C91",
   "status": "proved",
   "theorems": [
    "C91_sin_sign",
    "C91_sin_odd"
   ],
   "note": ""
  },
  {
   "property": "C92",
   "status": "proved",
   "theorems": [
    "C92_mag_special"
   ],
   "note": ""
  },
  {
   "property": "C93",
   "status": "proved",
   "theorems": [
    "C93_sin_rel_f32",
    "C93_sin_rel_f64"
   ],
   "note": ""
  },
  {
   "property": "C94",
   "status": "partial",
   "theorems": [
    "C94_large_refuted",
    "C94_debug_iff_partial",
    "C24_atan2_debug"
   ],
   "note": "REFUTED: in every signed format the point (y,x) = (1, 2^(I-1)-1), I integer bits, panics in debug builds and is off by more than one radian in release builds, because the squares overflow. The iff theorem gives the exact outcome of every debug call."
  },
  {
   "property": "C95",
   "status": "proved",
   "theorems": [
    "C95_powi_fixed"
   ],
   "note": ""
  },
  {
   "property": "C96",
   "status": "proved",
   "theorems": [
    "C96_powi_float",
    "C96_powi_neg_float"
   ],
   "note": ""
  },
  {
   "property": "C97",
   "status": "proved",
   "theorems": [
    "C97_sum_float"
   ],
   "note": ""
  },
  {
   "property": "C98",
   "status": "proved",
   "theorems": [
    "C98_mac_fixed"
   ],
   "note": ""
  },
  {
   "property": "C99",
   "status": "proved",
   "theorems": [
    "C99_spellings",
    "C99_polar_eq",
    "C99_div_int"
   ],
   "note": ""
  }
 ]
}