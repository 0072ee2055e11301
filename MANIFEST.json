{
 "claims": [
  {
   "property": "C01",
   "status": "proved",
   "theorems": [
    "C01_div_unsigned_int",
    "C01_div_unsigned_int_3arg"
   ],
   "note": "Four- and three-argument forms, all widths."
  },
  {
   "property": "C02",
   "status": "proved",
   "theorems": [
    "C02_div_zero_unsigned",
    "C02_div_zero_unsigned_3arg",
    "C02_div_zero_signed",
    "C02_div_zero_signed_3arg"
   ],
   "note": "All four integer overloads."
  },
  {
   "property": "C03",
   "status": "proved",
   "theorems": [
    "C03_div_signed_int",
    "C03_div_signed_int_3arg"
   ],
   "note": "Quotient and remainder, both overloads, all widths, extreme operands included."
  },
  {
   "property": "C04",
   "status": "partial",
   "theorems": [
    "C04_div_unsigned_fixed",
    "C05_div_output_written_refuted"
   ],
   "note": "Every format and mode for which the output is written; the remaining formats take the early return (C05)."
  },
  {
   "property": "C05",
   "status": "partial",
   "theorems": [
    "C05_div_output_written_refuted",
    "C05_div_output_written_iff"
   ],
   "note": "False: refuted for the formats that take the early return; the iff theorem shows it holds for exactly the others."
  },
  {
   "property": "C06",
   "status": "partial",
   "theorems": [
    "C06_div_signed_fixed",
    "C06_div_signed_stale_refuted"
   ],
   "note": "All modes and formats except AC_WRAP outputs that reach the early return of the unsigned overload, where an uninitialised local reaches the result (refuted)."
  },
  {
   "property": "C07",
   "status": "proved",
   "theorems": [
    "C07_div_v2_unsigned",
    "C07_div_v2_rejects",
    "C07_bound_needed"
   ],
   "note": "Also: exactly the out-of-range divisors are rejected, and the bound is necessary."
  },
  {
   "property": "C08",
   "status": "proved",
   "theorems": [
    "C08_div_v2_signed",
    "C08_div_v2_signed_rejects"
   ],
   "note": "All widths; extreme operands included."
  },
  {
   "property": "C09",
   "status": "proved",
   "theorems": [
    "C09_shift_right_unsigned_int",
    "C09_shift_right_unsigned_uint"
   ],
   "note": "Both overloads, all formats, modes, counts (unsigned count below 2^31; see C13)."
  },
  {
   "property": "C10",
   "status": "proved",
   "theorems": [
    "C10_shift_right_signed_int",
    "C10_shift_right_signed_uint"
   ],
   "note": "Both overloads, all formats, modes, counts (unsigned count below 2^31; see C13)."
  },
  {
   "property": "C100",
   "status": "proved",
   "theorems": [
    "C100_reciprocal_float_accuracy"
   ],
   "note": "all non-zero numbers, all formats of at least two bits"
  },
  {
   "property": "C101",
   "status": "partial",
   "theorems": [
    "C101_div_float_correct",
    "C101_div_float_min_refuted",
    "C101_div_float_precision_refuted"
   ],
   "note": "rounding and flag proved for all but one pair of mantissas; that pair wraps and is reported as exact (refuted); the number of fraction bits can lose all precision (refuted)"
  },
  {
   "property": "C102",
   "status": "proved",
   "theorems": [
    "C102_reciprocal_complex_accuracy",
    "C102_reciprocal_complex_zero"
   ],
   "note": "For every width of mag_sqr's result that holds a^2 + b^2."
  },
  {
   "property": "C103",
   "status": "partial",
   "theorems": [
    "C103_sqrt_complex_accuracy",
    "C103_sqrt_complex_zero",
    "C103_sqrt_complex_of_real_refuted"
   ],
   "note": "Accuracy, signs and zero proved; the root of a positive real number is not real (refuted)."
  },
  {
   "property": "C104",
   "status": "partial",
   "theorems": [
    "C104_inverse_sqrt_complex_accuracy",
    "C104_inverse_sqrt_complex_zero",
    "C104_inverse_sqrt_complex_zero_refuted"
   ],
   "note": "Accuracy and branch proved; for zero the imaginary part is the largest number as well (refuted)."
  },
  {
   "property": "C105",
   "status": "proved",
   "theorems": [
    "C105_sincos_float_accuracy"
   ],
   "note": "The argument is any mantissa and exponent; modelled up to the constructor of the output type."
  },
  {
   "property": "C106",
   "status": "partial",
   "theorems": [
    "C106_arcsin_float_accuracy",
    "C106_arccos_float_accuracy",
    "C106_arc_float_absolute_error",
    "C106_arcsin_float_precision_refuted"
   ],
   "note": "False as stated: the argument is rounded to 18 fraction bits, so small arguments give zero. Proved: the result is that of a number in [-1,1] within 2^-19 of x, to 5*2^-30, hence within 2^-10 + 5*2^-30 of the exact one."
  },
  {
   "property": "C107",
   "status": "proved",
   "theorems": [
    "C107_reciprocal_ha_float_accuracy",
    "C107_reciprocal_vha_float_accuracy"
   ],
   "note": "For every mantissa and exponent; modelled up to the constructor of the output type."
  },
  {
   "property": "C108",
   "status": "proved",
   "theorems": [
    "C108_inverse_sqrt_vha_float_accuracy"
   ],
   "note": "For every positive mantissa and exponent; modelled up to the constructor of the output type."
  },
  {
   "property": "C109",
   "status": "proved",
   "theorems": [
    "C109_reciprocal_ha_complex_accuracy",
    "C109_reciprocal_vha_complex_accuracy",
    "C109_reciprocal_complex_zero"
   ],
   "note": "mag_sqr's width is a parameter; it must hold the sum."
  },
  {
   "property": "C11",
   "status": "proved",
   "theorems": [
    "C11_shift_left_unsigned_int",
    "C11_shift_left_unsigned_uint"
   ],
   "note": "Both overloads, all formats, modes and counts."
  },
  {
   "property": "C110",
   "status": "partial",
   "theorems": [
    "C110_inverse_sqrt_vha_complex_accuracy",
    "C110_inverse_sqrt_vha_complex_zero",
    "C110_inverse_sqrt_vha_complex_refuted"
   ],
   "note": "False as stated: the function uses ac_sqrt_pwl, whose smaller part is off by up to 2.5 percent. Proved: 2.59 percent for both parts, 0.22 percent for the larger, and the principal branch."
  },
  {
   "property": "C111",
   "status": "proved",
   "theorems": [
    "C111_complex_matrixmul_exact",
    "C111_product_type"
   ],
   "note": "Exact for every product type that holds all products (ac_types chooses it; its width is a hypothesis, and the theorem on the type shows which widths suffice)."
  },
  {
   "property": "C112",
   "status": "partial",
   "theorems": [
    "C112_complex_determinant_any_types",
    "C112_complex_determinant_bounded",
    "C112_complex_determinant_2",
    "C112_complex_determinant_2_refuted"
   ],
   "note": "False as stated: the internal type has M*W bits, too few already for 2 x 2 at every element width (refuted). Proved: exact at every size whenever the internal types hold the minors (default types under a bound on the elements, and overridden types), and for all signed 2 x 2 matrices whose determinant fits in 2W bits."
  },
  {
   "property": "C113",
   "status": "proved",
   "theorems": [
    "C113_complex_abs_accuracy",
    "C113_complex_abs_zero",
    "C113_complex_abs_increasing"
   ],
   "note": "ac_types' mag_sqr is trusted to be a^2 + b^2 in an unsigned type of some width MW that holds it; ac_sqrt_pwl accepts unsigned outputs only."
  },
  {
   "property": "C114",
   "status": "proved",
   "theorems": [
    "C114_atan_float_accuracy",
    "C114_atan_ha_float_accuracy",
    "C114_atan_vha_float_accuracy",
    "C114_atan_float_wide"
   ],
   "note": "Up to the ac_float constructor of the output. The assignment to the local ac_float is a parameter with error d; the last theorem instantiates it with truncation to the mantissa's width."
  },
  {
   "property": "C115",
   "status": "proved",
   "theorems": [
    "C115_complex_chol_structure",
    "C115_complex_chol_no_uninitialised",
    "C115_complex_chol_real"
   ],
   "note": "Every size, format and content. The model is ac_chol_d on ac_complex<ac_fixed> matrices."
  },
  {
   "property": "C116",
   "status": "proved",
   "theorems": [
    "C116_complex_chol_reconstruction",
    "C116_complex_chol_reconstruction_pwl"
   ],
   "note": "With the exact division and square root, and with use_pwl = true; the room and error bounds are those of C43/C60 for real matrices, read on the real and imaginary parts."
  },
  {
   "property": "C117",
   "status": "partial",
   "theorems": [
    "C117_complex_chol_rejection_partial",
    "C117_complex_chol_rejection_refuted"
   ],
   "note": "Proved for matrices with a direction in which the quadratic form is below minus the error bound times the squared 1-norm. False in general: a Hermitian matrix that is not positive semidefinite, by less than the rounding of the internal type, is accepted."
  },
  {
   "property": "C118",
   "status": "proved",
   "theorems": [
    "C118_complex_cholinv_structure",
    "C118_complex_cholinv_uninitialised",
    "C118_complex_cholinv_real"
   ],
   "note": "Every size, format and content, and both reciprocals; equality with the real overload for use_pwl2 = false."
  },
  {
   "property": "C119",
   "status": "proved",
   "theorems": [
    "C119_complex_cholinv_inverse"
   ],
   "note": "use_pwl1 = use_pwl2 = false. The condition that the diagonal of the result stays below g is on the output, so the caller can check it; it also excludes rejected matrices."
  },
  {
   "property": "C12",
   "status": "partial",
   "theorems": [
    "C12_shift_left_signed_int",
    "C12_shift_left_signed_uint_partial",
    "C12_shift_left_signed_uint_refuted"
   ],
   "note": "int count: full. unsigned count: false for AC_WRAP outputs with sign-dependent rounding (refuted), proved for all other output types."
  },
  {
   "property": "C120",
   "status": "partial",
   "theorems": [
    "C120_complex_cholinv_hermitian_partial",
    "C120_complex_cholinv_hermitian_refuted",
    "C120_complex_cholinv_zero_refuted"
   ],
   "note": "Hermitian for signed formats with AC_SAT_SYM and a rounding mode symmetric under negation (AC_TRN_ZERO, AC_RND_ZERO, AC_RND_INF, AC_RND_CONV, AC_RND_CONV_ODD). Refuted for the default AC_RND and AC_SAT. Zeros for matrices that are not positive definite: refuted, the zeros of ac_chol_d turn into the largest values."
  },
  {
   "property": "C121",
   "status": "partial",
   "theorems": [
    "C121_complex_qrd_reconstruction_partial",
    "C121_complex_qrd_2x2_pivots",
    "C121_complex_qrd_defined",
    "C121_complex_qrd_reconstruction_refuted"
   ],
   "note": "Both with the piecewise-linear functions, the default, and with the exact ones. Proved where no rotation meets a pair of elements shorter than nu; for 2 x 2 matrices that follows from the length of the first column. Refuted for all matrices: the 3 x 3 identity."
  },
  {
   "property": "C122",
   "status": "partial",
   "theorems": [
    "C122_complex_qrd_real_diagonal_partial",
    "C122_complex_qrd_real_corner",
    "C122_complex_qrd_real_unitary_refuted"
   ],
   "note": "Both with the piecewise-linear functions and with the exact ones. Proved where also the bottom right element is not shorter than nu; the bottom right element is real and the rest unchanged for every matrix. Unitarity refuted for singular matrices."
  },
  {
   "property": "C123",
   "status": "proved",
   "theorems": [
    "C123_complex_qrd_real_matrix"
   ],
   "note": ""
  },
  {
   "property": "C124",
   "status": "proved",
   "theorems": [
    "C124_random_float_stored",
    "C124_random_float_reachable",
    "C124_random_float_value",
    "C124_random_reads"
   ],
   "note": ""
  },
  {
   "property": "C125",
   "status": "partial",
   "theorems": [
    "C125_shift_right_complex_partial",
    "C125_shift_left_complex_partial",
    "C125_shift_right_complex_refuted",
    "C125_shift_left_complex_refuted"
   ],
   "note": "Right: proved for counts below 2^31, refuted above (as C13). Left: proved except for signed wrapping outputs with AC_TRN_ZERO, AC_RND_ZERO and AC_RND_INF, where it is refuted (as C12)."
  },
  {
   "property": "C126",
   "status": "proved",
   "theorems": [
    "C126_chol_float_structure"
   ],
   "note": "The arithmetic of ac_float is a parameter of the model: the theorem holds for any."
  },
  {
   "property": "C127",
   "status": "proved",
   "theorems": [
    "C127_chol_float_reconstruction",
    "C127_chol_float_backward"
   ],
   "note": "The relative errors of the arithmetic of ac_float and of the called functions are hypotheses on the operations of the run; an arithmetic that meets them is exhibited."
  },
  {
   "property": "C128",
   "status": "proved",
   "theorems": [
    "C128_reciprocal_complex_float_accuracy",
    "C128_reciprocal_complex_float_zero"
   ],
   "note": "The arithmetic of ac_float is a parameter; its relative errors are hypotheses on the operations performed. For e see C100 and C107. An arithmetic that meets them is exhibited."
  },
  {
   "property": "C129",
   "status": "proved",
   "theorems": [
    "C129_chol_float_definite"
   ],
   "note": "Under the relative errors of C127; matrices within the margin rho of being semidefinite may be accepted or rejected."
  },
  {
   "property": "C13",
   "status": "partial",
   "theorems": [
    "C13_shift_right_unsigned_refuted",
    "C13_shift_right_signed_refuted",
    "C09_shift_right_unsigned_uint",
    "C10_shift_right_signed_uint"
   ],
   "note": "False: counts of 2^31 and above are masked to 31 bits (refuted for both signednesses). Holds for counts below 2^31."
  },
  {
   "property": "C14",
   "status": "proved",
   "theorems": [
    "C14_sqrt_int"
   ],
   "note": ""
  },
  {
   "property": "C15",
   "status": "proved",
   "theorems": [
    "C15_sqrt_fixed"
   ],
   "note": "stdlib real axioms only"
  },
  {
   "property": "C16",
   "status": "proved",
   "theorems": [
    "C16_leading1",
    "C16_trailing1",
    "C16_leading0",
    "C16_trailing0"
   ],
   "note": ""
  },
  {
   "property": "C17",
   "status": "proved",
   "theorems": [
    "C17_leading1",
    "C17_trailing1",
    "C17_leading0",
    "C17_trailing0"
   ],
   "note": ""
  },
  {
   "property": "C18",
   "status": "partial",
   "theorems": [
    "C18_leading_ones_up_to_4",
    "C18_leading_ones_refuted"
   ],
   "note": "True for N <= 4 only; for every N >= 5 some one-hot input is reported at a wrong index."
  },
  {
   "property": "C19",
   "status": "partial",
   "theorems": [
    "C19_normalize_unsigned",
    "C19_normalize_signed",
    "C19_normalize_zero",
    "C19_sat_sym_refuted"
   ],
   "note": "True except for signed AC_SAT_SYM types holding a negative power of two, where the final assignment saturates -1.0."
  },
  {
   "property": "C20",
   "status": "partial",
   "theorems": [
    "C20_normalize_complex_unsigned",
    "C20_normalize_complex_signed",
    "C20_normalize_complex_zero",
    "C20_sat_sym_refuted"
   ],
   "note": "As C19: false only for signed AC_SAT_SYM with a part equal to a negative power of two."
  },
  {
   "property": "C21",
   "status": "proved",
   "theorems": [
    "C21_abs_int",
    "C21_abs_int_exact",
    "C21_abs_fixed"
   ],
   "note": ""
  },
  {
   "property": "C22",
   "status": "proved",
   "theorems": [
    "C22_barrel_shift"
   ],
   "note": ""
  },
  {
   "property": "C23",
   "status": "proved",
   "theorems": [
    "C23_relu",
    "C23_leakyrelu",
    "C23_prelu",
    "C23_relu_monotone",
    "C23_leakyrelu_monotone",
    "C23_prelu_monotone"
   ],
   "note": "prelu and leakyrelu share the arithmetic; one theorem each"
  },
  {
   "property": "C24",
   "status": "proved",
   "theorems": [
    "C24_history",
    "C24_out_of_range",
    "C24_set_1",
    "C24_set_2",
    "C24_set_3",
    "C24_fill",
    "C24_equal_1",
    "C24_equal_2",
    "C24_equal_3",
    "C24_not_equal"
   ],
   "note": "arrays of one, two and three dimensions"
  },
  {
   "property": "C25",
   "status": "partial",
   "theorems": [
    "C25_init_square",
    "C25_init_wide_refuted",
    "C25_init_tall_refuted"
   ],
   "note": "false as stated: true for square matrices, refuted for every M<N (writes outside the matrix) and every M>N (wrong element)"
  },
  {
   "property": "C26",
   "status": "partial",
   "theorems": [
    "C26_add",
    "C26_subtract",
    "C26_pwisemult",
    "C26_add_assign",
    "C26_sub_assign",
    "C26_scale",
    "C26_submatrix",
    "C26_transpose",
    "C26_transpose_involution",
    "C26_equal",
    "C26_not_equal",
    "C26_sum_wrapping",
    "C26_sum_exact",
    "C26_multiply_wrapping",
    "C26_multiply_exact",
    "C26_multiply_refuted",
    "C26_multiply_transpose"
   ],
   "note": "all operations proved except operator*, which is exact iff the inner dimension is not 2^k+1; refuted for every 2^k+1. sum in a saturating element type is proved when the sum of magnitudes fits"
  },
  {
   "property": "C27",
   "status": "proved",
   "theorems": [
    "C27_matrixmul",
    "C27_accumulator"
   ],
   "note": "ac_fixed elements; the complex overload is not modelled"
  },
  {
   "property": "C28",
   "status": "partial",
   "theorems": [
    "C28_determinant_small",
    "C28_determinant_bounded",
    "C28_determinant_any_types",
    "C28_unsigned_refuted",
    "C28_signed4_refuted",
    "C28_minor_precision_refuted"
   ],
   "note": "Proved for signed elements up to 3x3 with default types, and at every size under a bound that makes every minor fit. False in general: unsigned elements saturate at every size, signed 4x4 saturates, minors are rounded to the output type."
  },
  {
   "property": "C29",
   "status": "proved",
   "theorems": [
    "C29_det2",
    "C29_det3",
    "C29_det2_transpose",
    "C29_det3_transpose",
    "C29_det2_swap",
    "C29_det3_swap"
   ],
   "note": "against Leibniz' formula"
  },
  {
   "property": "C30",
   "status": "proved",
   "theorems": [
    "C30_add_tree",
    "C30_add_core",
    "C30_same_exponent"
   ],
   "note": "ac_float output: proved for the mantissa/exponent pair handed to ac_float's normalising constructor, which belongs to ac_types."
  },
  {
   "property": "C31",
   "status": "proved",
   "theorems": [
    "C31_block_add_tree"
   ],
   "note": ""
  },
  {
   "property": "C32",
   "status": "partial",
   "theorems": [
    "C32_fixed_result",
    "C32_float_float",
    "C32_fixed_result_flush",
    "C32_float_result",
    "C32_float_result_flush",
    "C32_float_result_zero",
    "C32_float_result_subnormal",
    "C32_zero_refuted"
   ],
   "note": "All four variants are proved: the fixed-point results are the exact product converted once, and the float result with subnormal support is the exact product truncated, saturated and gradually underflowing. Without subnormal support the same holds for normalised, non-zero operands. Refuted there: an unsigned zero of width 2^k-1 times a float at the largest exponent gives the largest float (ls_sum is one bit too narrow)."
  },
  {
   "property": "C33",
   "status": "proved",
   "theorems": [
    "C33_reciprocal_accuracy",
    "C33_reciprocal_zero"
   ],
   "note": "Relative error at most 0.2 % before the output conversion, over the reals; zero gives the largest output. Signed input with unsigned output approximates 1/|x|."
  },
  {
   "property": "C34",
   "status": "proved",
   "theorems": [
    "C34_reciprocal_odd",
    "C34_reciprocal_decreasing"
   ],
   "note": "Oddness exact before the output conversion; monotone for saturating outputs."
  },
  {
   "property": "C35",
   "status": "proved",
   "theorems": [
    "C35_sqrt_accuracy",
    "C35_sqrt_zero",
    "C35_sqrt_increasing"
   ],
   "note": "Relative error at most 0.12 % before the output conversion; monotone for saturating outputs; zero gives zero."
  },
  {
   "property": "C36",
   "status": "proved",
   "theorems": [
    "C36_inverse_sqrt_accuracy",
    "C36_inverse_sqrt_zero",
    "C36_inverse_sqrt_decreasing"
   ],
   "note": "Relative error at most 0.075 % before the output conversion; zero gives the largest output; also monotone."
  },
  {
   "property": "C37",
   "status": "proved",
   "theorems": [
    "C37_pow2_accuracy",
    "C37_pow2_increasing"
   ],
   "note": "Relative error at most 0.23 % before the output conversion, for inputs in [-2^31, 2^31) (the integer part is copied to an int); monotone for saturating outputs."
  },
  {
   "property": "C38",
   "status": "proved",
   "theorems": [
    "C38_log2_accuracy",
    "C38_log2_zero",
    "C38_log2_increasing"
   ],
   "note": "Absolute error at most 0.0015 before the output conversion; zero gives the smallest output; monotone for saturating outputs."
  },
  {
   "property": "C39",
   "status": "proved",
   "theorems": [
    "C39_sigmoid_total",
    "C39_sigmoid_range",
    "C39_sigmoid_symmetric",
    "C39_sigmoid_increasing",
    "C39_sigmoid_accuracy"
   ],
   "note": "Range, symmetry for non-zero inputs before conversion, monotone for saturating outputs, every table read in range, and accuracy against the real sigmoid."
  },
  {
   "property": "C40",
   "status": "partial",
   "theorems": [
    "C40_tanh_out_of_table_iff",
    "C40_tanh_in_table_refuted",
    "C40_tanh_in_table_partial",
    "C40_tanh_range",
    "C40_tanh_odd",
    "C40_tanh_increasing",
    "C40_tanh_accuracy"
   ],
   "note": "False as stated: the tables are read out of range exactly when |x| is in [3+4j, 4+4j). Range, oddness, monotonicity and accuracy against the real tanh proved wherever the reads are in range."
  },
  {
   "property": "C41",
   "status": "partial",
   "theorems": [
    "C41_cordic_periodic",
    "C41_cordic_accuracy_partial",
    "C41_sin_cos_cordic_partial",
    "C41_cordic_wide_zero",
    "C41_cordic_accuracy_refuted",
    "C41_cordic_scale_refuted",
    "C41_cordic_min_refuted",
    "C41_sin_cordic_one_bit_refuted",
    "C41_cordic_no_integer_refuted"
   ],
   "note": "Periodicity in full; accuracy with an explicit bound (cordic_err) for outputs of at most 68 bits with an integer bit and room for C K; 4 units in the last place for ac_sin_cordic and ac_cos_cordic with two integer bits. Refuted: 69 bits and more give 0, the error grows with the scale, the most negative scale overflows, one integer bit makes ac_sin_cordic scale by -1, no integer bit makes K wrap."
  },
  {
   "property": "C42",
   "status": "proved",
   "theorems": [
    "C42_chol_structure",
    "C42_chol_no_uninitialised"
   ],
   "note": "Both versions (division and square root, or piecewise-linear), all sizes and types. Also shown: the result does not depend on the uninitialised reciprocal."
  },
  {
   "property": "C43",
   "status": "partial",
   "theorems": [
    "C43_cholinv_symmetric_partial",
    "C43_cholinv_zero_refuted",
    "C43_cholinv_uninitialised"
   ],
   "note": "The output is symmetric, in range and independent of the uninitialised Linv; a matrix that is not positive definite gives saturated values, not zeros (refuted). The inverse property itself is C62."
  },
  {
   "property": "C44",
   "status": "partial",
   "theorems": [
    "C44_qrd_reconstruction_partial",
    "C44_qrd_2x2_partial",
    "C44_qrd_reconstruction_refuted"
   ],
   "note": "Both with ac_inverse_sqrt_pwl, the default, and with ac_sqrt and ac_div. False in general: a rotation that finds a pair of zeros wipes both rows (identity matrix of size 3). Proved, for every size, when every rotation finds a pair not shorter than nu: reconstruction, orthogonality of Q, and R upper triangular, exactly zero below the diagonal for rounding output types."
  },
  {
   "property": "C45",
   "status": "partial",
   "theorems": [
    "C45_softmax_partial",
    "C45_softmax_sum_refuted",
    "C45_softmax_order",
    "C45_softmax_new",
    "C45_softmax_new_order"
   ],
   "note": "ac_softmax_pwl: order and non-negativity hold; the sum is one within 0.21 % when some input is at least -6, and refuted in general (all inputs very negative give all zeros). ac_softmax_pwl_new: holds for all inputs."
  },
  {
   "property": "C46",
   "status": "partial",
   "theorems": [
    "C46_softplus_partial",
    "C46_softplus_refuted"
   ],
   "note": "Holds for at most 6 (signed) or 4 (unsigned) integer bits; refuted beyond, where e^x wraps in its intermediate type."
  },
  {
   "property": "C47",
   "status": "partial",
   "theorems": [
    "C47_lut_periodic",
    "C47_lut_quarter_turn",
    "C47_lut_half_turn_partial",
    "C47_lut_half_turn_refuted",
    "C47_lut_opposite_partial",
    "C47_lut_opposite_refuted"
   ],
   "note": "Dependence on the fraction only and the quarter-turn symmetry hold for all formats. The half-turn and opposite-angle symmetries hold except at the odd eighths of a turn (where truncation makes the two octant paths differ) and, for angles of more than 12 fraction bits, half way between entries; the exceptions are refuted with witnesses."
  },
  {
   "property": "C48",
   "status": "proved",
   "theorems": [
    "C48_reachable",
    "C48_independent",
    "C48_in_range",
    "C48_rand_max_32767",
    "C48_rand_max_32767_refuted",
    "C48_builtin_reachable"
   ],
   "note": "also the unsigned C integer overloads; ac_float and SystemC overloads not modelled"
  },
  {
   "property": "C49",
   "status": "partial",
   "theorems": [
    "C49_flag_unsigned_fixed",
    "C49_flag_signed_fixed",
    "C49_flag_signed_int_partial",
    "C49_flag_signed_int_refuted",
    "C01_div_unsigned_int"
   ],
   "note": "Fixed point and unsigned integers: proved. Signed integers: proved when the remainder output is at least as wide as the divisor, refuted otherwise."
  },
  {
   "property": "C50",
   "status": "partial",
   "theorems": [
    "C50_div_complex_partial",
    "C50_div_complex_overflow_refuted"
   ],
   "note": "Proved when the product with the conjugate fits the intermediate type; refuted in general because that type is derived from the quotient type."
  },
  {
   "property": "C51",
   "status": "proved",
   "theorems": [
    "C51_div_zero_unsigned_fixed",
    "C51_div_zero_signed_fixed"
   ],
   "note": "Unsigned overload: for formats that do not take the early return of C05."
  },
  {
   "property": "C52",
   "status": "partial",
   "theorems": [
    "C52_sqrt_float",
    "C52_rounding_temporary_refuted"
   ],
   "note": "Proved for the default truncating temporary (AC_TRN). False when TQ is a rounding mode: the temporary wraps to 0 near the top of the mantissa range."
  },
  {
   "property": "C53",
   "status": "proved",
   "theorems": [
    "C53_abs_float"
   ],
   "note": ""
  },
  {
   "property": "C54",
   "status": "proved",
   "theorems": [
    "C54_exp_accuracy",
    "C54_exp_increasing"
   ],
   "note": "Integer part of the exponent is copied to an int, hence the |x| <= 1024 restriction; unsigned output as ac_pow2_pwl requires."
  },
  {
   "property": "C55",
   "status": "proved",
   "theorems": [
    "C55_ln_accuracy",
    "C55_ln_zero"
   ],
   "note": "All formats."
  },
  {
   "property": "C56",
   "status": "partial",
   "theorems": [
    "C56_softsign_partial",
    "C56_softsign_refuted"
   ],
   "note": "Error bound with a term growing with |x|; the uniform claim is refuted for large inputs."
  },
  {
   "property": "C57",
   "status": "proved",
   "theorems": [
    "C57_elu_identity",
    "C57_elu_accuracy"
   ],
   "note": "For x >= -2^30 (integer part copied to an int)."
  },
  {
   "property": "C58",
   "status": "proved",
   "theorems": [
    "C58_selu_scaled_identity",
    "C58_selu_accuracy"
   ],
   "note": "For x >= -2^30 (integer part copied to an int)."
  },
  {
   "property": "C59",
   "status": "partial",
   "theorems": [
    "C59_gelu_accuracy_partial",
    "C59_gelu_defined_partial",
    "C59_gelu_defined_refuted",
    "C59_gelu_unsigned_refuted"
   ],
   "note": "Accurate where defined, defined for |x| <= 2.75; refuted in general (table read out of range at x = 3.0; wrapped argument for unsigned input with signed output)."
  },
  {
   "property": "C60",
   "status": "proved",
   "theorems": [
    "C60_chol_reconstruction",
    "C60_chol_reconstruction_pwl"
   ],
   "note": "For the exact and the piecewise-linear roots. The types must saturate and leave room as listed in chol_types (SpecLin.v); success is proved for the exact roots only."
  },
  {
   "property": "C61",
   "status": "partial",
   "theorems": [
    "C61_chol_rejection_partial",
    "C61_chol_rejection_refuted",
    "C61_chol_small_pivot_refuted"
   ],
   "note": "False as the header states it: a matrix slightly indefinite is accepted, and with few integer bits a badly indefinite one too. Proved: zeros whenever the form is below minus the error bound."
  },
  {
   "property": "C62",
   "status": "proved",
   "theorems": [
    "C62_cholinv_inverse"
   ],
   "note": "With ft the saturating signed type of the sums (ac_cholinv's Tout widths are not assumed); exact square root and division (both PWL switches off). The bound inv_err and the room conditions are in SpecLin.v."
  },
  {
   "property": "C63",
   "status": "partial",
   "theorems": [
    "C63_lut_accuracy_partial",
    "C63_lut_accuracy_saturating_partial",
    "C63_lut_one_integer_bit_refuted",
    "C63_lut_fine_angle_refuted",
    "C63_lut_wide_undefined"
   ],
   "note": "Proved with an explicit error for angles of 1 to 42 fraction bits and outputs with two integer bits, or one with saturation; the bound grows by one table step beyond 12 fraction bits. Refuted for one wrapping integer bit and for fine angles; undefined (int shift overflow) from 43 fraction bits on."
  },
  {
   "property": "C64",
   "status": "partial",
   "theorems": [
    "C64_atan2_accuracy_partial",
    "C64_atan2_accuracy_output_partial",
    "C64_angle_exists",
    "C64_atan2_origin",
    "C64_atan2_near_origin_refuted",
    "C64_atan2_two_integer_bits_refuted",
    "C64_atan2_wide_output_refuted"
   ],
   "note": "Proved with an explicit error for points at a distance of at least 2^-(F+3) from the origin and outputs of 0 to 67 fraction bits; the error grows as the inverse of the distance, because the coordinates are truncated to a fixed number of fraction bits. Refuted nearer to the origin, for two wrapping integer bits, and to the last bits of outputs wider than a double."
  },
  {
   "property": "C65",
   "status": "proved",
   "theorems": [
    "C65_nan",
    "C65_infinity"
   ],
   "note": "Any format with at least two exponent bits and one fraction bit, any number of operands."
  },
  {
   "property": "C66",
   "status": "partial",
   "theorems": [
    "C66_two_operands",
    "C66_truncating",
    "C66_zero",
    "C66_rounds_unique",
    "C66_two_operands_refuted",
    "C66_saturation_refuted"
   ],
   "note": "Proved for every rounding mode when the sum does not carry into the next binade, and always when truncating; false for rounding to nearest on a carry (the sticky bit is shifted out before rounding) and for formats whose exponent difference saturates too early."
  },
  {
   "property": "C67",
   "status": "partial",
   "theorems": [
    "C67_accuracy",
    "C67_exact",
    "C67_overflow_refuted",
    "C67_subnormal_refuted",
    "C67_no_extra_bits_refuted"
   ],
   "note": "Accuracy and exactness proved for normal, non-overflowing sums with at least one extra accumulator bit; false for overflow with three or more operands (the exponent wraps), for subnormal results unless there are two operands, and without extra accumulator bits."
  },
  {
   "property": "C68",
   "status": "proved",
   "theorems": [
    "C68_reciprocal_ha_accuracy",
    "C68_reciprocal_vha_accuracy",
    "C68_reciprocal_ha_zero",
    "C68_reciprocal_vha_zero"
   ],
   "note": "Both reciprocals, every format; without call_normalize the input has to be normalised, as the code documents."
  },
  {
   "property": "C69",
   "status": "proved",
   "theorems": [
    "C69_reciprocal_ha_odd",
    "C69_reciprocal_vha_odd",
    "C69_reciprocal_ha_decreasing",
    "C69_reciprocal_vha_decreasing"
   ],
   "note": "Both reciprocals; monotonicity needs a saturating output type."
  },
  {
   "property": "C70",
   "status": "proved",
   "theorems": [
    "C70_inverse_sqrt_vha_accuracy",
    "C70_inverse_sqrt_vha_zero",
    "C70_inverse_sqrt_vha_decreasing"
   ],
   "note": "0.005 per cent, the tolerance stated in the file."
  },
  {
   "property": "C71",
   "status": "proved",
   "theorems": [
    "C71_atan_accuracy",
    "C71_atan_ha_accuracy",
    "C71_atan_vha_accuracy"
   ],
   "note": "All three versions, every format and input."
  },
  {
   "property": "C72",
   "status": "partial",
   "theorems": [
    "C72_atan_increasing",
    "C72_atan_ha_increasing",
    "C72_atan_vha_increasing",
    "C72_atan_bounds",
    "C72_atan_ha_bounds",
    "C72_atan_vha_bounds",
    "C72_atan_ha_zero",
    "C72_atan_vha_zero",
    "C72_atan_zero_refuted"
   ],
   "note": "Increasing and bounded for all three; zero at zero for the two higher-accuracy versions, refuted for ac_atan_pwl, whose first table entry is 1/1024."
  },
  {
   "property": "C73",
   "status": "partial",
   "theorems": [
    "C73_tan_accuracy",
    "C73_tan_saturates",
    "C73_tan_accuracy_refuted"
   ],
   "note": "Holds when the internal copy of the input cannot overflow (input with an integer bit, at most 19 fraction bits, truncation or saturation); false for inputs that round and wrap, where the tangent of a value near 1 comes out as 0 (refuted)."
  },
  {
   "property": "C74",
   "status": "partial",
   "theorems": [
    "C74_tan_zero",
    "C74_tan_increasing",
    "C74_tan_increasing_refuted"
   ],
   "note": "Holds under the same condition as C73; refuted for input types that round and wrap."
  },
  {
   "property": "C75",
   "status": "proved",
   "theorems": [
    "C75_arcsin_accuracy"
   ],
   "note": "For every argument and output format (1 to 64 fraction bits). The proof follows the pair of double rotations in real arithmetic, including the extra test on the angle that the code uses above ten fraction bits, whose partial sums are checked to stay clear of one half."
  },
  {
   "property": "C76",
   "status": "proved",
   "theorems": [
    "C76_arccos_accuracy"
   ],
   "note": "For every argument and output format (1 to 64 fraction bits)."
  },
  {
   "property": "C77",
   "status": "proved",
   "theorems": [
    "C77_arcsin_odd",
    "C77_arccos_reflection"
   ],
   "note": "For all positive arguments."
  },
  {
   "property": "C78",
   "status": "partial",
   "theorems": [
    "C78_log_cordic_accuracy",
    "C78_log_cordic_rounding_refuted"
   ],
   "note": "Proved when the internal rounding truncates or is exact; refuted for a rounding TQ with an overridden precision below the argument's width."
  },
  {
   "property": "C79",
   "status": "partial",
   "theorems": [
    "C79_log2_cordic_accuracy",
    "C79_log2_cordic_rounding_refuted"
   ],
   "note": "Proved when the internal rounding truncates or is exact; refuted for a rounding TQ with an overridden precision below the argument's width."
  },
  {
   "property": "C80",
   "status": "partial",
   "theorems": [
    "C80_log2_overflow",
    "C80_log2_overflow_refuted"
   ],
   "note": "Proved for signed types that wrap and unsigned types that saturate; refuted for a signed saturating type."
  },
  {
   "property": "C81",
   "status": "partial",
   "theorems": [
    "C81_log2_exact_refuted"
   ],
   "note": "Refuted: one unit too small, and wraps at the lower end of the range."
  },
  {
   "property": "C82",
   "status": "partial",
   "theorems": [
    "C82_exp2_cordic_accuracy",
    "C82_exp2_cordic_rounding_refuted"
   ],
   "note": "Proved for truncating TQ, and for every TQ if the internal precision holds the argument's fraction bits; refuted for AC_RND otherwise."
  },
  {
   "property": "C83",
   "status": "proved",
   "theorems": [
    "C83_exp_cordic_accuracy"
   ],
   "note": "For every TQ (with at least one internal fraction bit) and arguments with |x| + 1 <= 2^TF and |x| <= 2^30."
  },
  {
   "property": "C84",
   "status": "partial",
   "theorems": [
    "C84_log_monotone_refuted"
   ],
   "note": "Refuted at the largest internal precision, 44 bits."
  },
  {
   "property": "C85",
   "status": "proved",
   "theorems": [
    "C85_pow_cordic_accuracy"
   ],
   "note": "For truncating TQ."
  },
  {
   "property": "C86",
   "status": "partial",
   "theorems": [
    "C86_pow_log2_fraction_bits_refuted"
   ],
   "note": "Refuted: 11^3 with TF_ = 16."
  },
  {
   "property": "C87",
   "status": "partial",
   "theorems": [
    "C87_pow_zero_exponent_ok",
    "C87_pow_zero_exponent_refuted",
    "C87_pow_base_one_refuted",
    "C87_pow_base_zero_refuted"
   ],
   "note": "x^0 = 1 proved for rounding outputs and five more internal than output fraction bits; refuted in general, and so are 1^x = 1 and 0^x = 0."
  },
  {
   "property": "C88",
   "status": "partial",
   "theorems": [
    "C88_log_float_accuracy",
    "C88_log_float_rounding_refuted"
   ],
   "note": "Proved for truncating TQ or a precision holding the mantissa; refuted for AC_RND otherwise."
  },
  {
   "property": "C89",
   "status": "partial",
   "theorems": [
    "C89_log2_float_accuracy",
    "C89_log2_float_rounding_refuted"
   ],
   "note": "Proved for truncating TQ or a precision holding the mantissa; refuted for AC_RND otherwise."
  },
  {
   "property": "C90",
   "status": "proved",
   "theorems": [
    "C90_exp2_float_accuracy",
    "C90_exp2_float_saturation"
   ],
   "note": "Up to the ac_float constructor of the output. Saturation for at least five internal fraction bits."
  },
  {
   "property": "C91",
   "status": "proved",
   "theorems": [
    "C91_exp_float_accuracy"
   ],
   "note": "Up to the ac_float constructor of the output."
  },
  {
   "property": "C92",
   "status": "partial",
   "theorems": [
    "C92_pow_float_accuracy",
    "C92_pow_float_special",
    "C92_pow_float_zero_exponent_refuted"
   ],
   "note": "Accuracy, 1^b and 0^b proved; a^0 = 1 refuted."
  },
  {
   "property": "C93",
   "status": "partial",
   "theorems": [
    "C93_sqrt_float_accuracy",
    "C93_sqrt_float_subnormal_refuted"
   ],
   "note": "false for numbers at the smallest exponent that are not normalised: the refuted theorem gives the case; proved for all normalised numbers"
  },
  {
   "property": "C94",
   "status": "partial",
   "theorems": [
    "C94_inverse_sqrt_float_accuracy",
    "C94_inverse_sqrt_float_subnormal_refuted"
   ],
   "note": "false for numbers at the smallest exponent that are not normalised: the refuted theorem gives the case; proved for all normalised numbers"
  },
  {
   "property": "C95",
   "status": "partial",
   "theorems": [
    "C95_log2_float_accuracy",
    "C95_log_float_accuracy",
    "C95_log2_float_subnormal_refuted",
    "C95_log_float_subnormal_refuted"
   ],
   "note": "false for numbers at the smallest exponent that are not normalised: the refuted theorem gives the case; proved for all normalised numbers"
  },
  {
   "property": "C96",
   "status": "proved",
   "theorems": [
    "C96_pow2_float_accuracy",
    "C96_exp_float_accuracy",
    "C96_pow2_float_saturation",
    "C96_exp_float_saturation"
   ],
   "note": "pow2 and exp; accuracy for intermediate types of at most 32 integer bits, saturation of exp for at most 12 (any output exponent of up to 11 bits with usual mantissas)"
  },
  {
   "property": "C97",
   "status": "proved",
   "theorems": [
    "C97_sigmoid_float_accuracy"
   ],
   "note": "total, range and accuracy"
  },
  {
   "property": "C98",
   "status": "partial",
   "theorems": [
    "C98_tanh_float_accuracy",
    "C98_tanh_float_defined",
    "C98_tanh_float_large_refuted",
    "C98_tanh_float_undefined_refuted"
   ],
   "note": "accuracy proved wherever the result is defined; the exact set of arguments where the table is read outside its bounds is proved; definedness everywhere is refuted (every X >= 7)"
  },
  {
   "property": "C99",
   "status": "partial",
   "theorems": [
    "C99_tan_float_accuracy",
    "C99_tan_float_saturation",
    "C99_tan_float_wrap_refuted"
   ],
   "note": "accuracy below 1594/1024 and saturation up to two proved; saturation of all larger arguments refuted (they wrap)"
  }
 ]
}
