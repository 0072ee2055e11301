{"id": "C01", "title": "Unsigned integer division is Euclidean division", "statement": "For ac_div on unsigned ac_int operands with a non-zero divisor, the quotient output is floor(dividend/divisor) reduced modulo 2^QW, the remainder output is dividend mod divisor reduced modulo 2^RW, and the returned flag is true exactly when the division is inexact.", "quantifier": "all widths NW, DW, QW, RW >= 1, all dividends, all non-zero divisors", "why_tests_cant": "The value space is the product of all template widths and all operands; the internal partial remainder wraps in DW+1 bits, so correctness depends on an invariant of every iteration rather than on sampled values.", "anchors": ["include/ac_math/ac_div.h: ac_div(ac_int<NW,false>,...) lines 151-208"]}
{"id": "C02", "title": "Integer division by zero saturates", "statement": "When the divisor is zero, ac_div on ac_int returns the largest representable quotient; for signed operands it returns the most negative quotient if the dividend is negative and the largest otherwise.", "quantifier": "all widths, all dividends, divisor = 0", "why_tests_cant": "Requires the saturation to hold for every dividend and width, including widths far above any test configuration.", "anchors": ["include/ac_math/ac_div.h: lines 177-180, 245-255"]}
{"id": "C03", "title": "Signed integer division truncates toward zero", "statement": "For ac_div on signed ac_int operands with a non-zero divisor, the quotient is dividend/divisor truncated toward zero (reduced to QW bits), the remainder has the sign of the dividend and satisfies dividend = quotient*divisor + remainder, |remainder| < |divisor|; this includes the most negative dividend and divisor.", "quantifier": "all widths, all signed dividends and non-zero divisors", "why_tests_cant": "Negating the most negative value overflows its width; only a proof over all widths shows the unsigned reinterpretation always compensates.", "anchors": ["include/ac_math/ac_div.h: lines 221-285"]}
{"id": "C04", "title": "Unsigned fixed-point division is correctly rounded", "statement": "For ac_div on unsigned ac_fixed operands with a non-zero divisor, the quotient output is the exact rational quotient converted to the output type under the output type's own rounding mode and overflow mode, for every rounding mode and overflow mode.", "quantifier": "all formats (W, I) of dividend, divisor and quotient, all 8 rounding and 4 overflow modes, all dividends, all non-zero divisors", "why_tests_cant": "Correct rounding of ties and sticky bits depends on relations between six widths and the mode; tests sample a few formats.", "anchors": ["include/ac_math/ac_div.h: lines 298-369"]}
{"id": "C05", "title": "ac_div always writes its quotient", "statement": "After ac_div on unsigned ac_fixed returns, the quotient argument depends only on the dividend and divisor, never on its previous contents.", "quantifier": "all formats, all operands, all previous contents of the output", "why_tests_cant": "A test initialises the output once, usually to zero, and cannot tell a stale value from a computed one.", "anchors": ["include/ac_math/ac_div.h: lines 321-326"]}
{"id": "C06", "title": "Signed fixed-point division is correctly rounded", "statement": "For ac_div on signed ac_fixed operands with a non-zero divisor, the quotient output is the exact rational quotient converted to the output type under its own rounding and overflow modes.", "quantifier": "all formats, all 8 rounding and 4 overflow modes, all operands with non-zero divisor", "why_tests_cant": "Negative ties interact with sticky bits and with the sign-magnitude split differently in each of the eight rounding modes.", "anchors": ["include/ac_math/ac_div.h: lines 382-455"]}
{"id": "C07", "title": "Padded divider ac_div_v2 equals Euclidean division in its supported range", "statement": "For ac_div_v2 on unsigned operands with divisor >= 2^(DW-PW), quotient and remainder are the Euclidean quotient and remainder reduced to QW and RW bits; divisors below that bound are rejected by assertion; the bound cannot be dropped.", "quantifier": "all widths NW, DW, QW, RW and paddings 1 <= PW <= DW with NW+PW > DW, all operands", "why_tests_cant": "The remainder lives in the high part of a shared shift register; absence of interference between the two parts is an invariant over all iterations and widths.", "anchors": ["include/ac_math/ac_div_v2.h: lines 116-150"]}
{"id": "C08", "title": "Signed ac_div_v2 truncates toward zero", "statement": "For ac_div_v2 on signed operands whose divisor magnitude is at least 2^(DW-PW), quotient and remainder are those of truncating division reduced to QW and RW bits.", "quantifier": "all widths and paddings, all signed operands in range", "why_tests_cant": "The extreme negative operands at every width must be covered.", "anchors": ["include/ac_math/ac_div_v2.h: lines 220-246"]}
{"id": "C09", "title": "ac_shift_right on unsigned values converts the exact shifted value", "statement": "ac_shift_right(x, n, out) on unsigned ac_fixed stores in out the exact value x*2^-n converted to out's type with out's rounding and overflow mode: no bit shifted out early is lost for rounding and no overflow is missed, for positive and negative n.", "quantifier": "all formats, all rounding and overflow modes, all x, all shift counts of the int overload and all counts below 2^31 of the unsigned overload", "why_tests_cant": "Depends on sticky and overflow bits computed by mask arithmetic across two formats for every shift amount, including amounts above the width.", "anchors": ["include/ac_math/ac_shift.h: lines 137-206"]}
{"id": "C10", "title": "ac_shift_right on signed values converts the exact shifted value", "statement": "Same as C09 for signed ac_fixed operands and results, including sign extension, negative ties and negative overflow.", "quantifier": "all formats, modes, x, shift counts (unsigned overload: below 2^31)", "why_tests_cant": "Negative ties and partially overflowing negative values arise only for particular format/shift combinations.", "anchors": ["include/ac_math/ac_shift.h: lines 218-287"]}
{"id": "C11", "title": "ac_shift_left on unsigned values converts the exact shifted value", "statement": "ac_shift_left(x, n, out) on unsigned ac_fixed stores the exact value x*2^n converted to out's type with out's rounding and overflow mode, for positive and negative n.", "quantifier": "all formats, modes, x, all int and unsigned shift counts", "why_tests_cant": "See C09.", "anchors": ["include/ac_math/ac_shift.h: lines 299-365"]}
{"id": "C12", "title": "ac_shift_left on signed values converts the exact shifted value", "statement": "Same as C11 for signed operands and results.", "quantifier": "all formats, modes, x, all int and unsigned shift counts", "why_tests_cant": "See C10.", "anchors": ["include/ac_math/ac_shift.h: lines 377-445"]}
{"id": "C13", "title": "ac_shift_right honours every unsigned shift count", "statement": "For the unsigned-count overloads of ac_shift_right the result is x*2^-n converted to the output type for every 32-bit unsigned n.", "quantifier": "all unsigned 32-bit shift counts", "why_tests_cant": "Tests use small counts; the code masks the count to 31 bits.", "anchors": ["include/ac_math/ac_shift.h: lines 147, 230-231"]}
{"id": "C14", "title": "Integer square root is the exact floor square root", "statement": "ac_sqrt on ac_int returns the unique r with r^2 <= x < (r+1)^2, reduced to the output width.", "quantifier": "all input widths, all x, all output widths", "why_tests_cant": "Relies on an internal sign bit of a wrapped unsigned subtraction at every iteration and on a growing mask; holds for all widths only by an invariant.", "anchors": ["include/ac_math/ac_sqrt.h: lines 128-162"]}
{"id": "C15", "title": "Fixed-point square root is correctly rounded", "statement": "ac_sqrt on ac_fixed returns the real square root of its input converted to the output type with the output's own rounding and overflow mode.", "quantifier": "all input and output formats, all 8 rounding and 4 overflow modes, all x", "why_tests_cant": "Rounding an irrational value needs sticky information from input bits that never enter the digit recurrence; formats are unbounded.", "anchors": ["include/ac_math/ac_sqrt.h: lines 175-245"]}
{"id": "C16", "title": "leading1/trailing1/leading0/trailing0 report extreme bit positions", "statement": "On unsigned operands leading1 and trailing1 return the index of the highest and lowest set bit and leading0 and trailing0 that of the highest and lowest clear bit; flag is true exactly when such a bit exists, and 0 is returned otherwise.", "quantifier": "all widths W >= 1, all operands", "why_tests_cant": "Needs every width; the return type has fewer bits for some functions.", "anchors": ["include/ac_math/ac_leading.h: lines 71-131, 219-279"]}
{"id": "C17", "title": "Signed leading/trailing searches ignore exactly the sign bit", "statement": "On signed operands the four searches return the same as the unsigned searches applied to the W-1 bits below the sign bit.", "quantifier": "all widths W >= 2, all operands", "why_tests_cant": "See C16.", "anchors": ["include/ac_math/ac_leading.h: lines 140-210, 288-358"]}
{"id": "C18", "title": "Recursive leading-ones index equals floor(log2)", "statement": "leading_ones<N>(din, idx) returns false for zero and otherwise true with idx the position of the most significant set bit.", "quantifier": "all N >= 1, all din", "why_tests_cant": "The recursion splits on template width; a wrong split shows only for particular widths and bit positions.", "anchors": ["include/ac_math/ac_leading_ones_tmpl.h"]}
{"id": "C19", "title": "ac_normalize is lossless and in range", "statement": "For non-zero input, ac_normalize returns exponent e and mantissa m with input = m*2^e exactly; unsigned m is in [0.5,1), signed m in [0.5,1) or [-1,-0.5); for zero input both are zero.", "quantifier": "all W, I, both signs, all inputs", "why_tests_cant": "Exponent and mantissa relation over unbounded widths.", "anchors": ["include/ac_math/ac_normalize.h: lines 122-154"]}
{"id": "C20", "title": "Complex ac_normalize is lossless and tight", "statement": "For a complex input, both parts are scaled by the same power of two exactly, and at least one part has magnitude in the normalised range.", "quantifier": "all W, I, both signs, all complex inputs", "why_tests_cant": "Negative parts are searched after bitwise complement; boundary values -2^k behave differently from 2^k.", "anchors": ["include/ac_math/ac_normalize.h: lines 213-257"]}
{"id": "C21", "title": "ac_abs returns the absolute value", "statement": "ac_abs stores |x| converted to the output type; with an output of at least the input's width it is exact, except that a signed output of the same width cannot hold |minimum|.", "quantifier": "all widths and formats, all x", "why_tests_cant": "The minimum value of each width is the special case.", "anchors": ["include/ac_math/ac_abs.h: lines 121-141, 183-208"]}
{"id": "C22", "title": "Barrel shifter rotates", "statement": "ac_barrel_shift<N>(din, s) returns din rotated right by s modulo N, for power-of-two and other N.", "quantifier": "all N >= 2, all din, all shift amounts of the given count type", "why_tests_cant": "Logarithmic layers over arbitrary N; the layers that exceed N wrap.", "anchors": ["include/ac_math/ac_barrel_shift.h"]}
{"id": "C23", "title": "ReLU family", "statement": "ac_relu, ac_leakyrelu and ac_prelu return x converted to the output type for positive x and 0, respectively the exact product alpha*x converted to the output type, otherwise; outputs are monotone in x for saturating outputs and alpha >= 0.", "quantifier": "all formats, all x, all alpha", "why_tests_cant": "All formats and modes.", "anchors": ["include/ac_math/ac_relu.h", "include/ac_math/ac_leakyrelu.h", "include/ac_math/ac_prelu.h"]}
{"id": "C24", "title": "ac_array element access, fill and comparison", "statement": "After set(i,v) reading index i yields v and all other elements are unchanged; set(v), clearAll and construction from a value write every element of every dimension; == holds exactly when all elements are equal and != is its negation.", "quantifier": "all dimensions, all contents, all operation sequences on in-range indices", "why_tests_cant": "Frame conditions over arbitrary sizes and histories.", "anchors": ["include/ac_array.h: ac_array_b, ac_array"]}
{"id": "C25", "title": "ac_matrix initializer-list construction places elements row-major", "statement": "Constructing an ac_matrix<T,M,N> from a list of M*N values stores value number k at row k/N, column k%N and touches no storage outside the matrix.", "quantifier": "all M, N >= 1, all lists", "why_tests_cant": "A square-only test suite cannot see the row computation.", "anchors": ["include/ac_matrix.h: lines 131-149"]}
{"id": "C26", "title": "ac_matrix algebra", "statement": "Element-wise +, -, pwisemult, scale, transpose, submatrix, sum and operator* compute the mathematical operations on the stored values in the element type; == and != are complementary; transpose is an involution; (AB)^T = B^T A^T when no overflow occurs.", "quantifier": "all dimensions, all contents", "why_tests_cant": "Dimensions are template parameters; laws quantify over all matrices.", "anchors": ["include/ac_matrix.h: lines 198-368"]}
{"id": "C27", "title": "Matrix multiplication keeps full precision", "statement": "ac_matrixmul computes each output as the exact sum of products converted once to the output type; the accumulator never overflows.", "quantifier": "all M, N, P, all formats and modes, all entries", "why_tests_cant": "The accumulator width depends on N; worst-case accumulation needs extreme entries in every position.", "anchors": ["include/ac_math/ac_matrixmul.h: lines 88-105"]}
{"id": "C28", "title": "Determinant equals the mathematical determinant", "statement": "ac_determinant returns the determinant of the matrix converted to the output type.", "quantifier": "all matrix sizes, all element formats, all entries", "why_tests_cant": "Internal types may saturate and minors are converted recursively; loss depends on entries and size.", "anchors": ["include/ac_math/ac_determinant.h"]}
{"id": "C29", "title": "ac_matrix::determinant on 2x2 and 3x3", "statement": "ac_matrix determinant() for 2x2 and 3x3 matrices is the Laplace determinant, changes sign under row exchange and is invariant under transposition.", "quantifier": "all contents without element overflow", "why_tests_cant": "Universally quantified algebraic identity.", "anchors": ["include/ac_matrix.h: lines 430-450"]}
{"id": "C30", "title": "Floating add tree error is bounded and one-sided", "statement": "add_tree on ac_float inputs returns a value not above the exact sum and within (N-1) units of the accumulator's last place at the largest exponent; when all exponents agree the fixed-point sum is exact.", "quantifier": "all N, all mantissas and exponents", "why_tests_cant": "Error accumulates along every tree shape; the worst case is not found by sampling.", "anchors": ["include/ac_float_add_tree.h: lines 100-344"]}
{"id": "C31", "title": "Block add tree", "statement": "block_add_tree aligns all inputs to the maximum exponent and sums them; the accumulated error is bounded by one unit per input and the sum does not overflow.", "quantifier": "all N, all inputs", "why_tests_cant": "See C30.", "anchors": ["include/ac_float_add_tree.h: lines 496-745"]}
{"id": "C32", "title": "Float/fixed multiplication", "statement": "ac_flfx_mul returns the exact product converted to the result type.", "quantifier": "all formats, all operands", "why_tests_cant": "Depends on internal widths for all formats.", "anchors": ["include/ac_math/ac_flfx_mul.h: lines 106-624"]}
{"id": "C33", "title": "Reciprocal PWL accuracy", "statement": "ac_reciprocal_pwl approximates 1/x with relative error at most a fixed bound before output conversion, for every non-zero input; zero input gives the largest output.", "quantifier": "all formats and inputs", "why_tests_cant": "Needs the maximum over a continuum of mantissas and all exponents.", "anchors": ["include/ac_math/ac_reciprocal_pwl.h: lines 152-243"]}
{"id": "C34", "title": "Reciprocal PWL is odd and monotone", "statement": "The reciprocal of -x is the negation of that of x up to output rounding, and for positive inputs and a saturating output the approximation never increases when x increases (within the same format).", "quantifier": "all formats and pairs of inputs", "why_tests_cant": "Monotonicity across segment and exponent boundaries is a property of all pairs.", "anchors": ["include/ac_math/ac_reciprocal_pwl.h: lines 152-243"]}
{"id": "C35", "title": "Square-root PWL accuracy and monotonicity", "statement": "ac_sqrt_pwl approximates sqrt(x) within a fixed relative error and, for saturating outputs, is monotone.", "quantifier": "all formats and inputs", "why_tests_cant": "See C33.", "anchors": ["include/ac_math/ac_sqrt_pwl.h: lines 146-223"]}
{"id": "C36", "title": "Inverse-square-root PWL accuracy", "statement": "ac_inverse_sqrt_pwl approximates 1/sqrt(x) within a fixed relative error; zero gives the largest output.", "quantifier": "all formats and inputs", "why_tests_cant": "See C33.", "anchors": ["include/ac_math/ac_inverse_sqrt_pwl.h: lines 136-225"]}
{"id": "C37", "title": "pow2 PWL is monotone and accurate", "statement": "ac_pow2_pwl is monotone in its input (for saturating outputs) and within a fixed relative error of 2^x.", "quantifier": "all formats and inputs", "why_tests_cant": "Monotonicity across segments and integer boundaries is over all pairs.", "anchors": ["include/ac_math/ac_pow_pwl.h: lines 141-209"]}
{"id": "C38", "title": "log2 PWL is monotone and accurate", "statement": "ac_log2_pwl is monotone in its input (for saturating outputs) and within a fixed absolute error of log2(x); zero gives the smallest output.", "quantifier": "all formats and inputs", "why_tests_cant": "See C37.", "anchors": ["include/ac_math/ac_log_pwl.h: lines 128-198"]}
{"id": "C39", "title": "Sigmoid PWL range, symmetry and monotonicity", "statement": "ac_sigmoid_pwl stays in [0,1], satisfies s(-x) = 1 - s(x) before the output conversion for every non-zero x, is within 0.007 of 1/(1+e^-x) before that conversion, and (for saturating outputs) is monotone.", "quantifier": "all formats and inputs", "why_tests_cant": "All pairs of inputs.", "anchors": ["include/ac_math/ac_sigmoid_pwl.h: lines 116-208"]}
{"id": "C40", "title": "Tanh PWL never reads outside its table", "statement": "For every input ac_tanh_pwl reads its coefficient tables in range; the output lies in [-1,1], is odd and monotone, and is within 0.005 of tanh(x) before the output conversion.", "quantifier": "all formats and inputs", "why_tests_cant": "The out-of-range read is masked later by a saturated result, so no output value reveals it.", "anchors": ["include/ac_math/ac_tanh_pwl.h: lines 117-205"]}
{"id": "C41", "title": "CORDIC sine/cosine periodicity and precision limit", "statement": "ac_sincos_cordic depends on the angle only modulo 2 (angle in units of pi) and its outputs are correct at every supported output width.", "quantifier": "all angles, all widths", "why_tests_cant": "Periodicity is over all angles; the width limit only shows at widths no test uses.", "anchors": ["include/ac_math/ac_sincos_cordic.h: lines 250-348"]}
{"id": "C42", "title": "Cholesky output structure", "statement": "ac_chol_d always returns a lower-triangular matrix, and the zero matrix whenever a pivot is found not positive.", "quantifier": "all matrix sizes and entries", "why_tests_cant": "All failing pivots at all sizes.", "anchors": ["include/ac_math/ac_chol_d.h: lines 157-277"]}
{"id": "C43", "title": "Cholesky inverse returns zeros for non-positive-definite input", "statement": "ac_cholinv returns the zero matrix when the input is not positive definite, and otherwise a symmetric matrix.", "quantifier": "all matrix sizes and entries", "why_tests_cant": "Interaction of two modules on the failure path.", "anchors": ["include/ac_math/ac_cholinv.h: lines 141-220"]}
{"id": "C44", "title": "QR decomposition reconstructs its input", "statement": "ac_qrd returns Q and R with Q*R equal to the input up to arithmetic error, R upper triangular.", "quantifier": "all sizes and matrices, including those with zero pivot pairs, with the piecewise-linear or the exact functions", "why_tests_cant": "Zero pivot pairs are a measure-zero set that random tests never hit.", "anchors": ["include/ac_math/ac_qrd.h: lines 141-323"]}
{"id": "C45", "title": "Softmax normalisation", "statement": "softmax outputs are non-negative, ordered like the inputs and sum to approximately one.", "quantifier": "all vector lengths and inputs", "why_tests_cant": "The failing region is inputs that are all very negative; ordering is over all pairs.", "anchors": ["include/ac_math/ac_softmax_pwl.h", "include/ac_math/ac_softmax_pwl_new.h"]}
{"id": "C46", "title": "Softplus does not wrap", "statement": "ac_softplus_pwl is close to ln(1+e^x) for every input of the input type.", "quantifier": "all formats and inputs", "why_tests_cant": "Wrapping needs wide integer parts not used in tests.", "anchors": ["include/ac_math/ac_softplus_pwl.h"]}
{"id": "C47", "title": "Sine/cosine lookup table symmetry", "statement": "ac_sincos_lut depends only on the fractional part of the angle and satisfies the quadrant symmetries of sine and cosine.", "quantifier": "all input formats and angles", "why_tests_cant": "All formats.", "anchors": ["include/ac_math/ac_sincos_lut.h"]}
{"id": "C48", "title": "Random generator covers every value", "statement": "Where rand() delivers at least 16 bits, for every value v of an ac_int<W,S> or ac_fixed there is a sequence of rand() results for which ac_random produces v, and the produced value never depends on the previous contents. With RAND_MAX = 32767 this holds exactly for W <= 15.", "quantifier": "all widths, all values", "why_tests_cant": "Existence over all widths.", "anchors": ["include/ac_math/ac_random.h: lines 201-279"]}
{"id": "C49", "title": "The inexact flag of ac_div is truthful", "statement": "The boolean returned by ac_div is true exactly when the division is inexact: for ac_int, when the remainder is non-zero; for ac_fixed, when the exact quotient is not a multiple of the output's least significant bit. The flag does not depend on the width of the remainder output.", "quantifier": "all widths and formats, all modes, all operands with non-zero divisor", "why_tests_cant": "The flag is a function of bits discarded at several points; it goes wrong only for particular relations between the widths.", "anchors": ["include/ac_math/ac_div.h: lines 151-262, 298-455"]}
{"id": "C50", "title": "Complex division is correctly rounded", "statement": "For ac_div on ac_complex operands with a non-zero divisor, both parts of the quotient are the exact parts of dividend*conj(divisor)/|divisor|^2 converted to the output part type.", "quantifier": "all formats and modes, all operands with non-zero divisor", "why_tests_cant": "Whether the intermediate product fits depends on the relation between dividend, divisor and quotient formats.", "anchors": ["include/ac_math/ac_div.h: lines 519-571"]}
{"id": "C51", "title": "Fixed-point division by zero saturates", "statement": "When the divisor is zero, ac_div on ac_fixed returns the largest value of the output type, or the most negative one for a negative dividend.", "quantifier": "all formats and modes, all dividends", "why_tests_cant": "All formats.", "anchors": ["include/ac_math/ac_div.h: lines 357-361, 443-452"]}
{"id": "C52", "title": "ac_float square root keeps every requested fraction bit", "statement": "ac_sqrt on ac_float with non-negative input hands on a mantissa m with TF fraction bits and an exponent e such that m*2^e is the real square root truncated to TF bits of mantissa, for odd and even, positive and negative exponents; no mantissa bit is lost when the odd exponent shifts the mantissa left.", "quantifier": "all mantissa formats, all temporary widths and rounding modes, all mantissas and exponents", "why_tests_cant": "The parity adjustment shares the top mantissa bit with the sign bit, and the temporary has no spare integer bit; whether it can overflow depends on width and rounding mode combinations.", "anchors": ["include/ac_math/ac_sqrt.h: lines 263-293"]}
{"id": "C53", "title": "ac_abs on ac_float is exact", "statement": "For every ac_float mantissa and exponent, the intermediate absolute value has a non-negative mantissa that fits the signed mantissa width, an exponent that fits one more exponent bit, and represents exactly |x|, including for the most negative mantissa at the largest exponent.", "quantifier": "all mantissa and exponent widths, all values", "why_tests_cant": "The most negative mantissa needs an exponent one above the input's range; tests hit it for few widths.", "anchors": ["include/ac_math/ac_abs.h: lines 250-267"]}
{"id": "C54", "title": "Exponential accuracy and order", "statement": "ac_exp_pwl(x) is e^x within 0.25 % plus 0.001 % per unit of |x| before its output conversion, for |x| <= 1024, and is increasing when the output saturates.", "quantifier": "all input formats and values, all unsigned output formats", "why_tests_cant": "e^x cannot be compared exactly in a test, and order is over all pairs of inputs of all formats.", "anchors": ["include/ac_math/ac_pow_pwl.h: lines 261-317"]}
{"id": "C55", "title": "Natural logarithm accuracy", "statement": "ac_log_pwl(x) is ln x within 0.00104 plus 0.005 % before its output conversion for every x > 0, and gives the smallest output value for x = 0.", "quantifier": "all unsigned input formats and values, all output formats", "why_tests_cant": "Tests sample a few formats; the bound is over all of them.", "anchors": ["include/ac_math/ac_log_pwl.h: lines 246-271"]}
{"id": "C56", "title": "Softsign stays close to x/(1+|x|)", "statement": "ac_softsign_pwl(x) is close to x/(1+|x|) for every value of the input type.", "quantifier": "all formats and inputs", "why_tests_cant": "The failing region is inputs so large that the stored reciprocal has no significant bits.", "anchors": ["include/ac_math/ac_softsign_pwl.h: lines 110-156"]}
{"id": "C57", "title": "ELU is the identity on non-negative inputs and close to alpha(e^x-1) on negative ones", "statement": "ac_elu_pwl(x, alpha) is x converted to the output type for x >= 0 and alpha(e^x - 1) within 0.26 % of alpha for x < 0.", "quantifier": "all formats, inputs and alphas", "why_tests_cant": "Tests fix alpha and a few formats.", "anchors": ["include/ac_math/ac_elu_pwl.h: lines 110-160"]}
{"id": "C58", "title": "SELU is lambda x on non-negative inputs and close to lambda alpha(e^x-1) on negative ones", "statement": "ac_selu_pwl(x) is lambda x converted to the output type for x >= 0; for x < 0 it is lambda times alpha(e^x - 1) within 0.0044, up to the two conversions to the output type.", "quantifier": "all formats and inputs", "why_tests_cant": "Two roundings in the output type interact; tests only bound the error of a few formats.", "anchors": ["include/ac_math/ac_selu_pwl.h: lines 109-132"]}
{"id": "C59", "title": "GELU is defined and close to its formula", "statement": "ac_gelu_pwl(x) reads its tables within range and is close to x/2 (1 + tanh(sqrt(2/pi)(x + 0.044715 x^3))).", "quantifier": "all formats and inputs", "why_tests_cant": "The failing region is a quarter of the inputs beyond 2.8, where a table is read past its end.", "anchors": ["include/ac_math/ac_gelu_pwl.h: lines 110-144"]}
{"id": "C60", "title": "Cholesky factor reconstructs the matrix", "statement": "When ac_chol_d does not return zeros, L times its transpose equals the input up to a stated arithmetic error, and it never returns zeros for a symmetric matrix whose quadratic form exceeds that error; likewise with the piecewise-linear roots, with an error 0.4 per cent larger.", "quantifier": "all matrix sizes, all entries and all saturating types wide enough for the root and its reciprocal", "why_tests_cant": "Error accumulates over the matrix size; tests compare a few random matrices with double precision.", "anchors": ["include/ac_math/ac_chol_d.h: lines 177-283"]}
{"id": "C61", "title": "Cholesky returns zeros for matrices that are not positive definite", "statement": "ac_chol_d returns the zero matrix whenever the input is not positive definite, as its header says.", "quantifier": "all symmetric matrices", "why_tests_cant": "Near-singular matrices and saturated reciprocals are not in the tests.", "anchors": ["include/ac_math/ac_chol_d.h: lines 140-283"]}
{"id": "C62", "title": "ac_cholinv returns an inverse of its input", "statement": "For a symmetric matrix with entries up to b, if the diagonal of the output of ac_cholinv stays below a limit g that leaves room in the output and intermediate types, then the input times the output is within a stated bound of the identity; in particular the matrix was accepted by the factorisation.", "quantifier": "for all sizes, all saturating signed types with the stated room, all symmetric matrices and all contents of the uninitialised arrays, with the exact square root and division", "why_tests_cant": "the testbench compares a handful of random matrices of a fixed size with a floating-point inverse and a tolerance; the accumulated rounding error for every size and type cannot be enumerated", "anchors": ["include/ac_math/ac_cholinv.h: lines 141-211", "include/ac_math/ac_chol_d.h: lines 157-283"]}
{"id": "C63", "title": "The table-based sine and cosine are accurate to one unit in the last place", "statement": "ac_sincos_lut returns a sine and a cosine within one unit in the last place of the output of the true values at 2*pi times the angle, up to the resolution of the 512-entry table; the call is defined for every angle format.", "quantifier": "all input formats, output formats and angles", "why_tests_cant": "The angle and output formats are template parameters; a test visits a few angles of one format against a tolerance of its own.", "anchors": ["include/ac_math/ac_sincos_lut.h: lines 110-732"]}
{"id": "C64", "title": "The CORDIC arctangent of two arguments is accurate", "statement": "ac_atan2_cordic(y, x, out) returns the angle of the point (x, y) in (-pi, pi], within about one and a half units in the last place of the output; the axes give multiples of pi/2 and the origin gives 0.", "quantifier": "all input formats, all output formats, all points", "why_tests_cant": "The number of iterations and the internal precision depend on the output format; the sign test of each iteration acts on a truncated value, so that only an invariant over the iterations bounds the error, and points close to the origin are rarely tested.", "anchors": ["include/ac_math/ac_atan2_cordic.h: ac_atan2_cordic lines 187-239"]}
{"id": "C65", "title": "The floating-point adder tree propagates NaNs and infinities", "statement": "fadd_tree returns a NaN exactly when some operand is a NaN or when infinities of both signs are added; otherwise, if some operand is infinite, it returns the infinity of that sign.", "quantifier": "all formats, all numbers of operands, all rounding modes and template options, all bit patterns", "why_tests_cant": "The flags of all operands are combined over an array whose length is a template parameter; a test tries a few positions of special values among a few operands.", "anchors": ["include/ac_std_float_add_tree.h: lines 118-140, 204-219, 320-342"]}
{"id": "C66", "title": "fadd_tree of two operands is the correctly rounded sum", "statement": "The sum of two finite operands returned by fadd_tree is the exact sum rounded with the chosen mode to the format, subnormal numbers, cancellation and overflow included; an exact sum of zero gives +0.", "quantifier": "all formats, all pairs of finite operands, the rounding modes", "why_tests_cant": "A wrong rounding needs a particular pair of mantissas a particular distance apart among 2^64 pairs of one format.", "anchors": ["include/ac_std_float_add_tree.h: fadd_tree_core lines 153-343"]}
{"id": "C67", "title": "fadd_tree of many operands is accurate", "statement": "The result of fadd_tree on N finite operands is the rounding of a value that differs from the exact sum by at most one last bit of the accumulator per operand; operands that fit the accumulator give the correctly rounded sum, and adding zeros changes nothing.", "quantifier": "all formats, all numbers of operands, all accumulator extensions, all finite operands", "why_tests_cant": "The number of operands and the accumulator width are template parameters; the error bound ranges over every combination of exponents.", "anchors": ["include/ac_std_float_add_tree.h: fadd_tree_core lines 153-343"]}
{"id": "C68", "title": "The higher-accuracy reciprocals are accurate", "statement": "ac_reciprocal_pwl_ha is within 0.014 per cent and ac_reciprocal_pwl_vha within 0.004 per cent of 1/x before the output conversion, for every non-zero input; zero gives the largest output.", "quantifier": "all formats, all non-zero inputs, all rounding modes of the table and of the output", "why_tests_cant": "The error depends on the position inside 32 or 64 segments and on how many fraction bits the input leaves for it; tests sweep a few formats.", "anchors": ["include/ac_math/ac_reciprocal_pwl_ha.h: lines 136-228", "include/ac_math/ac_reciprocal_pwl_vha.h: lines 136-248"]}
{"id": "C69", "title": "The higher-accuracy reciprocals are odd and decreasing", "statement": "The higher-accuracy reciprocals of -x and x are opposite before the output conversion, and for positive inputs and a saturating output a larger input never gives a larger result.", "quantifier": "all formats, all inputs", "why_tests_cant": "Monotonicity across segment boundaries and across powers of two compares neighbouring inputs of every format.", "anchors": ["include/ac_math/ac_reciprocal_pwl_ha.h: lines 136-228", "include/ac_math/ac_reciprocal_pwl_vha.h: lines 136-248"]}
{"id": "C70", "title": "The very-high-accuracy inverse square root is accurate", "statement": "ac_inverse_sqrt_pwl_vha is within 0.005 per cent of 1/sqrt(x), the tolerance its file states, before the output conversion; zero gives the largest output; for a saturating output it never increases.", "quantifier": "all formats, all positive inputs, all rounding modes", "why_tests_cant": "Odd and even exponents take different paths, and the error bound is a sum over table, constant and truncation that sampled inputs do not reach.", "anchors": ["include/ac_math/ac_inverse_sqrt_pwl_vha.h: lines 121-199"]}
{"id": "C71", "title": "The piecewise-linear arctangents are accurate", "statement": "For every input, ac_atan_pwl is within 0.0048, ac_atan_pwl_ha within 0.00013 and ac_atan_pwl_vha within 0.0001 of atan(x), up to the conversion to the output type.", "quantifier": "all formats, all inputs, all rounding modes", "why_tests_cant": "Inputs above 1 go through a reciprocal of a format-dependent precision and a subtraction from pi/2; the bound must hold for every width.", "anchors": ["include/ac_math/ac_atan_pwl.h: lines 126-197", "include/ac_math/ac_atan_pwl_ha.h: lines 121-174", "include/ac_math/ac_atan_pwl_vha.h: lines 120-191"]}
{"id": "C72", "title": "The piecewise-linear arctangents are increasing and bounded", "statement": "With a saturating output the piecewise-linear arctangents never decrease, also across x = 1 where the method changes; they lie between 0 and the stored value of pi/2, and map 0 to 0.", "quantifier": "all formats, all inputs", "why_tests_cant": "Two different evaluation paths meet at x = 1; monotonicity is a statement about all pairs of inputs.", "anchors": ["include/ac_math/ac_atan_pwl.h: lines 126-197", "include/ac_math/ac_atan_pwl_ha.h: lines 121-174", "include/ac_math/ac_atan_pwl_vha.h: lines 120-191"]}
{"id": "C73", "title": "The piecewise-linear tangent is accurate", "statement": "Before the conversion to the output type, ac_tan_pwl is within 0.00275 of tan(x) for x below 0.78515625, within 1.2 per cent up to 1.4 and within 5 per cent up to 1.556640625; from there on it gives the largest output.", "quantifier": "all input and output formats, all inputs, all rounding modes", "why_tests_cant": "Above 0.78515625 the value comes from a doubling formula with a reciprocal of a difference that tends to zero; the error is amplified and depends on formats no finite list of tests covers.", "anchors": ["include/ac_math/ac_tan_pwl.h: lines 132-229"]}
{"id": "C74", "title": "The piecewise-linear tangent is increasing and maps 0 to 0", "statement": "With a saturating output ac_tan_pwl never decreases, also where the code starts to halve its argument, and it maps 0 to 0.", "quantifier": "all formats, all pairs of inputs, all rounding modes", "why_tests_cant": "Two evaluation paths with different rounding meet at 0.78515625; monotonicity is a statement about all pairs of inputs.", "anchors": ["include/ac_math/ac_tan_pwl.h: lines 132-229"]}
{"id": "C75", "title": "The CORDIC arc sine is accurate to four output units over the whole domain", "statement": "For every argument type and every output type with 1 to 64 fraction bits F, ac_arcsin_cordic(t, out) for -1 <= t <= 1 stores the conversion (the output type's own rounding and overflow modes) of a number within 4 * 2^-F of asin(t)/pi.", "quantifier": "all argument formats, all output formats with 1 <= F <= 64 and any rounding/overflow mode, all raw arguments in [-1, 1]", "why_tests_cant": "The direction test of each double rotation can go wrong near a tie, and past the vertical the iteration can fall on the other branch; the code switches an extra test on for more than ten fraction bits because exhaustive tests passed below. Arguments are too many to enumerate beyond that, and the error as a function of the argument is chaotic.", "anchors": ["include/ac_math/ac_arcsin_cordic.h:257-316", "include/ac_math/ac_arcsin_cordic.h:70-247"]}
{"id": "C76", "title": "The CORDIC arc cosine is accurate to four output units over the whole domain", "statement": "For every argument type and every output type with 1 to 64 fraction bits F, ac_arccos_cordic(t, out) for -1 <= t <= 1 stores the conversion of a number within 4 * 2^-F of acos(t)/pi.", "quantifier": "all argument formats, all output formats with 1 <= F <= 64 and any rounding/overflow mode, all raw arguments in [-1, 1]", "why_tests_cant": "The arc cosine has infinite slope at 1, so an error of one bit in the iteration is magnified to its square root; whether 2F internal bits compensate for that at every argument cannot be found by sampling.", "anchors": ["include/ac_math/ac_arccos_cordic.h:253-307", "include/ac_math/ac_arccos_cordic.h:70-243"]}
{"id": "C77", "title": "The CORDIC arc sine is odd and the arc cosine symmetric about a half", "statement": "For every argument t > 0, ac_arcsin_cordic(t) and ac_arcsin_cordic(-t) are the conversions of V >= 0 and -V, and ac_arccos_cordic(t) and ac_arccos_cordic(-t) are the conversions of V and 1 - V.", "quantifier": "all argument formats, output formats and positive raw arguments", "why_tests_cant": "The sign is restored after the loop from a comparison of two sign bits, and the loop may end with an angle of the wrong sign; a test sees only the arguments it tries.", "anchors": ["include/ac_math/ac_arcsin_cordic.h:262-316", "include/ac_math/ac_arccos_cordic.h:258-307"]}
{"id": "C78", "title": "The hyperbolic CORDIC natural logarithm is accurate", "statement": "For every argument type and output type, ac_log_cordic(x, z) for x > 0 stores a conversion to the output type of a number within (8 + 0.51 |e|) units (3 + 0.51 |e| from 13 bits on; 2 more if the internal precision is overridden below the argument's width) of the internal precision's last place from ln(x), where 2^(e-1) <= x < 2^e.", "quantifier": "all argument formats, all positive raw arguments, all output formats, default and overridden internal precision up to 44 bits, truncating or exact internal rounding", "why_tests_cant": "The error is a sum over up to 50 data-dependent rotations whose directions depend on all earlier truncations; tests sample a few arguments of a few types, whereas the width of the registers and the table precision change with every output width.", "anchors": ["include/ac_math/ac_hcordic.h:350-441", "include/ac_math/ac_hcordic.h:487-537", "include/ac_math/ac_hcordic.h:660-672"]}
{"id": "C79", "title": "The hyperbolic CORDIC base-two logarithm is accurate", "statement": "The same for ac_log2_cordic with 11 units (3.5 from 13 bits on; 3 more if the internal precision is overridden below the argument's width), with no term growing with the exponent.", "quantifier": "all argument formats, all positive raw arguments, all output formats, default and overridden internal precision up to 44 bits, truncating or exact internal rounding", "why_tests_cant": "As for the natural logarithm; the second table adds its own rounding error at every step.", "anchors": ["include/ac_math/ac_hcordic.h:350-441", "include/ac_math/ac_hcordic.h:487-570", "include/ac_math/ac_hcordic.h:590-602"]}
{"id": "C80", "title": "The CORDIC logarithm honours the output type's overflow mode", "statement": "The value stored by ac_log2_cordic is the conversion of the computed logarithm with the output type's own overflow mode.", "quantifier": "all argument and output formats", "why_tests_cant": "The replacement of the overflow mode by a hidden intermediate type only shows when the result overflows, and then only for the types whose mode differs from the hidden one.", "anchors": ["include/ac_math/ac_hcordic.h:529-530", "include/ac_math/ac_hcordic.h:550-572"]}
{"id": "C81", "title": "The CORDIC base-two logarithm of a power of two is exact", "statement": "If x = 2^k and k is representable in the output type, ac_log2_cordic(x) returns k.", "quantifier": "all argument and output formats, all powers of two", "why_tests_cant": "Tests accept an error of a fraction of a per cent; whether the last bit is right, and whether an error of one unit at the end of the range wraps to the other end, is not visible to them.", "anchors": ["include/ac_math/ac_hcordic.h:424-441", "include/ac_math/ac_hcordic.h:550-570"]}
{"id": "C82", "title": "The hyperbolic CORDIC power of two is accurate", "statement": "For every argument type with at most 45 fraction bits and every unsigned output type, ac_exp2_cordic(x, z) stores the conversion (with the output type's own modes) of a number within a relative error of 10 units (6 from 13 bits on) of the internal precision's last place from 2^x.", "quantifier": "all argument formats with at most 45 fraction bits, all arguments in [-2^31, 2^31), all unsigned output formats, default and overridden internal precision up to 44 bits, all internal rounding modes", "why_tests_cant": "The error of the rotations, of the scaling constant and of the products interact, and the result must stay below two at the top of the fraction's range or the whole result wraps to zero; sampling cannot exclude one such argument.", "anchors": ["include/ac_math/ac_hcordic.h:350-405", "include/ac_math/ac_hcordic.h:455-478", "include/ac_math/ac_hcordic.h:1264-1306"]}
{"id": "C83", "title": "The hyperbolic CORDIC exponential is accurate", "statement": "For every argument type and every unsigned output type, ac_exp_cordic(x, z) stores the conversion of a number within a relative error of 24 + 1.25 |x| units (15 + 1.25 |x| from 13 bits on) of the internal precision's last place from exp(x).", "quantifier": "all argument formats, all arguments with |x| + 1 <= 2^TF, all unsigned output formats, default and overridden internal precision up to 44 bits, truncating internal rounding", "why_tests_cant": "The multiplication by a truncated 1/ln 2 makes the error grow with the argument, and the reduced argument's fraction runs over all values; tests cover few.", "anchors": ["include/ac_math/ac_hcordic.h:455-478", "include/ac_math/ac_hcordic.h:1264-1306", "include/ac_math/ac_hcordic.h:1365-1388"]}
{"id": "C84", "title": "The CORDIC natural logarithm is monotone", "statement": "If x <= y then ac_log_cordic(x) <= ac_log_cordic(y) for a signed output type wide enough to hold both logarithms.", "quantifier": "all argument and output formats, all pairs of positive arguments, all internal precisions", "why_tests_cant": "A single inversion among 2^44 neighbouring arguments decides the question.", "anchors": ["include/ac_math/ac_hcordic.h:407-424", "include/ac_math/ac_hcordic.h:487-537"]}
{"id": "C85", "title": "The CORDIC power function is accurate", "statement": "For every positive base of an unsigned type and every exponent, ac_pow_cordic(a, b, z) stores the conversion of a^b 2^eta (1 + eps), where |eps| is at most 10 units (6 from 13 bits on) of the internal precision's last place and |eta| is at most |b| times the error of the intermediate logarithm (that of ac_log2_cordic plus one unit of its last place) plus 2^-45.", "quantifier": "all base and exponent formats whose product has between -44 and 32 integer bits, all positive bases, all exponents, all unsigned output formats, default and overridden internal precision up to 44 bits, truncating internal rounding", "why_tests_cant": "The error of the logarithm is multiplied by the exponent and then exponentiated; the combination of widths and values cannot be sampled.", "anchors": ["include/ac_math/ac_hcordic.h:2021-2069"]}
{"id": "C86", "title": "The intermediate logarithm of the CORDIC power function keeps the fraction bits it is documented to have", "statement": "The error of ac_pow_cordic is the one of an intermediate base-two logarithm with log2_a_F fraction bits, as the comment in the header says.", "quantifier": "all base, exponent and output formats, all internal precisions", "why_tests_cant": "The bits lost (about five) only cost accuracy, and tests accept a relative error of a fraction of a per cent.", "anchors": ["include/ac_math/ac_hcordic.h:2032-2057"]}
{"id": "C87", "title": "The CORDIC power function is exact in its special cases", "statement": "ac_pow_cordic(x, 0) = 1 for positive x, ac_pow_cordic(1, x) = 1, and ac_pow_cordic(0, x) = 0 for positive x.", "quantifier": "all base, exponent and output formats, all internal precisions", "why_tests_cant": "Exactness for every base and format at one exponent is a claim about all of them; tests that tolerate an error cannot see a last bit.", "anchors": ["include/ac_math/ac_hcordic.h:2021-2069"]}
{"id": "C88", "title": "The CORDIC natural logarithm of an ac_float is accurate", "statement": "For every positive ac_float x, normalised or not, ac_log_cordic(x, z) hands the constructor of z a number within 8 (3 from 13 bits on) plus 0.51 times the binary exponent of x units of the internal precision's last place from ln x (2 more if the precision is less than the mantissa's).", "quantifier": "all mantissa widths and exponents, all positive values, default and overridden internal precision up to 44 bits", "why_tests_cant": "The error depends on the mantissa, on the exponent and on the precision; exponents alone run over 2^E values.", "anchors": ["include/ac_math/ac_hcordic.h:676-732"]}
{"id": "C89", "title": "The CORDIC base-two logarithm of an ac_float is accurate", "statement": "For every positive ac_float x, normalised or not, ac_log2_cordic(x, z) hands the constructor of z a number within 11 units (3.5 from 13 bits on) of the internal precision's last place from log2 x (3 more if the precision is less than the mantissa's).", "quantifier": "all mantissa widths and exponents, all positive values, default and overridden internal precision up to 44 bits", "why_tests_cant": "The error depends on the mantissa, on the exponent and on the precision; exponents alone run over 2^E values.", "anchors": ["include/ac_math/ac_hcordic.h:676-713", "include/ac_math/ac_hcordic.h:726-732"]}
{"id": "C90", "title": "The CORDIC power of two of an ac_float is accurate and saturates correctly", "statement": "For every ac_float x, ac_exp2_cordic(x, z) hands the constructor of z the number 2^(x' + eta) (1 + eps), where |eta| is at most one and |eps| at most 10 (6 from 13 bits on) units of the internal precision's last place and x' is x limited to an interval; for x outside the interval both 2^x and the number handed on are larger than every value of the output type, or smaller than its smallest positive one.", "quantifier": "all argument and output ac_float formats, all values, default and overridden internal precision up to 44 bits, all internal rounding modes", "why_tests_cant": "The limit of the interval is computed from the output's widths; whether it is wide enough for every format is not visible in tests of a few formats.", "anchors": ["include/ac_math/ac_hcordic.h:1405-1449"]}
{"id": "C91", "title": "The CORDIC exponential of an ac_float is accurate", "statement": "For every ac_float x, ac_exp_cordic(x, z) hands the constructor of z the number 2^(y' + eta) (1 + eps), where y' is x / ln 2 limited to the same interval as for ac_exp2_cordic, |eta| at most (1 + 1.01 |x|) and |eps| at most 10 (6 from 13 bits on) units of the internal precision's last place.", "quantifier": "all argument and output ac_float formats, all values, default and overridden internal precision up to 44 bits, all internal rounding modes", "why_tests_cant": "The argument is multiplied by a truncated constant before it is limited; the interplay of the two errors and the limit over all exponents is out of reach of sampling.", "anchors": ["include/ac_math/ac_hcordic.h:1405-1449"]}
{"id": "C92", "title": "The CORDIC power function on ac_float is accurate and exact in its special cases", "statement": "For every positive ac_float a other than one and every ac_float b, ac_pow_cordic(a, b, z) hands the constructor of z the number 2^(y' + eta) (1 + eps), where y' is b log2 a limited to the interval of ac_exp2_cordic, |eta| at most |b| times the error of the logarithm plus one unit of the internal precision's last place, and |eps| at most 10 (6 from 13 bits on) units; 1^b = 1, 0^b = 0 for b other than zero, and a^0 = 1, exactly.", "quantifier": "all argument and output ac_float formats, all values, default and overridden internal precision up to 44 bits", "why_tests_cant": "Two floating-point arguments, three formats and a precision span a space in which only a few points are ever tested, and exactness of the special cases is hidden by the tests' tolerance.", "anchors": ["include/ac_math/ac_hcordic.h:2136-2213"]}
{"id": "C93", "title": "The piecewise-linear square root of an ac_float is accurate", "statement": "For every positive ac_float x, ac_sqrt_pwl(x, z) hands the constructor of z a number within 0.13 percent of sqrt(x).", "quantifier": "all argument formats, all rounding-mode parameters, all mantissas and exponents", "why_tests_cant": "The exponent's parity, the parities of the integer and fraction widths and the sign of the widths select different code; no test covers their products, and numbers at the smallest exponent are not normalised.", "anchors": ["include/ac_math/ac_sqrt_pwl.h:290-325"]}
{"id": "C94", "title": "The piecewise-linear inverse square root of an ac_float is accurate", "statement": "For every positive ac_float x, ac_inverse_sqrt_pwl(x, z) hands the constructor of z a number within 0.09 percent of 1/sqrt(x).", "quantifier": "all argument formats, all rounding-mode parameters, all mantissas and exponents", "why_tests_cant": "As for the square root; the constant 1/sqrt 2 is stored with twelve bits, which adds to the error for odd exponents only.", "anchors": ["include/ac_math/ac_inverse_sqrt_pwl.h:393-420"]}
{"id": "C95", "title": "The piecewise-linear logarithms of an ac_float are accurate", "statement": "For every positive ac_float x, ac_log2_pwl(x, z) hands the constructor of z a number within 0.0015 of log2(x), and ac_log_pwl one within 0.00105 + 3.3e-6 |ln x| of ln(x).", "quantifier": "all argument formats, all rounding-mode parameters, all mantissas and exponents", "why_tests_cant": "The error of the natural logarithm grows with the exponent; the claim is about all exponents.", "anchors": ["include/ac_math/ac_log_pwl.h:325-366"]}
{"id": "C96", "title": "The piecewise-linear exponentials of an ac_float are accurate and saturate", "statement": "For every ac_float x, ac_pow2_pwl(x, z) and ac_exp_pwl(x, z) hand the constructor of z the number 2^(y + eta) (1 + eps), where y is x (for ac_exp_pwl x / ln 2) limited to the interval of the intermediate type, |eta| at most 2^-12 (for ac_exp_pwl plus 1e-5 times |x|, at most 1.4e-5 times the limit) and |eps| at most 0.0023; wherever the limit acts, both 2^x (e^x) and the number handed on are above every value of z's type, or both are below its smallest positive one.", "quantifier": "all argument and output ac_float formats whose intermediate type has at most 32 (for the saturation of ac_exp_pwl 12) integer bits, all values", "why_tests_cant": "The limits depend on three widths of the output type; a wrong limit only shows at arguments that overflow the output.", "anchors": ["include/ac_math/ac_pow_pwl.h:352-397"]}
{"id": "C97", "title": "The piecewise-linear sigmoid of an ac_float is accurate everywhere", "statement": "For every ac_float x, ac_sigmoid_pwl(x, z) hands the constructor of z a number in [0, 1] within 0.0072 of the sigmoid of x.", "quantifier": "all argument formats, all rounding-mode parameters, all mantissas and exponents", "why_tests_cant": "Arguments of any magnitude are converted to a 14-bit type first.", "anchors": ["include/ac_math/ac_sigmoid_pwl.h:210-232"]}
{"id": "C98", "title": "The piecewise-linear hyperbolic tangent of an ac_float is defined and accurate everywhere", "statement": "For every ac_float x, ac_tanh_pwl(x, z) hands the constructor of z a number in (-1, 1) within 0.0055 of tanh(x).", "quantifier": "all argument formats, all rounding-mode parameters, all mantissas and exponents", "why_tests_cant": "Whether a table is read outside its bounds depends on where the argument falls; what such a read returns depends on the compiler.", "anchors": ["include/ac_math/ac_tanh_pwl.h:207-231"]}
{"id": "C99", "title": "The piecewise-linear tangent of an ac_float is accurate and saturates", "statement": "For every ac_float x in [0, 1594/1024), ac_tan_pwl(x, z) hands the constructor of z a number close to the tangent of a number P within 2^-21 of x (0.00276 absolute for P below 804/1024, 1.21 percent for P up to 1.4 and 5.01 percent above); for x from 1594/1024 on it hands on the largest number of the intermediate type.", "quantifier": "all argument formats, all rounding-mode parameters, all mantissas and exponents", "why_tests_cant": "The error is relative to a function with a pole; the claim is about all arguments near it, in every format.", "anchors": ["include/ac_math/ac_tan_pwl.h:281-307"]}
{"id": "C100", "title": "The piecewise-linear reciprocal of an ac_float is accurate", "statement": "For every non-zero ac_float x, normalised or not, ac_reciprocal_pwl(x, z) hands the constructor of z a number within 0.25 percent of 1/x.", "quantifier": "all argument formats, all rounding-mode parameters, all mantissas and exponents", "why_tests_cant": "The mantissa is normalised first with a wider exponent; small widths use fewer fraction bits of the argument.", "anchors": ["include/ac_math/ac_reciprocal_pwl.h:294-334"]}
{"id": "C101", "title": "The quotient of two ac_floats is rounded down and exactness is reported", "statement": "For every two ac_floats n and d with d other than zero, ac_div(n, d, q) hands the constructor of q the number n/d rounded down to QW - QI fraction bits (scaled by two to the difference of the exponents), and returns false exactly if that number equals n/d.", "quantifier": "all formats of dividend, divisor and quotient, all values except the smallest mantissa divided by minus one unit", "why_tests_cant": "Four widths and two exponents determine how many bits survive; tests with one format cannot see precision that depends on the format.", "anchors": ["include/ac_math/ac_div.h:458-489"]}
{"id": "C102", "title": "The piecewise-linear reciprocal of a complex number is accurate", "statement": "For every non-zero ac_complex<ac_fixed> x = A + iB, ac_reciprocal_pwl(x, z) converts to the type of z the numbers A rho and -B rho where rho is within 0.3 percent of 1/(A^2 + B^2); for zero both parts of z are the largest number of their type.", "quantifier": "all argument and result formats, all rounding-mode parameters, all arguments", "why_tests_cant": "The intermediate type is sized from the widths; an input/output test takes one format and some arguments and cannot show that no format truncates or wraps the reciprocal of the squared modulus.", "anchors": ["include/ac_math/ac_reciprocal_pwl.h:413-455"]}
{"id": "C103", "title": "The piecewise-linear square root of a complex number is accurate and on the principal branch", "statement": "For every non-zero ac_complex<ac_fixed> x with principal square root P + iQ, ac_sqrt_pwl(x, z) converts to the type of z two numbers within 2.58 percent of |P + iQ| of P and Q (0.21 percent for the larger part), with the signs of the principal root, up to a unit of the intermediate type; the root of zero is zero and the root of a positive real number is real.", "quantifier": "all argument and result formats, all rounding-mode parameters, all arguments", "why_tests_cant": "The difference |x| - A cancels, so the error of one part depends on the argument in a way that a few test points do not reveal.", "anchors": ["include/ac_math/ac_sqrt_pwl.h:503-533"]}
{"id": "C104", "title": "The piecewise-linear inverse square root of a complex number is accurate and on the principal branch", "statement": "For every non-zero ac_complex<ac_fixed> x with principal square root P + iQ and N = P^2 + Q^2, ac_inverse_sqrt_pwl(x, z) converts to the type of z two numbers within 2.66 percent of 1/sqrt(N) of P/N and -Q/N (0.29 percent for the larger part), up to two units of the intermediate type; for zero the real part is the largest number of the type and the imaginary part is zero.", "quantifier": "all argument and result formats, all rounding-mode parameters, all arguments", "why_tests_cant": "The branch must be right for negative real arguments and for both signs of the imaginary part in every format, and none of the intermediate types may wrap.", "anchors": ["include/ac_math/ac_inverse_sqrt_pwl.h:275-316"]}
{"id": "C105", "title": "The CORDIC sine and cosine of ac_float numbers are accurate at every magnitude", "statement": "For every ac_float x (read in units of pi), ac_sin_cordic and ac_cos_cordic hand to the output's constructor numbers within 4.15*2^-26 of sin(pi x) and cos(pi x), whatever the exponent of x: the periods discarded when x is shifted into a 40-bit fixed-point number are whole turns.", "quantifier": "all mantissa formats, all mantissas, all exponents", "why_tests_cant": "Huge exponents shift the argument out of the intermediate type entirely, and tests compare only arguments of moderate size.", "anchors": ["include/ac_math/ac_sincos_cordic.h:392-437"]}
{"id": "C106", "title": "The CORDIC arc sine and arc cosine of ac_float numbers are accurate", "statement": "For every ac_float x with |x| <= 1, ac_arcsin_cordic and ac_arccos_cordic hand to the output's constructor numbers within 2^-24 of asin(x)/pi and acos(x)/pi.", "quantifier": "all mantissa formats, all mantissas and exponents with |x| <= 1", "why_tests_cant": "The argument is rounded to a fixed-point number first, and the amplification of that rounding near -1 and 1 is not visible at the sampled points.", "anchors": ["include/ac_math/ac_arcsin_cordic.h:326-346", "include/ac_math/ac_arccos_cordic.h:317-337"]}
{"id": "C107", "title": "The higher-accuracy reciprocals of ac_float numbers are accurate for normal and subnormal arguments", "statement": "For every non-zero ac_float x, ac_reciprocal_pwl_ha hands to the output's constructor a mantissa and an exponent whose value is within 0.015 percent of 1/x, and ac_reciprocal_pwl_vha within 0.005 percent; the intermediate types never overflow.", "quantifier": "all mantissa widths, points, mantissas (normalised or not), exponents and rounding modes", "why_tests_cant": "The intermediate type of the vha version has no spare integer bit: whether it overflows depends on the table's first entry and on the rounding for every width.", "anchors": ["include/ac_math/ac_reciprocal_pwl_ha.h:285-319", "include/ac_math/ac_reciprocal_pwl_vha.h:313-360"]}
{"id": "C108", "title": "The higher-accuracy inverse square root of ac_float numbers is accurate for normal and subnormal arguments", "statement": "For every positive ac_float x, ac_inverse_sqrt_pwl_vha hands to the output's constructor a mantissa and an exponent whose value is within 0.006 percent of 1/sqrt(x).", "quantifier": "all mantissa widths, points (positive, zero, negative, odd, even), positive mantissas, exponents and rounding modes", "why_tests_cant": "The widths are computed from the position of the point with truncating divisions; a wrong case appears only for some signs and parities.", "anchors": ["include/ac_math/ac_inverse_sqrt_pwl_vha.h:375-424"]}
{"id": "C109", "title": "The higher-accuracy reciprocals of complex numbers are accurate", "statement": "For every non-zero ac_complex<ac_fixed> x, ac_reciprocal_pwl_ha and ac_reciprocal_pwl_vha convert to the output type the exact parts of conj(x) times a number within 0.016 percent (0.005 percent) of 1/|x|^2; for zero both parts are the largest number of the type.", "quantifier": "all argument and result formats, signed and unsigned, all rounding and overflow modes, all arguments", "why_tests_cant": "For the smallest non-zero |x| the reciprocal is exactly one unit above the range of the vha version's intermediate type; only the error of the table keeps it inside.", "anchors": ["include/ac_math/ac_reciprocal_pwl_ha.h:391-434", "include/ac_math/ac_reciprocal_pwl_vha.h:434-477"]}
{"id": "C110", "title": "The higher-accuracy inverse square root of a complex number is as accurate as its name says", "statement": "For every non-zero ac_complex<ac_fixed> x, both parts of ac_inverse_sqrt_pwl_vha(x) are within one percent of |1/sqrt(x)| of those of the principal inverse square root.", "quantifier": "all argument and result formats, all rounding-mode parameters, all arguments", "why_tests_cant": "The function calls the ordinary square root internally; the error of its smaller part depends on the argument and is largest near the real axis.", "anchors": ["include/ac_math/ac_inverse_sqrt_pwl_vha.h:260-312"]}
{"id": "C111", "title": "The product of complex matrices is exact until the output conversion", "statement": "ac_matrixmul(A, B, C) on matrices of ac_complex<ac_fixed> stores in each part of each element of C the exact real or imaginary part of the sum over k of A(i,k) B(k,j), converted once to C's type, whenever the type ac_types gives to a product of two elements holds every such product.", "quantifier": "all dimensions, all element formats, all output formats with all rounding and overflow modes, all contents", "why_tests_cant": "A lost carry shows only for contents that use the full range in one part at the right inner dimension; the claim is for all dimensions and formats.", "anchors": ["include/ac_math/ac_matrixmul.h:88-105", "include/ac_math/ac_matrixmul.h:130-139", "include/ac_math/ac_matrixmul.h:180-189"]}
{"id": "C112", "title": "The determinant of a complex matrix is the correctly converted Leibniz determinant", "statement": "ac_determinant(A, result) on a square matrix of ac_complex<ac_fixed> stores in each part of result the part of the sum over all permutations of the signed products of elements, converted to the type of result, provided the type of result can hold it.", "quantifier": "all sizes, all element and output formats, default and overridden internal types, all contents", "why_tests_cant": "The number of terms grows factorially with the size and saturation of an internal type needs extreme entries; tests use small random matrices.", "anchors": ["include/ac_math/ac_determinant.h:205-275", "include/ac_math/ac_determinant.h:312-374", "include/ac_math/ac_determinant.h:391-409"]}
{"id": "C113", "title": "The magnitude of a complex number is accurate and ordered", "statement": "ac_abs(x, y) for an ac_complex<ac_fixed> x stores in y, up to the conversion to its type, a value within 0.12 percent of sqrt(re^2 + im^2); it stores zero for zero; and with a saturating y a number of larger magnitude never gets a smaller result.", "quantifier": "all argument formats, all unsigned result formats, all rounding-mode parameters, all arguments", "why_tests_cant": "The squared magnitude spans twice the argument's dynamic range; the relative bound and the order concern every pair of parts in every format.", "anchors": ["include/ac_math/ac_abs.h: lines 309-318", "include/ac_math/ac_sqrt_pwl.h: lines 147-250"]}
{"id": "C114", "title": "The arctangents of ac_float arguments are accurate at every magnitude", "statement": "For every ac_float x that is not negative, the ac_fixed value that ac_atan_pwl, ac_atan_pwl_ha and ac_atan_pwl_vha hand to the constructor of their ac_float output lies within 0.0079, 0.00029 and 0.00021 of atan(x), plus the error d of storing x or 1/x in the local ac_float; if its exponent is wide enough, within 0.0084, 0.0003 and 0.00028 in total.", "quantifier": "all mantissa widths and integer widths, all mantissas, all exponents, all rounding modes of the segments", "why_tests_cant": "The argument goes through a comparison with 1, a reciprocal of format-dependent precision, a shift by the exponent and a subtraction from pi/2; the exponent range cannot be enumerated.", "anchors": ["include/ac_math/ac_atan_pwl.h: lines 249-297", "include/ac_math/ac_atan_pwl_ha.h: lines 225-275", "include/ac_math/ac_atan_pwl_vha.h: lines 242-292"]}
{"id": "C115", "title": "ac_chol_d on complex matrices computes the rounded Cholesky recurrence and reads no uninitialised data", "statement": "ac_chol_d(A, L) on a square matrix of ac_complex<ac_fixed> always terminates with every element of L written. The strict upper triangle of L is zero and its diagonal is real. Every pivot is the element A(j,j).r() minus the squared magnitudes of row j of L, each subtraction converted to the internal type. If a pivot is not positive, all of L is zero; otherwise L holds the factor. The result does not depend on the indeterminate local of the division, and on a matrix of real numbers it is what the real overload computes.", "quantifier": "all sizes, all formats of the input, output and internal type, both values of use_pwl, all contents", "why_tests_cant": "The recurrence has as many data-dependent steps as the matrix has columns, and whether a pivot fails depends on accumulated roundings; a test sees a few matrices of one size.", "anchors": ["include/ac_math/ac_chol_d.h: lines 730-852"]}
{"id": "C116", "title": "The complex Cholesky factor reconstructs the matrix, and definite matrices are accepted", "statement": "If the internal type has room, either L times its conjugate transpose equals A within the stated error bound in the real and imaginary part of every element of the lower triangle, with a positive real diagonal, or L is zero. For a Hermitian matrix whose quadratic form exceeds the error bound times the squared 1-norm, L is the factor. The same holds with the piecewise-linear inverse square root, with its larger error bound.", "quantifier": "all sizes, all formats with room, all Hermitian (or arbitrary) contents within the bound", "why_tests_cant": "The error bound concerns the accumulated rounding of up to M subtractions and a division per element for every matrix size; tests compare a few matrices with a tolerance.", "anchors": ["include/ac_math/ac_chol_d.h: lines 730-852"]}
{"id": "C117", "title": "Complex matrices that are not positive definite are answered with zero", "statement": "ac_chol_d on a Hermitian ac_complex<ac_fixed> matrix that is not positive semidefinite stores a matrix of zeros in L.", "quantifier": "all sizes, all formats with room, all Hermitian contents", "why_tests_cant": "Whether a matrix near the boundary is rejected depends on the rounding of each pivot; tests use matrices far from the boundary.", "anchors": ["include/ac_math/ac_chol_d.h: lines 780-852", "include/ac_math/ac_chol_d.h: lines 700-728"]}
{"id": "C118", "title": "ac_cholinv on complex matrices always yields a matrix with symmetric real parts and a real diagonal", "statement": "ac_cholinv(A, Ainv) on a square matrix of ac_complex<ac_fixed> terminates with every element of Ainv written, reads no element of its local arrays that it has not written, and gives real parts that are symmetric and a diagonal with imaginary parts zero, whatever A holds. On a matrix of real numbers the result is that of the real overload.", "quantifier": "all sizes, all input, output and internal formats, both values of use_pwl1 and use_pwl2 (the last part for use_pwl2 = false), all contents including matrices that are not positive definite", "why_tests_cant": "The forward substitution and the product run over data-dependent roundings for every size; the arrays are not initialised and a test cannot see which elements were read.", "anchors": ["include/ac_math/ac_cholinv.h: lines 284-347"]}
{"id": "C119", "title": "The complex ac_cholinv computes the inverse", "statement": "For a Hermitian matrix A = P + i N within the bound b and an output whose diagonal stays below a bound g, the real and imaginary parts of A * Ainv differ from those of the identity by at most the stated error, which is a polynomial in the size, the bounds and the resolutions of the types; and Ainv is Hermitian up to twice its own rounding error.", "quantifier": "all sizes, all formats with room, all Hermitian matrices within the bound", "why_tests_cant": "The error accumulates over the decomposition, the forward substitution and the product for every size; tests compare a few random matrices with a tolerance.", "anchors": ["include/ac_math/ac_cholinv.h: lines 284-347", "include/ac_math/ac_chol_d.h: lines 730-852"]}
{"id": "C120", "title": "The complex ac_cholinv returns a Hermitian matrix, and zeros for matrices that are not positive definite", "statement": "The result of ac_cholinv on a Hermitian ac_complex<ac_fixed> matrix is Hermitian: Ainv(i,j) is the conjugate of Ainv(j,i). For a matrix that is not positive definite the result is a matrix of zeros, as the header says.", "quantifier": "all sizes, all formats, all Hermitian contents", "why_tests_cant": "Both triangles are computed and rounded separately; they differ only when a partial sum is a tie of the rounding mode, which random tests with a tolerance do not see.", "anchors": ["include/ac_math/ac_cholinv.h: lines 258-265", "include/ac_math/ac_cholinv.h: lines 337-346"]}
{"id": "C121", "title": "Complex QR decomposition reconstructs its input", "statement": "ac_qrd on a complex matrix returns Q and R with Q R equal to the input, Q unitary and R upper triangular, all up to arithmetic error; the diagonal of R but for its last element is real.", "quantifier": "all sizes, complex matrices and output types, including matrices with zero pivot pairs, with the piecewise-linear or the exact functions", "why_tests_cant": "The error accumulates over M(M-1)/2 rotations; zero pivot pairs are not hit by random tests.", "anchors": ["include/ac_math/ac_qrd.h: lines 89-269", "include/ac_math/ac_qrd.h: lines 325-396"]}
{"id": "C122", "title": "real_diag makes the whole diagonal of R real", "statement": "With real_diag set, the complex ac_qrd returns factors of the input with Q unitary and every diagonal element of R real; only the bottom right element of R and the last column of Q differ from the result without real_diag.", "quantifier": "all sizes, complex matrices and output types, including singular matrices", "why_tests_cant": "The last stage divides by a magnitude that is zero only for singular matrices.", "anchors": ["include/ac_math/ac_qrd.h: lines 121-137", "include/ac_math/ac_qrd.h: lines 355-396"]}
{"id": "C123", "title": "Complex QR decomposition of a real matrix is real", "statement": "The complex ac_qrd of a matrix with zero imaginary parts returns Q and R with zero imaginary parts, for every choice of the template flags.", "quantifier": "all sizes, matrices and output types", "why_tests_cant": "A sign slip in a conjugation is invisible on the tested matrices but not in the imaginary parts of every element.", "anchors": ["include/ac_math/ac_qrd.h: lines 141-269", "include/ac_math/ac_qrd.h: lines 325-396"]}
{"id": "C124", "title": "Random ac_float values cover every representable number", "statement": "ac_random on an ac_float returns zero, a normalised number or one with the smallest exponent; every such number is produced by some sequence of rand() results of at least 16 bits, whatever was left over from previous calls; its value is that of a random mantissa and a random exponent, and each part takes one result of rand() for every 16 bits or part of them and depends on no other.", "quantifier": "all mantissa and exponent widths, all sequences of rand() results", "why_tests_cant": "Existence over all widths and values.", "anchors": ["include/ac_math/ac_random.h: lines 261-280"]}
{"id": "C125", "title": "Complex shifts convert the exact shift of both parts", "statement": "ac_shift_right and ac_shift_left on ac_complex return, for both parts, the exact shifted value converted to the output type.", "quantifier": "all formats, rounding and overflow modes, values and unsigned counts", "why_tests_cant": "The errors are confined to counts of 2^31 and more and to combinations of modes.", "anchors": ["include/ac_math/ac_shift.h: lines 448-486"]}
{"id": "C126", "title": "Cholesky on ac_float: memory safety, shape and rejection", "statement": "ac_chol_d on ac_float arrays reads no element before writing it and stays inside its arrays. The result is zero above the diagonal; each diagonal element is the root of its pivot and each element below is the product of the reciprocal and the remaining sum; if one pivot is not positive every element is zero.", "quantifier": "all sizes, all inputs, any arithmetic of ac_float", "why_tests_cant": "Holds for every size and every rounding of the arithmetic.", "anchors": ["include/ac_math/ac_chol_d.h: lines 349-443"]}
{"id": "C127", "title": "Cholesky on ac_float: backward error", "statement": "If all pivots are positive, every element of L*L^T differs from the input by at most a multiple of |a_ij| + sum |l_ik l_jk|, the factor being (1+u)^(j+2) (1+e)^2 - 1, where u bounds the relative errors of conversions, subtractions and products and e those of the roots and reciprocals; with g that factor at j = M-1 and g < 1, by at most g (|a_ij| + (1+g)/(1-g) sqrt(a_ii a_jj)).", "quantifier": "all sizes, all inputs, any arithmetic with those relative errors", "why_tests_cant": "A bound over all matrices and sizes.", "anchors": ["include/ac_math/ac_chol_d.h: lines 349-443"]}
{"id": "C128", "title": "The reciprocals of complex floating-point numbers are accurate", "statement": "For every non-zero ac_complex<ac_float> x, both parts of the result of ac_reciprocal_pwl, ac_reciprocal_pwl_ha and ac_reciprocal_pwl_vha have a relative error of at most k = (1+u)(1+e)/(1-u) - 1, and x times the result is within k of one, where u bounds the relative errors of the squared modulus and of the products and e that of the real reciprocal; for zero both parts are the largest number of the type.", "quantifier": "all arguments, any arithmetic of ac_float with those relative errors", "why_tests_cant": "A bound over all arguments and formats.", "anchors": ["include/ac_math/ac_reciprocal_pwl.h: lines 524-573", "include/ac_math/ac_reciprocal_pwl_ha.h: lines 506-555", "include/ac_math/ac_reciprocal_pwl_vha.h: lines 549-594"]}
{"id": "C129", "title": "Cholesky on ac_float factors definite matrices and rejects indefinite ones", "statement": "With g and the errors u, e as before and g < 1, let rho = 2 g b / (1 - g) where b bounds the elements. A symmetric matrix with x^T A x > rho |x|_1^2 for all non-zero x is factored: the diagonal is positive and every element of L*L^T is within rho of the input. A symmetric matrix with x^T A x < - rho |x|_1^2 for some x gives zeros.", "quantifier": "all sizes, all symmetric matrices, any arithmetic with those relative errors", "why_tests_cant": "Rounding could make a pivot of a definite matrix negative or hide the negative pivot of an indefinite one.", "anchors": ["include/ac_math/ac_chol_d.h: lines 349-443"]}
