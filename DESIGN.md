# Formal model of hlslibs/ac_math

Source: `/repo` (C++ headers, read as text, never built). Model and proofs: `/verif/rocq/theories` (Coq 8.16.1).
Build: `coq_makefile -f _CoqProject -o Makefile && make -j4` in `/verif/rocq`.

## Trusted base

* Coq's kernel (the proofs use `vm_compute` for a few hundred table points; `coqchk` replays them without it).
* The axioms printed by `Print Assumptions` under each property theorem (table at the end).
* The reading of the C++ code: each definition of a `*Model.v` file cites the file and lines it models.
* The semantics of the external `ac_types` library (`ac_int`, `ac_fixed`, `ac_float`, `ac_complex`), which is not in
  `/repo`. `AcTypes.v` and `RtTypes.v` model it from its documented behaviour:
  * `ac_int<W,S>`: an integer reduced to W bits (two's complement if S).
  * `ac_fixed<W,I,S,Q,O>`: an integer mantissa, value = mantissa * 2^-(W-I). Conversion quantises with
    mode Q, then applies overflow mode O.
  * Binary arithmetic and comparison are exact (result types are wide enough). Shifts keep the operand type, so
    `>>` is a floor shift and `<<` wraps.
  * `leading_sign`, `slc`, `set_slc`, `operator[]` act on the two's complement bits. A slice wider than its source
    sees the sign extension.
  * `rt_unary::set`, `rt::plus`, `rt::mult`, ... follow the width formulas of the library (`RtTypes.v`).
  * `to_int()` is the floor of the value, reduced to 32 bits.
* The vocabulary of the statements: `Spec.v` (rounding of a rational by mode, overflow), `SpecR.v` (the same for reals),
  `SpecBits.v`, `SpecMat.v`, `SpecFloat.v`, `SpecLin.v`, `SpecTrig.v`, `SpecStd.v`, `SpecCplx.v`, `SpecLinC.v`, `SpecQrC.v`, `SpecFlt.v` (only the records of operations of CholFloatModel and RecipCplxFltModel). None mentions a model helper.

## Conventions

* A C++ template parameter becomes an ordinary argument, so theorems range over all formats.
* A fixed-point number is carried by its raw mantissa (`Z`); its format is a record `fmt`.
* Undefined behaviour (out-of-range table or array access, over-long shift of an `int`, read of uninitialised storage)
  is a distinct outcome (`None`) or an explicit parameter holding the arbitrary old contents.
* If the natural property is false of the code, `..._refuted` gives a witness and a second theorem states
  the largest domain we can prove it on.
* Property theorems live alone in `Prop*.v`, with a concrete case (`Example`) beside each.

## What is modelled

| model file | source (`/repo/include`) | overloads modelled | not modelled there |
|------------|--------------------------|--------------------|--------------------|
| AbsModel | ac_math/ac_abs.h, ac_relu.h, ac_leakyrelu.h, ac_prelu.h | ac_int, ac_fixed, ac_float (up to ac_types' constructor) | (ac_complex of ac_abs: AtanFloatModel) |
| AddTreeModel | ac_float_add_tree.h | all | ac_float's normalising constructor |
| Atan2Model | ac_math/ac_atan2_cordic.h | ac_fixed (the only overload) | - |
| CholModel | ac_math/ac_chol_d.h, ac_cholinv.h, ac_qrd.h | real ac_fixed | (ac_complex of ac_chol_d: CholCplxModel; of ac_cholinv: CholInvCplxModel; of ac_qrd: QrdCplxModel; ac_float of ac_chol_d: CholFloatModel) |
| CholFloatModel | ac_math/ac_chol_d.h | ac_float arrays; the arithmetic of ac_float and its roots are a parameter | ac_std_float, ac_ieee_float and ac_matrix wrappers |
| CholCplxModel | ac_math/ac_chol_d.h | ac_complex<ac_fixed>, C-style arrays | the ac_matrix wrapper; the iteration i = j whose sum is discarded |
| CholInvCplxModel | ac_math/ac_cholinv.h | ac_complex<ac_fixed>, C-style arrays | the ac_matrix wrapper |
| QrdCplxModel | ac_math/ac_qrd.h | ac_complex<ac_fixed>, ac_matrix, both values of real_diag and ispwl | the integer width of ac_types' mag_sqr is a parameter |
| CordicModel | ac_math/ac_sincos_cordic.h | ac_fixed | (ac_float: TrigFloatModel) |
| DetModel | ac_math/ac_determinant.h | ac_fixed | (ac_complex: MatCplxModel) |
| DivModel | ac_math/ac_div.h | ac_int, ac_fixed, ac_complex | (ac_float: PwlFloatModel) |
| DivV2Model | ac_math/ac_div_v2.h | all | |
| FlfxModel | ac_math/ac_flfx_mul.h | all | |
| LeadingModel | ac_math/ac_leading.h, ac_leading_ones_tmpl.h, ac_barrel_shift.h, ac_normalize.h | all | |
| MatrixModel | ac_array.h, ac_matrix.h, ac_math/ac_matrixmul.h | ac_fixed elements | (ac_complex: MatCplxModel) |
| PwlModel | ac_math/ac_{reciprocal,sqrt,inverse_sqrt,sigmoid,tanh}_pwl.h, pow2 of ac_pow_pwl.h, log2 of ac_log_pwl.h | ac_fixed | (ac_float: PwlFloatModel; ac_complex: PwlCplxModel) |
| PwlHaModel | ac_math/ac_reciprocal_pwl_ha.h, ac_reciprocal_pwl_vha.h, ac_inverse_sqrt_pwl_vha.h, ac_atan_pwl.h, ac_atan_pwl_ha.h, ac_atan_pwl_vha.h | ac_fixed | (ac_float, ac_complex of the first three: PwlHaFltModel; ac_float of the arctangents: AtanFloatModel) |
| TanPwlModel | ac_math/ac_tan_pwl.h | ac_fixed | the assertion on inputs above pi/2 (ac_float: PwlFloatModel) |
| ArcModel | ac_math/ac_arcsin_cordic.h, ac_math/ac_arccos_cordic.h | ac_fixed | (ac_float: TrigFloatModel); ac_std_float, ac_ieee_float; the assertion that the output has at most 64 fraction bits is a hypothesis |
| HcModel | ac_math/ac_hcordic.h | ac_log_cordic, ac_log2_cordic, ac_exp2_cordic, ac_exp_cordic on ac_fixed, with the tables, the iteration and the overridden precision | ac_exp_rr (unused); ac_std_float, ac_ieee_float; the tables are the exact values of the double literals, summed as in the code; the static assertions are the outcome None |
| HcPowModel | ac_math/ac_hcordic.h:2021-2069 | ac_pow_cordic on ac_fixed | |
| HcFloatModel | ac_math/ac_hcordic.h | ac_log_cordic, ac_log2_cordic, ac_exp2_cordic, ac_exp_cordic, ac_pow_cordic on ac_float, up to the output's constructor | ac_float's constructor (ac_types); ac_std_float and ac_ieee_float wrappers |
| PwlFloatModel | ac_math/ac_sqrt_pwl.h, ac_inverse_sqrt_pwl.h, ac_log_pwl.h, ac_pow_pwl.h, ac_sigmoid_pwl.h, ac_tanh_pwl.h, ac_tan_pwl.h, ac_reciprocal_pwl.h, ac_div.h | the ac_float overloads, up to the output's constructor | ac_float's constructor (ac_types); ac_std_float and ac_ieee_float wrappers; the value stored for a zero argument |
| PwlCplxModel | ac_math/ac_reciprocal_pwl.h, ac_sqrt_pwl.h, ac_inverse_sqrt_pwl.h | the ac_complex<ac_fixed> overloads | (ac_complex<ac_float>: RecipCplxFltModel); the widths of ac_types' mag_sqr and conj results are parameters |
| PwlHaFltModel | ac_math/ac_reciprocal_pwl_ha.h, ac_reciprocal_pwl_vha.h, ac_inverse_sqrt_pwl_vha.h | the ac_float overloads up to the constructor of the output; the ac_complex<ac_fixed> overloads | that constructor; (ac_complex<ac_float>: RecipCplxFltModel); ac_std_float, ac_ieee_float; the widths of ac_types' mag_sqr and conj results are parameters |
| RecipCplxFltModel | ac_math/ac_reciprocal_pwl.h, ac_reciprocal_pwl_ha.h, ac_reciprocal_pwl_vha.h | ac_complex<ac_float>; the arithmetic of ac_float is a parameter | - |
| MatCplxModel | ac_math/ac_matrixmul.h, ac_determinant.h | the ac_complex<ac_fixed> overloads | the type ac_types gives to a complex product is a parameter |
| AtanFloatModel | ac_math/ac_atan_pwl.h, ac_atan_pwl_ha.h, ac_atan_pwl_vha.h, ac_abs.h | the ac_float overloads of the arctangents up to the constructor of the output; ac_abs on ac_complex | that constructor; the assignment to the local ac_float is a parameter (one instance, truncation with a wide exponent, is defined); ac_std_float, ac_ieee_float |
| TrigFloatModel | ac_math/ac_sincos_cordic.h, ac_arcsin_cordic.h, ac_arccos_cordic.h | the ac_float overloads up to the constructor of the output | that constructor; ac_std_float, ac_ieee_float |
| RandomModel | ac_math/ac_random.h | ac_int, ac_fixed, ac_float, unsigned C integers | SystemC types |
| ShiftModel | ac_math/ac_shift.h | ac_fixed, ac_int, ac_complex | |
| SinLutModel | ac_math/ac_sincos_lut.h | all | |
| SoftModel | ac_math/ac_{softplus,softsign,elu,selu,gelu,softmax}_pwl.h, ac_softmax_pwl_new.h, exp and ln of ac_pow_pwl.h, ac_log_pwl.h | ac_fixed | (ac_float of ac_pow_pwl and ac_log_pwl: PwlFloatModel) |
| SqrtModel | ac_math/ac_sqrt.h | ac_int, ac_fixed, ac_float | |
| StdTreeModel | ac_std_float_add_tree.h | fadd_tree_core, shared by all overloads | copying of operands by the overloads |

Not modelled at all: the compiler, the HLS tool and its pragmas, iostream
output, and assertion macros other than as guards. `AC_DIV_DISABLE_SATURATION_IF_INPUT_IS_ZERO` and
`ASSERT_ON_INVALID_INPUT` are taken to be undefined (the defaults).

Every header has a model of at least its ac_fixed (or only) overloads.

## Readings and simplifications

* ac_chol_d.h: the loop iteration i = j, whose effect is overwritten, is folded into the diagonal step.
* ac_qrd.h: the pivots are not assumed; the theorem's hypothesis is on the lengths met by the trace of the run.
* ac_*_pwl.h: every table value is written as the integer its ac_fixed type stores. A ternary such as
  `cond ? product : 0.0` is read in the product type. The integer part copied to an `int` is reduced to 32 bits; the
  theorems about pow2 and exp restrict inputs accordingly.
* Monotonicity of a converted result needs a saturating output type; with AC_WRAP it is false of any function.
* CORDIC tables (ac_sincos_cordic.h, ac_atan2_cordic.h) are written exactly, as integers scaled by 2^71 or 2^72.
  `M_PI` is the nearest double, an integer scaled by 2^48.
* ac_sincos_lut.h: literals are the nearest doubles (in units of 2^-62); the ternaries mixing double and `T_out` are
  converted to `T_out`; `1 << 31` on int is counted as undefined.
* ac_float: a value is a (mantissa, exponent) pair. The normalising constructor belongs to ac_types, so results are
  stated for the pair handed to it. Exponent widths are at most 31 bits.
* ac_std_float_add_tree.h: an `ac_std_float<W,E>` is its W-bit pattern read as an unsigned integer; the temporaries are
  wrapped to the widths their types have.
* ac_random.h: successive results of `rand()` are an arbitrary stream of integers.

## Findings

Each item is a theorem ending in `_refuted` unless marked (note).

* C05/C06: `ac_div` on ac_fixed returns early, leaving the quotient unwritten, for formats where the shifted dividend
  has no bits; the signed overload then converts an uninitialised local.
* C12: signed `ac_shift_left` with an unsigned count rounds by the wrong sign for AC_WRAP outputs.
* C13: `ac_shift_right` masks unsigned counts to 31 bits.
* C18: the recursive leading-ones index is wrong for every N >= 5.
* C19/C20: `ac_normalize` saturates -1.0 for signed AC_SAT_SYM types.
* C25: the initializer-list constructor of `ac_matrix` indexes with the wrong stride (writes outside for M < N).
* C26: `operator*` of `ac_matrix` loses the top bit when the inner dimension is 2^k+1.
* C28: `ac_determinant` saturates minors: unsigned elements at every size, signed ones from 4x4.
* C32: mixed multiplication without subnormal support mishandles zero and denormalised mantissas.
* C40/C59: `ac_tanh_pwl` reads outside its table for |x| in [3+4j, 4+4j); GELU inherits it.
* C41: `ac_sincos_cordic` returns 0 from 69 bits on; the error grows with the scale.
* C43/C61: `ac_cholinv` on a non-positive-definite matrix returns saturated values; `ac_chol_d` accepts slightly (with
  few integer bits: badly) indefinite matrices.
* C44: `ac_qrd` wipes two rows when a rotation meets a pair of zeros (the 3x3 identity).
* C45: `ac_softmax_pwl` returns all zeros for very negative inputs. C46: softplus wraps beyond 6 integer bits.
* C47/C63: the lookup table breaks the half-turn symmetry at odd eighths of a turn; undefined shift from 43 fraction bits.
* C48 and others hold. C49: the inexact flag is wrong for a narrow signed remainder. C50: complex division overflows an
  intermediate type derived from the quotient. C52: ac_float square root wraps with a rounding temporary.
* C56: softsign error grows with |x|. C64: `ac_atan2_cordic` is inaccurate near the origin.
* C66: `fadd_tree` of two operands is not correctly rounded when the sum carries (the sticky bit is lost). C67: with three
  or more operands an overflowing exponent wraps; subnormal results are wrong unless there are exactly two operands;
  `AccExtraLSBs = 0` overwrites the last mantissa bit.
* (note) `ac_chol_d` with M = 1 instantiates a zero-width index type. `ac_inverse_sqrt_pwl` of complex zero gives a
  non-zero imaginary part. `ac_leading` signed searches write W bits into W-1. `ac_random` shifts signed integers left.
  The old softmax shifts by a negative count for I < S.
* C72: `ac_atan_pwl` of 0 is 1/1024, not 0. (note) `ac_atan_pwl_vha` keeps 15 bits of its input and of pi/2, so its bound
  is close to that of `ac_atan_pwl_ha`.
* C73/C74: `ac_tan_pwl` copies its input into a 20-bit type with the input's own modes; for an input type that rounds and
  wraps, with I <= 0 and more than 19 fraction bits, the copy wraps to 0 and so does the tangent.
* C78/C79/C82/C88/C89: with a rounding TQ and a precision below the argument's the internal values round up to the next power of two and wrap to 0 (`ac_exp2_cordic` of
  a fraction just below one returns 0). C80: `ac_log_cordic` wraps into signed outputs and saturates into unsigned ones,
  whatever the output's overflow mode. C81: log2 of a power of two is one unit too small; log2(2^-8) into a type whose
  lowest value is -8 gives 7.9998. C84: at 44 bits ln(1 - 2^-44) > ln(1).
* C86: `ac_pow_cordic` on ac_fixed declares its intermediate logarithm `log2_a_F` bits wide, so that the integer bits are
  taken from the promised fraction bits. C87/C92: x^0 and 1^x are 1 - 2^-12 (float: x^0 only), fixed-point 0^1 is 1.71.
* C93/C94/C95: `ac_sqrt_pwl`, `ac_inverse_sqrt_pwl` and the logarithms on ac_float pass `call_normalize = false`, but a number
  at the smallest exponent need not be normalised: sqrt(2^-33) comes out 73 percent too large, log2(2^-34) is -31.68.
* C98: `ac_tanh_pwl` on ac_float converts to ac_fixed<14,4> with saturation, for which the fixed-point function reads outside
  its table; every argument of 7 or more does. C99: `ac_tan_pwl` on ac_float wraps arguments of 2 or more (tan 3 = tan 1).
* C101: `ac_div` on ac_float keeps QW - QI fraction bits whatever the integer widths, so all bits may be lost, and the smallest
  mantissa divided by minus one unit changes sign and is reported as exact.
- C103: `ac_sqrt_pwl` of a complex number computes the smaller part from |x| - |A| with |x| known to 0.12 percent only, so its error is up to 2.5
  percent of the root's modulus: sqrt(1) = 1.0012 + 0.0223 i.
- C104: for a zero argument `ac_inverse_sqrt_pwl` stores the largest number in the imaginary part too, although the comment above says zero.
- C128: the complex reciprocals carry the same comment, and store the largest number in both parts too.
- C106: the arc sine and arc cosine of an ac_float round the argument to 18 fraction bits first: arguments below 2^-19 give arc sine zero, and near
  -1 and 1 the error reaches the order of 2^-10 pi.
- C110: `ac_inverse_sqrt_pwl_vha` of a complex number calls the ordinary `ac_sqrt_pwl`, so the smaller part is off by up to 2.5 percent of the modulus,
  in spite of the name; 1/sqrt(1) is 1.0012 + 0.0223 i.
- C112: the default internal type of `ac_determinant` on complex matrices has M W bits, which already loses the 2 x 2 determinant of
  a matrix holding (-h - h i)^2 at every element width; and see C05, C06 for the real overload.
- C113 (note): `ac_abs` on `ac_complex` calls `ac_sqrt_pwl`, which only accepts an unsigned output, while the usage comment in ac_abs.h
  shows a signed one.
- C117: as for real matrices (C61), a Hermitian matrix that is not positive semidefinite, by less than the rounding of the internal type,
  is accepted and gets a factor instead of zeros.
- C120: the two triangles of the complex `ac_cholinv` are rounded separately, so with the default AC_RND the result need not be Hermitian:
  for [[1 -i/128] [i/128 4]] in ac_fixed<16,8> one off-diagonal element is i/256 and the other 0. As for real matrices (C43), the zeros that mark a matrix that is
  not positive definite become the largest values.
- C121: the complex `ac_qrd` wipes two rows when a rotation meets a pair of zeros, like the real one (C44).
- C122: with `real_diag` the complex `ac_qrd` multiplies the last column of Q by br/|br|, which is zero when the bottom right element br of R is zero:
  for the singular matrix [[1 0] [0 0]] the last column of Q is zero and Q is not unitary, although without `real_diag` it is.

## Testing the theorems

`/verif/seeded/LOG.jsonl` records edits of the models (in a scratch copy), the claim each breaks and the theorems that
failed to compile. Edits that survived are logged with the reason (harmless, or which theorem was tightened).
In `theorems_failed` an entry `file:name` is the lemma, theorem or example at which the build stopped. The names after it
are the theorems of the claim that could not be checked because their file, or one it needs, stopped there; they were not
tried one by one, and the build stopping at a lemma shows that the proof as written breaks, not that every listed statement is false.

## Properties

Status `partial` means that the natural statement is false of the code, or holds on part of its domain; the note in
`MANIFEST.json` says which, and the `_refuted` theorem gives the witness.

| id | property | status | file |
|----|----------|--------|------|
| C01 | Unsigned integer division is Euclidean division | proved | PropDiv.v |
| C02 | Integer division by zero saturates | proved | PropDiv.v |
| C03 | Signed integer division truncates toward zero | proved | PropDiv.v |
| C04 | Unsigned fixed-point division is correctly rounded | partial | PropDiv.v |
| C05 | ac_div always writes its quotient | partial | PropDiv.v |
| C06 | Signed fixed-point division is correctly rounded | partial | PropDiv.v |
| C07 | Padded divider ac_div_v2 equals Euclidean division in its supported range | proved | PropDivV2.v |
| C08 | Signed ac_div_v2 truncates toward zero | proved | PropDivV2.v |
| C09 | ac_shift_right on unsigned values converts the exact shifted value | proved | PropShift.v |
| C10 | ac_shift_right on signed values converts the exact shifted value | proved | PropShift.v |
| C100 | The piecewise-linear reciprocal of an ac_float is accurate | proved | PropPwlFloat.v |
| C101 | The quotient of two ac_floats is rounded down and exactness is reported | partial | PropPwlFloat.v |
| C102 | The piecewise-linear reciprocal of a complex number is accurate | proved | PropPwlCplx.v |
| C103 | The piecewise-linear square root of a complex number is accurate and on the principal branch | partial | PropPwlCplx.v |
| C104 | The piecewise-linear inverse square root of a complex number is accurate and on the principal branch | partial | PropPwlCplx.v |
| C105 | The CORDIC sine and cosine of ac_float numbers are accurate at every magnitude | proved | PropTrigFloat.v |
| C106 | The CORDIC arc sine and arc cosine of ac_float numbers are accurate | partial | PropTrigFloat.v |
| C107 | The higher-accuracy reciprocals of ac_float numbers are accurate for normal and subnormal arguments | proved | PropPwlHaFlt.v |
| C108 | The higher-accuracy inverse square root of ac_float numbers is accurate for normal and subnormal arguments | proved | PropPwlHaFlt.v |
| C109 | The higher-accuracy reciprocals of complex numbers are accurate | proved | PropPwlHaFlt.v |
| C11 | ac_shift_left on unsigned values converts the exact shifted value | proved | PropShift.v |
| C110 | The higher-accuracy inverse square root of a complex number is as accurate as its name says | partial | PropPwlHaFlt.v |
| C111 | The product of complex matrices is exact until the output conversion | proved | PropMatCplx.v |
| C112 | The determinant of a complex matrix is the correctly converted Leibniz determinant | partial | PropMatCplx.v |
| C113 | The magnitude of a complex number is accurate and ordered | proved | PropAtanFloat.v |
| C114 | The arctangents of ac_float arguments are accurate at every magnitude | proved | PropAtanFloat.v |
| C115 | ac_chol_d on complex matrices computes the rounded Cholesky recurrence and reads no uninitialised data | proved | PropCholCplx.v |
| C116 | The complex Cholesky factor reconstructs the matrix, and definite matrices are accepted | proved | PropCholCplx.v |
| C117 | Complex matrices that are not positive definite are answered with zero | partial | PropCholCplx.v |
| C118 | ac_cholinv on complex matrices always yields a matrix with symmetric real parts and a real diagonal | proved | PropCholInvCplx.v |
| C119 | The complex ac_cholinv computes the inverse | proved | PropCholInvCplx.v |
| C12 | ac_shift_left on signed values converts the exact shifted value | partial | PropShift.v |
| C120 | The complex ac_cholinv returns a Hermitian matrix, and zeros for matrices that are not positive definite | partial | PropCholInvCplx.v |
| C121 | Complex QR decomposition reconstructs its input | partial | PropQrdCplx.v |
| C122 | real_diag makes the whole diagonal of R real | partial | PropQrdCplx.v |
| C123 | Complex QR decomposition of a real matrix is real | proved | PropQrdCplx.v |
| C124 | Random ac_float values cover every representable number | proved | PropRandom.v |
| C125 | Complex shifts convert the exact shift of both parts | partial | PropShift.v |
| C126 | Cholesky on ac_float: memory safety, shape and rejection | proved | PropCholFloat.v |
| C127 | Cholesky on ac_float: backward error | proved | PropCholFloat.v |
| C128 | The reciprocals of complex floating-point numbers are accurate | proved | PropRecipCplxFlt.v |
| C129 | Cholesky on ac_float factors definite matrices and rejects indefinite ones | proved | PropCholFloat.v |
| C13 | ac_shift_right honours every unsigned shift count | partial | PropShift.v |
| C14 | Integer square root is the exact floor square root | proved | PropSqrt.v |
| C15 | Fixed-point square root is correctly rounded | proved | PropSqrt.v |
| C16 | leading1/trailing1/leading0/trailing0 report extreme bit positions | proved | PropBits.v |
| C17 | Signed leading/trailing searches ignore exactly the sign bit | proved | PropBits.v |
| C18 | Recursive leading-ones index equals floor(log2) | partial | PropBits.v |
| C19 | ac_normalize is lossless and in range | partial | PropBits.v |
| C20 | Complex ac_normalize is lossless and tight | partial | PropBits.v |
| C21 | ac_abs returns the absolute value | proved | PropAbs.v |
| C22 | Barrel shifter rotates | proved | PropBits.v |
| C23 | ReLU family | proved | PropAbs.v |
| C24 | ac_array element access, fill and comparison | proved | PropMatrix.v |
| C25 | ac_matrix initializer-list construction places elements row-major | partial | PropMatrix.v |
| C26 | ac_matrix algebra | partial | PropMatrix.v |
| C27 | Matrix multiplication keeps full precision | proved | PropMatrix.v |
| C28 | Determinant equals the mathematical determinant | partial | PropDet.v |
| C29 | ac_matrix::determinant on 2x2 and 3x3 | proved | PropMatrix.v |
| C30 | Floating add tree error is bounded and one-sided | proved | PropAddTree.v |
| C31 | Block add tree | proved | PropAddTree.v |
| C32 | Float/fixed multiplication | partial | PropFlfx.v |
| C33 | Reciprocal PWL accuracy | proved | PropPwl.v |
| C34 | Reciprocal PWL is odd and monotone | proved | PropPwl.v |
| C35 | Square-root PWL accuracy and monotonicity | proved | PropPwl.v |
| C36 | Inverse-square-root PWL accuracy | proved | PropPwl.v |
| C37 | pow2 PWL is monotone and accurate | proved | PropPwl.v |
| C38 | log2 PWL is monotone and accurate | proved | PropPwl.v |
| C39 | Sigmoid PWL range, symmetry and monotonicity | proved | PropPwl.v |
| C40 | Tanh PWL never reads outside its table | partial | PropPwl.v |
| C41 | CORDIC sine/cosine periodicity and precision limit | partial | PropCordic.v |
| C42 | Cholesky output structure | proved | PropChol.v |
| C43 | Cholesky inverse returns zeros for non-positive-definite input | partial | PropChol.v |
| C44 | QR decomposition reconstructs its input | partial | PropChol.v |
| C45 | Softmax normalisation | partial | PropSoft.v |
| C46 | Softplus does not wrap | partial | PropSoft.v |
| C47 | Sine/cosine lookup table symmetry | partial | PropSinLut.v |
| C48 | Random generator covers every value | proved | PropRandom.v |
| C49 | The inexact flag of ac_div is truthful | partial | PropDiv.v |
| C50 | Complex division is correctly rounded | partial | PropDiv.v |
| C51 | Fixed-point division by zero saturates | proved | PropDiv.v |
| C52 | ac_float square root keeps every requested fraction bit | partial | PropSqrt.v |
| C53 | ac_abs on ac_float is exact | proved | PropAbs.v |
| C54 | Exponential accuracy and order | proved | PropSoft.v |
| C55 | Natural logarithm accuracy | proved | PropSoft.v |
| C56 | Softsign stays close to x/(1+|x|) | partial | PropSoft.v |
| C57 | ELU is the identity on non-negative inputs and close to alpha(e^x-1) on negative ones | proved | PropSoft.v |
| C58 | SELU is lambda x on non-negative inputs and close to lambda alpha(e^x-1) on negative ones | proved | PropSoft.v |
| C59 | GELU is defined and close to its formula | partial | PropSoft.v |
| C60 | Cholesky factor reconstructs the matrix | proved | PropChol.v |
| C61 | Cholesky returns zeros for matrices that are not positive definite | partial | PropChol.v |
| C62 | ac_cholinv returns an inverse of its input | proved | PropChol.v |
| C63 | The table-based sine and cosine are accurate to one unit in the last place | partial | PropSinLut.v |
| C64 | The CORDIC arctangent of two arguments is accurate | partial | PropAtan2.v |
| C65 | The floating-point adder tree propagates NaNs and infinities | proved | PropStdTree.v |
| C66 | fadd_tree of two operands is the correctly rounded sum | partial | PropStdTree.v |
| C67 | fadd_tree of many operands is accurate | partial | PropStdTree.v |
| C68 | The higher-accuracy reciprocals are accurate | proved | PropPwlHa.v |
| C69 | The higher-accuracy reciprocals are odd and decreasing | proved | PropPwlHa.v |
| C70 | The very-high-accuracy inverse square root is accurate | proved | PropPwlHa.v |
| C71 | The piecewise-linear arctangents are accurate | proved | PropPwlHa.v |
| C72 | The piecewise-linear arctangents are increasing and bounded | partial | PropPwlHa.v |
| C73 | The piecewise-linear tangent is accurate | partial | PropTanPwl.v |
| C74 | The piecewise-linear tangent is increasing and maps 0 to 0 | partial | PropTanPwl.v |
| C75 | The CORDIC arc sine is accurate to four output units over the whole domain | proved | PropArc.v |
| C76 | The CORDIC arc cosine is accurate to four output units over the whole domain | proved | PropArc.v |
| C77 | The CORDIC arc sine is odd and the arc cosine symmetric about a half | proved | PropArc.v |
| C78 | The hyperbolic CORDIC natural logarithm is accurate | partial | PropHc.v |
| C79 | The hyperbolic CORDIC base-two logarithm is accurate | partial | PropHc.v |
| C80 | The CORDIC logarithm honours the output type's overflow mode | partial | PropHc.v |
| C81 | The CORDIC base-two logarithm of a power of two is exact | partial | PropHc.v |
| C82 | The hyperbolic CORDIC power of two is accurate | partial | PropHc.v |
| C83 | The hyperbolic CORDIC exponential is accurate | proved | PropHc.v |
| C84 | The CORDIC natural logarithm is monotone | partial | PropHc.v |
| C85 | The CORDIC power function is accurate | proved | PropHcPow.v |
| C86 | The intermediate logarithm of the CORDIC power function keeps the fraction bits it is documented to have | partial | PropHcPow.v |
| C87 | The CORDIC power function is exact in its special cases | partial | PropHcPow.v |
| C88 | The CORDIC natural logarithm of an ac_float is accurate | partial | PropHcFloat.v |
| C89 | The CORDIC base-two logarithm of an ac_float is accurate | partial | PropHcFloat.v |
| C90 | The CORDIC power of two of an ac_float is accurate and saturates correctly | proved | PropHcFloat.v |
| C91 | The CORDIC exponential of an ac_float is accurate | proved | PropHcFloat.v |
| C92 | The CORDIC power function on ac_float is accurate and exact in its special cases | partial | PropHcFloat.v |
| C93 | The piecewise-linear square root of an ac_float is accurate | partial | PropPwlFloat.v |
| C94 | The piecewise-linear inverse square root of an ac_float is accurate | partial | PropPwlFloat.v |
| C95 | The piecewise-linear logarithms of an ac_float are accurate | partial | PropPwlFloat.v |
| C96 | The piecewise-linear exponentials of an ac_float are accurate and saturate | proved | PropPwlFloat.v |
| C97 | The piecewise-linear sigmoid of an ac_float is accurate everywhere | proved | PropPwlFloat.v |
| C98 | The piecewise-linear hyperbolic tangent of an ac_float is defined and accurate everywhere | partial | PropPwlFloat.v |
| C99 | The piecewise-linear tangent of an ac_float is accurate and saturates | partial | PropPwlFloat.v |

## Assumptions of each theorem

What `Print Assumptions` lists, by theorem. All axioms are those of the Coq standard library (the construction of the
real numbers and classical logic); none is ours or another library's.

* S1 = `ClassicalDedekindReals.sig_forall_dec`
* S2 = `ClassicalDedekindReals.sig_not_dec`
* FE = `FunctionalExtensionality.functional_extensionality_dep`
* CL = `Classical_Prop.classic`

no axiom ("Closed under the global context") (220 theorems):

`C01_div_unsigned_int`, `C01_div_unsigned_int_3arg`, `C02_div_zero_signed`, `C02_div_zero_signed_3arg`,
`C02_div_zero_unsigned`, `C02_div_zero_unsigned_3arg`, `C03_div_signed_int`, `C03_div_signed_int_3arg`,
`C04_div_unsigned_fixed`, `C05_div_output_written_iff`, `C05_div_output_written_refuted`, `C06_div_signed_fixed`,
`C06_div_signed_stale_refuted`, `C07_bound_needed`, `C07_div_v2_rejects`, `C07_div_v2_unsigned`, `C08_div_v2_signed`,
`C08_div_v2_signed_rejects`, `C09_shift_right_unsigned_int`, `C09_shift_right_unsigned_uint`,
`C102_reciprocal_complex_zero`, `C103_sqrt_complex_of_real_refuted`, `C103_sqrt_complex_zero`,
`C104_inverse_sqrt_complex_zero`, `C104_inverse_sqrt_complex_zero_refuted`, `C109_reciprocal_complex_zero`,
`C10_shift_right_signed_int`, `C10_shift_right_signed_uint`, `C110_inverse_sqrt_vha_complex_zero`,
`C111_complex_matrixmul_exact`, `C111_product_type`, `C112_complex_determinant_2`,
`C112_complex_determinant_2_refuted`, `C112_complex_determinant_any_types`, `C112_complex_determinant_bounded`,
`C113_complex_abs_increasing`, `C113_complex_abs_zero`, `C115_complex_chol_no_uninitialised`,
`C11_shift_left_unsigned_int`, `C11_shift_left_unsigned_uint`, `C120_complex_cholinv_hermitian_refuted`,
`C120_complex_cholinv_zero_refuted`, `C121_complex_qrd_defined`, `C122_complex_qrd_real_corner`,
`C123_complex_qrd_real_matrix`, `C124_random_float_reachable`, `C124_random_float_stored`, `C124_random_float_value`,
`C124_random_reads`, `C125_shift_left_complex_partial`, `C125_shift_left_complex_refuted`,
`C125_shift_right_complex_partial`, `C125_shift_right_complex_refuted`, `C126_chol_float_structure`,
`C12_shift_left_signed_int`, `C12_shift_left_signed_uint_partial`, `C12_shift_left_signed_uint_refuted`,
`C13_shift_right_signed_refuted`, `C13_shift_right_unsigned_refuted`, `C14_sqrt_int`, `C16_leading0`, `C16_leading1`,
`C16_trailing0`, `C16_trailing1`, `C17_leading0`, `C17_leading1`, `C17_trailing0`, `C17_trailing1`,
`C18_leading_ones_refuted`, `C18_leading_ones_up_to_4`, `C19_normalize_signed`, `C19_normalize_unsigned`,
`C19_normalize_zero`, `C19_sat_sym_refuted`, `C20_normalize_complex_signed`, `C20_normalize_complex_unsigned`,
`C20_normalize_complex_zero`, `C20_sat_sym_refuted`, `C21_abs_fixed`, `C21_abs_int`, `C21_abs_int_exact`,
`C22_barrel_shift`, `C23_leakyrelu`, `C23_leakyrelu_monotone`, `C23_prelu`, `C23_prelu_monotone`, `C23_relu`,
`C23_relu_monotone`, `C24_equal_1`, `C24_equal_2`, `C24_equal_3`, `C24_fill`, `C24_history`, `C24_not_equal`,
`C24_out_of_range`, `C24_set_1`, `C24_set_2`, `C24_set_3`, `C25_init_square`, `C25_init_tall_refuted`,
`C25_init_wide_refuted`, `C26_add`, `C26_add_assign`, `C26_equal`, `C26_multiply_exact`, `C26_multiply_refuted`,
`C26_multiply_transpose`, `C26_multiply_wrapping`, `C26_not_equal`, `C26_pwisemult`, `C26_scale`, `C26_sub_assign`,
`C26_submatrix`, `C26_subtract`, `C26_sum_exact`, `C26_sum_wrapping`, `C26_transpose`, `C26_transpose_involution`,
`C27_accumulator`, `C27_matrixmul`, `C28_determinant_any_types`, `C28_determinant_bounded`, `C28_determinant_small`,
`C28_minor_precision_refuted`, `C28_signed4_refuted`, `C28_unsigned_refuted`, `C29_det2`, `C29_det2_swap`,
`C29_det2_transpose`, `C29_det3`, `C29_det3_swap`, `C29_det3_transpose`, `C30_add_core`, `C30_add_tree`,
`C30_same_exponent`, `C31_block_add_tree`, `C32_fixed_result`, `C32_fixed_result_flush`, `C32_float_float`,
`C32_float_result`, `C32_float_result_flush`, `C32_float_result_subnormal`, `C32_float_result_zero`,
`C32_zero_refuted`, `C33_reciprocal_zero`, `C34_reciprocal_decreasing`, `C34_reciprocal_odd`, `C35_sqrt_increasing`,
`C35_sqrt_zero`, `C36_inverse_sqrt_decreasing`, `C36_inverse_sqrt_zero`, `C38_log2_increasing`, `C38_log2_zero`,
`C39_sigmoid_increasing`, `C39_sigmoid_range`, `C39_sigmoid_symmetric`, `C39_sigmoid_total`,
`C40_tanh_in_table_partial`, `C40_tanh_in_table_refuted`, `C40_tanh_increasing`, `C40_tanh_odd`,
`C40_tanh_out_of_table_iff`, `C40_tanh_range`, `C41_cordic_periodic`, `C41_cordic_wide_zero`,
`C42_chol_no_uninitialised`, `C47_lut_half_turn_refuted`, `C47_lut_opposite_refuted`, `C47_lut_periodic`,
`C47_lut_quarter_turn`, `C48_builtin_reachable`, `C48_in_range`, `C48_independent`, `C48_rand_max_32767`,
`C48_rand_max_32767_refuted`, `C48_reachable`, `C49_flag_signed_fixed`, `C49_flag_signed_int_partial`,
`C49_flag_signed_int_refuted`, `C49_flag_unsigned_fixed`, `C50_div_complex_overflow_refuted`,
`C50_div_complex_partial`, `C51_div_zero_signed_fixed`, `C51_div_zero_unsigned_fixed`,
`C52_rounding_temporary_refuted`, `C53_abs_float`, `C55_ln_zero`, `C59_gelu_defined_refuted`,
`C63_lut_wide_undefined`, `C64_atan2_origin`, `C65_infinity`, `C65_nan`, `C66_rounds_unique`,
`C66_saturation_refuted`, `C66_truncating`, `C66_two_operands`, `C66_two_operands_refuted`, `C66_zero`,
`C67_accuracy`, `C67_exact`, `C67_no_extra_bits_refuted`, `C67_overflow_refuted`, `C67_subnormal_refuted`,
`C68_reciprocal_ha_zero`, `C68_reciprocal_vha_zero`, `C69_reciprocal_ha_decreasing`, `C69_reciprocal_ha_odd`,
`C69_reciprocal_vha_decreasing`, `C69_reciprocal_vha_odd`, `C70_inverse_sqrt_vha_decreasing`,
`C70_inverse_sqrt_vha_zero`, `C72_atan_zero_refuted`, `C74_tan_increasing_refuted`, `C74_tan_zero`,
`C84_log_monotone_refuted`, `C87_pow_base_one_refuted`, `C87_pow_base_zero_refuted`, `C87_pow_zero_exponent_refuted`,
`C98_tanh_float_undefined_refuted`, `converts2_deterministic`.

S1, FE (50 theorems):

`C100_reciprocal_float_accuracy`, `C101_div_float_correct`, `C101_div_float_min_refuted`,
`C101_div_float_precision_refuted`, `C102_reciprocal_complex_accuracy`, `C107_reciprocal_ha_float_accuracy`,
`C107_reciprocal_vha_float_accuracy`, `C109_reciprocal_ha_complex_accuracy`, `C109_reciprocal_vha_complex_accuracy`,
`C117_complex_chol_rejection_refuted`, `C121_complex_qrd_2x2_pivots`, `C121_complex_qrd_reconstruction_refuted`,
`C122_complex_qrd_real_unitary_refuted`, `C128_reciprocal_complex_float_accuracy`,
`C128_reciprocal_complex_float_zero`, `C33_reciprocal_accuracy`, `C37_pow2_increasing`, `C43_cholinv_zero_refuted`,
`C44_qrd_reconstruction_refuted`, `C45_softmax_sum_refuted`, `C47_lut_half_turn_partial`, `C47_lut_opposite_partial`,
`C54_exp_increasing`, `C56_softsign_partial`, `C56_softsign_refuted`, `C57_elu_identity`, `C58_selu_scaled_identity`,
`C59_gelu_defined_partial`, `C61_chol_rejection_refuted`, `C61_chol_small_pivot_refuted`,
`C68_reciprocal_ha_accuracy`, `C68_reciprocal_vha_accuracy`, `C72_atan_bounds`, `C72_atan_ha_bounds`,
`C72_atan_ha_increasing`, `C72_atan_ha_zero`, `C72_atan_increasing`, `C72_atan_vha_bounds`,
`C72_atan_vha_increasing`, `C72_atan_vha_zero`, `C73_tan_saturates`, `C74_tan_increasing`, `C77_arccos_reflection`,
`C77_arcsin_odd`, `C81_log2_exact_refuted`, `C92_pow_float_special`, `C92_pow_float_zero_exponent_refuted`,
`C98_tanh_float_defined`, `C98_tanh_float_large_refuted`, `C99_tan_float_wrap_refuted`.

S1, S2, FE (45 theorems):

`C103_sqrt_complex_accuracy`, `C104_inverse_sqrt_complex_accuracy`, `C108_inverse_sqrt_vha_float_accuracy`,
`C110_inverse_sqrt_vha_complex_accuracy`, `C110_inverse_sqrt_vha_complex_refuted`, `C113_complex_abs_accuracy`,
`C115_complex_chol_real`, `C115_complex_chol_structure`, `C116_complex_chol_reconstruction`,
`C116_complex_chol_reconstruction_pwl`, `C117_complex_chol_rejection_partial`, `C118_complex_cholinv_real`,
`C118_complex_cholinv_structure`, `C118_complex_cholinv_uninitialised`, `C119_complex_cholinv_inverse`,
`C120_complex_cholinv_hermitian_partial`, `C121_complex_qrd_reconstruction_partial`,
`C122_complex_qrd_real_diagonal_partial`, `C127_chol_float_backward`, `C127_chol_float_reconstruction`,
`C129_chol_float_definite`, `C15_sqrt_fixed`, `C35_sqrt_accuracy`, `C36_inverse_sqrt_accuracy`,
`C41_cordic_accuracy_refuted`, `C41_cordic_min_refuted`, `C41_cordic_no_integer_refuted`, `C41_cordic_scale_refuted`,
`C41_sin_cordic_one_bit_refuted`, `C42_chol_structure`, `C43_cholinv_symmetric_partial`, `C43_cholinv_uninitialised`,
`C44_qrd_2x2_partial`, `C44_qrd_reconstruction_partial`, `C52_sqrt_float`, `C60_chol_reconstruction`,
`C60_chol_reconstruction_pwl`, `C61_chol_rejection_partial`, `C62_cholinv_inverse`,
`C63_lut_one_integer_bit_refuted`, `C70_inverse_sqrt_vha_accuracy`, `C93_sqrt_float_accuracy`,
`C93_sqrt_float_subnormal_refuted`, `C94_inverse_sqrt_float_accuracy`, `C94_inverse_sqrt_float_subnormal_refuted`.

S1, S2, CL, FE (75 theorems):

`C105_sincos_float_accuracy`, `C106_arc_float_absolute_error`, `C106_arccos_float_accuracy`,
`C106_arcsin_float_accuracy`, `C106_arcsin_float_precision_refuted`, `C114_atan_float_accuracy`,
`C114_atan_float_wide`, `C114_atan_ha_float_accuracy`, `C114_atan_vha_float_accuracy`, `C37_pow2_accuracy`,
`C38_log2_accuracy`, `C39_sigmoid_accuracy`, `C40_tanh_accuracy`, `C41_cordic_accuracy_partial`,
`C41_sin_cos_cordic_partial`, `C45_softmax_new`, `C45_softmax_new_order`, `C45_softmax_order`, `C45_softmax_partial`,
`C46_softplus_partial`, `C46_softplus_refuted`, `C54_exp_accuracy`, `C55_ln_accuracy`, `C57_elu_accuracy`,
`C58_selu_accuracy`, `C59_gelu_accuracy_partial`, `C59_gelu_unsigned_refuted`, `C63_lut_accuracy_partial`,
`C63_lut_accuracy_saturating_partial`, `C63_lut_fine_angle_refuted`, `C64_angle_exists`,
`C64_atan2_accuracy_output_partial`, `C64_atan2_accuracy_partial`, `C64_atan2_near_origin_refuted`,
`C64_atan2_two_integer_bits_refuted`, `C64_atan2_wide_output_refuted`, `C71_atan_accuracy`, `C71_atan_ha_accuracy`,
`C71_atan_vha_accuracy`, `C73_tan_accuracy`, `C73_tan_accuracy_refuted`, `C75_arcsin_accuracy`,
`C76_arccos_accuracy`, `C78_log_cordic_accuracy`, `C78_log_cordic_rounding_refuted`, `C79_log2_cordic_accuracy`,
`C79_log2_cordic_rounding_refuted`, `C80_log2_overflow`, `C80_log2_overflow_refuted`, `C82_exp2_cordic_accuracy`,
`C82_exp2_cordic_rounding_refuted`, `C83_exp_cordic_accuracy`, `C85_pow_cordic_accuracy`,
`C86_pow_log2_fraction_bits_refuted`, `C87_pow_zero_exponent_ok`, `C88_log_float_accuracy`,
`C88_log_float_rounding_refuted`, `C89_log2_float_accuracy`, `C89_log2_float_rounding_refuted`,
`C90_exp2_float_accuracy`, `C90_exp2_float_saturation`, `C91_exp_float_accuracy`, `C92_pow_float_accuracy`,
`C95_log2_float_accuracy`, `C95_log2_float_subnormal_refuted`, `C95_log_float_accuracy`,
`C95_log_float_subnormal_refuted`, `C96_exp_float_accuracy`, `C96_exp_float_saturation`, `C96_pow2_float_accuracy`,
`C96_pow2_float_saturation`, `C97_sigmoid_float_accuracy`, `C98_tanh_float_accuracy`, `C99_tan_float_accuracy`,
`C99_tan_float_saturation`.
