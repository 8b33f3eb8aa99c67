# Formal model of Mixed-Num: design

The repository is a Rust crate of numeric traits (`MixedReal`, `MixedPowi`, ...), generic
routines over them (square root, phase wrapping, sine, atan2, integer power) and complex
numbers in Cartesian and polar form. The model is in `rocq/theories`, logical name `Verif`,
Coq 8.16.1.

## 1. What is modelled

| model file | repository code |
|---|---|
| `Base.v` | Rust language: outcomes (`Ok`, `Panic`, `OutOfFuel`), loops with fuel, machine integers, debug/release overflow |
| `FloatBase.v` | Rust `f32`/`f64`: Flocq's `binary_float` with round-to-nearest-even, `as` casts |
| `Literals.v` | the decimal literals of `sqrt.rs`, `atan.rs`, `fixed_impl.rs`, `float_impl.rs` as binary64 values (each checked to be the binary64 nearest to its decimal text) |
| `Traits.v` | `src/traits.rs`, `src/traits/math_traits.rs` as records of operations |
| `Trig.v` | `src/trigonometry.rs`, `src/trigonometry/atan.rs`, `src/trigonometry/sqrt.rs` |
| `IntImpl.v` | `src/int_impl.rs` |
| `FixedPrim.v` | the external crate `fixed` 1.13 (assumption, see section 3) |
| `FixedImpl.v` | `src/fixed_impl.rs` |
| `FloatImpl.v` | `src/float_impl.rs`, `src/float_impl/f32_impl.rs`, `src/float_impl/f64_impl.rs`, plus `num_traits::FloatCore::{abs, powi, ...}` (assumption) |
| `FloatRound.v` | `MixedCeil`, `MixedFloor` of `src/traits.rs` and their float implementations |
| `Forward.v` | the methods of `src/float_impl/f32_impl.rs`, `f64_impl.rs`, `src/fixed_impl.rs` that call libm or cordic |
| `Complex.v` | `src/complex.rs`, `src/complex/ops.rs`, `src/complex/cartesian_impl.rs`, `src/complex/polar_impl.rs` |
| `Display.v` | `src/complex/cartesian_impl/num_complex_impl.rs`, `Display` of `Polar` |

Every definition cites file and lines. The generic functions are written once, over records
of operations, and instantiated at integers, fixed point (any format) and floats (any
precision), as in the source.

Outcomes. A call returns (`Ok v`), panics (`Panic p`), or runs out of the fuel given to its
loops (`OutOfFuel`). "Returns" (`returns f v`) means: there is a fuel from which on the result
is `Ok v`. "Diverges" means `OutOfFuel` for every fuel. Panics are values, so a theorem "never
panics" says something. Both build profiles are modelled: in `Debug` arithmetic overflow panics,
in `Release` it wraps.

## 2. What is not modelled

- The bodies of `cordic` and `libm` routines (`sin`, `cos`, `tan`, `atan2`, `exp`, `log`, libm
  `sqrt`, ...). They enter theorems as universally quantified functions ("for any routine").
  For the methods that only forward to them (`mixed_tan`, `mixed_cbrt`, ...) the model (`Forward.v`)
  says which routine is called.
- NaN payloads and NaN signs: one NaN, sign bit 0.
- 32-bit targets: `usize` has 64 bits.
- The text of a component produced by its own formatting trait (a parameter of the Display
  model; integers are given `core`'s decimal and radix printers as stated in `Display.v`), and errors of the output sink.
- Time and stack. Moves, borrows, references: by-value, `&` and `&mut` right-hand sides share
  one definition because the macros expand to the same body.
- Trait resolution and which impls overlap; `num::Complex` right-hand sides are pairs.

## 3. Trusted base

- Coq's kernel.
- For each property theorem, what `Print Assumptions` prints (recorded in section 5). Only
  axioms of Coq's standard library occur: those of the classical real numbers
  (`ClassicalDedekindReals.sig_forall_dec`, `sig_not_dec`,
  `FunctionalExtensionality.functional_extensionality_dep`, `Classical_Prop.classic`), and only
  in theorems that mention real numbers or Flocq's float operations.
- Flocq 4.1.0 as a library of definitions and proofs (checked by the kernel, no axioms of its
  own).
- The semantics of external code, written down in `Base.v`, `FloatBase.v`, `FixedPrim.v` and the
  FloatCore part of `FloatImpl.v`: Rust integer/float arithmetic and casts; the `fixed` crate
  (add/sub/neg on bits, `*` rounds toward minus infinity, `/` truncates toward zero, division by
  zero panics in both profiles, overflow panics in debug and wraps in release, `from_num` of a
  float rounds to nearest-even and panics on NaN/infinity, `to_num` to an integer floors);
  `num_traits::pow` by binary exponentiation; libm's `floor` and `ceil` as IEEE 754 roundToIntegral
  (`FloatRound.v`). These were not executed here; the doc-test values
  of the repository are reproduced by the model (`Tests.v`).
- The reading of the Rust source into Gallina.

## 4. Plan per property

Properties are stated over real numbers or integers, independently of the model's helpers
(`Spec.v`: value of a bit pattern, real sqrt/sin/atan2, Gaussian product, ...). Where the code
violates a property the model proves the negation (`..._refuted`) and the strongest true part
(`..._partial`, or an exact characterisation), and the manifest says "partial".

| id | model | proof |
|---|---|---|
| C01 | `niirf` at signed fixed, 2<=frac<=width-4 | loop invariants for the two normalisation loops (x' in [1/4,1), value = x/4^n up to truncation), start-value and update error as polynomials in sqrt x' on each of the 12 regions, error propagation through de-normalisation |
| C02 | same | refuted at x=1/2; true bound 7.1e-4 + ulps |
| C03 | `niirf` at fixed and floats | `abs` removes the sign, same execution |
| C04 | `niirf` at all signed formats | refuted: 3-integer-bit formats panic, frac=0 returns 0; iff-characterisation of the panic |
| C05 | `niirf` at unsigned | refuted by a computed witness; sufficient condition |
| C06 | `niirf` at floats | NaN, infinity (divergence by induction on fuel), termination by exponent measure, error by Flocq's relative-error lemmas |
| C07 | `niirf` at integers | refuted; always 0, by invariants |
| C08 | `wrap_phase` at fixed | loop invariant congruence mod tau, range; uniqueness by arithmetic |
| C09 | 3-integer-bit formats | refuted in debug (tau overflows for every input), release proved correct |
| C10, C11 | `wrap_phase` at floats | loop exit conditions; divergence when adding tau is absorbed by rounding |
| C12 | both | loops do not start; idempotence |
| C13, C14 | `sign`, `abs`, predicates | case analysis; C14 refuted at zero |
| C15-C18 | `powi` | induction on the exponent; C17 refuted; floats via structural induction on binary digits |
| C19-C22 | `sin`, `cos` | error of each operation in ulps + Taylor remainder (alternating series); C20 refuted |
| C23-C28 | `atan2` | axis cases by computation; accuracy by monotonicity of atan z - z/(1+cz^2) plus rounding; C25, C26, C28 refuted by witnesses |
| C29-C32 | Cartesian operators | modular arithmetic; C30/C31 refuted, exact closed form of a history of `+=` by induction on lists |
| C33-C35 | product, conj, quotient | ring reasoning modulo 2^w; C35 refuted and characterised |
| C36, C37 | scalar division | case analysis; `/=` refuted |
| C38-C40 | polar, magnitude | C39 by uniqueness of the wrapped angle, for any sincos |
| C41-C44 | conversions | modular arithmetic, Flocq rounding lemmas; C43 refuted |
| C45, C46 | Display | injectivity of the decimal printer and of the layout; C46 refuted at MIN |
| C47 | dB | exactness of multiplication by two, for any log10/exp10 |
| C48-C50 | ordering, exp, constants | case analysis, computation over all formats by interval-free bounds |
| C51 | every modelled function at both profiles | a refinement relation between debug and release runs, compositional through loops and fuel |
| C52, C53 | `niirf` with n >= 3; 0 and 1 fractional bits | same invariants as C01; exact evaluation of the collapsed arithmetic |
| C54-C57 | `cos` on floats, `atan2_poly`, `atan` | rounding error of each operation with Flocq's relative-error lemmas plus the C24 real bound; C57 refuted at zero |
| C58 | conversions with integers | modular arithmetic; float casts by Flocq |
| C59, C60 | `mag` | relative error of the sum of squares and of a correctly rounded root; C60 refuted |
| C61, C62, C77, C78 | text | layout injectivity, digit reader, padding; C61 refuted at -0 |
| C63-C68 | polar conversions, `powi`, `arg` | error propagation for any sine/arctangent routine of stated accuracy; C67 refuted |
| C69, C70 | scalar division, neutral elements | truncation lemmas; ring laws modulo wrap |
| C71-C73 | ranges of `atan2_poly` and `sin` | C71, C72, C73 refuted by families of witnesses over all formats; true bounds from C19/C24 |
| C74 | `wrap_phase` | uniqueness of the representative modulo 2 pi |
| C75 | extreme values | case analysis |
| C76 | sums of lists | induction on lists and permutations |
| C79-C83 | `niirf` scaling, order, squares, positivity, convergence | invariants of C01 sharpened to exact run equations; C80, C81 refuted by families of witnesses |
| C84-C87 | float complex arithmetic, `wrap_phase`, polar conversion | Flocq rounding errors, Sterbenz exactness of the wrapping loop, error propagation for any libm routine of stated accuracy |
| C88-C91 | polynomial `sin`/`cos`: Pythagorean identity, symmetry, sign; polar product | accuracy theorems combined; the folding step computed symbolically; sign by bounding the rounded powers |
| C92, C93 | special values of `mag`; relative accuracy of the float sine | case analysis; exactness of the folding step (Sterbenz) and monotone rounding |
| C94 | `atan2_poly` beyond the unit square | overflow of the denominator, exact outcome of every debug call |
| C95, C96 | integer powers of any base | induction on the loop, resp. on the binary exponent, with a relative error product |
| C97, C98 | sums and sums of products of any length | induction over the list with an error invariant |
| C99 | functions, operators and constructors agree | unfolding both bodies |
| C100 | float cosine of large angles: accuracy, exact set of returning arguments | float wrapping theorem, error of the shifted argument |
| C101 | z conj(z) | floor identities; float sign symmetries |
| C102 | multiplication by i | case analysis at the minimum |
| C103 | distributivity on fixed types | floor of a sum |
| C104 | root with 0 or 1 iterations | real analysis of the first guess |
| C105 | phase accumulators | induction over the list of steps, wrap is exact modulo 2 pi |
| C106 | recursive filters | induction over the inputs with one-step error in the Euclidean norm, geometric series |
| C107 | conversions keep order | monotone rounding, saturation and overflow cases |
| C108 | same generic code on fixed and float types agrees | both sides follow one real function: Taylor polynomial, rational function, NIIRF recursion; sensitivity bounds |
| C109 | accumulated float products | rounding of each product, then the error bound for sums |
| C110 | float recursive filters | induction over the inputs, geometric series |
| C111 | Cartesian times polar on floats | conversion error (C86) through the product error (C84) |
| C112 | wrapping far-away float angles (REFUTED for f32, true up to 700 / 1.6e7) | running 6519 steps in the kernel; error bound of C85 |
| C113 | order of polynomial angles | five sectors, monotone rational function in each |
| C114 | order of sines | derivative of the Taylor polynomial is at least the cosine |
| C115 | atan2 of sine and cosine | angle of a perturbed point on the unit circle, then C19/C21/C24 |
| C116 | root of a square, square of a root | C01, C06 and the rounding of the product |
| C117 | exact float root of a square | nearest-rounding argument in one binade |
| C118 | exact order and bounds of float magnitudes | monotonicity of rounding |
| C119 | fixed magnitude at least the parts (refuted), bounds | evaluation on every format; error analysis |
| C120 | magnitude of a product | error analysis |
| C121 | polar times Cartesian | error analysis of the conversion |
| C122 | widening changes no result | refinement between the two instances of the same generic code |
| C123 | power-of-two scaling exact on floats | rounding commutes with scaling; the branches of the arctangent do not change |
| C124 | associativity of products | triangle inequality on the errors of the four products |
| C125 | rotation by computed (cos, sin) | error bounds of C19, C21, C22, C54 carried through the product |
| C126 | Fourier sums | induction over the list; each product as in C125 |
| C127 | z divided by its magnitude | C40, C59 and the error of the division |
| C128 | triangle inequality of magnitudes | C40, C59 |
| C129 | angles of products and phase differences | C24, C68, C98 |
| C130 | decibels | rounding of the product and quotient, ln/exp inequalities |
| C131 | complex exponential on floats | addition theorems, relative rounding error, exp inequalities |
| C132 | averages | exact integer sum; sum error induction on floats |
| C133 | linear interpolation | floor of an exact product; Sterbenz; monotone rounding |
| C134 | exponential smoothing | invariant over the list; contraction by 1 - alpha |
| C135 | blends reach their targets (refuted; exact conditions proved) | computed counterexamples; induction on the number of samples |
| C136 | Horner's rule | error recursion over the coefficient list |
| C137 | complex exponential in fixed point | as C131, with absolute errors |
| C138 | approximations beside library routines | triangle inequality through the true value; the cut and negative roots separately |
| C139 | phase unwrapping | which turn a slow step belongs to (real arithmetic), then induction on the readings |
| C140 | `mixed_floor`, `mixed_ceil` | Flocq's roundToIntegral; floor of the common real value |
| C141 | forwarding methods | Lipschitz bounds, products of relative errors, law of exponents; the routines are parameters |
| C142 | moving sums, integrators and combs on `Cartesian` | induction over the samples; commutation of running sums and differences, wrap-around as a ring homomorphism; float drift by a rounding bound per step, persistence by induction |
| C143 | products of many polar numbers | induction over the factors; the wrapped loop is the phase accumulator of PhaseAcc |
| C144 | oscillators and mixers | one induction over the samples for all types, from a contract for one phase step, one rotor and one product; Lipschitz bound of e^(ia); archimedean argument for the drift, interval arithmetic on pi 2^F in Z for pi never being representable |
| C145 | mixing down and up again | joint induction over both loops, from the same contracts as C144 and conjugation |
| C146 | filters with finitely many taps on integers | signals as functions of time, filters commute with shift, scaling and sum; induction on the taps (FirProofs) |
| C147 | the same on fixed point | counterexamples; error of a multiply-accumulate, enlarged by the sum of the taps of the next filter |
| C148 | phase-locked loops | the error obeys an exact integer recurrence modulo 2 pi; no wrap is possible under the stated bound; geometric bound and a decreasing measure (PllProofs) |
| C149 | exact number of loop rounds (SpecTime.takes) | counting passes of each loop; fuel is the number of tests of the loop condition |
| C150 | Fast Fourier transform: exactness on four integers, no overflow, error growth, forth and back, library tables | butterflies as an abstract step with error cA+g, induction over the stages against the split of the exact sum, inversion by geometric sums |
| C151 | Complex quotient by the conjugate: relative error on floats, error and room on fixed point, exact division and remainder on integers | products by C84/C98-style bounds, the exact identity p/n - Q = (p - z w*)/n + Q(N - n)/n |
| C152 | products and powers in any order of multiplication | induction over trees; the two power programs are trees |
| C153 | distances, nearest-symbol decisions | antisymmetry of subtraction, magnitude accuracy, induction over the list of symbols |
| C154 | correlation, energy, Parseval | loops against the real inner product, Cauchy-Schwarz by induction, the inverse transform identity of C150 |
| C155 | no glitches of sine and cosine | 1-Lipschitz folding on the integers and reals (across the wrap by unit steps), 1-Lipschitz polynomial, rounding error of the evaluation |
| C156 | slope and jumps of the polynomial arctangent | mean value theorem for the rational function against the arctangent; sectors; rounding bounds of C108 |
| C157 | convolution through the fast transform | shift of a cyclic sum, convolution theorem, composition of transform errors |
| C158 | sine beyond the documented range | the fold depends on the distance from pi only; same error analysis; computed witness at 10 |
| C159 | the variance in two passes and in one | VarProofs (shift of the mean square distance; C132), PropsVar |
| C160 | A user's frequency discriminator: phase steps and total phase | one-step lemma (angle of a near product, chord against angle), induction over the samples |
| C161 | A user's complex square root: its square gives the argument back | error budget over the reals (root_core), mag and sqrt accuracy lemmas for both kinds of number |
| C162 | A user's standard deviation and root mean square | the variance and mean theorems, roots of near numbers are near, accuracy of both square roots |
| C163 | Pilot phase removal (mag, division by a real, conj, mul) against the exact rotation, fixed and float, lists of any length | direction error of the division by mag, then one multiplication per sample |
| C164 | any formula of scalar operations | structural induction on the formula, one rounding lemma per operation; refinement for wider types; iff for integers |
| C165 | any formula of complex operations | structural induction on the formula; float product re-proved up to the largest finite value |
| C166 | programs with named results and calls of sin, cos, atan | induction over the steps on top of C164, the functions' accuracy and their Lipschitz constant |
| C167 | feedback loops with any contracting body | induction on the rounds over C164, geometric series |
| C168 | formulas on unsigned fixed point | induction over the formula as for C164 with non-negativity carried along |
| C169 | complex feedback loops | contraction argument over the rounds on top of C165 |
| C170 | formulas mixing real and complex operations | mutual induction reduces the program to the scalar formulas of C164 and C168 |
| C171 | feedback loops with several state variables | induction over the rounds, one round by the formula theorems C164 and C168, geometric sum |
| C172 | chains of stages on vectors | induction over the chain, one stage by the formula theorems C164 and C168 |
| C173 | state-space filters with quantised coefficients | weighted maximum norms, induction over row, rows and rounds, geometric sum |
| C174 | loops, filters and mixed formulas keep their result in release builds and on wider types | induction on the program over the refinement between operation records (`ProgWideProofs.v`) |
| C175 | compensated addition is exact and compensated sums have a second-order error | Flocq's TwoSum theorem for the operators, then an invariant over the loop: sum plus exact error is the exact total (`CompensProofs.v`) |
| C176 | Splitting product (product and correction) and compensated dot product | `SpecTwoProd.v` writes the programs with the generic operators; floats via Flocq's proof of Dekker's algorithm once every operation is shown not to overflow, then C175 for the sum; fixed and integer by cancellation modulo 2^width |
| C177 | Relative accuracy of each part of a complex product | refuted for the operator on f32 and f64 by computation; `SpecAccMul.v` writes the compensated product, bounded through C176 |
| C178 | Signs of the parts of z * w and of Im(conj(z) w) | floats by monotonicity of rounding and gradual underflow; fixed by floor arithmetic; counterexample on every signed format with a fractional bit |
| C179 | Comparison through differences and of products | floats by monotone rounding and gradual underflow, with the overflow case by signs; fixed by an equivalence with the difference being in range |
| C180 | Maxima, clamping, sorting | induction on the list over any order given by a key in the reals; floats through a key that maps infinities beyond the largest number |
| C181 | Limited integrator | invariant acc in [lo, hi], by induction on the samples |
| C182 | Strongest sample | induction on the list over a key in the reals, then rounding bounds for a sum of two squares |
| C183 | Slew-rate limiter | closed form by induction on the number of steps |
| C184 | Median filter | median as a maximum of minima of keys in the reals, then induction over the windows |
| C185 ff. | see properties.jsonl and the headers of the `Props*.v` files | |

Files: model files as in section 1; `Spec*.v` specification vocabulary; `Props*.v` property
theorems only (each `exact some_lemma`, followed by `Print Assumptions` and an `Example`;
`PropsApplied.v` and `PropsApplied2.v` apply theorems with many hypotheses to concrete inputs);
`Tests.v` doc-test values of the repository; all other files are proofs.

## 5. Recorded assumptions

Output of `Print Assumptions` for the 705 property theorems (each is followed by the command in its `Props*.v` file). Nothing else occurs.

### Closed under the global context (no axioms) — 165 theorems

C01_sqrt_zero, C03_negative_fixed, C07_int_min, C07_int_refuted, C101_conj_mul_fixed, C101_conj_mul_int, C101_norm_fixed_refuted, C101_norm_int, C102_rot4_fixed, C102_rot4_int, C102_rot_fixed, C102_rot_int, C103_distr_fixed, C107_int_int_fit, C107_int_int_wraps, C122_wide_complex, C122_wide_external, C122_wide_int, C122_wide_scalar, C123_sum_fixed, C133_lerp_order_fixed, C135_constant_iff_partial, C135_constant_refuted, C135_constant_rest_partial, C13_fixed_sign_abs, C13_int_sign_abs, C142_cic_exact, C142_cic_release, C142_moving_debug, C142_moving_release, C143_unit_debug, C143_unit_release, C146_debug, C146_exact, C146_impulse_fixed, C146_impulse_int, C146_order, C146_release, C146_superposition, C147_one_partial, C147_order_refuted, C147_orders_partial, C147_room_partial, C147_superposition_refuted, C147_two_partial, C14_at_zero_fixed, C14_at_zero_iff, C151_quotient_int, C152_order_int, C153_symmetric_fixed, C159_one_pass_fixed, C15_int_powi, C15_trig_powi, C164_int_debug, C164_int_release, C164_wide, C165_int_debug, C165_int_release, C165_wide, C166_wide, C174_chains, C174_formulas, C174_int_release, C174_int_wide, C174_loops, C175_fixed, C175_int, C176_fixed, C176_int, C178_product_fixed_partial, C178_sign_fixed_iff, C178_turn_fixed_partial, C178_turn_refuted, C179_difference_fixed_partial, C179_difference_fixed_refuted, C179_difference_int_partial, C179_products_fixed, C179_products_int, C17_negative_exponent_iff, C17_negative_fixed_partial, C17_negative_integral, C181_fixed_partial, C181_fixed_refuted, C181_int_partial, C182_fixed_refuted, C183_arrival, C183_fixed, C183_int, C183_unsigned, C29_add_sub, C30_assign_iff_partial, C30_compound_assign_iff_partial, C31_accumulate_refuted, C31_history_any_partial, C31_history_partial, C32_scalar_fixed, C32_scalar_generic, C32_scalar_iff, C32_scalar_int, C33_mul_fixed_debug, C33_mul_int, C33_mul_int_debug, C33_mul_ring, C34_conj_homomorphism, C34_conj_word, C35_div_ignores_im, C35_div_imaginary_fixed, C35_div_partial, C35_div_refuted, C37_div_scalar_partial, C38_polar_mul_word, C38_polar_one, C38_scale, C40_same_everywhere, C40_symmetric_fixed, C40_zero_fixed, C41_int_conversions, C44_complex_conv, C45_text, C45_unambiguous, C45_unambiguous_any_digits, C45_unambiguous_fixed, C46_display_panics_refuted, C46_fixed_panics_iff_partial, C46_int_panics_iff_partial, C46_release_minimum, C48_cartesian_order, C48_polar_order, C49_exp_value, C50_unit_fixed, C50_unit_int, C51_profile_complex_fixed, C51_profile_complex_int, C51_profile_converse_refuted, C51_profile_display, C51_profile_external, C51_profile_niirf, C51_profile_scalar_fixed, C51_profile_scalar_int, C60_fixed_underflow_refuted, C62_polar_unambiguous, C62_polar_unambiguous_int, C65_polar_conj_fixed, C65_polar_conj_float, C66_mul_polar_assign, C69_div_scalar_fixed, C69_div_scalar_int, C70_embed_fixed, C70_embed_int, C70_ident_fixed, C70_ident_int, C70_mixed_abs, C75_extreme_int, C76_sum_debug, C76_sum_order, C76_sum_quadrant, C76_sum_release, C77_radix_text, C77_radix_unambiguous, C78_flags_decimal, C78_flags_radix, C78_width, C99_div_int, C99_polar_eq, C99_spellings

### `ClassicalDedekindReals.sig_forall_dec`, `FunctionalExtensionality.functional_extensionality_dep` — 56 theorems

C04_three_int_bits_refuted, C08_wrap_phase_fixed, C09_wrap_phase_panic_iff_partial, C09_wrap_phase_refuted, C101_norm_fixed_partial, C105_exact_fixed, C105_only_total_matters_fixed, C107_fixed_int, C12_wrap_identity_fixed, C132_average_fixed, C132_average_same, C133_lerp_fixed, C134_constant, C134_smooth_fixed, C136_horner_checked, C136_horner_fixed, C136_horner_nonneg, C139_step_fixed, C139_unwrap_fixed, C143_product_partial, C143_wrapped, C148_locks, C148_tracks, C149_wrap_fixed, C149_wrap_slow_i64, C157_padded, C159_same_fixed, C159_two_pass_fixed, C161_near_zero_fixed, C16_fixed_powi, C173_fixed, C180_fixed, C180_int, C182_fixed_partial, C184_fixed, C184_int, C20_sin_panics_refuted, C23_axes_fixed, C33_mul_fixed, C34_conj_fixed, C35_div_fixed_partial, C39_to_cartesian_periodic, C40_overflow_fixed, C53_no_fraction, C58_fixed_to_int, C58_int_fixed, C61_fneg, C69_div_same_fixed, C72_sin_exceeds_refuted, C73_release_cos_zero_refuted, C74_wrap_period_fixed, C75_extreme_fixed, C90_cos_even_fixed, C90_reflect_fixed, C95_powi_fixed, C98_mac_fixed

### `ClassicalDedekindReals.sig_forall_dec`, `ClassicalDedekindReals.sig_not_dec`, `FunctionalExtensionality.functional_extensionality_dep` — 84 theorems

C01_niirf_fixed, C01_sqrt_fixed, C02_doc_accuracy_partial, C02_doc_accuracy_refuted, C04_sqrt_panic_iff_partial, C05_unsigned_partial, C05_unsigned_refuted, C104_guess, C104_guess_sharp, C106_error_fixed, C106_returns_fixed, C106_stable_fixed, C116_sqrt_of_square_fixed, C116_square_of_sqrt_fixed, C119_bounds_partial, C119_short_refuted, C120_product_fixed, C121_polar_times_cartesian, C124_assoc_fixed, C127_unit_fixed, C128_triangle_fixed, C137_inverse, C137_law, C141_sincos_fixed, C141_sincos_float, C149_sqrt_fixed, C150_back_fixed, C150_fft4_int, C150_fft_fixed, C151_quotient_fixed, C152_order_fixed, C152_powers_fixed, C153_decision_fixed, C153_distance_fixed, C153_nearest_fixed, C154_correlate_fixed, C154_correlate_int, C154_energy_fixed, C154_energy_int, C154_parseval_fixed, C154_parseval_int, C157_conv4_int, C157_conv_fixed, C161_fixed, C162_deviation_fixed, C162_rms_fixed, C163_fixed, C163_symbols_fixed, C164_fixed, C164_rewrite, C165_fixed, C165_rewrite, C167_fixed, C167_settles_fixed, C168_underflow, C168_unsigned, C169_fixed, C169_forgets, C169_settles_fixed, C170_complex_fixed, C170_real_fixed, C171_fixed, C171_settles_fixed, C172_fixed, C33_mul_fixed_room, C40_accuracy_fixed, C49_exp_fixed, C52_three_iterations, C53_one_fraction_bit, C60_fixed_zero_iff_partial, C67_powi_phase_over, C67_powi_phase_refuted, C67_powi_zero, C79_scale_down_fixed, C79_scale_up_fixed, C80_monotone_iff_partial, C80_monotone_partial, C80_monotone_refuted, C81_frac2_refuted, C81_squares_fixed_refuted, C81_squares_iff_partial, C82_positive, C83_convergence_fixed, C83_convergence_fixed_all

### `ClassicalDedekindReals.sig_forall_dec`, `ClassicalDedekindReals.sig_not_dec`, `Classical_Prop.classic`, `FunctionalExtensionality.functional_extensionality_dep` — 400 theorems

C03_negative_f32, C03_negative_f64, C06_niirf_f32, C06_niirf_f64, C06_special_f32, C06_special_f64, C100_cos_bounded_f32_partial, C100_cos_bounded_f64_partial, C100_cos_f32_partial, C100_cos_f32_refuted, C100_cos_f64_partial, C100_cos_f64_refuted, C100_cos_far_f32_refuted, C100_cos_iff_f32_partial, C100_cos_iff_f64_partial, C101_norm_float, C102_rot4_float, C102_rot_float, C104_guess_f32, C104_guess_f64, C105_drift_f32, C105_drift_f64, C107_fixed_to_float, C107_float_float, C107_float_int, C107_float_to_fixed, C108_atan2, C108_niirf, C108_sin, C109_mac_float, C10_wrap_range_f32, C10_wrap_range_f64, C110_error_float, C110_stable_float, C111_cartesian_mul_polar_f32, C111_cartesian_mul_polar_f64, C112_far_f32_refuted, C112_near_f32_partial, C112_near_f64_partial, C113_atan2_order_fixed, C113_atan2_order_float, C114_sin_order_fixed, C114_sin_order_float, C115_atan2_sincos_f32, C115_atan2_sincos_f64, C115_atan2_sincos_fixed, C116_niirf_of_square_f32, C116_niirf_of_square_f64, C116_square_of_niirf_f32, C116_square_of_niirf_f64, C117_mag_axis_float, C117_sqrt_of_square_float, C117_square_of_sqrt_float, C118_normalise, C118_order, C118_parts, C118_sum, C11_wrap_terminates_f32_partial, C11_wrap_terminates_f64_partial, C11_wrap_terminates_refuted, C120_product_float, C121_polar_times_cartesian_float, C122_wide_conversions, C123_angle_f32, C123_angle_f64, C123_magnitude_float, C123_product_float, C123_sum_float, C124_assoc_float, C125_rotate_f32, C125_rotate_f64, C125_rotate_fixed, C125_rotor_sum_f32, C125_rotor_sum_f64, C125_rotor_sum_fixed, C126_fourier_f32, C126_fourier_f64, C126_fourier_fixed, C127_unit_float, C128_triangle_float, C129_arg_difference_fixed, C129_arg_float, C129_arg_product_fixed, C129_difference_f32, C129_difference_f64, C129_difference_fixed, C129_direction_fixed, C129_product_f32, C129_product_f64, C129_product_fixed, C12_wrap_identity_f32, C12_wrap_identity_f64, C130_back_and_there, C130_best_routines, C130_from_db, C130_order, C130_product, C130_there_and_back, C130_to_db, C130_zero, C131_best_routines, C131_euler_f32, C131_euler_f64, C131_exp, C131_inverse, C131_law, C132_average_float, C133_lerp_float, C133_lerp_order_float, C134_smooth_float, C135_average_refuted, C135_endpoint_refuted, C135_overshoot_refuted, C136_horner_float, C137_euler, C137_routines, C138_atan2_f32, C138_atan2_f64, C138_atan2_fixed, C138_cut_f32, C138_cut_f64, C138_sin_f32, C138_sin_f64, C138_sin_fixed, C138_sqrt_f32, C138_sqrt_f64, C139_unwrap_f32, C139_unwrap_f64, C13_f32_sign_abs, C13_f64_sign_abs, C140_ceil, C140_floor, C140_mirror, C140_order, C140_to_int, C141_cbrt_cube, C141_cos_acos, C141_cosh_acosh, C141_exp_log, C141_inverse_fixed, C141_log_exp, C141_pow_powi, C141_routines, C141_sin_asin, C141_sinh_asinh, C141_tan_cos, C141_tanh_atanh, C141_tanh_cosh, C142_moving_drift, C142_moving_float, C143_direction_refuted, C143_product_float, C143_unit_float, C143_wrapped_f32, C143_wrapped_f64, C144_drift_refuted, C144_mixer_f32_partial, C144_mixer_f64_partial, C144_mixer_fixed_partial, C145_round_trip_f32, C145_round_trip_f64, C145_round_trip_fixed, C148_tracks_f32, C148_tracks_f64, C149_sqrt_f32, C149_sqrt_f64, C149_wrap_f32, C149_wrap_f64, C14_at_zero_float, C14_is_positive_refuted, C14_nonzero_partial, C150_back_f32, C150_back_f64, C150_fft_f32, C150_fft_f64, C150_tables_f32, C150_tables_f64, C150_tables_fixed, C151_quotient_f32, C151_quotient_f64, C152_order_f32, C152_order_f64, C152_powers_f32, C152_powers_f64, C153_decision_float, C153_distance_float, C153_symmetric_float, C154_correlate_f32, C154_correlate_f64, C154_energy_f32, C154_energy_f64, C154_parseval_f32, C154_parseval_f64, C155_cos_fixed, C155_f32, C155_f64, C155_sin_fixed, C155_wrap_sin_fixed, C156_f32, C156_f64, C156_fixed, C156_jump_all_fixed, C156_jump_f32, C156_jump_f64, C156_jump_fixed, C157_conv_f32, C157_conv_f64, C158_no_further, C158_sin_f32, C158_sin_f64, C158_sin_fixed, C159_one_pass_f32, C159_one_pass_f64, C159_sign_float, C159_two_pass_float, C160_arg_fixed, C160_arg_float, C160_poly_f32, C160_poly_f64, C160_poly_fixed, C161_float, C162_deviation_float, C162_rms_float, C163_float, C163_symbols_float, C164_agree, C164_float, C165_agree, C165_float, C166_f32, C166_f64, C166_fixed, C167_float, C167_settles_float, C169_float, C169_settles_float, C170_complex_float, C170_real_float, C171_float, C171_settles_float, C172_float, C173_float, C175_pair_float, C175_sum_float, C176_dot_float, C176_pair_float, C177_compensated_partial, C177_parts_refuted, C178_product_float, C178_turn_float, C179_difference_float_partial, C179_difference_float_refuted, C179_products_float, C17_negative_powi_refuted, C180_clamp_float, C180_peak_float, C180_sort_float_partial, C180_sort_float_refuted, C181_float, C181_float_nan, C182_float_partial, C184_edge_float, C184_nan_refuted, C184_spike_float_partial, C18_float_powi, C19_sin_fixed, C20_sin_total_partial, C21_cos_fixed, C22_sin_f32, C22_sin_f64, C23_axes_float, C24_atan2_debug, C24_atan2_fixed, C25_small_panics_refuted, C25_small_total_partial, C26_accuracy_fixed_refuted, C26_accuracy_float_refuted, C26_documented_f32_partial, C26_documented_f64_partial, C26_documented_fixed_partial, C27_infinite, C27_odd_float, C27_quadrant_f32, C27_quadrant_f64, C28_defined_partial, C28_nan_iff_f32_partial, C28_nan_iff_f64_partial, C28_tiny_nan_refuted, C30_assign_float_partial, C30_compound_assign_refuted, C33_mul_comm, C34_conj_float, C35_div_float_partial, C35_div_float_refuted, C36_div_assign_zero_float_refuted, C36_div_assign_zero_refuted, C36_div_zero, C36_div_zero_float, C37_div_scalar_refuted, C38_polar_mul_f64, C38_polar_mul_float, C38_polar_one_float, C40_symmetric_float, C42_fixed_roundtrip, C42_fixed_to_float, C42_float_narrowing, C42_float_to_fixed, C42_float_widening, C43_to_int_partial, C43_to_int_rounding_refuted, C47_db_f32, C47_db_f64, C48_cartesian_order_float, C48_default_zero, C48_default_zero_float, C48_polar_order_float, C49_exp_conj, C50_pi_fixed, C50_pi_float, C50_unit_float, C52_three_iterations_f32, C52_three_iterations_f64, C54_cos_f32, C54_cos_f64, C55_atan2_f32, C55_atan2_f64, C56_atan_fixed, C56_atan_float, C57_nan_kept_partial, C57_nan_lost_refuted, C58_float_to_int, C58_int_float, C58_int_rounds, C58_int_side, C59_accuracy_float, C60_float_iff_f32_partial, C60_float_iff_f64_partial, C60_float_overflow_refuted, C60_float_underflow_refuted, C61_text_partial, C61_two_signs_refuted, C63_to_cartesian_fixed, C64_roundtrip_fixed, C64_roundtrip_zero, C65_cartesian_conj_polar, C65_polar_conj_cartesian, C66_mul_polar_fixed, C66_mul_polar_fixed_room, C67_powi_fixed_partial, C68_arg_fixed, C70_embed_float, C70_ident_float, C70_null_float, C71_quadrant_partial, C71_quadrant_refuted, C72_sin_bound_fixed_partial, C72_sin_bound_float_partial, C72_sin_le_one_iff_partial, C73_release_cos_partial, C73_release_sin_16_refuted, C73_release_sin_8_partial, C73_release_sin_8_refuted, C73_release_sin_partial, C73_release_sin_refuted, C75_extreme_float, C79_scale_f32, C79_scale_f64, C81_squares_f32_refuted, C81_squares_f64_refuted, C83_convergence_f32, C83_convergence_f64, C83_convergence_tight_f32, C83_convergence_tight_f64, C84_add_sub, C84_mul, C84_scalar, C85_wrap_f32, C85_wrap_f64, C86_to_cartesian_f32, C86_to_cartesian_f64, C87_round_trip_f32, C87_round_trip_f64, C88_pythagoras_f32, C88_pythagoras_f64, C88_pythagoras_fixed, C89_polar_product_f32, C89_polar_product_f64, C89_polar_product_fixed, C90_reflect_f32, C90_reflect_f64, C91_sin_odd, C91_sin_sign, C92_mag_special, C93_sin_rel_f32, C93_sin_rel_f64, C94_debug_iff_partial, C94_large_refuted, C96_powi_float, C96_powi_neg_float, C97_sum_float
