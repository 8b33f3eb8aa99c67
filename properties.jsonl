{"id": "C01", "title": "Fixed-point square root is total and accurate", "statement": "For every signed fixed-point type with at least 2 fractional and at least 4 integer bits, and every non-negative value x, x.mixed_sqrt(), x.mixed_niirf() and sqrt::niirf(x, n) with n >= 2 return in both build profiles without panicking or looping forever, and the result differs from the real square root by at most (1/1000 + 5 ulp)*sqrt(x) + 3 ulp; sqrt of zero is exactly zero.", "quantifier": "all signed fixed formats (width 8/16/32/64, 2<=frac<=width-4), all representable x>=0, both overflow profiles", "why_tests_cant": "A test samples a few of the up to 2^64 values per format and a few of the formats; the claim is about every one.", "anchors": ["src/trigonometry/sqrt.rs: niirf", "src/fixed_impl.rs: impl MixedSqrt"]}
{"id": "C02", "title": "Documented accuracy of the NIIRF square root", "statement": "niirf(x,2) is accurate to 5e-4 on the normalised range 1/4<=x<1, as documented ('accurate to 5*10^-4 with two iterations').", "quantifier": "all x in [1/4,1), all formats with enough fractional bits", "why_tests_cant": "The doc tests check three points; the claimed bound is a supremum over the range.", "anchors": ["src/trigonometry/sqrt.rs: niirf (doc comment, loop 1..iterations)", "src/traits/math_traits.rs: MixedSqrt::mixed_niirf"]}
{"id": "C03", "title": "Negative arguments are forced positive by NIIRF", "statement": "For every signed type, mixed_niirf(-x) and mixed_niirf(x) have the same outcome whenever -x is representable ('negative values are forced positive before conversion').", "quantifier": "all signed fixed formats, all x other than the minimum, all iteration counts; all floats", "why_tests_cant": "Sampling cannot cover every x; the most negative value is a corner case with a different outcome.", "anchors": ["src/trigonometry/sqrt.rs: niirf", "src/traits/math_traits.rs: MixedSqrt"]}
{"id": "C04", "title": "Square root works on every supported signed fixed format", "statement": "mixed_sqrt() on a non-negative value never panics for any of the supported signed fixed-point types, and never returns a negative result.", "quantifier": "all supported signed fixed formats, all x>=0", "why_tests_cant": "There are 102 signed formats; tests use two of them.", "anchors": ["src/trigonometry/sqrt.rs: niirf", "src/fixed_impl.rs: macro invocations lines 329-586"]}
{"id": "C05", "title": "Square root works on unsigned fixed formats", "statement": "mixed_sqrt() on an unsigned fixed-point value never panics.", "quantifier": "all supported unsigned fixed formats, all values", "why_tests_cant": "No test uses an unsigned type; the failure depends on the value.", "anchors": ["src/trigonometry/sqrt.rs: niirf", "src/fixed_impl.rs: impl_mixed_num_for_fixed_unsigned"]}
{"id": "C06", "title": "NIIRF square root on floats", "statement": "For f32 and f64, mixed_niirf(x) (and niirf(x, n) for n >= 2) returns for every finite x, in both profiles, and is within 0.1% of sqrt(|x|); NaN gives NaN.  Infinities never give a result: the call loops forever in release builds and panics on loop-counter overflow in debug builds.", "quantifier": "all 2^32 / 2^64 floating-point values", "why_tests_cant": "Every float, including subnormals, infinities and NaN.", "anchors": ["src/trigonometry/sqrt.rs: niirf", "src/float_impl/f32_impl.rs: mixed_niirf", "src/float_impl/f64_impl.rs: mixed_niirf"]}
{"id": "C07", "title": "NIIRF applied to integer types", "statement": "trigonometry::sqrt::niirf called with a primitive integer returns the integer square root (within 1).", "quantifier": "all integer types and values, all iteration counts", "why_tests_cant": "Quantifies over all integers and widths.", "anchors": ["src/trigonometry/sqrt.rs: niirf", "src/int_impl.rs: impl MixedNumConversion"]}
{"id": "C08", "title": "Phase wrapping is total and correct on fixed-point types", "statement": "For every signed fixed-point type with at least 4 integer bits and every angle phi, mixed_wrap_phase() returns (both profiles) a value r with -pi<=r<pi, where pi is the type's mixed_pi(), and phi-r is an integer multiple of 2*pi; r is the only such value.", "quantifier": "all signed fixed formats with width-frac>=4, all representable phi", "why_tests_cant": "A loop whose trip count depends on the input, over every representable value.", "anchors": ["src/trigonometry.rs: wrap_phase", "src/fixed_impl.rs: impl MixedWrapPhase, MixedPi"]}
{"id": "C09", "title": "Phase wrapping works on every supported signed fixed format", "statement": "mixed_wrap_phase() never panics, also for the formats with only three integer bits (FixedI8<U5>, FixedI16<U13>, FixedI32<U29>, FixedI64<U61>).", "quantifier": "the formats with 3 integer bits, all phi, both profiles", "why_tests_cant": "The failure is on every input of four formats that no test instantiates.", "anchors": ["src/trigonometry.rs: wrap_phase", "src/fixed_impl.rs: lines 344,381,450,583"]}
{"id": "C10", "title": "Wrapped float phase is in range", "statement": "If mixed_wrap_phase() on an f32 or f64 returns, its result is NaN (only when the input is NaN) or lies in [-pi,pi) for the type's mixed_pi().", "quantifier": "all floating-point values", "why_tests_cant": "Every float; accumulated rounding could step over the lower bound.", "anchors": ["src/trigonometry.rs: wrap_phase", "src/float_impl.rs: impl MixedWrapPhase, MixedPi"]}
{"id": "C11", "title": "Phase wrapping of floats terminates", "statement": "mixed_wrap_phase() returns for every f32 and f64 value.", "quantifier": "all floating-point values including huge magnitudes and infinities", "why_tests_cant": "Non-termination cannot be observed by a test; it starts at a magnitude threshold.", "anchors": ["src/trigonometry.rs: wrap_phase"]}
{"id": "C12", "title": "Phase wrapping is the identity on wrapped angles and idempotent", "statement": "If -pi<=phi<pi then wrap_phase(phi)=phi, for every type whose constant 2*pi is representable; hence wrap_phase(wrap_phase(phi))=wrap_phase(phi) whenever the inner call returns.", "quantifier": "all signed fixed formats and floats, all values", "why_tests_cant": "A test samples a few of the up to 2^64 values per format and a few of the formats; the claim is about every one.", "anchors": ["src/trigonometry.rs: wrap_phase"]}
{"id": "C13", "title": "Sign and absolute value reconstruct the number", "statement": "mixed_sign(x) is -1 for x<0 and +1 otherwise (zero is of positive sign), mixed_abs(x) is |x|, and mixed_sign(x)*mixed_abs(x)=x, for every integer, fixed and (non-NaN) float value; mixed_abs of the minimum signed value panics in debug and wraps in release.", "quantifier": "all types and values, both profiles", "why_tests_cant": "A test samples a few of the up to 2^64 values per format and a few of the formats; the claim is about every one.", "anchors": ["src/trigonometry.rs: sign", "src/int_impl.rs: MixedReal, MixedAbs", "src/fixed_impl.rs: MixedReal, MixedAbs", "src/float_impl.rs: MixedReal, MixedAbs"]}
{"id": "C14", "title": "Positivity predicates mean the same on every type", "statement": "mixed_is_positive(x) holds iff x>0 and mixed_is_negative(x) iff x<0, for every MixedReal type (generic code relies on it).", "quantifier": "all MixedReal types and all values", "why_tests_cant": "Generic code sees the same trait on all types; tests check none of them.", "anchors": ["src/int_impl.rs: mixed_is_positive/negative", "src/fixed_impl.rs: mixed_is_positive/negative", "src/float_impl.rs: mixed_is_positive/negative"]}
{"id": "C15", "title": "Integer power on integers", "statement": "For integer types x.mixed_powi(n) with n>=0 equals x^n: in release it is x^n modulo 2^width, in debug it returns x^n if that and every intermediate power fits and panics otherwise.", "quantifier": "all integer types, all bases, all non-negative exponents up to 2^31-1 (trigonometry::powi: all usize)", "why_tests_cant": "Unbounded exponent; every base.", "anchors": ["src/trigonometry.rs: powi", "src/int_impl.rs: MixedPowi"]}
{"id": "C16", "title": "Integer power on fixed-point", "statement": "For fixed-point types x.mixed_powi(0)=1, x.mixed_powi(1)=x, and for |x|<=1 and n>=1 the result never panics and is within n-1 ulps of the real power x^n; for integer-valued x the result is exact whenever it fits.", "quantifier": "all fixed formats, all x, all n", "why_tests_cant": "A test samples a few of the up to 2^64 values per format and a few of the formats; the claim is about every one.", "anchors": ["src/trigonometry.rs: powi", "src/fixed_impl.rs: MixedPowi"]}
{"id": "C17", "title": "Negative integer powers", "statement": "x.mixed_powi(-n) is the reciprocal of x.mixed_powi(n), as it is for floats.", "quantifier": "all integer and fixed types, negative exponents", "why_tests_cant": "The loop runs about 2^64 times for a negative exponent, a test would never finish.", "anchors": ["src/trigonometry.rs: powi", "src/int_impl.rs: mixed_powi (exp as usize)", "src/fixed_impl.rs: mixed_powi (exp as usize)"]}
{"id": "C18", "title": "Float integer power", "statement": "For floats, mixed_powi(0)=1 for every input including NaN, mixed_powi(1)=x, mixed_powi(2)=x*x with a single rounding, even powers are never negative, and powi of -x is powi of x up to sign by parity.", "quantifier": "all floats, all i32 exponents including i32::MIN", "why_tests_cant": "A test samples a few of the up to 2^64 values per format and a few of the formats; the claim is about every one.", "anchors": ["src/float_impl.rs: MixedPowi"]}
{"id": "C19", "title": "Polynomial sine accuracy on fixed-point", "statement": "For every signed fixed format in which 362880 is representable, trigonometry::sin(x) for -pi<=x<=pi (the type's own pi, which covers every x up to the real pi) returns without panicking, in both profiles, and is within 3.62e-6 + 4.05 ulp of the real sine.", "quantifier": "all signed fixed formats with width-frac>=20, all x in [-pi,pi]", "why_tests_cant": "A test samples a few of the up to 2^64 values per format and a few of the formats; the claim is about every one.", "anchors": ["src/trigonometry.rs: sin"]}
{"id": "C20", "title": "Polynomial sine works on every supported signed format", "statement": "trigonometry::sin never panics for an argument in [-pi,pi], for any signed fixed-point type (the documentation compares it on FixedI32<U22>).", "quantifier": "all signed fixed formats with fewer than 20 integer bits, all x", "why_tests_cant": "The failure is in the conversion of a constant and depends only on the format; the tests only run f32.", "anchors": ["src/trigonometry.rs: sin, cos doc comment"]}
{"id": "C21", "title": "Polynomial cosine", "statement": "trigonometry::cos(x) on a signed fixed type with enough integer bits returns for every x for which x+pi/2 does not overflow and is within 3.62e-6 + (6 + |x|/5) ulp of the real cosine.", "quantifier": "all signed fixed formats with width-frac>=20, all x", "why_tests_cant": "A test samples a few of the up to 2^64 values per format and a few of the formats; the claim is about every one.", "anchors": ["src/trigonometry.rs: cos"]}
{"id": "C22", "title": "Polynomial sine on floats", "statement": "For f32/f64, trigonometry::sin(-x) = -sin(x) for every x (up to the sign of a zero result), and for |x|<=pi the result is finite and within 5e-6 of the real sine.", "quantifier": "all floating-point values (symmetry), all |x|<=pi (accuracy)", "why_tests_cant": "A test samples a few of the up to 2^64 values per format and a few of the formats; the claim is about every one.", "anchors": ["src/trigonometry.rs: sin"]}
{"id": "C23", "title": "atan2 on the axes", "statement": "mixed_atan2_poly(y,x) is exact on the axes: 0 for y=0,x>=0; pi for y=0,x<0; +-pi/2 (the type's pi divided by two) for x=0, for every signed fixed type and float. The only exception is a fixed coordinate equal to MIN in a debug build, which panics with overflow whatever the other coordinate is.", "quantifier": "all signed types, all axis points", "why_tests_cant": "A test samples a few of the up to 2^64 values per format and a few of the formats; the claim is about every one.", "anchors": ["src/trigonometry/atan.rs: atan2"]}
{"id": "C24", "title": "Polynomial atan2 accuracy on fixed-point", "statement": "For every signed fixed type and every pair (y,x) whose larger magnitude M satisfies 16 ulp <= M^2 and 1.5 M^2 <= MAX, mixed_atan2_poly returns, in debug and release, a value within 0.00492 rad + (3 + 5/M^2) ulp of the real polar angle of (x,y).", "quantifier": "all signed fixed formats, all pairs in the stated region", "why_tests_cant": "Two-dimensional input space of up to 2^128 points.", "anchors": ["src/trigonometry/atan.rs: atan2, atan_poly_1, atan_poly_2"]}
{"id": "C25", "title": "Polynomial atan2 never panics for small non-zero arguments", "statement": "mixed_atan2_poly(y,x) returns for all arguments of magnitude at most 1.", "quantifier": "all signed fixed formats, all |x|,|y|<=1", "why_tests_cant": "The division by zero occurs only below a format-dependent threshold.", "anchors": ["src/trigonometry/atan.rs: atan_poly_1, atan_poly_2"]}
{"id": "C26", "title": "Documented accuracy of the polynomial atan2", "statement": "mixed_atan2_poly is accurate within 0.028 degrees, as documented.", "quantifier": "all arguments", "why_tests_cant": "The claimed bound is a supremum over the plane.", "anchors": ["src/trigonometry/atan.rs: atan2 doc comment", "src/traits/math_traits.rs: MixedAtan::mixed_atan2_poly"]}
{"id": "C27", "title": "Quadrant and symmetry of the polynomial atan2 on floats", "statement": "For f32/f64 and non-zero y: mixed_atan2_poly(-y,x) = -mixed_atan2_poly(y,x) for all non-NaN arguments; for finite arguments the result is NaN or lies in the closed quadrant of the point (x,y), bounded by the type's own pi and pi/2; off the axes an infinite argument gives NaN.", "quantifier": "all pairs of floats", "why_tests_cant": "A test samples a few of the up to 2^64 values per format and a few of the formats; the claim is about every one.", "anchors": ["src/trigonometry/atan.rs: atan2"]}
{"id": "C28", "title": "Polynomial atan2 on floats is defined everywhere", "statement": "mixed_atan2_poly(y,x) on finite non-zero floats is never NaN.", "quantifier": "all pairs of finite floats", "why_tests_cant": "Depends on overflow/underflow of squares at extreme magnitudes.", "anchors": ["src/trigonometry/atan.rs: atan_poly_1, atan_poly_2"]}
{"id": "C29", "title": "Cartesian addition and subtraction are componentwise group operations", "statement": "z+w and z-w act componentwise; + is commutative; (z+w)-w=z for every z,w in release, and in debug whenever z+w does not panic; complex::ops::add/sub agree with the operators.", "quantifier": "all integer and fixed component types, all values, both profiles", "why_tests_cant": "A test samples a few of the up to 2^64 values per format and a few of the formats; the claim is about every one.", "anchors": ["src/complex/ops.rs: add, sub", "src/complex/cartesian_impl.rs: impl_core_ops_add_sub_for_cartesian"]}
{"id": "C30", "title": "Compound assignment agrees with the binary operator", "statement": "z+=w leaves z equal to z+w and z-=w leaves z equal to z-w, for Cartesian (and num::Complex) right-hand sides.", "quantifier": "all component types, all z,w", "why_tests_cant": "The result depends on the values of both components; no test uses += with a complex right-hand side.", "anchors": ["src/complex/cartesian_impl.rs: add_assign lines 309-315, sub_assign lines 325-331"]}
{"id": "C31", "title": "Any sequence of complex += accumulates the sum", "statement": "After any sequence z+=w1; ...; z+=wn the components of z are the sums of the components.", "quantifier": "all lists of right-hand sides, all lengths", "why_tests_cant": "Unbounded histories.", "anchors": ["src/complex/cartesian_impl.rs: add_assign"]}
{"id": "C32", "title": "Mixed-type scalar operators", "statement": "z+s, z-s change only the real part, z*s scales both parts, with s converted once to the component type; += and -= with a scalar agree with + and -; a sequence of scalar += adds the (wrapped) sum to the real part and leaves the imaginary part unchanged.", "quantifier": "all component and scalar types, all values, all sequences", "why_tests_cant": "Unbounded histories and all type pairs.", "anchors": ["src/complex/cartesian_impl.rs: Add<T1>, AddAssign<T1>, Sub<T1>, SubAssign<T1>, Mul<T1>"]}
{"id": "C33", "title": "Complex multiplication is the complex product", "statement": "On integers z*w is the Gaussian product: modulo 2^width in release, exactly when it returns in debug; release multiplication is commutative, associative and distributes over +.  On fixed types each component is within 2 ulp of the exact product when it returns.  On every type (floats included) z*w=w*z; a fixed-point product whose magnitude leaves 2.24 ulp of room is always returned, in either profile.", "quantifier": "all types, all values, both profiles", "why_tests_cant": "A test samples a few of the up to 2^64 values per format and a few of the formats; the claim is about every one.", "anchors": ["src/complex/ops.rs: mul_cartesian", "src/complex/cartesian_impl.rs: Mul<Cartesian<T>>"]}
{"id": "C34", "title": "Conjugation", "statement": "conj negates the imaginary part (debug: panics exactly for the minimum imaginary part), is an involution, distributes over + and * on integers in release and over * on floats.", "quantifier": "all signed types, all values", "why_tests_cant": "A test samples a few of the up to 2^64 values per format and a few of the formats; the claim is about every one.", "anchors": ["src/complex/cartesian_impl.rs: Conj", "src/complex/polar_impl.rs: Conj"]}
{"id": "C35", "title": "Complex division", "statement": "z/w (and z/=w, div_cartesian) is the complex quotient (ac+bd)/(c^2+d^2) + (bc-ad)/(c^2+d^2) i.", "quantifier": "all z, all non-zero w", "why_tests_cant": "No test divides by a complex number; the quotient is right only on a diagonal.", "anchors": ["src/complex/ops.rs: div_cartesian", "src/complex/cartesian_impl.rs: impl_core_ops_div_cartesian_for_cartesian"]}
{"id": "C36", "title": "Scalar division by zero saturates", "statement": "z/0 is (MAX,MAX) (MAX magnitude for Polar) and never panics, div_scalar_cartesian does the same, and z/=0 does the same as z/0.", "quantifier": "all signed component types, all z", "why_tests_cant": "A test samples a few of the up to 2^64 values per format and a few of the formats; the claim is about every one.", "anchors": ["src/complex/cartesian_impl.rs: Div<T1>, DivAssign<T1>", "src/complex/ops.rs: div_scalar_cartesian", "src/complex/polar_impl.rs: Div<T>"]}
{"id": "C37", "title": "Scalar division by a non-zero scalar does not panic with a division by zero", "statement": "z/s for s!=0 never performs a division by zero.", "quantifier": "all component/scalar type pairs, all values", "why_tests_cant": "Depends on a lossy conversion of the divisor into the component type.", "anchors": ["src/complex/cartesian_impl.rs: Div<T1> lines 436-441"]}
{"id": "C38", "title": "Polar multiplication", "statement": "mul_polar multiplies magnitudes and adds angles; a zero factor gives the canonical zero (0,0); it is commutative; 1 (mixed_one) is neutral for non-zero magnitudes; scaling by a real keeps the angle.", "quantifier": "all types, all values", "why_tests_cant": "A test samples a few of the up to 2^64 values per format and a few of the formats; the claim is about every one.", "anchors": ["src/complex/ops.rs: mul_polar", "src/complex/polar_impl.rs: Mul, MixedOne"]}
{"id": "C39", "title": "Polar to Cartesian conversion is periodic in the angle", "statement": "On fixed types two polar numbers with equal magnitude whose angles differ by a multiple of 2*mixed_pi() convert to the same cartesian number (for any sine/cosine routine).", "quantifier": "all signed fixed formats with >=4 integer bits, all magnitudes and angles", "why_tests_cant": "A test samples a few of the up to 2^64 values per format and a few of the formats; the claim is about every one.", "anchors": ["src/complex/ops.rs: to_cartesian", "src/trigonometry.rs: wrap_phase"]}
{"id": "C40", "title": "Magnitude", "statement": "mag() = abs() = to_polar().mag; mag(z)=mag(conj z)=mag(swap z) whenever the calls return; on fixed types mag(z) is within the square-root tolerance of |z| when the squares fit; purely real/imaginary zero gives 0.", "quantifier": "all signed types, all values", "why_tests_cant": "A test samples a few of the up to 2^64 values per format and a few of the formats; the claim is about every one.", "anchors": ["src/complex/cartesian_impl.rs: Mag", "src/complex/ops.rs: abs, to_polar", "src/complex/polar_impl.rs: Mag"]}
{"id": "C41", "title": "Integer conversions", "statement": "Conversion between integer types keeps the value when it is representable in the target and otherwise reduces it modulo 2^width; converting to a type at least as wide and back is the identity.", "quantifier": "all pairs of integer types, all values", "why_tests_cant": "A test samples a few of the up to 2^64 values per format and a few of the formats; the claim is about every one.", "anchors": ["src/int_impl.rs: impl_mixed_num_conversion"]}
{"id": "C42", "title": "Fixed/float conversions", "statement": "f64 -> fixed rounds to nearest (error at most half an ulp), panics on NaN/inf; fixed values of at most 53 bits survive fixed -> f64 -> fixed unchanged; f32 -> f64 -> f32 is the identity. f64 -> f32 rounds to nearest even, keeps the sign, NaN and infinities, and becomes infinite beyond the range.", "quantifier": "all fixed formats, all values", "why_tests_cant": "A test samples a few of the up to 2^64 values per format and a few of the formats; the claim is about every one.", "anchors": ["src/fixed_impl.rs: impl_mixed_num_conversion", "src/float_impl.rs: impl_mixed_num_conversion"]}
{"id": "C43", "title": "Conversion to an integer rounds the same way on every type", "statement": "mixed_to_num::<i32>() of equal real values gives the same integer whether the source is fixed or floating point.", "quantifier": "all values", "why_tests_cant": "Depends on sign and fractional part of the value.", "anchors": ["src/fixed_impl.rs: mixed_to_num", "src/float_impl.rs: mixed_to_num"]}
{"id": "C44", "title": "Complex conversions", "statement": "Real -> Cartesian -> real is the identity when the underlying conversion is lossless, Cartesian -> real keeps the real part, Cartesian<T1> -> Cartesian<T2> converts each component; Polar::mixed_from_num(x).mixed_to_num() returns x.", "quantifier": "all type pairs, all values", "why_tests_cant": "A test samples a few of the up to 2^64 values per format and a few of the formats; the claim is about every one.", "anchors": ["src/complex/cartesian_impl.rs: MixedNumConversion", "src/complex/polar_impl.rs: MixedNumConversion", "src/float_impl.rs: MixedNumConversion<Cartesian>", "src/fixed_impl.rs: MixedNumConversion<Cartesian>"]}
{"id": "C45", "title": "Display of complex numbers is unambiguous", "statement": "On integer components, the default Display text of a Cartesian number is <re><sign><|im|>i and two numbers with the same text are equal.", "quantifier": "all integer component types, all values except the minimum", "why_tests_cant": "A test samples a few of the up to 2^64 values per format and a few of the formats; the claim is about every one.", "anchors": ["src/complex/cartesian_impl/num_complex_impl.rs: write_complex"]}
{"id": "C46", "title": "Display never panics", "statement": "Formatting a Cartesian number never panics.", "quantifier": "all signed integer/fixed component types, all values", "why_tests_cant": "Only the minimum value of a component triggers it.", "anchors": ["src/complex/cartesian_impl/num_complex_impl.rs: write_complex lines 11-20"]}
{"id": "C47", "title": "Decibel conversions are consistent", "statement": "For f32/f64 mag2db(x) = 2*pow2db(x) for every x, and db2mag(2x) = db2pow(x) whenever 2x is finite, whatever log10/exp10 routine is used.", "quantifier": "all floats, all log10/exp10 implementations", "why_tests_cant": "A test samples a few of the up to 2^64 values per format and a few of the formats; the claim is about every one.", "anchors": ["src/float_impl.rs: DbMag, DbPow"]}
{"id": "C48", "title": "Derived ordering of complex numbers", "statement": "PartialOrd on Cartesian and Polar is lexicographic (re/mag first): a strict total order on integer and fixed components; Default equals mixed_zero. On floats it is lexicographic on the values (-0 equals +0); a NaN that decides leaves a pair unordered and a number with a NaN equals nothing.", "quantifier": "all values", "why_tests_cant": "A test samples a few of the up to 2^64 values per format and a few of the formats; the claim is about every one.", "anchors": ["src/complex.rs: Cartesian, Polar derives"]}
{"id": "C49", "title": "Complex exponential", "statement": "mixed_exp of a Cartesian number has real part exp(re)*cos(im) and imaginary part exp(re)*sin(im) for whatever sine/cosine/exp routines are supplied, and exp(conj z)=conj(exp z) on floats for any odd/even sincos routine.", "quantifier": "all floats z, all routines", "why_tests_cant": "A test samples a few of the up to 2^64 values per format and a few of the formats; the claim is about every one.", "anchors": ["src/complex/cartesian_impl.rs: MixedExp for Cartesian"]}
{"id": "C50", "title": "Constants", "statement": "mixed_pi() and mixed_tau() are the representable values nearest to the f64 constants pi and 2pi (fixed: within half an ulp, tau panics in debug on formats with three integer bits); mixed_zero is the additive and mixed_one the multiplicative identity on every type.", "quantifier": "all types and formats", "why_tests_cant": "A test samples a few of the up to 2^64 values per format and a few of the formats; the claim is about every one.", "anchors": ["src/fixed_impl.rs: MixedPi, MixedZero, MixedOne", "src/float_impl.rs: MixedPi", "src/int_impl.rs: MixedZero, MixedOne"]}
{"id": "C51", "title": "Debug results carry over to release builds", "statement": "Whenever an operation returns a value in a build with overflow checks, the same call returns the same value in a build without them: scalar operations, powers, square root, phase wrapping, sine, cosine, arctangent, all complex operations, scalar operands and printing. The converse fails.", "quantifier": "all integer types, fixed formats, values, exponents, iteration counts, and external routines with the same property", "why_tests_cant": "Tests run in one profile; a result that silently differs in the other shows only for particular values.", "anchors": ["src/trigonometry.rs", "src/int_impl.rs", "src/fixed_impl.rs", "src/complex/cartesian_impl.rs", "src/complex/polar_impl.rs", "src/complex/ops.rs", "src/complex/cartesian_impl/num_complex_impl.rs"]}
{"id": "C52", "title": "Three iterations reach the documented accuracy", "statement": "sqrt::niirf(x, n) with n >= 3 is within 176e-6 + 1.45 ulp (fixed-point) or 177e-6 (f32, f64) of the real square root for 1/4 <= x < 1, i.e. one iteration more than documented reaches the documented 5e-4.", "quantifier": "all signed fixed formats with at least 2 fractional bits and both float formats, all x in [1/4,1), all n >= 3, both profiles", "why_tests_cant": "The bound is a supremum over the range, the formats and the iteration counts.", "anchors": ["src/trigonometry/sqrt.rs: niirf"]}
{"id": "C53", "title": "Square root without fractional bits", "statement": "On a format without fractional bits the square root is always 0, and with a single fractional bit it is the power of two r with r <= sqrt(x) < 2r.", "quantifier": "all supported formats with 0 or 1 fractional bits (signed: at least 4 integer bits), all x >= 0, all iteration counts, both profiles", "why_tests_cant": "Every value of every such format.", "anchors": ["src/trigonometry/sqrt.rs: niirf", "src/fixed_impl.rs: macro invocations"]}
{"id": "C54", "title": "Polynomial cosine on floats", "statement": "For f32/f64 and |x|<=pi, trigonometry::cos(x) returns a finite value within 5e-6 of the real cosine.", "quantifier": "all finite f32/f64 with |x|<=pi", "why_tests_cant": "Doc tests check one or two angles; the error bound has to hold for all 2^30 / 2^62 representable angles including those that wrap around after the quarter-turn shift.", "anchors": ["src/trigonometry.rs: cos, sin, wrap_phase"]}
{"id": "C55", "title": "Polynomial atan2 accuracy on floats", "statement": "For finite f32 (f64) arguments whose larger magnitude lies in 2^-61..2^61 (2^-509..2^509), mixed_atan2_poly(y,x) is finite and within 0.00492 rad (0.282 degrees) of the real polar angle of (x,y).", "quantifier": "all pairs of finite floats in the stated region", "why_tests_cant": "A test samples a few pairs; the claim is about all 2^64 (f32) or 2^128 (f64) of them.", "anchors": ["src/trigonometry/atan.rs: atan2", "src/float_impl/f32_impl.rs: mixed_atan2_poly", "src/float_impl/f64_impl.rs: mixed_atan2_poly"]}
{"id": "C56", "title": "One-argument arctangent accuracy", "statement": "trigonometry::atan::atan(x) is within 0.00492 rad (+ 8 ulp on fixed types) of the real arctangent of x: for every signed fixed type with at least four fraction bits and every x with 1.5 x^2 <= MAX, and for every f32 (f64) of magnitude at most 2^61 (2^509).", "quantifier": "all signed fixed formats, all arguments in the stated range", "why_tests_cant": "A supremum over up to 2^64 arguments and all formats.", "anchors": ["src/trigonometry/atan.rs: atan"]}
{"id": "C57", "title": "NaN propagates through the polynomial atan2", "statement": "mixed_atan2_poly(y,x) is NaN whenever one of its arguments is NaN.", "quantifier": "all pairs of floats with a NaN", "why_tests_cant": "Depends on the special value paired with each of the 2^32 / 2^64 other arguments.", "anchors": ["src/trigonometry/atan.rs: atan2"]}
{"id": "C58", "title": "Integer conversions to and from fixed and floating point", "statement": "Integer -> fixed is exact and reversible when the value fits; otherwise it panics in debug and wraps in release. Fixed -> integer rounds down, with the same overflow rule. Integer -> float is exact and reversible up to 2^precision. Float -> integer truncates, saturates at the target's limits and sends NaN to 0, and never panics.", "quantifier": "all integer types, all fixed formats, both float types, all values, both build profiles", "why_tests_cant": "The rounding direction and overflow rule depend on sign, fraction and target range; tests sample a few positive values.", "anchors": ["src/fixed_impl.rs: MixedNumConversion", "src/float_impl.rs: MixedNumConversion"]}
{"id": "C59", "title": "Float magnitude is accurate", "statement": "For f32 (f64) components whose larger magnitude lies in 2^-57..2^63 (2^-505..2^511), mag() is finite and within 2.25 * 2^-24 (2.25 * 2^-53) relative error of the true |z|, provided the platform square root is correctly rounded.", "quantifier": "all pairs of finite floats in the stated region", "why_tests_cant": "A supremum of a relative error over 2^64 (f32) or 2^128 (f64) pairs.", "anchors": ["src/complex/cartesian_impl.rs: Mag", "src/complex/ops.rs: abs"]}
{"id": "C60", "title": "Magnitude neither vanishes nor overflows needlessly", "statement": "mag(z) is zero only for z = 0, and is finite (does not overflow) whenever the true |z| is representable in the component type.", "quantifier": "all signed fixed formats and both float types, all values", "why_tests_cant": "Only components near the ends of the exponent range or below the square root of an ulp show it; tests use values around one.", "anchors": ["src/complex/cartesian_impl.rs: Mag", "src/complex/ops.rs: abs"]}
{"id": "C61", "title": "Display of float complex numbers", "statement": "The default text of a Cartesian number with float components is the sign and magnitude of the real part, exactly one sign, the magnitude of the imaginary part and i.", "quantifier": "all floats including zeros, infinities and NaN", "why_tests_cant": "Only negative zero components show a second sign; tests print ordinary numbers.", "anchors": ["src/complex/cartesian_impl/num_complex_impl.rs: write_complex"]}
{"id": "C62", "title": "Display of polar numbers is unambiguous", "statement": "Two Polar numbers with the same text are equal whenever the component text is ASCII and tells components apart, in particular for integer components.", "quantifier": "all component types with such a text, all values", "why_tests_cant": "Injectivity over all pairs of values.", "anchors": ["src/complex/polar_impl.rs: Display"]}
{"id": "C63", "title": "Polar to Cartesian conversion is accurate on fixed-point", "statement": "For a sine/cosine routine within d of the true values on [-pi, pi], to_cartesian of (m, a) returns for every angle a, and both parts are within |m|(d + (|a|/6 + 1/2) ulp) + ulp (up to 2e-15 relative) of m cos a and m sin a; without the |a| term when a is already in [-pi, pi).", "quantifier": "all signed fixed formats with at least four integer bits, all angles, all magnitudes that fit, all sine/cosine routines", "why_tests_cant": "An error bound over every angle, including those wrapped many times, cannot be sampled.", "anchors": ["src/complex/ops.rs: to_cartesian", "src/complex/polar_impl.rs: ToCartesian"]}
{"id": "C64", "title": "Round trip through polar form", "statement": "Converting a Cartesian number to polar form and back returns the number within an explicit error (0.1% of the magnitude from the square root, the square root of two ulps, and the errors of the routines); zero comes back exactly.", "quantifier": "all signed fixed formats with 2 or more fractional and 4 or more integer bits, all numbers whose squared magnitude fits, all routines of stated accuracy", "why_tests_cant": "The bound is over all numbers and composes four approximations.", "anchors": ["src/complex/ops.rs: to_polar, to_cartesian"]}
{"id": "C65", "title": "Conjugation in polar form", "statement": "conj of a polar number keeps the magnitude and negates the angle, is an involution, and fails only for the most negative angle (debug panic); conj of a polar number into Cartesian form approximates m cos a - i m sin a; conj of a Cartesian number into polar form has the same magnitude and the opposite angle.", "quantifier": "all signed fixed formats and both float types, all values", "why_tests_cant": "The exceptional angle is one value in 2^32; the approximate statements are over all values.", "anchors": ["src/complex/polar_impl.rs: Conj", "src/complex/cartesian_impl.rs: Conj"]}
{"id": "C66", "title": "Cartesian times polar", "statement": "z * p for a Cartesian z and a polar p approximates the complex product with m cos a + i m sin a within (|x|+|y|) times the conversion error plus two ulps; z *= p computes the same as z * p; with head room for |z||p| it always returns, in either profile.", "quantifier": "all signed fixed formats with 4 integer bits, all z and p for which the product returns or leaves room", "why_tests_cant": "An error bound over all pairs.", "anchors": ["src/complex/cartesian_impl.rs: Mul<Polar>, MulAssign<Polar>"]}
{"id": "C67", "title": "Complex integer power", "statement": "powi(z, n) approximates z^n whenever z^n is representable; powi(z, 0) = 1.", "quantifier": "all signed fixed formats, all z, all n", "why_tests_cant": "Only exponents whose multiple of the angle leaves the range show the failure; the bound is over all z and n.", "anchors": ["src/complex/ops.rs: powi"]}
{"id": "C68", "title": "Angle accessors agree and are accurate", "statement": "arg and ang of a Cartesian number and of its polar form agree; they are within the accuracy of the arctangent routine of the true angle in (-pi, pi]; |z| (cos arg, sin arg) gives back the number within |z| times that accuracy; mag and abs of the polar form equal the Cartesian magnitude.", "quantifier": "all signed fixed formats, all non-zero numbers, all arctangent routines of stated accuracy", "why_tests_cant": "A statement over all points of the plane, including the branch cut.", "anchors": ["src/complex/cartesian_impl.rs: Arg, Ang", "src/complex/polar_impl.rs: Arg, Ang, Mag, Abs"]}
{"id": "C69", "title": "Value of division by a scalar", "statement": "z / s for a non-zero scalar that the component type represents truncates both parts of the exact quotient towards zero, failing only for MIN / -1; z /= s agrees; dividing by (or multiplying with) a scalar of the same fixed format is within an ulp, and polar / real and polar * real leave the angle unchanged.", "quantifier": "all integer types and fixed formats, all values and scalars", "why_tests_cant": "Truncation direction and the MIN / -1 corner over all pairs of values.", "anchors": ["src/complex/cartesian_impl.rs: Div<T>, DivAssign<T>", "src/complex/ops.rs: div_scalar_cartesian", "src/complex/polar_impl.rs: Div<T>, Mul<T>"]}
{"id": "C70", "title": "Neutral elements and embedding of the reals", "statement": "Cartesian zero and one are neutral for + and * on both sides, z - z = 0, z * 0 = 0; x -> x + 0i commutes with +, -, * including panics; mixed_abs(z) is the embedding of mag(z). On floats, up to the sign of zero parts, for finite z.", "quantifier": "all integer types, fixed formats, floats, both profiles, all values", "why_tests_cant": "Identities over all values including the extreme ones where an intermediate could overflow.", "anchors": ["src/complex/cartesian_impl.rs: MixedZero, MixedOne, MixedComplex, MixedAbs", "src/complex/polar_impl.rs: MixedAbs"]}
{"id": "C71", "title": "Quadrant of the polynomial atan2 on fixed-point", "statement": "mixed_atan2_poly(y,x) with y non-zero lies in the closed quadrant of the point (x,y): between 0 and pi/2, pi/2 and pi, -pi/2 and 0, or -pi and -pi/2.", "quantifier": "all signed fixed formats, all pairs of values", "why_tests_cant": "A phase outside its quadrant only shows for rare coordinates near the origin whose squares are below two units in the last place.", "anchors": ["src/trigonometry/atan.rs: atan2, atan_poly_1, atan_poly_2"]}
{"id": "C72", "title": "Sine never exceeds one", "statement": "mixed_num::trigonometry::sin(x) for x in [-pi, pi] is between -1 and 1.", "quantifier": "all signed fixed formats with enough integer bits, f32, f64, all x", "why_tests_cant": "The overshoot is a few parts per million in a narrow neighbourhood of pi/2.", "anchors": ["src/trigonometry.rs: sin"]}
{"id": "C73", "title": "A release build never returns a silently wrong sine", "statement": "Whenever sin(x), x in [-pi, pi], returns in a release build, it is close to the sine of x.", "quantifier": "all signed fixed formats, all x in [-pi, pi]", "why_tests_cant": "Tests run in debug builds, where the same call panics; in release the wrapped factorial changes the result near pi/2 only.", "anchors": ["src/trigonometry.rs: sin"]}
{"id": "C74", "title": "Phase wrapping is periodic and odd", "statement": "wrap_phase gives equal results for angles that differ by a multiple of twice the type's pi, and wrap_phase(-a) = -wrap_phase(a) unless the result is -pi, in which case both are -pi.", "quantifier": "all signed fixed formats (four integer bits in debug), all angles", "why_tests_cant": "Relates pairs of angles; there are 2^64 pairs in the smallest 32-bit format.", "anchors": ["src/trigonometry.rs: wrap_phase", "src/fixed_impl.rs: MixedWrapPhase"]}
{"id": "C75", "title": "Extreme values", "statement": "mixed_min_value and mixed_max_value are representable and every (finite) value of the type lies between them.", "quantifier": "all integer types, fixed formats, floats, all values", "why_tests_cant": "An off-by-one or a symmetric minimum shows only against the one extreme value.", "anchors": ["src/int_impl.rs: MixedReal", "src/fixed_impl.rs: MixedReal", "src/float_impl.rs: MixedReal"]}
{"id": "C76", "title": "Order of summation", "statement": "Adding up a list of complex numbers of an integer or fixed type: in release builds the result is the wrapped exact sum and independent of the order; in debug builds it returns exactly when every partial sum is representable, then gives the exact sum, so any two orders that return agree; if all terms are in the first quadrant, whether it returns does not depend on the order either.", "quantifier": "all lists of numbers, all orders, all integer types and fixed formats, both profiles", "why_tests_cant": "Quantifies over lists of any length and their permutations.", "anchors": ["src/complex/cartesian_impl.rs: Add"]}
{"id": "C77", "title": "Hexadecimal, octal and binary text", "statement": "Formatting a complex number of an integer type in hexadecimal, octal or binary writes the sign and digits of each part; the digits read back to the exact absolute value without leading zeros, in a release build even for the most negative component, and no two numbers share a text.", "quantifier": "all integer types, all component values (debug: except the minimum, where it panics), radix 2..16, all flags", "why_tests_cant": "The digits come from negating a two's complement word; the case that overflows is one value in 2^n, and injectivity is about pairs.", "anchors": ["src/complex/cartesian_impl/num_complex_impl.rs: write_complex!, LowerHex, UpperHex, Octal, Binary"]}
{"id": "C78", "title": "Width and flags of the text", "statement": "The alternate flag puts the radix prefix after the sign of each part; the plus flag shows a plus exactly before a non-negative real part; a width pads the whole text on the left with spaces to that length without truncating, and is ignored without the std feature.", "quantifier": "all component types (width), all integer values (flags), all flag combinations, widths and prefixes", "why_tests_cant": "Ranges over all flag combinations, widths and values, in two cargo feature configurations.", "anchors": ["src/complex/cartesian_impl/num_complex_impl.rs: write_complex!, fmt_complex"]}
{"id": "C79", "title": "Square root of four times x", "statement": "niirf(4x, n) is exactly twice niirf(x, n): for floats always, for signed fixed-point types for x >= 1/4; for fixed-point values below 1/4, niirf(x, n) is niirf(4x, n) halved and rounded down.", "quantifier": "all signed fixed formats with 2 or more fractional and 4 or more integer bits, both float types; all values whose quadruple is representable; all iteration counts (floats: 2 or more); debug and release", "why_tests_cant": "Relates two runs with different loop counts, over every value and format.", "anchors": ["src/trigonometry/sqrt.rs: niirf"]}
{"id": "C80", "title": "The square root keeps order", "statement": "x <= y implies mixed_sqrt(x) <= mixed_sqrt(y) for fixed-point numbers.", "quantifier": "all signed fixed formats, all pairs of non-negative values", "why_tests_cant": "A statement about pairs of values; the dips are a few parts per thousand wide and sit at multiples of 1/16 of the normalised range.", "anchors": ["src/trigonometry/sqrt.rs: niirf", "src/fixed_impl.rs: MixedSqrt"]}
{"id": "C81", "title": "Perfect squares are exact", "statement": "The square root of a power of four, in particular of one, is the exact power of two.", "quantifier": "all signed fixed formats and both float types, all representable powers of four", "why_tests_cant": "Existing tests compare with a tolerance and never at powers of four.", "anchors": ["src/trigonometry/sqrt.rs: niirf"]}
{"id": "C82", "title": "The root of a positive number is positive", "statement": "The fixed-point square root returns zero only for zero.", "quantifier": "all signed fixed formats with 2 or more fractional and 4 or more integer bits, all positive values, all iteration counts of 2 or more, debug and release", "why_tests_cant": "The smallest values of every format have to survive repeated truncation; tests use values near one.", "anchors": ["src/trigonometry/sqrt.rs: niirf"]}
{"id": "C83", "title": "More iterations, more accuracy", "statement": "Each iteration beyond the second reduces the worst-case error bound of niirf by a factor of four until the rounding error of the type is reached.", "quantifier": "all signed fixed formats with 2 or more fractional bits on [1/4,1), and with 2 to width-4 fractional bits on every non-negative value; all finite f32 and f64 values; all iteration counts; debug and release", "why_tests_cant": "Unbounded in the iteration count and universal in the value.", "anchors": ["src/trigonometry/sqrt.rs: niirf"]}
{"id": "C84", "title": "Accuracy of float complex arithmetic", "statement": "z+w, z-w, z*s and z/s on floats give parts that are the correctly rounded exact parts; z*w gives parts within (2u+u^2)(|ac|+|bd|) (respectively |ad|+|bc|) of the exact ones, u being half an ulp of one, plus two units of the subnormal range.", "quantifier": "all finite float complex numbers whose results do not overflow, any precision, scalars of any type", "why_tests_cant": "Tests use small integers, for which every operation is exact.", "anchors": ["src/complex/cartesian_impl.rs: Add, Sub, Mul, Div for Cartesian", "src/complex/ops.rs: mul_cartesian"]}
{"id": "C85", "title": "Accuracy of float phase wrapping", "statement": "mixed_wrap_phase(phi) differs from phi by a whole number of turns: exactly, with a turn of twice the type's pi, for |phi| <= 4 pi; and up to (phi^2/3+|phi|) u with true turns of 2 pi, u = 2^-24 for f32 and 2^-53 for f64.", "quantifier": "all finite f32 with |phi| < 2^24, all finite f64 with |phi| < 2^53", "why_tests_cant": "The rounding error of the subtraction loop accumulates with the angle; tests wrap a few angles of one or two turns.", "anchors": ["src/float_impl.rs: mixed_wrap_phase", "src/trigonometry.rs: wrap_phase"]}
{"id": "C86", "title": "Float polar to Cartesian conversion is accurate", "statement": "For a sine/cosine routine within d of the true values, to_cartesian of a polar float number (m, a) gives parts within |m|(d + (a^2/3+|a|+1+d)u) plus one subnormal unit of m cos a and m sin a.", "quantifier": "all finite magnitudes up to 2^126 (2^1022), all finite angles below 2^24 (2^53)", "why_tests_cant": "Universal over angles many turns away from zero.", "anchors": ["src/complex/polar_impl.rs: to_cartesian", "src/complex/ops.rs: to_cartesian"]}
{"id": "C87", "title": "Float round trip through polar form", "statement": "to_polar followed by to_cartesian returns a float complex number z up to (da + 1.01 ds + 9u)|z| per part, where da and ds are the errors of the angle and sine/cosine routines and the library square root is correctly rounded.", "quantifier": "all finite z whose larger part is in 2^-57..2^62 (f32) or 2^-505..2^510 (f64); all angle and sine/cosine routines with error up to 1/4", "why_tests_cant": "Universal over all magnitudes and angles.", "anchors": ["src/complex/cartesian_impl.rs: to_polar", "src/complex/polar_impl.rs: to_cartesian"]}
{"id": "C88", "title": "Pythagorean identity of the polynomial sine and cosine", "statement": "sin(x)^2 + cos(x)^2 differs from 1 by at most 4e + 2e^2 with e = 5e-6 + 7 ulp on fixed types, and by at most 21e-6 on f32 and f64.", "quantifier": "all signed fixed formats with at least 20 integer bits, both float types, all x in [-pi, pi]", "why_tests_cant": "The error depends on the argument and format in every bit; a test samples points.", "anchors": ["src/trigonometry.rs: sin, cos"]}
{"id": "C89", "title": "Multiplying in polar form multiplies the complex numbers", "statement": "to_cartesian(p * q) is the product of the complex numbers p and q stand for, up to a stated error built from the sine/cosine routine's error, one ulp of the magnitude product and phase wrapping; zero factors included.", "quantifier": "all polar pairs whose product and angle sum fit (fixed); |angle sum| <= 11.9 and product below 2^(emax-3) (f32, f64); any sine/cosine routine of stated accuracy", "why_tests_cant": "Quantifies over all magnitudes, angles, formats and routines.", "anchors": ["src/complex/ops.rs: mul_polar", "src/complex/polar_impl.rs: Mul, to_cartesian"]}
{"id": "C90", "title": "Exact symmetry of sine and cosine", "statement": "sin(pi - x) = sin(x) bit for bit (where pi is twice the type's pi/2) and, on fixed types, cos(-x) = cos(x) bit for bit for |x| <= pi/2; the equalities also hold when the call panics.", "quantifier": "all signed fixed formats and both profiles for reflection; cosine in release, or in debug with 4 integer bits; f32 and f64 for reflection, all pairs summing exactly to pi", "why_tests_cant": "Bit-exactness for every argument of every format, including those where both sides panic.", "anchors": ["src/trigonometry.rs: sin, cos"]}
{"id": "C91", "title": "Sign, zeros and oddness of the fixed-point sine", "statement": "sin(x) is positive on (0, pi), negative on (-pi, 0) and zero exactly at 0 and at +-pi (twice the type's pi/2); sin(-x) = -sin(x) up to 5 ulps.", "quantifier": "all signed fixed formats with at least 20 integer bits, both profiles, all x", "why_tests_cant": "Sign errors would occur only within a few ulps of a zero, where rounding of the powers dominates.", "anchors": ["src/trigonometry.rs: sin"]}
{"id": "C92", "title": "Magnitude of a complex number with NaN or infinite parts", "statement": "mag(z) on floats always returns; it is NaN exactly when a part is NaN, +infinity when a part is infinite and neither is NaN, and its sign bit is never set.", "quantifier": "both float types (any IEEE format), all complex numbers, any correctly rounded sqrt", "why_tests_cant": "Special values and signs interact over all pairs of exponents; tests use ordinary values.", "anchors": ["src/complex/cartesian_impl.rs: Mag", "src/complex/ops.rs: abs"]}
{"id": "C93", "title": "Relative accuracy and sign of the float sine", "statement": "For |x| <= pi the polynomial sine on floats has the exact sign, is zero exactly at 0 and +-pi (the type's pi), returns tiny arguments unchanged, and with d the distance from the nearest zero is within d^11/11! + 6 u d of sin d in magnitude (u = 2^-24 or 2^-53).", "quantifier": "f32 and f64, all finite x with |x| <= pi", "why_tests_cant": "Tests compare with an absolute tolerance at a few points; relative accuracy near the zeros needs exactness of the range folding for every float.", "anchors": ["src/trigonometry.rs: sin"]}
{"id": "C94", "title": "Polynomial atan2 on every representable point", "statement": "atan2_poly(y, x) on a signed fixed-point type returns the angle of the point to the accuracy of C24 for every representable point off the origin, however large the coordinates.", "quantifier": "all signed supported formats, all representable y and x", "why_tests_cant": "Tests use points near the unit circle; the squares of the coordinates overflow only for large ones, and in release builds the overflow is silent.", "anchors": ["src/trigonometry/atan.rs: atan2"]}
{"id": "C95", "title": "Fixed-point power of any base", "statement": "For a fixed-point x and exponent n >= 1, powi(x, n) is within (n-1) M^(n-2) ulp of x^n with M = max(1, |x|); it returns (the same value in both profiles) whenever M^n plus that error fits, and a debug build panics whenever |x^n| exceeds the range by more than the error.", "quantifier": "all supported formats, all x, all 1 <= n < 2^31", "why_tests_cant": "The accumulated rounding depends on base and exponent over an unbounded family; tests take a few exact powers.", "anchors": ["src/trigonometry.rs: powi", "src/fixed_impl.rs: MixedPowi"]}
{"id": "C96", "title": "Accuracy of the float integer power", "statement": "powi(x, n) on floats returns a finite number with relative error at most 2(n-1)u for positive n, and 2(2n-1)u for exponent -n, whenever base and power stay well inside the normal range and the bound is at most one.", "quantifier": "f32 and f64 (any IEEE format), all finite x, all n up to 2^31", "why_tests_cant": "Rounding errors accumulate along the binary expansion of the exponent; only a proof bounds all bases and exponents.", "anchors": ["src/float_impl.rs: MixedPowi"]}
{"id": "C97", "title": "Accumulated float sums", "statement": "Adding n complex numbers one after the other to a start value never overflows while the sums of magnitudes stay below a quarter of the range, and each part is within 2 n u of the exact sum relative to the sum of magnitudes.", "quantifier": "f32 and f64 (any IEEE format), lists of any length n with n u <= 1/2, all finite parts", "why_tests_cant": "Unbounded sequences of operations; tests sum a handful of numbers.", "anchors": ["src/complex/cartesian_impl.rs: Add"]}
{"id": "C98", "title": "Accumulated fixed-point products", "statement": "The loop acc = acc + z*w over n pairs: when a debug build returns, the real part is within n ulp of the exact value, the imaginary part is at most 2n ulp below it and never above, and a release build returns the same; it does return whenever the sums of magnitudes plus that error fit the format.", "quantifier": "all supported formats, all lists of pairs of any length, all start values", "why_tests_cant": "Unbounded sequences of operations and their intermediate overflows.", "anchors": ["src/complex/cartesian_impl.rs: Mul, Add", "src/complex/ops.rs: mul_cartesian"]}
{"id": "C99", "title": "Spellings of an operation agree", "statement": "The free functions, operators, constructors and accessors that name the same operation return the same result, panics included: add/sub/mul functions and operators, polar constructors and accessors, conjugation into the other form, product with a polar number and its compound assignment, and division by an integer scalar.", "quantifier": "all component types, all values, both profiles", "why_tests_cant": "The bodies are separate copies in the source; agreement has to hold for every type and value, including those that panic.", "anchors": ["src/complex/ops.rs", "src/complex/cartesian_impl.rs", "src/complex/polar_impl.rs"]}
{"id": "C100", "title": "Cosine of any angle", "statement": "cos(x) returns a value within a few millionths of the cosine for every finite x: the documentation says the argument is wrapped inside the function.", "quantifier": "f32 and f64, all arguments including infinities and NaN", "why_tests_cant": "The wrapping loop runs a data-dependent number of times; tests use angles of one or two turns.", "anchors": ["src/trigonometry.rs: cos, wrap_phase"]}
{"id": "C101", "title": "z times its conjugate is |z|^2", "statement": "z * conj(z) has imaginary part zero and real part re^2+im^2, and conj(z*w) = conj(z)*conj(w): exactly on integers, up to rounding on fixed types and floats.", "quantifier": "all signed types, all z, w; both profiles", "why_tests_cant": "Whether the rounding errors of the two cross products cancel depends on the low bits of every operand.", "anchors": ["src/complex/cartesian_impl.rs: conj, Mul", "src/complex/ops.rs: mul_cartesian"]}
{"id": "C102", "title": "Multiplication by i is a quarter turn", "statement": "z * i = -im(z) + re(z) i, and four such multiplications give back z; on integers and fixed types exactly, with an overflow panic in debug builds exactly when a part is the minimum value; on floats up to the sign of zero parts for finite z.", "quantifier": "all signed types, all z, both profiles", "why_tests_cant": "Boundary values of every width and format.", "anchors": ["src/complex/cartesian_impl.rs: Mul", "src/complex/cartesian_impl.rs: MixedOne, MixedZero"]}
{"id": "C103", "title": "Distributivity on fixed types", "statement": "x*(y+z) and x*y+x*z differ by at most one unit in the last place in the real part and by zero to two units in the imaginary part, whenever debug builds return both.", "quantifier": "all supported fixed formats, all x, y, z", "why_tests_cant": "Depends on the fraction bits of three complex operands at once.", "anchors": ["src/complex/cartesian_impl.rs: Mul, Add"]}
{"id": "C104", "title": "Square root with fewer than two iterations", "statement": "sqrt::niirf(x, 0) and niirf(x, 1) return the first guess, within 0.0209 of the root for x in [1/4,1), and that error is attained up to 4 % at x = 1/4; on floats it is within 4.21 % of the root of |x| for every finite x.", "quantifier": "all signed fixed formats with >= 2 fraction bits, all x in [1/4, 1); f32 and f64, all finite x; both profiles", "why_tests_cant": "Tests call the function with two iterations only.", "anchors": ["src/trigonometry/sqrt.rs: niirf"]}
{"id": "C105", "title": "Phase accumulators do not drift", "statement": "Repeating phase = (phase + step).mixed_wrap_phase() from a phase in [-pi, pi) over any list of steps always returns and stays in [-pi, pi). On fixed types the result is exactly the start plus all steps modulo 2 pi (the type's constant), so two accumulators with the same total turn agree exactly. On f32/f64 it is off by at most 2^-22 / 2^-51 per step.", "quantifier": "all supported signed fixed formats (debug builds: at least 4 integer bits), f32, f64; lists of steps of any length; all start phases and steps that fit", "why_tests_cant": "The claim is about arbitrarily long runs; drift shows only after many steps.", "anchors": ["src/traits/math_traits.rs: MixedWrapPhase", "src/fixed_impl.rs: mixed_wrap_phase", "src/float_impl.rs: mixed_wrap_phase"]}
{"id": "C106", "title": "Complex recursive filters and oscillators on fixed types", "statement": "Running z = z*w + x over any list of inputs, whenever a debug build returns: if |w| <= 1 the result is within 2.24 ulp per step of the exact recursion; if |w| <= rho < 1 within 2.24/(1-rho) ulp whatever the length. With |w| <= rho, inputs bounded by X and head room rho*B + X + 2.24 ulp <= B, the filter started within B never overflows and stays within B.", "quantifier": "all supported fixed formats, all w, start values and input lists of any length", "why_tests_cant": "Rounding errors accumulate over an unbounded number of steps and overflow depends on the whole history.", "anchors": ["src/complex/cartesian_impl.rs: Mul, Add", "src/complex/ops.rs"]}
{"id": "C107", "title": "Conversions keep order", "statement": "A larger number never converts to a smaller one: float to fixed, fixed to float, fixed to and from integers (wherever debug builds return), float to and from integers, f32 to and from f64. Integer-to-integer conversions keep order when both values fit the target, and do not otherwise.", "quantifier": "all supported fixed formats, all integer types, f32 and f64, all pairs of values", "why_tests_cant": "A claim about all pairs of values; rounding ties and saturation limits are where it could fail.", "anchors": ["src/fixed_impl.rs: mixed_from_num, mixed_to_num", "src/float_impl.rs: mixed_from_num, mixed_to_num", "src/int_impl.rs: mixed_from_num, mixed_to_num"]}
{"id": "C108", "title": "The same generic code agrees across fixed and float types", "statement": "Calling the same function on a fixed-point type and on f32 or f64 gives the same answer up to rounding in the two types: sines of x and y with |x|,|y| <= pi differ by at most |x-y| + 4.05 ulp of the fixed type + 10 u (u = 2^-24 or 2^-53); atan2_poly of the same point by at most (3 + 5/M^2) ulp + 19 u (f32) or 28 u (f64), M the larger coordinate; square roots of the same number with any number (at least 2) of iterations by at most 3.5 ulp * max(1, 2 sqrt x) + 13 u sqrt x (f32) or 90 u sqrt x (f64). The bounds are much smaller than the distance of either result to the true sine, angle or root.", "quantifier": "all supported signed fixed formats (sine: at least 20 integer bits; root: 4 or more fractional bits, at least 4 integer bits), both build profiles, all arguments that meet the no-overflow condition, f32 and f64", "why_tests_cant": "A relation between two instantiations over all formats and arguments; a wrong constant or branch in only one type stays within the loose accuracy tolerances of the tests.", "anchors": ["src/trigonometry.rs: sin", "src/trigonometry/atan.rs: atan2", "src/trigonometry/sqrt.rs: niirf", "src/fixed_impl.rs", "src/float_impl/f32_impl.rs", "src/float_impl/f64_impl.rs"]}
{"id": "C109", "title": "Accumulated products of float complex numbers", "statement": "acc += a*b over a list of n pairs of finite f32/f64 complex numbers (no overflow) returns finite parts; each part is within (2n+5) u times the sum of the magnitudes of its terms of the exact value, plus 4n underflow units (u = half an ulp of one).", "quantifier": "all float formats with at least 4 bits of precision, lists of any length n with n u <= 1/2, all finite inputs with bounded magnitudes", "why_tests_cant": "Rounding accumulates over lists of any length.", "anchors": ["src/complex/cartesian_impl.rs: Mul, Add", "src/complex/ops.rs"]}
{"id": "C110", "title": "Float recursive filters and oscillators", "statement": "Running z = z*w + x on floats over any list of inputs within stated head room returns finite values: with |w| <= 1 the error grows by at most 4uB + 3 eta per step; with |w| <= rho < 1 output and error stay below bounds that do not depend on the number of steps.", "quantifier": "all float formats with at least 5 bits of precision, all w with |w| <= 1, all start values and input lists of any length within the head room", "why_tests_cant": "Accumulation over an unbounded number of steps.", "anchors": ["src/complex/cartesian_impl.rs: Mul, Add", "src/complex/ops.rs"]}
{"id": "C111", "title": "Cartesian times polar on floats", "statement": "Cartesian z times polar (g, a) is z rotated by a and scaled by g, with each part off by at most (|x|+|y|)(B + 9/4 u (|g|+B)) + 2 eta, B = |g|(d + (a^2/3+|a|+1+d)u) + eta, for a sine/cosine routine accurate to d.", "quantifier": "all finite z and (g, a), |a| < 2^24 (f32) or 2^53 (f64), magnitudes up to 2^62 or 2^510, every sine/cosine routine accurate to d <= 1", "why_tests_cant": "All inputs and every admissible routine.", "anchors": ["src/complex/cartesian_impl.rs: Mul<Polar>", "src/complex/polar_impl.rs: to_cartesian", "src/complex/ops.rs"]}
{"id": "C112", "title": "Wrapping far-away float angles keeps the direction", "statement": "mixed_wrap_phase on a finite f32 or f64 angle returns an angle within 0.01 rad of phi modulo 2 pi.", "quantifier": "all finite f32/f64 angles up to 2^16", "why_tests_cant": "The error is a sum over all subtracted turns and depends on every intermediate rounding.", "anchors": ["src/trigonometry.rs: wrap_phase", "src/float_impl.rs: mixed_wrap_phase"]}
{"id": "C113", "title": "The polynomial arctangent keeps the order of angles", "statement": "If the angle of (x1,y1) is at most that of (x2,y2), atan2_poly of the first is at most that of the second, up to (6 + 5/M1^2 + 5/M2^2) ulp on fixed types and 36 u on f32/f64, in spite of the jumps of the approximation at the diagonals.", "quantifier": "all supported signed fixed formats, both profiles, all pairs of points meeting the no-overflow condition; all pairs of finite floats with magnitudes in [2^-61, 2^61] (f32), [2^-509, 2^509] (f64)", "why_tests_cant": "A claim about all pairs of points in all octants.", "anchors": ["src/trigonometry/atan.rs: atan2", "src/fixed_impl.rs: mixed_atan2_poly", "src/float_impl/f32_impl.rs: mixed_atan2_poly"]}
{"id": "C114", "title": "The sine rises and falls where it should", "statement": "For -pi <= x <= y <= pi: between -pi/2 and pi/2 sin(x) <= sin(y), and on either outer part sin(y) <= sin(x), up to 8.1 ulp on fixed types and 19 u on f32/f64.", "quantifier": "all supported signed fixed formats with at least 20 integer bits, both profiles; f32 and f64; all pairs of arguments", "why_tests_cant": "A claim about all pairs of arguments.", "anchors": ["src/trigonometry.rs: sin", "src/fixed_impl.rs: mixed_sin", "src/float_impl.rs"]}
{"id": "C115", "title": "The arctangent undoes sine and cosine", "statement": "mixed_atan2-style polynomial atan2 applied to (polynomial sin x, polynomial cos x) gives x back, up to whole turns, within 0.00493 rad plus 26 ulp on fixed types and within 0.00493 rad on f32/f64; for |x| <= 3 there is no turn.", "quantifier": "all supported signed fixed formats with at least 8 fractional and 20 integer bits, both profiles; f32, f64; all angles in [-pi, pi]", "why_tests_cant": "A claim about every angle of the composition of three approximations, including the branch cut.", "anchors": ["src/trigonometry.rs: sin, cos", "src/trigonometry/atan.rs: atan2", "src/fixed_impl.rs", "src/float_impl/f32_impl.rs", "src/float_impl/f64_impl.rs"]}
{"id": "C116", "title": "Square root and squaring undo each other", "statement": "On fixed types the square root of x*x is |x| within (0.001 + 5 ulp)|x| + 3 ulp plus min(sqrt(ulp), ulp/|x|), and the square of the square root of x is x within twice that relative error plus a few ulp; on floats niirf(x*x) is |x| within 0.1002 % and niirf(x)^2 is x within 0.2003 %.", "quantifier": "all supported signed fixed formats with at least 2 fractional and 4 integer bits, both profiles, all x whose square is representable; all floats whose square neither overflows nor underflows; any number of iterations from two", "why_tests_cant": "Holds for every input and combines rounding of the square with the error of the iteration.", "anchors": ["src/trigonometry/sqrt.rs: niirf", "src/fixed_impl.rs: mixed_sqrt, mixed_powi", "src/float_impl/f32_impl.rs"]}
{"id": "C117", "title": "Float square roots of squares are exact", "statement": "With a correctly rounded square root, mixed_sqrt(x*x) is exactly |x|, mag(x + 0i) and mag(0 + xi) are exactly |x|, and mixed_sqrt(x)^2 is x within 3.1 u (u = 2^-24, 2^-53).", "quantifier": "all finite floats whose square is finite and not subnormal; every precision", "why_tests_cant": "Exactness for all 2^64 inputs; x*x itself is rounded.", "anchors": ["src/float_impl/f32_impl.rs: mixed_sqrt", "src/float_impl/f64_impl.rs: mixed_sqrt", "src/complex/cartesian_impl.rs: mag"]}
{"id": "C118", "title": "Order and bounds of float magnitudes", "statement": "With a correctly rounded square root: if both parts of z are at most those of w in absolute value then |z| <= |w|; |z| is at least each part and at most the float sum of the absolute parts; and no part of z/|z| exceeds 1. All hold exactly, not up to rounding.", "quantifier": "all finite complex floats of every precision whose magnitude is finite and whose larger part has a square that is not subnormal", "why_tests_cant": "Exact inequalities over pairs of 2^128 values; a single rounding in the wrong direction would break them.", "anchors": ["src/complex/cartesian_impl.rs: mag, Div", "src/float_impl/f32_impl.rs: mixed_sqrt", "src/float_impl.rs: mixed_powi", "src/float_impl/f64_impl.rs: mixed_sqrt"]}
{"id": "C119", "title": "Fixed magnitudes are at least either part", "statement": "On fixed types the magnitude of z is at least |re z| and |im z| and at most their sum, so that z/|z| has no part exceeding 1. (Violated: the magnitude of 0.75 is less than 0.75 on every signed format with ten or more fractional bits; it holds up to 0.1 % and a few ulp.)", "quantifier": "all signed fixed formats, both profiles, all z with representable |z|^2", "why_tests_cant": "A universal inequality; the counterexamples are uniform over formats, the bound is over all values.", "anchors": ["src/complex/cartesian_impl.rs: mag", "src/fixed_impl.rs: mixed_sqrt", "src/trigonometry/sqrt.rs: niirf"]}
{"id": "C120", "title": "The magnitude of a product is the product of the magnitudes", "statement": "|z*w| equals |z||w| within (0.001 + 5 ulp)|z||w| + 11 ulp + sqrt(2 ulp) on fixed types, and within 7 u |z||w| on floats with a correctly rounded root (u = 2^-24, 2^-53).", "quantifier": "all signed fixed formats with 2 fractional and 4 integer bits and all values whose product fits, both profiles; all finite floats whose product neither overflows nor underflows", "why_tests_cant": "Composition of four rounded products, two sums and an iterative root over all pairs.", "anchors": ["src/complex/ops.rs: mul_cartesian", "src/complex/cartesian_impl.rs: Mul, mag"]}
{"id": "C121", "title": "Polar times Cartesian", "statement": "Multiplying a polar number by a Cartesian one multiplies the magnitudes (within the error of the square root) and adds the angles (within the error of the arctangent); the result is zero with angle zero when a magnitude is or rounds to zero.", "quantifier": "all signed fixed formats with 2 fractional and 4 integer bits, both profiles, every arctangent of the assumed accuracy, all operands whose product and angle sum fit; all float formats of at least 24 bits with a correctly rounded square root, all finite operands whose product neither overflows nor underflows", "why_tests_cant": "The error of the conversion enters the product; the bound is over all pairs.", "anchors": ["src/complex/polar_impl.rs: Mul<Cartesian<T>>", "src/complex/ops.rs: mul_polar, to_polar"]}
{"id": "C122", "title": "A wider type returns what the narrow one returned", "statement": "If an operation returns (does not panic) in a debug build on a fixed type, then on a wider fixed type of the same signedness and number of fractional bits it returns the same bits, in any build: arithmetic, sign, abs, power, square root, phase wrapping, sine, cosine, arctangents, conversions, complex arithmetic, magnitude and text. The same holds between integer types when the second holds all values of the first. Only division by a zero scalar differs: it yields the maximum of the type.", "quantifier": "all pairs of such types, both profiles of the wider one, all arguments, any number of iterations", "why_tests_cant": "A relation between executions on two types, over all inputs and all pairs of formats.", "anchors": ["src/fixed_impl.rs", "src/int_impl.rs", "src/trigonometry.rs", "src/trigonometry/sqrt.rs", "src/trigonometry/atan.rs", "src/complex/ops.rs", "src/complex/cartesian_impl.rs"]}
{"id": "C123", "title": "Scaling by powers of two is exact on floats", "statement": "If the operands of a sum, product or magnitude of f32/f64 complex numbers are multiplied by a power of two, the result is multiplied by the matching power of two exactly; the polynomial arctangent of a scaled pair is unchanged to the last bit. On fixed types sums scale exactly whenever both return.", "quantifier": "all formats with IEEE rounding, all powers of two, all operands zero or away from overflow and underflow on both scales", "why_tests_cant": "A relation between two executions over all operands and all scale factors.", "anchors": ["src/complex/ops.rs: add, mul, mag", "src/trigonometry/atan.rs: atan2"]}
{"id": "C124", "title": "Complex products are associative up to rounding", "statement": "(z*w)*v and z*(w*v) both return and differ by at most 2.24 ulp (|z|+|v|+2) on signed fixed types and by at most 13 u |z||w||v| plus an underflow term on floats.", "quantifier": "all supported signed fixed formats, both profiles, all operands whose products fit; all float formats, all finite operands away from overflow", "why_tests_cant": "Compares two evaluation orders over all triples.", "anchors": ["src/complex/ops.rs: mul_cartesian", "src/complex/cartesian_impl.rs: Mul"]}
{"id": "C125", "title": "Multiplying by (cos a, sin a) rotates", "statement": "Multiplying z by the number built from the computed cosine and sine of a returns z turned by a with its length kept, up to the error of sine and cosine times |z| plus rounding; the product of the numbers built from a and b is within the same kind of error of the unit number at angle a+b.", "quantifier": "all signed fixed formats with 20 integer bits, f32 and f64, all angles in [-pi, pi], all z whose rotation fits", "why_tests_cant": "Combines three routines over a continuum of angles and operands.", "anchors": ["src/trigonometry.rs: sin, cos", "src/complex/ops.rs: mul_cartesian", "src/complex/cartesian_impl.rs: Mul"]}
{"id": "C126", "title": "Fourier sums", "statement": "Summing x*(cos a + i sin a) over a list of samples x and angles a with the crate's sine, cosine, product and (binary) sum never panics while the sum of magnitudes fits, and the result is within sum|x| times 8 millionths, plus rounding per sample, of the exact sum of x e^(ia).", "quantifier": "all lists of any length (float: n*u <= 1/2) of samples and angles in [-pi, pi], all signed fixed formats with 20 integer bits, f32, f64", "why_tests_cant": "A loop of any length over all samples.", "anchors": ["src/trigonometry.rs: sin, cos", "src/complex/ops.rs: mul_cartesian", "src/complex/cartesian_impl.rs: Add, Mul"]}
{"id": "C127", "title": "Dividing by the magnitude gives a unit number", "statement": "z divided by its computed magnitude is within a small bound of z/|z|, hence of magnitude one up to that bound: 4 unit roundoffs on floats, twice the relative error of the magnitude plus 1.42 ulp on fixed types.", "quantifier": "all z whose squared magnitude fits and is not lost to rounding; all signed fixed formats with 4 integer bits, both profiles; all float formats from f32 on with a correctly rounded square root", "why_tests_cant": "Combines magnitude and division over all z.", "anchors": ["src/complex/cartesian_impl.rs: mag, Div", "src/complex/ops.rs: abs, div_scalar_cartesian"]}
{"id": "C128", "title": "Triangle inequality of computed magnitudes", "statement": "The computed magnitude of the computed sum z+w is at most the sum of the computed magnitudes plus twice the relative error of the magnitude times (|z|+|w|) plus a few ulp (fixed), plus 6 unit roundoffs times (|z|+|w|) (floats).", "quantifier": "all pairs whose magnitudes fit; all signed fixed formats with 4 integer bits, both profiles; all float formats from f32 on", "why_tests_cant": "An inequality over all pairs.", "anchors": ["src/complex/cartesian_impl.rs: Add, mag", "src/complex/ops.rs: abs"]}
{"id": "C129", "title": "Angles add under products; phase differences come from conjugate products", "statement": "The computed angle of z points in the direction of z; the computed angle of the computed product z*w is the sum of the computed angles of z and w up to full turns, and the angle of w*conj(z) is their difference, within three times the error of the arctangent (0.0148 rad with the polynomial one) plus rounding of the product.", "quantifier": "all pairs of numbers whose squared magnitudes and squared product fit and are not lost to rounding; all signed fixed formats, both profiles; f32 and f64; for arg(), every arctangent of another crate with a stated error", "why_tests_cant": "A relation among three computed angles over all pairs of complex numbers, in any quadrant.", "anchors": ["src/trigonometry/atan.rs: atan2", "src/complex/cartesian_impl.rs: Mul, conj, arg", "src/complex/ops.rs: mul_cartesian, arg"]}
{"id": "C130", "title": "Accuracy and algebra of decibel conversions", "statement": "With log10 and exp10 routines of relative error d: mag2db/pow2db return 20 (10) times the decimal logarithm within relative error d+u+du; db2mag/db2pow return the power of ten within a stated relative error; both round trips return the argument within bounds proportional to the number of decades; the decibels of a product are the sum of the decibels; order is kept when the routines keep it; zero goes to minus infinity.", "quantifier": "all positive finite values (all decibel values whose power of ten is an ordinary number); both float types; both scales; every log10/exp10 routine of the stated accuracy", "why_tests_cant": "Error growth over hundreds of decades and for any conforming maths library.", "anchors": ["src/float_impl.rs: DbMag, DbPow", "src/float_impl/f32_impl.rs: Mixedlog10, MixedExp10", "src/float_impl/f64_impl.rs: Mixedlog10, MixedExp10"]}
{"id": "C131", "title": "Complex exponential on floats: value, law of exponents, inverse, Euler", "statement": "With a sine/cosine routine of error d and a real exponential of relative error g: exp(z) has the value e^re(cos im + i sin im) and the length e^re within relative error 1.416d+1.001g+2u; exp(z)*exp(w) and exp(z+w), everything computed, agree within about three times that plus 7u plus 1.54u(|Re(z+w)|+|Im(z+w)|) relative to e^Re(z+w); exp(z)*exp(0-z) is 1 and exp(i*pi), with the type's own pi, is -1, within stated bounds.", "quantifier": "all finite z, w whose exponentials are ordinary numbers (for the product, representable without overflow); both float types; every sincos and exp routine of the stated accuracy", "why_tests_cant": "A bound relative to the size of the result over the whole exponent range and over all pairs of complex numbers, for any conforming maths library.", "anchors": ["src/complex/cartesian_impl.rs: MixedExp for Cartesian, Mul, Add, Sub", "src/float_impl.rs: MixedPi", "src/float_impl/f32_impl.rs: MixedExp, MixedSin", "src/float_impl/f64_impl.rs: MixedExp, MixedSin"]}
{"id": "C132", "title": "Averages", "statement": "Adding up samples and dividing by their number: in fixed point it never panics when the partial sums and the number fit, gives the exact average cut off towards zero, lies between the smallest and the largest sample, and gives x back for equal samples x. On floats the result is finite and within 2(n+1)u times the average of the absolute values (plus one subnormal unit) of the true average.", "quantifier": "all lists of samples of any length whose partial sums fit; all supported fixed-point formats, signed and unsigned, both build profiles; both float types", "why_tests_cant": "Any number of samples of any value; the claim is about every list.", "anchors": ["src/fixed_impl.rs: MixedNum operators, MixedNumConversion", "src/float_impl.rs: MixedOps", "src/traits/math_traits.rs: MixedOps"]}
{"id": "C133", "title": "Linear interpolation", "statement": "a + (b - a) * t with 0 <= t <= 1: in fixed point it never panics when b - a fits, stays between a and b, is exactly a at t=0 and b at t=1, is the exact value rounded down, and moves monotonically with t. On floats the error is at most 4u(|a|+|b|) plus one subnormal unit, the value is exactly a at t=0, exactly b at t=1 when a and b are within a factor two, and monotone in t.", "quantifier": "all a, b, t in range; all supported fixed-point formats and both build profiles; both float types", "why_tests_cant": "Staying in range and monotonicity quantify over all triples and pairs of parameters.", "anchors": ["src/fixed_impl.rs: MixedNum operators", "src/float_impl.rs: MixedOps", "src/traits/math_traits.rs: MixedOps"]}
{"id": "C134", "title": "Exponential smoothing over any number of samples", "statement": "y <- y + (x - y) * alpha with 0 < alpha <= 1: in fixed point it never panics, never leaves the interval of the samples and the start value, is never above the exact recursion and never more than ulp/alpha below it, however many samples. On floats the output stays finite, below twice the largest sample, and within a stated multiple of 1/alpha of the exact recursion for ever.", "quantifier": "all lists of samples of any length; all supported fixed-point formats, both build profiles; both float types; all alpha not below 16 rounding units", "why_tests_cant": "An error bound independent of the running time cannot be observed by finite runs.", "anchors": ["src/fixed_impl.rs: MixedNum operators", "src/float_impl.rs: MixedOps", "src/traits/math_traits.rs: MixedOps"]}
{"id": "C135", "title": "Blends reach their targets", "statement": "Interpolation on floats ends at b for t = 1 and never passes it; the average of equal float samples is that sample; smoothing a constant input in fixed point reaches it.", "quantifier": "all finite floats in range; all supported fixed-point formats, all alpha, any number of samples", "why_tests_cant": "Holds on most inputs; whether smoothing ever arrives is a statement about unbounded runs.", "anchors": ["src/fixed_impl.rs: MixedNum operators", "src/float_impl.rs: MixedOps"]}
{"id": "C136", "title": "Polynomials by Horner's rule", "statement": "Evaluating a polynomial with * and + only: in fixed point with |x| <= 1 and coefficients that fit, it never panics, is off by at most one ulp per coefficient, and never above the true value for x >= 0; for any x, whenever the checked build returns, both builds agree and the error is at most ulp(1+|x|+|x|^2+...). On floats the result is finite and within 4nu times the polynomial of absolute values, plus underflow terms. With x in [0, 1] and non-negative coefficients, all that has to fit is the sum of the coefficients, and this holds in unsigned formats too.", "quantifier": "all x, all coefficient lists of any length that fit; all supported signed fixed-point formats, both build profiles (unsigned formats: non-negative coefficients and x in [0, 1], or whenever the checked build returns); both float types", "why_tests_cant": "Any degree and any coefficients; the bound must hold for all of them.", "anchors": ["src/fixed_impl.rs: MixedNum operators", "src/float_impl.rs: MixedOps", "src/traits/math_traits.rs: MixedOps"]}
{"id": "C137", "title": "Complex exponential in fixed point: law of exponents, inverse, Euler", "statement": "With a sine/cosine routine of error d and an exponential routine of error dg: exp(z)*exp(w) and exp(z+w), everything computed, agree within a bound built from the errors of the three exponentials and 2.24 ulp; exp(z)*exp(0-z) is 1 within the same kind of bound; exp(i*pi) with the type's own pi is -1 within the error of one exponential plus 0.71 ulp and 2e-15; none of them panics.", "quantifier": "all z, w in range whose exponentials and products fit; all supported signed formats, both build profiles; every sincos and exp routine of the stated accuracy", "why_tests_cant": "All pairs of complex numbers in all formats, for any conforming maths routine.", "anchors": ["src/complex/cartesian_impl.rs: MixedExp for Cartesian, Mul, Add, Sub", "src/fixed_impl.rs: MixedExp, MixedPi, MixedSin"]}
{"id": "C138", "title": "The crate's approximations stand in for the library routines", "statement": "Swapping a library routine for the crate's own approximation changes the result by at most the approximation's stated error plus the library's: mixed_atan2_poly against mixed_atan2 (0.00492 rad plus rounding), sin::sin against mixed_sin (5e-6 on floats, 3.7e-6 plus 4.05 ulp in fixed point), mixed_niirf against mixed_sqrt on floats (relative 0.001 plus half an ulp, subnormals and zero included). Where they part company is stated too: for y = -0.0 and negative x the library's atan2 is -pi and the polynomial's +pi; for negative numbers the library's square root is NaN and niirf the root of |x|.", "quantifier": "all points and arguments in the stated ranges; every supported signed fixed format (at least 20 integer bits for the sine), f32, f64, both build profiles; every library routine of the stated accuracy at the point compared", "why_tests_cant": "Pairs of representable coordinates are too many to enumerate and the library routine is arbitrary.", "anchors": ["src/fixed_impl.rs: MixedAtan, MixedSin", "src/float_impl/f32_impl.rs: MixedAtan, MixedSqrt, MixedSin", "src/float_impl/f64_impl.rs: MixedAtan, MixedSqrt, MixedSin", "src/trigonometry/atan.rs: atan2", "src/trigonometry.rs: sin", "src/trigonometry/sqrt.rs: niirf"]}
{"id": "C139", "title": "Phase unwrapping", "statement": "Adding up (w - prev).mixed_wrap_phase() over successive readings of a turning phase recovers the true movement. In fixed point nothing accumulates: after any number of readings the result has the error of the first and last reading only, plus the turns counted times the difference between the readings' half turn and the type's pi. On floats each step adds the rounding of one subtraction and one addition. It needs steps below half a turn, less twice the reading error; a single step between two wrapped phases is recovered exactly when it lies in [-pi, pi), and is otherwise wrong by whole turns.", "quantifier": "all sequences of readings of any length, all true phases they stand for, all reading errors e and steps s with s + 2e below the type's pi (less the stated slack); all supported signed fixed-point formats with at least four integer bits, both build profiles; f32 and f64", "why_tests_cant": "Sequences of any length with arbitrary measurement errors; that the error does not grow is a statement about all of them.", "anchors": ["src/trigonometry.rs: wrap_phase", "src/fixed_impl.rs: MixedWrapPhase, MixedPi", "src/float_impl.rs: MixedWrapPhase"]}
{"id": "C140", "title": "Rounding floats to integers, and the conversion that agrees with fixed point", "statement": "mixed_floor gives the largest integer not above the number (its documentation says it rounds up), mixed_ceil the smallest not below; NaN, infinities and signed zeros stay themselves; the sign bit is kept; each is the other on the negated number; rounding again changes nothing; both keep order and are one apart unless the number is an integer. x.mixed_floor().mixed_to_num::<int>() equals what the fixed-point number of the same value converts to whenever that fits (direct conversion does not, C43), and saturates where the fixed-point conversion overflows.", "quantifier": "all floats of any format, all fixed-point numbers of the same value in all supported formats, all twelve integer types, both build profiles", "why_tests_cant": "2^64 floats, and the agreement is a statement about every pair of types.", "anchors": ["src/traits.rs: MixedCeil, MixedFloor, MixedNumConversion", "src/float_impl/f32_impl.rs: MixedCeil, MixedFloor", "src/float_impl/f64_impl.rs: MixedCeil, MixedFloor", "src/fixed_impl.rs: impl_mixed_num_conversion"]}
{"id": "C141", "title": "The functions that forward to libm or cordic belong together", "statement": "With library routines of known error at the points where they are called, the usual identities hold between the trait methods, everything computed: mixed_sincos agrees (in this order) with mixed_sin and mixed_cos; sin(asin x), cos(acos x), sinh(asinh x), cosh(acosh x), tanh(atanh x) give x back; tan*cos = sin and tanh*cosh = sinh; exp(log x), exp2(log2 x), exp10(log10 x) and the other way round give x back; mixed_pow with an integer exponent agrees with mixed_powi; the cube of mixed_cbrt(x) is x; each within a bound made of the routines' errors.", "quantifier": "all library routines of the stated accuracy, all arguments in the stated domains, any float format (fixed point for sine and cosine)", "why_tests_cant": "The library is arbitrary and the arguments too many; a test sees one library at a few points.", "anchors": ["src/float_impl/f32_impl.rs: MixedSin, MixedCos, MixedTan, MixedSinh, MixedCosh, MixedTanh, MixedExp, MixedExp2, MixedExp10, Mixedlog, Mixedlog2, Mixedlog10, MixedPow, MixedCbrt", "src/float_impl/f64_impl.rs: MixedSin, MixedCos, MixedTan, MixedSinh, MixedCosh, MixedTanh, MixedExp, MixedExp2, MixedExp10, Mixedlog, Mixedlog2, Mixedlog10, MixedPow, MixedCbrt", "src/fixed_impl.rs: MixedSin, MixedCos", "src/float_impl.rs: MixedPowi"]}
{"id": "C142", "title": "Moving sums and integrator-comb filters", "statement": "A moving sum of complex numbers kept up to date by adding the newest and subtracting the oldest sample is, on integer and fixed-point components in a release build, exactly the sum of the current window reduced to the word, after any number of samples and whatever overflows on the way; a debug build returns exactly when every window, and every window with the sample to come, fits. A filter of n running sums, keeping every r-th sample, and n differences gives in release the n-fold moving sum over r samples (exactly, when r^n times the largest input fits) although its integrators keep overflowing. On floats the moving sum moves away from the sum of the window by at most 2^(K-p) per sample, and never comes back: after one sample of 2^25 an f32 moving sum of samples that are all 1 stays 0 for ever.", "quantifier": "for every window, every sequence of samples of any length, every integer and fixed-point component type, every number of stages and decimation factor; floats: every precision and exponent range, every bound 2^K", "why_tests_cant": "The integrators of such a filter overflow for every long enough input; that the overflow cancels is an argument modulo the word size over all sequences and stages, and drift is a statement about unbounded running time.", "anchors": ["src/complex/cartesian_impl.rs: impl Add, Sub for Cartesian", "src/fixed_impl.rs", "src/int_impl.rs", "src/float_impl.rs"]}
{"id": "C143", "title": "Products of many polar numbers", "statement": "Multiplying a Polar number by a list of Polar factors one after another gives a number whose magnitude is the product of the magnitudes up to one step of the format per factor and whose angle is the sum of the angles modulo a turn. In fixed point the magnitude part holds for factors of magnitude at most one; the direction is wrong in release as soon as the sum of the angles leaves the word (three factors of angle 3 in a format with three integer bits give -7 instead of 9), and debug panics. Reducing the angle with mixed_wrap_phase after each product makes it exact in fixed point for any number of factors, with the magnitude kept to the last bit for factors of magnitude one; on floats the error is at most 2^-22 (f32) or 2^-51 (f64) per factor.", "quantifier": "for every supported fixed-point format, every list of factors of any length and every starting number; on floats for every finite starting number and every list of finite factors whose products stay in the normal range", "why_tests_cant": "the number of factors is unbounded and the wrong direction shows up only once the accumulated angle crosses the end of the word, at a point depending on format and build profile", "anchors": ["src/complex/polar_impl.rs: impl Mul<Polar<T>> for Polar<T>", "src/fixed_impl.rs: mixed_wrap_phase", "src/float_impl.rs: mixed_wrap_phase"]}
{"id": "C144", "title": "Oscillators and mixers", "statement": "A user loop that multiplies sample i by cos(phi) + i sin(phi), then advances phi by a step and reduces it with mixed_wrap_phase, outputs x_i e^(i Phi_i) with Phi_i the starting phase plus all steps so far, within an error that does not grow with i. The error is in fact bounded by |x| times the error of sine and cosine, plus the rounding of one product, plus |x| times the number of turns made times twice the error of the stored pi (plus one rounding of the phase per step on floats). In fixed point the growing part is real: on every signed format with 8 or more fractional bits and 20 or more integer bits, an oscillator run with the stored pi as step ends up outputting about +1 where the ideal one has real part below -0.9.", "quantifier": "for every supported signed format with at least 20 integer bits, f32 and f64, every starting phase in [-pi, pi), every list of steps and samples of any length", "why_tests_cant": "the error grows by a fraction of the last place per turn, so the wrong output shows only after hundreds of thousands of samples or more, at a point that depends on the format", "anchors": ["src/fixed_impl.rs: mixed_wrap_phase, mixed_pi", "src/float_impl.rs: mixed_wrap_phase, mixed_pi", "src/trigonometry.rs: sin, cos", "src/complex/cartesian_impl.rs: impl Mul for Cartesian"]}
{"id": "C145", "title": "Mixing down and up again", "statement": "Multiplying each sample by cos(phi) + i sin(phi) with a running wrapped phase, and multiplying the results by the conjugates with the same steps, gives back every sample within an error that does not depend on its position: twice the error of sine and cosine relative to the sample plus a few units of the last place in fixed point, 15e-6 relative to the sample on floats. Nothing panics or overflows on the way in either build profile.", "quantifier": "for every supported signed format with at least 20 integer bits, f32 and f64, every starting phase in [-pi, pi), every list of steps and of samples that leave room for the products, of any length", "why_tests_cant": "the number of samples is unbounded and the phase of both loops drifts; that the drifts cancel for every step sequence cannot be sampled", "anchors": ["src/complex/cartesian_impl.rs: impl Mul for Cartesian, conj", "src/fixed_impl.rs: mixed_wrap_phase", "src/float_impl.rs: mixed_wrap_phase", "src/trigonometry.rs: sin, cos"]}
{"id": "C146", "title": "Filters with finitely many taps", "statement": "Filtering complex samples with complex taps (y[i] = sum of h[k]*x[i-k], written with the crate's + and * on Cartesian) gives, on every integer type in a release build, the convolution reduced to the word: exact whenever the results fit, even if products or partial sums overflow; in a debug build whatever is returned is the exact convolution. Two filters in a row may be exchanged and may be replaced by one filter; the answer to a sum of signals is the sum of the answers. The answer to a single 1 is exactly the taps, on integer and fixed types in both builds.", "quantifier": "for all integer types, all lists of taps, all lists of samples; impulse response: all supported fixed formats, both builds", "why_tests_cant": "Linearity and exchange of filters under wrap-around are statements about all taps, all signals and all lengths; a test sees one filter and one signal.", "anchors": ["src/complex/cartesian_impl.rs: Mul<Cartesian<T>> for Cartesian<T>, Add<Cartesian<T>> for Cartesian<T>", "src/complex/ops.rs: mul_cartesian", "src/int_impl.rs", "src/fixed_impl.rs"]}
{"id": "C147", "title": "Exchanging filters on fixed-point types", "statement": "On fixed-point types two filters with finitely many taps may be exchanged and the answer to a sum of signals is the sum of the answers.", "quantifier": "for all supported fixed formats, all taps and samples for which the filters return", "why_tests_cant": "Products are rounded down, so whether the outputs agree depends on the low bits of every sample; the size of the worst disagreement over all filters needs a proof.", "anchors": ["src/complex/cartesian_impl.rs: Mul<Cartesian<T>> for Cartesian<T>, Add<Cartesian<T>> for Cartesian<T>", "src/complex/ops.rs: mul_cartesian", "src/fixed_impl.rs"]}
{"id": "C148", "title": "Phase-locked loops", "statement": "A first-order phase-locked loop on a signed fixed type (error = wrap(angle - phase), phase = wrap(phase + gain*error), gain in (0,1]) never panics and never slips a turn, from any start, as long as the followed angle turns by less than gain*pi per sample; its error shrinks by the factor 1-gain per sample down to (turn per sample + one ulp)/gain. On a constant angle the error obeys e' = e - floor(gain*e), and after finitely many samples it is constant, non-negative and below 1/gain ulps: negative errors vanish, small positive ones stay. On f32 and f64 the loop follows in the same way, with 14u (u = 2^-24, 2^-53) in place of the ulp.", "quantifier": "for all signed formats with four or more integer bits, both builds, f32 and f64, all gains, starting phases, and angle sequences of any length", "why_tests_cant": "Absence of cycle slips and convergence are statements about all starting phases, all target sequences and all times; the one-sided dead zone comes from rounding products down and shows only for tiny errors.", "anchors": ["src/fixed_impl.rs: mixed_wrap_phase", "src/trigonometry.rs: wrap_phase", "src/traits/math_traits.rs: MixedWrapPhase", "src/fixed_impl.rs: MixedPi"]}
{"id": "C149", "title": "Running time of phase wrapping and of the square root", "statement": "mixed_wrap_phase on a signed fixed-point type runs its loop exactly once per whole turn in the angle (341 782 638 times for the largest FixedI64<U32>), and on f32/f64 at least once per two turns: the time grows in proportion to the angle. The square root of x > 0 runs each of its loops at most |k| times and one of them exactly |k| times, where 4^(k-1) <= x < 4^k: never more than half the width of a fixed-point type, 74 times for f32, 536 times for f64.", "quantifier": "all supported signed fixed types with 4 integer bits (wrapping: also 3 in release), f32, f64; all values; all iteration counts (>= 2 on floats); both profiles", "why_tests_cant": "A test measures some inputs; a worst case over all inputs, exact to the round, needs a proof.", "anchors": ["src/trigonometry.rs: wrap_phase", "src/trigonometry/sqrt.rs: niirf", "src/fixed_impl.rs: mixed_wrap_phase, mixed_sqrt", "src/float_impl.rs: mixed_wrap_phase", "src/float_impl/f32_impl.rs: mixed_niirf", "src/float_impl/f64_impl.rs: mixed_niirf"]}
{"id": "C150", "title": "Fast Fourier transform", "statement": "The recursive radix-2 transform written with the library's complex product, sum and difference: on signed integers four points with the tables 1 and +-i are exact whenever four times the largest sample magnitude fits; on fixed point and floats 2^k samples of magnitude at most M, with stored unit numbers within d of the true ones, do not overflow (given the stated room) and each coefficient is within 2^k((M+g)q^k - M) of the exact sum, q = 1 + c/2, where c is d (fixed) or d + 6u (floats) and g is 2.24 steps or 4 times the smallest float; forth and back with the conjugate tables gives 2^k times the samples within an explicit error. Tables filled from the library's own sine and cosine qualify with d = 1.4143(5e-6 + 7 steps) or 8e-6 plus the error of the stored angles.", "quantifier": "for all signed formats and both build modes, f32 and f64, all sizes 2^k, all samples within the room, all tables within d (tables filled from the library's own sine: formats with at least 20 integer bits)", "why_tests_cant": "A test runs one size on a few signals; the growth of the error with the size, the absence of overflow for every signal of bounded magnitude and the effect of the tables' error need an induction over the stages.", "anchors": ["src/complex/cartesian_impl.rs: impl Mul/Add/Sub for Cartesian", "src/complex/ops.rs: mul_cartesian", "src/trigonometry.rs: sin, cos"]}
{"id": "C151", "title": "Complex quotients through the conjugate", "statement": "Multiplying by conj(w) and dividing both parts by the real part of w*conj(w) gives the quotient z/w that the / operator does not: on floats the result is finite with a relative error of at most ten rounding units plus the smallest float; on signed fixed types the result is returned without overflow (given the stated room) within (1+|Q|)g/(|w|^2-g) + 1.4143 steps, g = 2.24 steps; on signed integers a Gaussian multiple is divided exactly and otherwise the remainder is shorter than sqrt(2)|w|.", "quantifier": "for all signed formats, integer types and both build modes, f32 and f64, all operands within the stated ranges, w not zero", "why_tests_cant": "The error depends on the sizes of both operands and the rounding of six products, two sums and two quotients; no sample covers all of them.", "anchors": ["src/complex/cartesian_impl.rs: Cartesian conj, impl Mul", "src/complex/ops.rs: mul_cartesian"]}
{"id": "C152", "title": "Products and powers in any order of multiplication", "statement": "Multiplying n complex numbers with the operator * in any order of multiplication (any bracketing, repeated multiplication, square and multiply): on integers a release build returns the exact product reduced to the word for every order, and a debug build returns nothing but the exact product; on fixed point, for factors of magnitude at most 1, every order returns without overflow and is off the exact product by at most q^(n-1) - 1 with q = 1 + 2.24 ulp; on floats the relative error is at most q^(n-1) - 1 with q = 1 + 4u while the partial products stay inside the range. Powers by repeated multiplication and by square and multiply obey the same bounds.", "quantifier": "all integer types, all supported signed fixed-point formats, f32 and f64, both build modes, any number of factors, every order of multiplication, every positive exponent meeting the range condition", "why_tests_cant": "The number of bracketings is exponential in the number of factors and the bound must hold for every one of them and every exponent; tests compare a few fixed orders.", "anchors": ["src/complex/ops.rs: mul_cartesian", "src/complex/cartesian_impl.rs: Mul"]}
{"id": "C153", "title": "Distances and decisions for the nearest symbol", "statement": "The distance of two complex numbers, (z - w).mag(), is the same bit pattern as (w - z).mag(): always on floats, always in a release build on signed fixed types, and whenever both return in a debug build. It is accurate (fixed: 0.1% plus 5 ulp relative, 3 ulp + sqrt(2 ulp) absolute; floats: 3.5 rounding units relative, equal numbers have distance 0). A program that looks through a list of symbols and keeps the one with the least computed distance returns a symbol of the list that is nearest up to this accuracy, hence the right one whenever it is nearer than all others by the stated margin.", "quantifier": "all supported signed fixed formats (accuracy: 2..width-4 fractional bits), f32 and f64 (any format of at least 24 bits), both build modes, every received number, every list of symbols", "why_tests_cant": "The claim ranges over all lists of symbols, all noise and all formats; tests decide for a handful of points.", "anchors": ["src/complex/cartesian_impl.rs: Sub, Mag::mag", "src/trigonometry/sqrt.rs: niirf"]}
{"id": "C154", "title": "Correlation, energy and Parseval's identity", "statement": "Accumulating x * y.conj() over two sampled signals gives their inner product: exactly on signed integers, within n times 2.24 units in the last place on fixed point, and within (2n+6) half ulps of the product of the norms on floats, without overflow when the product of the norms (plus that error) fits; the result never exceeds the product of the norms by more than the error. The energy (signal with itself) is never negative on any scalar; on integers and floats its imaginary part is exactly zero, on fixed point it lies between -n ulps and zero, and the energy is zero exactly when every sample is real with a square below one ulp. The fast Fourier transform multiplies the energy by the number of samples, exactly on four integers and within the stated error otherwise.", "quantifier": "for all lists of samples of any length, all supported signed formats, both build modes, f32 and f64", "why_tests_cant": "Signals of every length and content are covered; the sign and zero claims depend on the rounding direction of each product, which examples do not settle.", "anchors": ["src/complex/cartesian_impl.rs: Add, Mul, Conj::conj", "src/complex/ops.rs: mul_cartesian"]}
{"id": "C155", "title": "Neighbouring angles have neighbouring sines and cosines", "statement": "The sine and the cosine have no glitches: for any two angles, the two results differ by at most the difference of the angles plus a few units in the last place (5 units for fixed-point types, 19 and 38.5 times 2^-24 or 2^-53 for the sine and cosine of f32 and f64). This holds across the places where the code changes branch (at plus and minus half pi) and, for an angle passed through wrap_phase first and for the cosine, across the jump of the wrapped phase from pi to minus pi.", "quantifier": "for every supported signed fixed-point type with at least 20 integer bits, both build profiles and f32, f64; for all pairs of angles: within [-pi, pi] for the sine and the float cosine, any representable pair for the sine of a wrapped phase, any representable pair up to two below the maximum for the fixed-point cosine", "why_tests_cant": "The claim is about every pair of angles; a single bad value next to a branch boundary is invisible to tests that sample angles, and accuracy tests with a tolerance allow jumps of twice that tolerance.", "anchors": ["src/trigonometry.rs: sin, cos, wrap_phase", "src/fixed_impl.rs: MixedWrapPhase, MixedPowi", "src/float_impl.rs: MixedPi, MixedPowi"]}
{"id": "C156", "title": "The polynomial arctangent follows the angle", "statement": "When the direction of (x, y) turns by an angle d (not across the negative x axis), the result of atan2 turns by at least 7/8 of d and, while the same coordinate stays the larger in size, by at most 1.016 d, up to rounding. So different directions are resolved down to the rounding, and equal directions of any length get equal angles, although the angle itself may be wrong by 0.28 degrees. The only glitches are at the four diagonals, where the result jumps: any two points of one quadrant on different sides of its diagonal get angles at least 0.0098 radians apart (less rounding), however close together they are.", "quantifier": "for every supported signed fixed-point type and both build profiles, f32 and f64; for all pairs of points in the range where the squares neither underflow nor overflow", "why_tests_cant": "The claim is about all pairs of directions; a table of sampled angles with a tolerance cannot tell slope from error, and the jump lies between two neighbouring representable points.", "anchors": ["src/trigonometry/atan.rs: atan2, atan_poly_1, atan_poly_2"]}
{"id": "C157", "title": "Convolution through the fast transform is the convolution", "statement": "A user filters with complex samples by transforming samples and taps with the fast Fourier transform built on this library's complex product, sum and difference, multiplying bin by bin and transforming back with the conjugate tables. The program returns (no overflow) 2^k times the cyclic convolution, each value within the stated error; on signed integers with four points it is exact; and when enough zeros follow both sequences the cyclic convolution is the output of the filter.", "quantifier": "for every number of points 2^k, every signed fixed format, f32 and f64, every pair of sequences within the magnitudes that leave room, every stored table within d of the true unit numbers, both sign conventions and both build profiles", "why_tests_cant": "the claim is about every pair of sequences of every power-of-two length and composes the rounding of three transforms and a product; a test sees one pair and one length", "anchors": ["src/complex/cartesian_impl.rs: Add, Sub, Mul", "src/complex/ops.rs: mul_cartesian", "src/fixed_impl.rs: MixedOps", "src/float_impl.rs: MixedOps", "src/int_impl.rs: MixedOps"]}
{"id": "C158", "title": "The sine outside the documented range", "statement": "trigonometry::sin asks for an argument between -pi and pi. It keeps its accuracy (3.62e-6 + 4.05 ulp in fixed point, 5e-6 on floats) up to three quarters of a turn on either side, so an angle that has overshot by less than a quarter turn needs no wrapping; it does not go on much further: the sine of 10 comes out below -30.", "quantifier": "all signed fixed formats with at least 20 integer bits and both profiles, f32 and f64; all arguments of magnitude at most 3 pi / 2 (the type's own pi)", "why_tests_cant": "The claim is about every representable angle of every format; a test samples a few angles of one type.", "anchors": ["src/trigonometry.rs: sin"]}
{"id": "C159", "title": "The two-pass variance is never negative; the one-pass formula can be", "statement": "A variance written with the crate's operators in two passes (the average of the squared distances from the average) never panics in fixed point when the type holds the sums, lies between 0 and the square of the spread, is less than two steps below and at most one squared step above the exact variance, and is exactly 0 on equal samples. On floats it is NaN or not negative whatever the samples, and its distance from the exact variance is at most D^2 + (2n+9) u (V + D^2) + 2 eta with D the error of the average. The one-pass formula (average of squares less square of the average) gives a negative variance on a fixed type, on f32 and on f64, even for three equal samples.", "quantifier": "every supported fixed type and mode, every non-empty list of samples (at most i32::MAX of them) meeting the range conditions; every list of f32/f64 values, infinite and NaN ones included, for the sign", "why_tests_cant": "the bounds are over all lists of all lengths, and rounding errors accumulate; a test sees a handful of lists.", "anchors": ["src/traits/math_traits.rs: MixedOps", "src/fixed_impl.rs: MixedNumConversion", "src/float_impl.rs: MixedNumConversion"]}
{"id": "C160", "title": "Frequency discriminator", "statement": "A user demodulates a complex signal by multiplying each sample by the conjugate of the one before and taking the angle of the product, with atan2 or with arg. If the samples' magnitudes stay between two bounds that suit the number type and the signal turns by less than half a turn between samples, the loop returns for a list of any length, each output is the phase step to within the angle function's error plus rounding, and the outputs add up to the total phase movement, full turns included, to within that error times the number of samples.", "quantifier": "for every list of samples with magnitudes in the stated range, every sequence of their phases with steps of at most s < pi, every signed fixed format and both overflow modes, f32 and f64, and for arg every float format of at least f32's size and every accurate arctangent", "why_tests_cant": "The list has any length and the phases any real values; the claim is that no wrap of the angle at pi is ever mistaken for a step, which depends on rounding right at the half turn, and that errors add up linearly.", "anchors": ["src/complex/cartesian_impl.rs: conj, arg", "src/complex/ops.rs: Mul for Cartesian", "src/trigonometry/atan.rs: atan2"]}
{"id": "C161", "title": "Complex square root", "statement": "A user computes the square root of a complex number with mag, abs, sqrt and one division. On signed fixed-point types whose magnitude lies between 16 times the square root of the step and the square root of the largest value, the program returns a number with non-negative real part whose square differs from the argument by at most 0.66% (plus 45 steps' worth) of the magnitude, 17 steps and 1.75 times the square root of the step. On floats in a wide range of magnitudes the square differs from the argument by at most 20 half-ulps of the magnitude. On the imaginary axis closer to zero than the square root of the step the fixed-point program panics with a division by zero.", "quantifier": "for every complex number in the stated range, every signed fixed format with at least 10 fractional and 4 integer bits and both overflow modes, every float format of at least f32's size with a correctly rounded square root", "why_tests_cant": "The bound holds for all arguments at once; the cancellation next to the negative real axis and the error of mag feeding a second square root are worst at arguments a sample would miss.", "anchors": ["src/complex/cartesian_impl.rs: mag", "src/trigonometry/sqrt.rs: sqrt, niirf", "src/fixed_impl.rs: mixed_sqrt, mixed_abs"]}
{"id": "C162", "title": "Standard deviation and root mean square", "statement": "A user computes the standard deviation (square root of the two-pass variance) and the root mean square of a list of samples with the crate's operators and sqrt. When the number type holds the sums, both return for a list of any length. On signed fixed-point types with at least 2 fractional and 4 integer bits they differ from the exact values by at most 0.1% plus the square root of two steps and a few steps. On floats the root mean square of n samples has relative error at most (2n+8) half-ulps, and the deviation's error is at most the square root of the variance's error bound plus rounding.", "quantifier": "for every non-empty list of samples whose sums and squares fit, every signed fixed format in the stated range and both overflow modes, every float format of at least f32's size with a correctly rounded square root", "why_tests_cant": "Lists have any length; the errors of the sums, of the division and of the square root combine differently for every list, and near zero the square root turns an error of one step into its square root.", "anchors": ["src/trigonometry/sqrt.rs: sqrt, niirf", "src/fixed_impl.rs: mixed_sqrt", "src/float_impl/f32_impl.rs: mixed_sqrt", "src/float_impl/f64_impl.rs: mixed_sqrt"]}
{"id": "C163", "title": "Removing the phase of a measured pilot with mag, scalar division, conj and complex multiplication", "statement": "A program divides a pilot by its magnitude, conjugates the quotient and multiplies every received sample by it. For fixed point (pilot magnitude N with N*N representable and at least twice the error of mag) and for f32/f64 (away from underflow and overflow) no step panics, overflows or produces a non-finite value, and every output is the sample times the conjugate of the pilot's exact direction to within a relative error of twice the relative error of mag plus 1.42 steps and an absolute 2.24 steps (fixed point), or 8 unit roundoffs of the sample plus three times the underflow unit (float). Consequently if every sample is the pilot times a symbol, every output is the symbol times N to the same error.", "quantifier": "for every supported signed fixed-point format with at least two fractional and four integer bits, every float format with at least 24 bits of precision, every build mode, every pilot and every list of samples in range", "why_tests_cant": "the bound is over all pilots, all samples and lists of any length; tests compare a few symbols with a loose tolerance and one format", "anchors": ["src/complex/cartesian_impl.rs: mag, conj", "src/complex/ops.rs: Div<T> for Cartesian, Mul for Cartesian", "src/trigonometry/sqrt.rs: niirf"]}
{"id": "C164", "title": "Any formula written with the scalar operations", "statement": "Whatever formula a user writes by nesting inputs, whole numbers, +, -, *, /, negation, mixed_abs and mixed_sqrt, running it on a signed fixed-point type (either build profile) or on a float type with a correctly rounded square root returns, without panicking, a number within an explicitly computable error of the real value of the formula, provided no divisor can reach zero, no radicand can be negative, and every intermediate value with its error fits the type. Hence the same generic formula on a fixed and a float type, or two formulas denoting the same number on one fixed type, give results that differ by at most the sum of the two bounds. Whatever a debug build returns on a fixed type, a release build and every wider type with the same fractional bits return. On integers a debug build returns exactly when every intermediate value fits and every divisor is nonzero, and then the exact integer; a release build returns any polynomial modulo the width.", "quantifier": "for all formulas (any nesting depth and number of inputs), all inputs and input errors, all signed fixed formats, all float formats with at least f32's precision and range, all integer types, both build profiles", "why_tests_cant": "The claim ranges over all programs that can be written with the operations, not only over all inputs of one; tests exercise one formula at a few points.", "anchors": ["src/fixed_impl.rs: mixed_abs, mixed_sqrt, mixed_from_num", "src/float_impl.rs: mixed_abs", "src/float_impl/f32_impl.rs: mixed_sqrt", "src/float_impl/f64_impl.rs: mixed_sqrt", "src/int_impl.rs: mixed_abs", "src/trigonometry/sqrt.rs: niirf", "src/traits/math_traits.rs: MixedOps, MixedSqrt, MixedAbs"]}
{"id": "C165", "title": "Any formula written with the complex operations", "statement": "Whatever formula a user writes by nesting sums, differences, products and conjugates of Cartesian numbers, running it on a signed fixed-point type (either build profile) or on a float type returns, without panicking, a complex number within an explicitly computable distance of the exact one, provided every intermediate value with its error fits the type. Hence the same generic formula on a fixed and a float type, or two formulas denoting the same number, give results that differ by at most the sum of the two bounds. Whatever a debug build returns on a fixed type, a release build and every wider type with the same fractional bits return. On integers a release build returns the exact Gaussian integer modulo the width, and what a debug build returns is exact.", "quantifier": "for all formulas (any nesting depth and number of inputs), all inputs and input errors, all signed fixed formats, all float formats with at least five bits of precision, all integer types, both build profiles", "why_tests_cant": "The claim ranges over all programs that can be written with the operations, not only over all inputs of one; tests exercise one formula at a few points.", "anchors": ["src/complex/cartesian_impl.rs: add, sub, mul, conj", "src/complex/ops.rs: add, sub, mul_cartesian"]}
{"id": "C166", "title": "Programs with named results and trigonometric calls", "statement": "A program that computes any number of named intermediate results, each one any formula of scalar operations over the inputs and earlier names or the crate's polynomial sine, cosine or arctangent of such a formula, and then a result formula, returns on a signed fixed-point type (either profile), on f32 and on f64, without panicking, a number within an explicitly computable error of the real value, provided every intermediate value fits, no divisor can reach zero, no radicand can be negative and every argument lies in the function's documented range (with twenty integer bits for sine and cosine on fixed types). Whatever a debug build returns on a fixed type, a release build and every wider type with the same fractional bits return.", "quantifier": "for all programs (any number of steps, any formulas, any order of calls), all inputs and input errors, all signed fixed formats with two fractional and three integer bits, f32 and f64, both build profiles", "why_tests_cant": "The claim ranges over all programs; errors of one call feed into later steps in ways that no finite set of test programs covers.", "anchors": ["src/trigonometry.rs: sin, cos", "src/trigonometry/atan.rs: atan", "src/trigonometry/sqrt.rs: niirf", "src/fixed_impl.rs: mixed_sqrt", "src/float_impl/f32_impl.rs: mixed_sqrt", "src/float_impl/f64_impl.rs: mixed_sqrt"]}
{"id": "C167", "title": "Contracting feedback loops never drift", "statement": "Repeating state = body(state, inputs) for any number of rounds, where the body is any formula of scalar operations that stays inside an interval, is safe there, has rounding error at most delta and brings any two states of the interval closer by a factor L < 1: on signed fixed-point types (either profile) and on float types the loop never panics, its state never leaves the interval, and its distance from the exact loop is at most L^n times the initial difference plus delta/(1-L), however long it runs. With constant inputs it settles within delta/(1-L) of the exact fixed point.", "quantifier": "for all bodies, all numbers of rounds, all input sequences, all start states in the interval, all signed fixed formats, all float formats with at least f32's precision and range, both build profiles", "why_tests_cant": "Rounding errors feed back into every later round; a test stops after finitely many rounds and covers one body.", "anchors": ["src/fixed_impl.rs: mixed_abs, mixed_sqrt, mixed_from_num", "src/float_impl.rs: mixed_abs", "src/float_impl/f32_impl.rs: mixed_sqrt", "src/float_impl/f64_impl.rs: mixed_sqrt", "src/trigonometry/sqrt.rs: niirf"]}
{"id": "C168", "title": "Formulas on unsigned fixed-point types", "statement": "Any formula built from inputs, non-negative whole numbers, +, -, *, / and mixed_abs, evaluated on an unsigned fixed-point type, never panics in either build profile and is within the error obtained by carrying each operand's error through the operation and adding one step per product or quotient, provided every difference exceeds its own error, no divisor may be zero and every intermediate value fits. A difference that is certainly negative panics in a debug build; a release build returns it plus the length of the type's range.", "quantifier": "all supported unsigned fixed formats, both build profiles, all formulas of any size, all inputs with any input errors", "why_tests_cant": "Formulas are unboundedly many and the bound has to hold for every input; tests only try a few formulas at a few points.", "anchors": ["src/fixed_impl.rs: impl_mixed_num_for_fixed_unsigned, MixedOps, MixedAbs"]}
{"id": "C169", "title": "Feedback loops with complex state", "statement": "A loop that replaces a complex state by a formula (sums, differences, products, conjugates) of the state and that round's inputs, where the exact formula maps a disc into itself with room for the rounding error and brings two states closer by a factor L < 1: it never panics, the state stays in the disc, and after any number of rounds the computed state is within L^n times the initial distance plus delta/(1-L) of the exact loop. With constant inputs it settles at the fixed point, and two runs on the same inputs forget their initial states.", "quantifier": "all signed fixed formats and both build profiles, all float formats of at least five bits, all complex formulas, all numbers of rounds, all inputs with any input errors, all initial states in the disc", "why_tests_cant": "Run length is unbounded and errors feed back; a test of a few thousand rounds says nothing about drift afterwards or about another formula.", "anchors": ["src/complex/ops.rs: Add, Sub, Mul", "src/complex/cartesian_impl.rs: conj"]}
{"id": "C170", "title": "Formulas that mix real and complex operations", "statement": "Any formula built from scalar inputs, whole numbers, the scalar operations (+, -, *, /, negation, mixed_abs, mixed_sqrt), Cartesian::new, the complex sum, difference, product and conjugate, and the re, im and mag of a complex value, nested in any way, evaluated on a signed or unsigned fixed type or on a float type, returns without panicking in either build profile, and each real result (or each part of a complex result) is within the error bound of the school formula for it, provided no intermediate value overflows, no divisor may be zero and no radicand may be negative.", "quantifier": "all supported fixed formats with both signednesses, all float formats at least as large as f32, both build profiles, all mixed formulas of any size, all inputs with any input errors", "why_tests_cant": "Mixed real and complex formulas are unboundedly many and the bound has to hold for every input; tests only try a few formulas at a few points.", "anchors": ["src/complex/cartesian_impl.rs: Cartesian::new, MixedComplex::mag, conj", "src/complex/ops.rs: add, sub, mul", "src/fixed_impl.rs: MixedOps, MixedAbs, MixedSqrt, MixedPowi", "src/float_impl.rs: MixedOps, MixedAbs, MixedPowi", "src/float_impl/f32_impl.rs: MixedSqrt", "src/float_impl/f64_impl.rs: MixedSqrt"]}
{"id": "C171", "title": "Feedback loops with several state variables never drift", "statement": "Take any number of state variables, each replaced every round by any formula of the old state and the round's inputs. If on a box of states the formulas are safe, stay in the box with a margin for rounding and bring two states closer by a factor L < 1 in some weighted maximum norm, then the loop run on a fixed (signed or unsigned) or float type never panics, never leaves the box and stays within delta/(1-L) plus a vanishing share of the initial difference of the exact loop, however long it runs; with constant inputs it settles that close to the fixed point.", "quantifier": "all supported fixed formats with both signednesses, all float formats at least as large as f32, both build profiles, all numbers of state variables, all formulas, boxes, weights and factors, all input sequences of any length", "why_tests_cant": "The loop may run for ever and has infinitely many possible bodies; tests run a few rounds of a few recursions.", "anchors": ["src/fixed_impl.rs: MixedOps, MixedAbs, MixedSqrt", "src/float_impl.rs: MixedOps, MixedAbs", "src/float_impl/f32_impl.rs: MixedSqrt", "src/float_impl/f64_impl.rs: MixedSqrt"]}
{"id": "C172", "title": "Chains of stages: transforms, cascades, matrix products", "statement": "Send a vector of values through any chain of stages, each computing a new vector (of any length) by arbitrary formulas of the old one and of the stage's own coefficients. On a fixed (signed or unsigned) or float type the chain never panics, every intermediate vector stays in its stated box, and the distance to the exact chain, in weighted maximum norms, is at most what results from multiplying, at every stage, by the factor the stage's formulas amplify differences with and adding the stage's rounding error, provided each stage is free of overflow on its box.", "quantifier": "all supported fixed formats with both signednesses, all float formats at least as large as f32, both build profiles, all chains of any length, all vector lengths, all formulas, coefficients with any error", "why_tests_cant": "Chains and data are unboundedly many and errors accumulate along the chain; tests try a few data vectors on a few chains.", "anchors": ["src/fixed_impl.rs: MixedOps, MixedAbs, MixedSqrt", "src/float_impl.rs: MixedOps, MixedAbs", "src/float_impl/f32_impl.rs: MixedSqrt", "src/float_impl/f64_impl.rs: MixedSqrt"]}
{"id": "C173", "title": "Linear filters in state-space form with quantised coefficients", "statement": "A linear filter s = A s + c of any order, written with the type's * and +, whose matrix has, in some weighted maximum norm, gain at most L < 1: on a fixed (signed or unsigned) or float type it never panics, its states stay bounded for ever, and its distance to the ideal filter (with unquantised coefficients and inputs) stays at most (input error + coefficient error times the state bound + rounding of one round)/(1-L) plus a share of the initial difference that shrinks by L every round.", "quantifier": "all supported fixed formats with both signednesses, all float formats at least as large as f32, both build profiles, all orders, matrices, weights, input sequences of any length, all coefficient and input errors", "why_tests_cant": "Filters run for ever and have infinitely many coefficient sets; overflow and drift may show only after long inputs that tests do not try.", "anchors": ["src/fixed_impl.rs: MixedOps", "src/float_impl.rs: MixedOps", "src/traits/math_traits.rs: MixedOps"]}
{"id": "C174", "title": "Loops, filters and mixed formulas keep their result in release builds and on wider types", "statement": "Take any program of these kinds written over a fixed-point type: a formula mixing real and complex operations, a feedback loop with one, several or complex state variables, a chain of vector stages, or a state-space filter. If the debug build returns a value, then the release build, and every build on a wider type with the same signedness and the same number of fractional bits, return exactly the same bits. So a run tested in debug is bit-exact evidence for release and for a later change to a wider type. On integers the same holds for release builds, and for programs without literals on every integer type whose range contains the narrow one.", "quantifier": "all formulas and bodies, all inputs, all states, any number of rounds and stages, all supported fixed-point formats and all wider ones, all integer types, both profiles", "why_tests_cant": "Programs are arbitrary trees of operations run for any number of rounds; tests compare the profiles on single operations and chosen inputs.", "anchors": ["src/complex/cartesian_impl.rs: Add/Sub/Mul for Cartesian, MixedComplexConversion mag, conj", "src/fixed_impl.rs: MixedOps, MixedNumSigned, MixedAbs, MixedSqrt, MixedPowi", "src/trigonometry/sqrt.rs: niirf"]}
{"id": "C175", "title": "Compensated addition and summation", "statement": "Write the classical error-free addition once over the crate's operators: s = a + b, v = s - a, c = (a - (s - v)) + (b - v). On floats (no overflow) the pair is exact: s + c = a + b as real numbers, s being the rounded sum. A loop that adds up the corrections and adds their total at the end returns, for n terms, the exact sum rounded once plus an error of second order, at most 5 (n u)^2 times the sum of the magnitudes (u = half an ulp of one), where the plain loop has a first-order error. On fixed-point types and integers, in both profiles, the correction is always zero and the compensated loop is the plain loop, which in debug is exact; so in release the correction does not reveal a wrapped sum.", "quantifier": "all lists of finite floats of any precision with n u <= 1/2 and total magnitude at most 2^(emax-7), all lists of values of every supported fixed-point format and integer type, both profiles", "why_tests_cant": "Exactness of the correction depends on the rounding of every pair of inputs, and the bound holds for sums of any length; tests sample a few.", "anchors": ["src/traits/math_traits.rs: MixedOps", "src/float_impl.rs: MixedOps, MixedZero for f32 and f64", "src/fixed_impl.rs: MixedOps, MixedZero for fixed types", "src/int_impl.rs: MixedOps, MixedZero for integers"]}
{"id": "C176", "title": "Product corrections written with the generic operators are exact on floats and always zero on fixed point", "statement": "Write the classical splitting algorithm with + - * and one literal only: it returns a product and a correction. On floats (literal 4097 for f32, 134217729 for f64) with factors up to 2^44 (f32) or 2^477 (f64) it never panics or overflows, the first component is a * b, and the two components add up to exactly the real product unless that product is close to the underflow threshold, in which case they miss it by at most 3.5 times the smallest positive number. A dot product that sums all products and corrections with the compensated loop of C175 differs from the exact dot product by at most u |exact| + 23 (n u)^2 (sum of |a_i b_i|) + 10 n times the smallest positive number. On every fixed-point and integer type, in both build profiles and with any literal, the correction is zero whenever the program returns: the bits lost by a fixed-point product are not recovered by this source.", "quantifier": "all binary float formats (f32 and f64 among them), all finite factors in the stated range, vectors of any length with n u <= 1/4; all supported fixed-point formats and integer types, both profiles, all operands and literals", "why_tests_cant": "Exactness of the correction rests on the rounding of each of seventeen operations for all pairs of significands; tests sample a few, and the dot-product bound holds for vectors of every length.", "anchors": ["src/float_impl/f32_impl.rs: MixedOps, MixedZero", "src/float_impl/f64_impl.rs: MixedOps, MixedZero", "src/fixed_impl.rs: MixedOps", "src/int_impl.rs: MixedOps", "src/traits/math_traits.rs: MixedOps"]}
{"id": "C177", "title": "The parts of a complex product keep their relative accuracy", "statement": "On floats, each part of z * w is the exact part up to a few roundings relative to that part. This is false of the multiplication operator: in f32 and in f64 there are numbers whose product has a real part that the type represents exactly (2^-24, 2^-54) and for which the operator returns 0. Its error is bounded relative to |ac| + |bd| only (C84). A user who writes the two parts with the compensated dot product of C176 gets, for all finite parts up to 2^44 (f32) or 2^477 (f64), each part within u times its own size, plus 92 u^2 (|ac| + |bd|), plus 20 times the smallest positive number, without panic or overflow.", "quantifier": "the operator: f32 and f64; the compensated product: all binary float formats with p >= 4 and p + 8 <= emax, all finite parts in the stated range", "why_tests_cant": "Cancellation shows on a vanishing fraction of random inputs, and the bound for the compensated form is over all pairs of complex numbers.", "anchors": ["src/complex/cartesian_impl.rs: Mul for Cartesian", "src/complex/ops.rs: mul_cartesian", "src/float_impl/f32_impl.rs: MixedOps", "src/float_impl/f64_impl.rs: MixedOps"]}
{"id": "C178", "title": "Signs of the parts of a complex product, and the left-or-right test", "statement": "A part of z * w never has the sign opposite to the exact part, and is zero where the exact part is zero; so Im(conj(z) * w) never sends a left turn to the right. On floats of every format this holds for all operands whatever their size, as long as the part is finite; a part is zero exactly when its two products round to the same number. In fixed point (debug builds) it holds for the real part. It is false for the imaginary part, hence for the turn test: products round down before they are added, so the imaginary part is negative whenever the exact one is, but can be one step below zero where the exact one is between 0 and one step. On every signed format with a fractional bit, testing a vector against itself reports a clockwise turn. The condition for each sign of each fixed-point part is determined exactly: the exact part is compared with the fraction of its first product instead of with zero.", "quantifier": "all binary float formats, all operands with a finite result; all supported fixed-point formats, all operands on which the debug build returns; the counterexample on every signed format with a fractional bit, both profiles", "why_tests_cant": "The wrong sign needs products that nearly cancel, which random tests hardly ever produce, and the guarantee is for all operands of all sizes.", "anchors": ["src/complex/cartesian_impl.rs: Mul for Cartesian, conj", "src/complex/ops.rs: mul_cartesian", "src/fixed_impl.rs: MixedOps", "src/float_impl/f32_impl.rs: MixedOps", "src/float_impl/f64_impl.rs: MixedOps"]}
{"id": "C179", "title": "Comparing two numbers, their difference with zero, or products", "statement": "x - y compares with zero as x compares with y, and comparing two products never puts them in the wrong order. On floats of every format the first part holds for all operands, NaN, differences that overflow and subnormal differences included, with one exception: an infinity minus itself is not a number although it equals itself. In fixed point, and on the primitive integers, the two comparisons agree exactly when the difference fits the type: otherwise a debug build panics and a release build always answers differently, and every format has such operands. Products: on floats with finite products, and in fixed-point debug builds, a computed product below another means that the exact product is below; equal exact products compare equal.", "quantifier": "all binary float formats and all operands; all supported fixed-point formats, all operands, both profiles; all integer types", "why_tests_cant": "The claim is over all pairs and all quadruples of operands, with failures only at the ends of the range.", "anchors": ["src/traits/math_traits.rs: MixedOps (PartialOrd, Sub, Mul)", "src/fixed_impl.rs: MixedOps", "src/float_impl/f32_impl.rs: MixedOps", "src/float_impl/f64_impl.rs: MixedOps"]}
{"id": "C180", "title": "Running maxima, clamping and sorting with the comparison operators", "statement": "Written with < on the generic type: the running maximum of a list is one of its elements and at least every element; clamping to lo <= hi lies between them, leaves numbers in between alone and returns the bound passed otherwise; insertion sort returns the same elements in ascending order. This holds on all integer and fixed-point types in both profiles. On floats of every format, infinities included, it holds for numbers. A NaN is skipped by the running maximum unless it comes first, when it stays for ever; clamping returns a NaN unchanged; sorting still returns the same elements, but one NaN can keep the numbers on its two sides in the wrong order.", "quantifier": "all lists of all lengths, all bounds and values, all integer, fixed-point and float formats, both profiles", "why_tests_cant": "Lists of every length and every float, NaN and infinities included.", "anchors": ["src/traits/math_traits.rs: MixedOps (PartialOrd)", "src/fixed_impl.rs: MixedOps", "src/int_impl.rs: MixedOps", "src/float_impl.rs: MixedOps"]}
{"id": "C181", "title": "A limited integrator stays between its limits for ever", "statement": "acc = clamp(acc + x, lo, hi) over any number of samples keeps acc between lo and hi. On floats of every format this holds for every sequence of numbers, infinities and sums that overflow included, and acc stays finite; a single NaN in the input, and nothing else, makes acc NaN from then on. On integers and in fixed point, both profiles, acc equals the limited integrator on whole numbers and nothing panics, provided the type has room for one largest input beyond each limit. Without that room the limits do not protect: on every fixed-point format, with the ends of the range as limits, one step above the upper limit panics in debug builds and jumps to the lower limit in release builds.", "quantifier": "all input sequences of all lengths, all limits, all formats, both profiles", "why_tests_cant": "Sequences of every length; the failure needs the sum to leave the word.", "anchors": ["src/fixed_impl.rs: MixedOps", "src/int_impl.rs: MixedOps", "src/float_impl.rs: MixedOps"]}
{"id": "C182", "title": "The strongest sample of a list", "statement": "A loop that keeps the sample with the largest re*re + im*im returns an element of the list that no other exceeds. On floats of every format, as long as the squared magnitudes are finite, it does so up to rounding: the squared magnitude of any sample is at most ((1+u)/(1-u))^2 times that of the returned one plus three smallest subnormals. In fixed point (debug builds, whenever no squared magnitude overflows) no squared magnitude exceeds the returned one's by two steps or more. It is not exact: on every fixed-point format with a fractional bit zero is kept in preference to a sample whose parts are one step.", "quantifier": "all lists of all lengths; all float formats; all supported fixed-point formats", "why_tests_cant": "Lists of every length; ties and near ties decided by rounding.", "anchors": ["src/complex/cartesian_impl.rs: Cartesian", "src/fixed_impl.rs: MixedOps", "src/float_impl.rs: MixedOps"]}
{"id": "C183", "title": "A slew-rate limiter reaches its target", "statement": "y += clamp(x - y, lo, hi) with lo <= 0 <= hi, run on integers or fixed-point numbers in either profile, with start and inputs in an interval whose width the type can represent with both signs: no step panics or wraps, y never leaves the interval, and after n equal inputs y is exactly the start moved n times by the limit but never beyond the input. So the input is reached exactly, and exactly when n times the limit covers the distance. On unsigned fixed-point types every step down panics in debug builds.", "quantifier": "all input sequences of all lengths, all limits, all integer and fixed-point formats, both profiles", "why_tests_cant": "Sequences of every length and every pair of limits; overflow only at the ends of the range.", "anchors": ["src/fixed_impl.rs: MixedOps", "src/int_impl.rs: MixedOps"]}
{"id": "C184", "title": "A median filter removes isolated spikes and keeps edges", "statement": "The median of three consecutive samples, written with < on the generic type: if at least two of every three consecutive samples lie in an interval, every output lies in it, however large the remaining samples are; where the samples rise or fall (also not strictly) the output equals the middle sample. Both hold on all integer and fixed-point types in both profiles and on floats of every format, infinite spikes included. A NaN spike is removed while it is at either end of the window but not while it is in the middle.", "quantifier": "all sequences of all lengths, all intervals, all formats, both profiles", "why_tests_cant": "Sequences of every length and spikes of every size.", "anchors": ["src/traits/math_traits.rs: MixedOps (PartialOrd)", "src/fixed_impl.rs: MixedOps", "src/int_impl.rs: MixedOps", "src/float_impl.rs: MixedOps"]}
