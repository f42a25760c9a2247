# Machine-checked model of eDSP in Rocq/Coq

## 1. What is modelled, and how numbers are treated

eDSP is a header-only C++ DSP library with a C interface and a Python module.
The model is written function by function in `rocq/theories/*Model.v`; each
definition cites the file and lines it models.

* **Real arithmetic.** Floating-point samples and coefficients are modelled as
  exact reals (`R` of the standard library). Rounding is *not* modelled unless a
  file says so: `FloatBase.v`, `MovingFloatModel.v` and parts of `NumModel.v` use
  the standard library's executable IEEE-754 specification `SpecFloat`, and the
  `Float*` files model the sample arithmetic in every IEEE binary format
  (`float`, `double`, ...) with Flocq: rounding to nearest even, infinities, NaN,
  signed zeros and subnormals. Every
  theorem over `R` is therefore a statement about the algorithm in exact
  arithmetic. Decimal constants are taken exactly.
* **Undefined / non-finite outcomes.** Functions that can divide by zero, take a
  logarithm of a non-positive number, dereference an end iterator, index out of
  range and so on return `res A` (`Base.v`): `Ok v`, `UB` (C++ undefined
  behaviour, or an `assert`ed precondition that fails) or `NonFinite` (an IEEE
  operation whose result is an infinity or a NaN, hence outside the real model).
  No totalised default is used in place of these outcomes. In the filter-design
  models a parameter `checks : bool` says whether assertions are compiled in.
* **Integers.** `nat`/`Z`; where the code's fixed width matters the conversion is
  explicit (`to_int32`, `to_uint64`, `int32_op`) and signed overflow is `UB`.
* **Iterators and memory.** A range `[first,last)` is a `list`, or a list of
  memory cells with offsets when ranges may overlap (`AlgModel.v`); an output
  iterator is the list of values written. A function mutating an object returns
  the new object. Objects whose storage can be shared, moved or destroyed live in
  an explicit heap (`MoveModel.v`).
* **External libraries** are replaced by their documented contract, given as an
  explicit definition next to the function that calls them: FFTW and PFFFT are
  exact discrete Fourier transforms, libsndfile and audiofile are files of
  samples with a position, libsamplerate's size arithmetic only, the environment
  is a list of `NAME=value` strings, numpy arrays are views of memory.

## 2. File layout

`XModel.v` holds definitions of the code only; `XSpec.v` the vocabulary of the
specification, independent of the model; `XProofs.v` lemmas; `XProps.v` the
property theorems `Cnn_...`, each accompanied by examples showing that its
hypotheses are met, and ending with `Print Assumptions`.
`seeded/LOG.jsonl` records the wrong programs tried against the theorems.

## 3. Plan per property

Status is that of `MANIFEST.json`; "VIOLATED" means the faithful model refutes the property, so a theorem `..._refuted` exhibits the failure and a theorem `..._actual` says what the code does instead.

| id | property | modelled and proved in | how | status |
|----|----------|------|-----|--------|
| C01 | Ring buffer behaves like a bounded deque that overwrites | `RingProps` | `ring_span` with explicit storage, front index and size; refinement to a bounded deque, by induction over operation histories | proved |
| C02 | Ring buffer size and capacity laws | `RingProps` | `ring_span` with explicit storage, front index and size; refinement to a bounded deque, by induction over operation histories | proved |
| C03 | Ring buffer iteration visits the contents once, oldest first | `RingProps` | `ring_span` with explicit storage, front index and size; refinement to a bounded deque, by induction over operation histories | proved |
| C04 | Ring buffer never touches memory outside its storage | `RingProps` | `ring_span` with explicit storage, front index and size; refinement to a bounded deque, by induction over operation histories | proved |
| C05 | Moving average filter outputs the mean of the last N samples | `MovingProps` | moving filters on top of the ring model; invariant "accumulated value = sum of window"; float-level runs for rounding drift | proved: Exact arithmetic. In double precision the property is false: C05_moving_average_double_refuted shows a permanent bias from rounding. |
| C06 | Moving RMS filter outputs the RMS of the last N samples | `MovingProps` | moving filters on top of the ring model; invariant "accumulated value = sum of window"; float-level runs for rounding drift | proved: Exact arithmetic. In double precision the property is false: C06_moving_rms_double_refuted shows a permanent NaN from rounding. |
| C07 | Moving filters after reset() behave like fresh filters | `MovingProps` | moving filters on top of the ring model; invariant "accumulated value = sum of window"; float-level runs for rounding drift | partial: VIOLATED by the code: reset()/resize() keep the accumulator and stale cells. C07_*_refuted give counterexamples for every window >= 2; C07_*_after_* state exactly what is computed instead. |
| C08 | Moving median filter outputs the median of the window | `MovingProps` | moving filters on top of the ring model; invariant "accumulated value = sum of window"; float-level runs for rounding drift | partial: VIOLATED by the code: statistics::median is a stub returning 0. C08_moving_median_is_always_zero characterises it, C08_moving_median_refuted is the counterexample. |
| C09 | Biquad realises its difference equation | `BiquadProps` | `biquad::tick` on its state; induction over the stream, linearity, chunking | proved |
| C10 | Biquad filtering is linear and time invariant | `BiquadProps` | `biquad::tick` on its state; induction over the stream, linearity, chunking | proved |
| C11 | Biquad block processing is independent of chunking and in-place safe | `BiquadProps` | `biquad::tick` on its state; induction over the stream, linearity, chunking | proved |
| C12 | Biquad stability() is exactly 'both poles inside the unit circle' | `BiquadProps` | `stability` and impulse response; complex roots over pairs of reals, BIBO through factorisation into first-order complex recursions | proved |
| C13 | A biquad reported stable never blows up | `BiquadProps` | `stability` and impulse response; complex roots over pairs of reals, BIBO through factorisation into first-order complex recursions | proved |
| C14 | Biquad cascade is the in-order composition of its stages | `BiquadProps` | cascade as array prefix; composition, commutation by uniqueness of the difference equation | proved |
| C15 | First-order section built from a pole and a zero has that pole and that zero | `BiquadProps` | constructors and RBJ/Zoelzer designers; trigonometric algebra, bilinear transform maps the left half plane into the disc | partial: VIOLATED by the code: the two-argument pole/zero constructor drops the sign and scale; the exact behaviour is proved (C15_actual) and the claim is refuted for the high-pass polarity. |
| C16 | RBJ cookbook designs are stable and meet their reference gains | `DesignProps` | constructors and RBJ/Zoelzer designers; trigonometric algebra, bilinear transform maps the left half plane into the disc | proved |
| C17 | Zoelzer designs are stable and meet their reference gains | `DesignProps` | constructors and RBJ/Zoelzer designers; trigonometric algebra, bilinear transform maps the left half plane into the disc | partial: VIOLATED by the code for cuts: a Zoelzer low shelf with negative gain boosts by \|gain\| dB, and the high-shelf cut passes a1 twice to the biquad (C17_zoelzer_lowshelf_cut_refuted, C17_zoelzer_highshelf_cut_refuted). Pass filters and boosts are proved. |
| C18 | Butterworth low/high-pass designs are stable at every order | `ButterProps` | constructors and RBJ/Zoelzer designers; trigonometric algebra, bilinear transform maps the left half plane into the disc | partial: VIOLATED by the code when assertions are compiled in: every odd order calls insert() with the pole/zero pair (-1, infinity), whose imaginary part is infinite, and fails an assertion (C18_butterworth_odd_asserts_refuted). Even orders, and all orders without assertions, are proved; odd high-pass has gain -1 (unit magnitude, inverted polarity) at Nyquist. |
| C19 | Clipping and clipped amplification stay in range | `AlgProps` | range algorithms over one memory with offsets (aliasing included); induction | proved: Element values are exact reals; calls with destination inside the memory and not clobbering unread source elements. |
| C20 | Element-wise algorithms keep length and order | `AlgProps` | range algorithms over one memory with offsets (aliasing included); induction | proved: Element values are exact reals; calls with destination inside the memory and not clobbering unread source elements. |
| C21 | binary_search finds exactly the present values | `AlgProps` | range algorithms over one memory with offsets (aliasing included); induction | proved: Element values are exact reals; calls with destination inside the memory and not clobbering unread source elements. |
| C22 | linear_search / index_of return the first occurrence | `AlgProps` | range algorithms over one memory with offsets (aliasing included); induction | proved: index_of needs length <= 2^31; beyond it the int32 conversion wraps (C22_index_of_overflow_refuted). |
| C23 | linspace produces N evenly spaced points including both ends | `AlgProps` | range algorithms over one memory with offsets (aliasing included); induction | proved: Element values are exact reals; calls with destination inside the memory and not clobbering unread source elements. |
| C24 | padder and concatenate copy faithfully | `AlgProps` | range algorithms over one memory with offsets (aliasing included); induction | proved: Element values are exact reals; calls with destination inside the memory and not clobbering unread source elements. |
| C25 | normalize scales the peak to one | `FeatProps` | range algorithms over one memory with offsets (aliasing included); induction | proved |
| C26 | is_power_two decides powers of two | `NumProps` | 32/64-bit integer functions and IEEE classification; bit lemmas, divisibility | proved |
| C27 | next_power_two returns the smallest power of two not below x | `NumProps` | 32/64-bit integer functions and IEEE classification; bit lemmas, divisibility | proved: Also: 0 gives 0, and every x strictly between 2^30 and 2^31 overflows (UB). |
| C28 | is_prime decides primality | `NumProps` | 32/64-bit integer functions and IEEE classification; bit lemmas, divisibility | partial: VIOLATED by the code: the loop falls through to 'return false', so 2 and 3 are the only numbers reported prime (C28_is_prime_actual, C28_is_prime_refuted); a positive answer is right (C28_is_prime_sound_partial). |
| C29 | is_odd / is_even partition the integers | `NumProps` | 32/64-bit integer functions and IEEE classification; bit lemmas, divisibility | partial: VIOLATED by the code for negative odd integers, all reported even (C29_parity_refuted). Exact for non-negative integers. |
| C30 | Cosine-sum windows are symmetric and bounded | `WindowProps` | windows; trigonometric symmetry and bounds | proved |
| C31 | Bartlett, triangular and Welch windows are symmetric and bounded | `WindowProps` | windows; trigonometric symmetry and bounds | partial: VIOLATED by the code for welch of even size (never symmetric, C31_welch_refuted). bartlett and triangular proved; triangular uses half-width (N+1)/2 or (N-1)/2 for odd N depending on N mod 4 (C31_triangular_ends). |
| C32 | Mean, min and max are consistent | `StatProps` | statistics; sums over lists, AM-GM, Cauchy-Schwarz | proved: Exact arithmetic. |
| C33 | Variance, skewness and kurtosis obey their definitions and invariances | `StatProps` | statistics; sums over lists, AM-GM, Cauchy-Schwarz | proved: Exact arithmetic. |
| C34 | Harmonic <= geometric <= arithmetic mean | `StatProps` | statistics; sums over lists, AM-GM, Cauchy-Schwarz | proved: Exact arithmetic. |
| C35 | peak returns the first position of the maximum | `StatProps` | statistics; sums over lists, AM-GM, Cauchy-Schwarz | proved: Exact arithmetic. |
| C36 | Energy, power, RMS and RSSQ agree with each other | `FeatProps` | features; closed form of the value returned, compared with the documented formula | partial: VIOLATED by the code: rms starts its accumulation at 1 and is too large for every signal (C36_rms_refuted, C36_rms_actual); energy, power and rssq are proved. normalize_rms inherits the error (C36_normalize_rms_actual). |
| C37 | Zero crossing rate is a normalised count of sign changes | `FeatProps` | features; closed form of the value returned, compared with the documented formula | partial: VIOLATED by the code for negative factors: zero samples count as positive, so inverting a signal with exact zeros can change the rate (C37_azcr_inversion_refuted). Count, range, positive scaling and inversion without zeros are proved. |
| C38 | AMDF and ASDF measure self-difference | `FeatProps` | features; closed form of the value returned, compared with the documented formula | proved: Exact arithmetic. |
| C39 | Spectral slope is the linear-regression slope | `FeatProps` | features; closed form of the value returned, compared with the documented formula | partial: VIOLATED by the code: the element count is measured after the loop and is 0, so the result is 1/sum(f) for every spectrum (C39_slope_actual, C39_slope_refuted). |
| C40 | Spectral flux, variation, decrease and irregularity are the documented functionals | `FeatProps` | features; closed form of the value returned, compared with the documented formula | partial: VIOLATED by the code: flux normalises the second spectrum by the wrong memory range, variation uses the wrong numerator, decrease divides by zero on every input, irregularity compares a sample with itself plus one. Exact behaviour proved in the _actual theorems. |
| C41 | Centroid and spread describe the distribution's mean and standard deviation | `FeatProps` | features; closed form of the value returned, compared with the documented formula | proved: Exact arithmetic. |
| C42 | String split and join are inverse | `StringProps` | strings as lists of signed characters; induction | proved: For items without NUL characters: join goes through c_str() and truncates at the first NUL (C42_join_nul_refuted). |
| C43 | trim removes exactly the surrounding white space | `StringProps` | strings as lists of signed characters; induction | partial: VIOLATED by the code for chars below -1 (bytes 128..254 where char is signed): isspace on them is undefined (C43_trim_high_refuted). Proved for every string of other characters. |
| C44 | Decibel and angle conversions are inverse of each other | `ConvProps` | converters and auditory scales; ln/exp algebra, monotonicity | proved: Exact reals. |
| C45 | Mel, ERB and Bark conversions are strictly increasing bijections | `ConvProps` | converters and auditory scales; ln/exp algebra, monotonicity | proved: Exact reals. |
| C46 | Cent conversion is invertible | `ConvProps` | converters and auditory scales; ln/exp algebra, monotonicity | partial: VIOLATED by the code below the reference 440*2^(-4.75) Hz: the result is negative (C46_cent_refuted, C46_cent_actual). Proved above it. |
| C47 | Oscillators stay within their amplitude and are periodic | `OscProps` | oscillators as state machines; closed form of the n-th sample, histories of setters | partial: VIOLATED by the code for the square wave: every sample is the negation of the ideal wave (C47_square_actual, C47_square_refuted); and for the sawtooth at negative timestamps, out of range (C47_sawtooth_negative_time_refuted). Sine, sawtooth and triangle from time zero proved. |
| C48 | Changing an oscillator's frequency changes its period and keeps its duty cycle | `OscProps` | oscillators as state machines; closed form of the n-th sample, histories of setters | partial: VIOLATED by the code: inverse_frequency_ is never refreshed (C48_set_frequency_refuted); C48_frequency_actual gives the exact behaviour after every history. Sine and sawtooth follow the new frequency. |
| C49 | ADSR envelope stays in range and follows its state machine | `ExpProps` | envelopes and noise filters; invariants over histories of calls | partial: Range, idle behaviour and release (levels max(0,v-kr), idle exactly at 0, finite when a release rate or time is positive) proved. VIOLATED by the code when set_release_time is called during the release with a zero sustain level: the release rate becomes 0 and the envelope never ends (C49_release_time_stuck_refuted). |
| C50 | Attack/release envelope follower smooths its input | `ExpProps` | envelopes and noise filters; invariants over histories of calls | partial: VIOLATED by the code: the gains are only computed when they are already positive, so the follower returns its input for ever (C50_ar_actual, C50_smoothing_refuted). |
| C51 | DFT and inverse DFT are mutually inverse | `PffftProps`, `SpectralProps` | FFTW and PFFFT back ends as exact DFTs with a plan cache; roots-of-unity orthogonality, Lee DCT by induction on the exponent | proved: Both back ends, exact arithmetic, the FFTW and PFFFT libraries specified by their documented formulas; lengths below 2^31 (PFFFT: the sizes it supports). Odd lengths: characterised. On PFFFT the real spectrum is packed (C51_pffft_dft_actual), the round trip still holds |
| C52 | conv computes the first N samples of the linear convolution | `PffftProps`, `SpectralProps` | FFTW and PFFFT back ends as exact DFTs with a plan cache; roots-of-unity orthogonality, Lee DCT by induction on the exponent | partial: Proved for FFTW, exact arithmetic; VIOLATED by the code on PFFFT: packed spectra are multiplied as if unpacked (C52_pffft_actual, C52_pffft_refuted) |
| C53 | xcorr computes the cross-correlation with the selected normalisation | `SpectralProps` | FFTW and PFFFT back ends as exact DFTs with a plan cache; roots-of-unity orthogonality, Lee DCT by induction on the exponent | partial: Unnormalised form proved; VIOLATED by the code: Biased divides by 2N, Unbiased does not scale |
| C54 | hilbert returns an analytic signal whose real part is the input | `PffftProps`, `SpectralProps` | FFTW and PFFFT back ends as exact DFTs with a plan cache; roots-of-unity orthogonality, Lee DCT by induction on the exponent | proved: Both back ends, exact arithmetic |
| C55 | DCT followed by inverse DCT is the identity | `PffftProps`, `SpectralProps` | FFTW and PFFFT back ends as exact DFTs with a plan cache; roots-of-unity orthogonality, Lee DCT by induction on the exponent | partial: Round trip proved for every length on FFTW and every power of two on PFFFT (Lee's algorithm proved by induction); VIOLATED by the code: the output is twice the documented DCT-II, and PFFFT accepts other lengths, e.g. 96, and transforms them wrongly |
| C56 | A transform engine performs the transform that is asked for | `PffftProps`, `SpectralProps` | FFTW and PFFFT back ends as exact DFTs with a plan cache; roots-of-unity orthogonality, Lee DCT by induction on the exponent | partial: Proved for engines used for one kind of transform; VIOLATED by the code otherwise on both back ends: the first call fixes the transform (C56_actual, C56_refuted, C56_pffft_actual, C56_pffft_overrun) |
| C57 | decoder.read returns the next samples of the file, in order, without gaps | `IOProps` | decoder/encoder/resampler over library contracts; induction over blocks and over histories of handles | partial: Proved for whole-frame requests and block sizes; VIOLATED by the code: block sizes that are not a multiple of the channel count read nothing; the audiofile decoder overflows its buffer or drops samples on multichannel files |
| C58 | File handles are closed exactly once and is_open tracks them | `IOProps` | decoder/encoder/resampler over library contracts; induction over blocks and over histories of handles | partial: Proved for the audiofile decoder; VIOLATED by the code for libsndfile: close() keeps the handle, so an explicit close is always followed by a double close and is_open() stays true |
| C59 | mu-law compression is undone by its inverse | `ExpProps` | mu-law formulas; ln/exp algebra | partial: VIOLATED by the code: the inverse divides by ln(1+mu) instead of mu (C59_inverse_actual, C59_round_trip_refuted). The compressor is proved. The lambdas miss a capture, so the templates do not compile; the model is of their formulas. |
| C60 | Noise generators stay in their documented range | `ExpProps` | envelopes and noise filters; invariants over histories of calls | proved: In exact arithmetic, for floating and integer value types, without the range limit of the integer type (rounding and overflow of int are C148); with an integer type brown noise is identically 0 for white noise below 50 (C60_brown_integral_silent). The Perlin generator cannot be instantiated and is not modelled. |
| C61 | Biquad coefficient setters take effect | `BiquadProps` | biquad setters and pole/zero constructor; polynomial algebra | partial: VIOLATED by the code for set_a0: the stored a0 is never read by the filter. The other five setters are proved. |
| C62 | A biquad built from pole/zero pairs has exactly those poles and zeros | `BiquadProps` | biquad setters and pole/zero constructor; polynomial algebra | proved |
| C63 | Butterworth magnitude response is maximally flat at every order | `ButterProps` | analog Butterworth prototype as layout, bilinear maps, cascade assembly; |H| as a product over the poles (roots of unity), for every order | proved: For odd orders the statement is about builds without assertions (see C18). |
| C64 | Butterworth shelves reach the requested gain | `ButterProps` | analog Butterworth prototype as layout, bilinear maps, cascade assembly; |H| as a product over the poles (roots of unity), for every order | partial: VIOLATED under the C++ standard: std::polar is called with a negative magnitude for every order >= 2 (C64_butterworth_shelf_polar_refuted). Proved for implementations that compute rho*(cos,sin) without checking. |
| C65 | derivative takes first differences and is undone by running sums | `AlgProps` | range algorithms over one memory with offsets (aliasing included); induction | proved: derivative has an extra template parameter that cannot be deduced; the model is of its body. |
| C66 | Power means and the L2 norm | `StatProps` | statistics; sums over lists, AM-GM, Cauchy-Schwarz | partial: VIOLATED by the code for order 0 (returns 1 instead of the geometric mean) ; also odd orders above one have no finite value on negative data. Everything else proved. |
| C67 | Crest, entropy and roll-off lie in their ranges | `FeatProps` | features; closed form of the value returned, compared with the documented formula | proved |
| C68 | Durations, level, silence and loudness follow energy | `FeatProps` | features; closed form of the value returned, compared with the documented formula | proved |
| C69 | snr is the variance ratio of signal and noise in dB | `FeatProps` | features; closed form of the value returned, compared with the documented formula | partial: VIOLATED by the code: the reference variance is taken over [first1, first2). Correct only when the second signal directly follows the first in memory (C69_snr_adjacent_partial); undefined when it lies before (C69_snr_refuted). |
| C70 | peak2peak and peak2rms are peak measures | `FeatProps` | features; closed form of the value returned, compared with the documented formula | partial: VIOLATED by the code: peak2peak subtracts magnitudes (correct iff no sample is negative or the signal is constant), peak2rms uses the wrong rms of C36. |
| C71 | Scalar helpers and floating-point classification | `NumProps` | 32/64-bit integer functions and IEEE classification; bit lemmas, divisibility | proved |
| C72 | Case conversion changes letters only | `StringProps` | strings as lists of signed characters; induction | partial: VIOLATED by the code for chars below -1: tolower/toupper on them is undefined (C72_case_high_refuted). Proved for every other string. |
| C73 | Auditory spaces are uniform on their scale | `ConvProps` | converters and auditory scales; ln/exp algebra, monotonicity | partial: VIOLATED by the code: the values are equally spaced in Hz and then converted (C73_spacing_refuted, C73_barkspace_refuted); C73_space_values gives the exact values. |
| C74 | Real/complex conversions are inverse | `ConvProps` | converters and auditory scales; ln/exp algebra, monotonicity | proved |
| C75 | Every ADSR note follows the configured contour | `ExpProps` | envelopes and noise filters; invariants over histories of calls | partial: First note proved (C75_attack_reaches_target, C75_decay). VIOLATED by the code for later notes: key_off and the end of the attack overwrite the attack target (C75_attack_target_refuted). |
| C76 | ADSR parameters read back as they were set | `ExpProps` | envelopes and noise filters; invariants over histories of calls | partial: Times proved. VIOLATED by the code for release_rate(), which returns the release time (C76_release_rate_refuted). |
| C77 | Seeking then reading starts at the requested frame | `IOProps` | decoder/encoder/resampler over library contracts; induction over blocks and over histories of handles | proved: libsndfile decoder; request in whole frames |
| C78 | Written blocks read back unchanged | `IOProps` | decoder/encoder/resampler over library contracts; induction over blocks and over histories of handles | partial: Proved for non-empty whole-frame blocks; VIOLATED by the code otherwise: partial frames are dropped, empty ranges dereferenced |
| C79 | Python I/O wrappers never write outside their arrays | `IOProps` | decoder/encoder/resampler over library contracts; induction over blocks and over histories of handles | partial: Resampler output bound, mono copy and decoder shape proved; VIOLATED by the code: the final copy of the resampler overflows for two or more channels |
| C80 | The spectrum is the squared magnitude of the Fourier transform and carries the energy | `PffftProps`, `SpectralProps` | FFTW and PFFFT back ends as exact DFTs with a plan cache; roots-of-unity orthogonality, Lee DCT by induction on the exponent | partial: Proved for FFTW, exact arithmetic; VIOLATED by the code on PFFFT: the first value is wrong and the last one missing |
| C81 | The Hartley transform follows its definition and inverts itself | `PffftProps`, `SpectralProps` | FFTW and PFFFT back ends as exact DFTs with a plan cache; roots-of-unity orthogonality, Lee DCT by induction on the exponent | partial: Proved for FFTW, exact arithmetic; VIOLATED by the code on PFFFT: the first sample is ignored |
| C82 | The cepstrum is the inverse transform of the log magnitude | `SpectralProps` | FFTW and PFFFT back ends as exact DFTs with a plan cache; roots-of-unity orthogonality, Lee DCT by induction on the exponent | partial: Value and finiteness characterised; VIOLATED by the code: neither of the documented squares is taken and the signal is zero-padded |
| C83 | Chebyshev type I filters are equiripple in the passband | `ChebyProps` | Chebyshev prototypes; |H|^2 through Chebyshev polynomials in trigonometric/hyperbolic form, for every order | partial: Proved in exact arithmetic for every order without assertions and every even order with them; VIOLATED by the code for odd orders when assertions are compiled in: the zero at infinity fails the realness check |
| C84 | Chebyshev type II filters never exceed the stopband attenuation | `ChebyProps` | Chebyshev prototypes; |H|^2 through Chebyshev polynomials in trigonometric/hyperbolic form, for every order | partial: Proved in exact arithmetic for every order without assertions and every even order with them; VIOLATED by the code for odd orders when assertions are compiled in |
| C85 | Chebyshev shelves reach the requested gain to within the ripple | `ChebyProps` | Chebyshev prototypes; |H|^2 through Chebyshev polynomials in trigonometric/hyperbolic form, for every order | partial: Proved for 0 < ripple < \|gain\|, exact arithmetic, both types (they compute the same filter); VIOLATED by the code: 0 dB gives no finite filter, and a cut with ripple >= \|gain\| misses the gain at DC for odd orders, while a boost with ripple >= gain follows another law, proved for every order (C85_chebyshev_boost_actual): at most 1 dB asked for amplifies DC by more than 19 dB (40 dB for odd orders), and odd orders have a cutoff with no finite filter. The same laws are proved for the high shelf |
| C86 | Band-pass filters pass the requested band at unit gain | `BandProps` | band transforms of every prototype; quadratic root pairs, frequency map onto the prototype | partial: Proved in exact arithmetic: shape, edges, stability and zeros for all three families. VIOLATED by the code: the reference frequency is sqrt(T1+T2) instead of sqrt(T1*T2), so the passband gain is not 1 (refuted for every order around a quarter of the sample rate and whenever T1+T2 <> T1*T2); odd orders fail an assertion when assertions are compiled in, and a type II design whose reference lands exactly on a transmission zero divides by zero (C86_chebyshev2_bandpass_zero_refuted) |
| C87 | Band-stop filters reject the requested band and nothing else | `BandProps` | band transforms of every prototype; quadratic root pairs, frequency map onto the prototype | partial: Proved in exact arithmetic: the exact magnitude law, stability, the ends and the null for all three families. VIOLATED by the code: the band-stop transform uses cot instead of tan of half the bandwidth, so the requested edges are not at half power unless the band is exactly a quarter of the sample rate wide; odd orders fail an assertion when assertions are compiled in |
| C88 | Band-shelf filters apply the requested gain inside the band only | `BandProps` | band transforms of every prototype; quadratic root pairs, frequency map onto the prototype | partial: Proved in exact arithmetic for assertions off (Butterworth) and for assertions off or even orders (Chebyshev), with 0 < ripple < \|gain\|; a Chebyshev cut no deeper than its ripple is covered too (C88_chebyshev_bandshelf_clamped_actual), the corresponding boost is not. VIOLATED by the code: with the precondition of std::polar enforced every Butterworth shelf of order 2 or more fails, and a 0 dB Chebyshev shelf has no finite design; with assertions on, the first-order Butterworth band-shelf is proved equal to the one without, except at the bandwidths where its pole or zero pair contains 0, which fail an assertion |
| C89 | Ring buffers are independent values that can be handed over by move | `MoveProps` | objects in an explicit heap with moves and destruction; simulation by independent bounded queues | proved: all programs of construction, move, assignment, destruction and calls over any number of buffers |
| C90 | A moved-from ring buffer cannot disturb the new owner | `MoveProps` | objects in an explicit heap with moves and destruction; simulation by independent bounded queues | partial: VIOLATED by the code: the moved-from object keeps a span over the storage it gave away, so pushing into it overwrites the new owner's oldest element (refuted) |
| C91 | Fixed ring buffers are independent values that can be handed over by move | `MoveProps` | objects in an explicit heap with moves and destruction; simulation by independent bounded queues | partial: Proved for programs without moves and characterised for all programs. VIOLATED by the code: a moved fixed ring buffer keeps pointing into its source's array, so it reads a destroyed object once the source dies (refuted) |
| C92 | Environment access behaves like a map from names to values | `CoreProps` | environment as a list of strings; simulation by a finite map over histories | partial: Proved for histories without empty values, characterised for all. VIOLATED by the code: a variable with an empty value is reported as not found; a name with '=' gives unknown instead of invalid_argument; view lengths are ignored; a null view is undefined behaviour |
| C93 | The C and Python environment functions report missing variables | `CoreProps` | environment as a list of strings; simulation by a finite map over histories | partial: Proved for the C function and for existing variables in Python. VIOLATED by the code: reading a missing variable from Python builds a string from a null pointer |
| C94 | Build and platform information is truthful | `CoreProps` | preprocessor configuration as a record; case analysis over all configurations | partial: Proved for the fields listed. VIOLATED by the code: the major version is the minor one, every transform library is reported as FFTW, the C build date is the build time, and Windows, ARM and MSVC are reported as unknown |
| C95 | The logger honours its default level and file | `CoreProps` | logger as a state machine over settings and items; decimal printing characterised | partial: VIOLATED by the code: level and file settings are stored and never consulted; every message goes to the terminal in full (characterised for all histories) |
| C96 | The logger writes what was streamed | `CoreProps` | logger as a state machine over settings and items; decimal printing characterised | partial: Proved for wide integers, C strings, whole views and colours; characterised for all items; floating-point insertion is not modelled. VIOLATED by the code: tab and endl insert the numbers 9 and 10, 8-bit integers insert a character, view lengths are ignored |
| C97 | A Python function of an array computes on the elements of that array | `BindProps` | numpy arrays as strided views of memory, wrappers on top of the models above; composition with the C++ theorems | partial: Proved for contiguous arrays of doubles and for refusing other ranks; characterised for all strides. VIOLATED by the code: strides are ignored, so x[::2] uses the wrong elements and x[::-1] reads past the end, and other element types are reinterpreted |
| C98 | Statistics through the C interface are those of the library | `BindProps` | numpy arrays as strided views of memory, wrappers on top of the models above; composition with the C++ theorems | partial: Proved for peak and orders 1 to 8. VIOLATED by the code: peak_abs returns the plain peak, and moments of other orders are 0 |
| C99 | Python searches return the first index or -1 | `BindProps` | numpy arrays as strided views of memory, wrappers on top of the models above; composition with the C++ theorems | partial: Proved for contiguous arrays of doubles; characterised for all strides, types and ranks. VIOLATED by the code: the view a[::2] is searched in the wrong elements (C99_strided_refuted), and other element types are undefined |
| C100 | Python functions of two arrays compute on both or refuse | `BindProps` | numpy arrays as strided views of memory, wrappers on top of the models above; composition with the C++ theorems | partial: Proved for contiguous arrays of one length and for equal. VIOLATED by the code: a shorter second array is read past its end, a longer one is cut, the features accept a matrix as one argument, and flux of two separate arrays is undefined |
| C101 | Python converts between real and complex arrays without loss | `BindProps` | numpy arrays as strided views of memory, wrappers on top of the models above; composition with the C++ theorems | partial: Proved for splitting and joining. VIOLATED by the code: real2complex never reads its argument and returns whatever the memory held, followed by zeros |
| C102 | Python Fourier transforms invert each other | `BindProps` | numpy arrays as strided views of memory, wrappers on top of the models above; composition with the C++ theorems | partial: Proved for fft/ifft and for rfft/irfft of even length. VIOLATED by the code: an odd number of samples comes back one short, a single one is undefined |
| C103 | Python concatenate and pad | `BindProps` | numpy arrays as strided views of memory, wrappers on top of the models above; composition with the C++ theorems | partial: Proved for concatenate and for growing sizes. VIOLATED by the code: padding to fewer elements than given is undefined instead of raising |
| C104 | Producing or filtering in pieces equals doing it at once | `BindProps` | numpy arrays as strided views of memory, wrappers on top of the models above; composition with the C++ theorems | partial: Proved for oscillators, for filters over contiguous arrays and for windows below 2^31 elements. VIOLATED by the code: larger windows wrap their size |
| C105 | Evaluated frequency response | `ExtraProps` | coefficient loops against polynomials on the unit circle; induction over the points | proved: Over exact reals; a pole on the grid, missing room or coefficients, and a negative K are characterised as failures |
| C106 | Continuous equivalent level | `ExtraProps` | composition of the level and moving-average models; concavity of the logarithm | partial: VIOLATED by the code: the mean of the levels is returned, not the level of the mean power, and missing frames count as 0 dB. Proved: what is returned, that it never exceeds the equivalent level of a full window, and that it equals it for frames of equal power |
| C107 | Distances are distances | `ExtraProps` | case analysis over the distance kinds | partial: VIOLATED by the code: manhattan is the signed difference, euclidean the squared one (no triangle inequality), logarithmic the signed log ratio of magnitudes. Proved: the exact value of each; euclidean is non-negative, symmetric and zero exactly on equal arguments |
| C108 | Factories build what their argument names | `ExtraProps` | dispatch over the types onto the window and oscillator theorems | partial: Proved for all windows as computed and for all oscillators; VIOLATED by the code for the square wave, which is inverted, and for the even-sized Welch window, which is off centre (C31, C47) |
| C109 | Objects owning a handle can be copied and assigned | `ExtraProps` | programs over objects holding handles; invariants over all programs | partial: VIOLATED by the code: a copy of an open object makes every completing program release a handle twice, an assignment leaks. Proved: copy-free programs over audiofile decoders release every handle exactly once and fail only by misuse |
| C110 | Histogram | `ExtraProps` | the stub against a specification of histograms | partial: VIOLATED by the code: compute() writes nothing |
| C111 | Mathematical constants have their documented values | `ConstProps` | literals as rationals; verified fixed-point interval arithmetic for pi, exp, ln, roots, sin and cos; limits (Euler, Apery, Catalan, Glaisher, Khinchin) enclosed by telescoping corrections whose polynomial inequalities are checked | proved: All constants, those defined by limits included; every name is also shown to mean exactly one number. The rounding to a type is C130 |
| C112 | Spectral flatness is a measure between zero and one | `FlatProps` | composition of the mean models; strict concavity of the logarithm | proved: Over exact reals; samples that are not positive and the empty range have no finite value |
| C113 | The median is the middle sample | `FlatProps` | the stub against a specification by sorting | partial: VIOLATED by the code: the function is a stub returning zero |
| C114 | Oscillator settings take effect at the next sample and reset restarts the wave | `OscProps` | induction over histories of calls against the values last set | partial: Proved for the sine and sawtooth (hence triangular) oscillators; VIOLATED by the code for the square wave, whose period stays that of the constructor (C48) and which is inverted (C47): the value it has instead is proved |
| C115 | Floating-point sums and means are close to the exact ones | `FloatProps` | IEEE arithmetic (Flocq), induction over the range with the relative error of one addition | partial: Error and overflow bounds proved. VIOLATED by the code: in doubles the mean of 0.1, 0.1, 0.1 exceeds 0.1, and the mean of two large numbers is infinite |
| C116 | Clipping keeps every number between the bounds in floating point | `FloatOrderProps` | IEEE comparison and division with infinities and NaN; monotonicity of rounding | proved: All IEEE binary formats, round to nearest even, operations not contracted |
| C117 | Extrema in the presence of NaN and infinities | `FloatOrderProps` | IEEE comparison and division with infinities and NaN; monotonicity of rounding | proved: All IEEE binary formats; the empty range is undefined behaviour |
| C118 | Normalisation in floating point reaches exactly full scale | `FloatOrderProps` | IEEE comparison and division with infinities and NaN; monotonicity of rounding | proved: All IEEE binary formats, round to nearest even |
| C119 | Energies, levels and dispersions of finite samples are never NaN or negative | `FloatEnergyProps` | IEEE arithmetic; induction over the range, sign analysis with infinities | partial: Signs, absence of NaN and error bounds proved. VIOLATED by the code: squares underflow and overflow, so rssq of a tiny sample is 0 and of a large one infinite, and the rounded mean gives equal samples a positive variance |
| C120 | An oscillator keeps running for as long as it is asked for samples | `FloatClockProps` | IEEE arithmetic; strictly increasing sequences of format numbers are bounded in length; invariants of the float clock | partial: VIOLATED by the code: the time is accumulated, so in every format it reaches a value that no further sample changes and the output is constant from then on; in float at 44100 Hz this happens at 512 s, after a stretch in which tones are 34 percent sharp. The error before that is bounded |
| C121 | linspace in floating point | `FloatSpaceProps` | IEEE arithmetic; induction over the steps; Sterbenz lemma | partial: Size, first value and error bounds proved. VIOLATED by the code: the last of 11 values from 0 to 1 is not 1, and the last of 10 exceeds 1 |
| C122 | Differences in floating point | `FloatSpaceProps` | IEEE arithmetic; induction over the steps; Sterbenz lemma | partial: Per-difference claims proved; VIOLATED: the running sum of the differences need not return the samples |
| C123 | Stable sections stay bounded and close to the ideal filter in floating point | `FloatFilterProps` | IEEE arithmetic; the rounded run as an exact run with bounded perturbations, poles as two geometric series; fixed point of the zero-input step | partial: Boundedness and closeness proved for every section with poles inside the unit circle, up to rounding (the bound degrades as the poles approach the circle); silence proved. VIOLATED by the code (as by any direct rounding): a stable section with a pole at 0.9 never falls silent in doubles after one sample |
| C124 | Cascades stay bounded and close to the ideal filter in floating point | `FloatCascadeProps` | induction over the sections with the bound of C123 and linearity of the exact sections | proved: All IEEE binary formats, round to nearest even; sections at rest; exact cascade as in C14 |
| C125 | Moving averages drift at most linearly, and not at all on PCM samples | `FloatMovingProps` | IEEE arithmetic over the ring-buffer model; induction over the samples; exact sums on a grid | proved: All IEEE binary formats, round to nearest even. C05 and C06 show that drift and NaN do occur for other samples |
| C126 | Environment access from several threads | `ThreadProps` | threads as interleaved steps on shared memory; invariants over all schedules, a measure for termination | partial: Atomicity, program order, absence of deadlock, termination and agreement proved for all schedules. VIOLATED by the code: a view into the environment is handed out after the lock is released, so a thread that overwrites the variable invalidates it (proved valid if no thread overwrites it). Testing and then setting is not atomic |
| C127 | Logging from several threads | `ThreadLibProps` | threads as interleaved steps on shared memory; invariants over all schedules, a measure for termination | partial: Completeness and order per thread proved; absence of races proved if settings are left alone. VIOLATED by the code: the characters of two messages interleave, and setting the name while another thread logs is a data race |
| C128 | Transforms from several threads | `ThreadLibProps` | threads as interleaved steps on shared memory; invariants over all schedules, a measure for termination | partial: Results proved correct unless two threads meet in the planner, which cannot happen with plans made beforehand or with one transforming thread. VIOLATED by the code: the FFTW planner is called without a lock, so any two threads starting with a transform can race |
| C129 | Envelope in floating point | `FloatEnvProps` | IEEE arithmetic; invariant of all histories, progress of each segment by the relative error of one addition | partial: Range, sign and absence of NaN proved for every history; end of attack, decay and release proved, with a bound on the samples, for rates above half a unit in the last place of the level. VIOLATED by the code: a smaller positive rate is absorbed by rounding and the segment never ends (refuted in float) |
| C130 | Mathematical constants as values of a type | `ConstFloatProps` | literal rounded to double and again to the type; relative error of rounding to nearest, inclusion of formats | partial: Proved for every format up to double, and that wider types hold exactly the double. VIOLATED by the code: the literals have type double, so the constants of a 64-bit extended type are off by hundreds of its roundings (refuted for pi) |
| C131 | Sawtooth, triangular and square oscillators in floating point | `FloatWaveProps` | IEEE operations in T and in the wider type of fmod; exactness of fmod, monotonicity of rounding for the range, error analysis against the ideal waveform, invariant over histories | proved: Range, accuracy, levels, switching and settings, for all histories and formats (fmod with the integer 1 computed in a format at least as wide as T, as in double or long double). The sine is a libm function and is covered over the reals only (C47) |
| C132 | Bartlett, triangular and Welch windows in floating point | `FloatWindowProps` | IEEE operations in loop order; error analysis of the quotient and the product, exactness of the integers involved, monotonicity of rounding for the range | partial: Range, accuracy and the stated symmetries proved for all sizes and formats. VIOLATED by the code: the Bartlett window of 4 points in double is not symmetric and that of 50 points does not end in zero (C132_bartlett_symmetric_refuted, C132_bartlett_end_refuted); a single point gives NaN (C132_single_actual) |
| C133 | Rounding functions, scalar helpers and angle conversions in floating point | `FloatNumProps` | Bnearbyint of Flocq for the cmath rounding functions; rounding error lemmas; the stored pi of C130 | partial: All statements proved for all arguments and formats except: VIOLATED by the code: fract(-2^-60) is 1 (C133_fract_below_one_refuted), deg2rad overflows for large finite angles because it multiplies first (C133_deg2rad_finite_refuted). The conversions are proved with the stored value of pi, for formats of 8 to 53 bits |
| C134 | Stability test and cookbook designs in floating point | `FloatDesignProps` | IEEE operations with the library sine and cosine as arguments; monotonicity of rounding for the soundness of the test, error analysis against the stability triangle of C12 | partial: Soundness of the test proved for all inputs; stability and accuracy of the pass designs proved when the cosine keeps a distance of a few roundings from 1 and the bandwidth term is above a few roundings, for any sine and cosine returned; pole pairs likewise. VIOLATED by the code: the test rejects some stable sections (C134_stability_complete_refuted), poles just inside the circle give a denominator with a root on it (C134_poles_stable_refuted), and below a cut-off of about 1.7 Hz at 44100 Hz in float the cosine rounds to 1 and the low-pass filter outputs only zeros (C134_lowpass_silent_actual, C134_lowpass_passes_refuted). The shelves are not modelled in floating point |
| C135 | Python string and auditory functions | `PyTextProps` | UTF-8 encoder and strict decoder with the round trip; ASCII bytes occur only as ASCII characters, so the byte-level results of C42, C43, C72 and C73 lift to code points | partial: Split, the spaces of valid sizes and join of texts without NUL proved in full; exact conditions given for the rest. VIOLATED by the code: a text whose first or last character that is not a space is not ASCII makes trim undefined (C135_trim_refuted), any character that is not ASCII makes the case conversions undefined (C135_case_refuted), join drops everything after a NUL (C135_join_refuted), a delimiter that is not ASCII cuts characters in two (C135_split_high_refuted), and a size NumPy refuses ends the process instead of raising (C135_space_refused_refuted) |
| C136 | Approximate equality of floating-point numbers | `FloatEqualProps` | IEEE subtraction after conversion to float; exact threshold of the rounded difference, ties included | partial: Characterised exactly for all values of every type (C136_equal_actual): symmetric; reflexive up to 2^127; exact on floats from 1 on. VIOLATED by the code: all numbers are compared as floats with an absolute tolerance, so doubles that differ by 1 are equal and doubles from 2^128 on differ from themselves, as infinities do (C136_double_refuted, C136_reflexive_refuted); below 2^-25 all numbers are equal (C136_small_refuted); not transitive (C136_transitive_refuted) |
| C137 | Audio metadata | `MetaProps` | TagLib as an arbitrary partial map from names to tags; induction on texts | partial: Proved for readable files with Latin-1 texts, TagLib being represented by its documentation. VIOLATED by the code: of an unreadable file every accessor dereferences a null pointer (C137_unreadable_refuted), other texts come back as other characters (C137_wide_refuted), and a name is cut at its first NUL (C137_name_refuted) |
| C138 | Temporal features and norm as computed | `FloatFeatProps` | saturation of a counter in IEEE addition by induction; monotone sums of nonnegative numbers; exact counts | partial: Zero-crossing rate exact and correctly rounded up to 2^precision neighbours (C138_azcr_partial), and characterised beyond (C138_azcr_actual); durations, crest, roll-off and norm characterised. VIOLATED by the code: float stops counting at 2^24 sign changes, so a signal that alternates 2^25 times has rate 1/2 (C138_azcr_long_refuted); a single sample gives NaN and an empty range is undefined (C138_azcr_short); an overflowing energy gives a negative roll-off (C138_rolloff_overflow_refuted) and overflowing magnitudes a crest of 0 (C138_crest_overflow_refuted) |
| C139 | Centroid and harmonic mean as computed | `FloatCentroidProps` | products with integers are multiples of the smallest number, so all roundings are relative; induction over sums of nonnegative numbers | partial: Relative error bounds proved for both. VIOLATED by the code: the centroid can lie beyond the last position (C139_centroid_range_refuted); the harmonic mean of the single number 49 is above 49 (C139_harmonic_bound_refuted) and of a subnormal number is 0 (C139_harmonic_zero_refuted) |
| C140 | Cosine windows as computed | `FloatCosineProps` | angles have relative errors only (integer multiples and a normal quotient); one lemma per term and per addition; literals are rounded twice | partial: Error bound for all six windows and every length from 2 to 2^precision (C140_accuracy); Hann range and start, Hamming range. VIOLATED by the code: the first Blackman sample is negative for every length, -2^-26 in float and -2^-56 in double (C140_blackman_nonnegative_refuted, C140_blackman_first_actual); a window of one sample is NaN (C140_single_sample_actual) |
| C141 | Difference functions, peaks, moments and decrease as computed | `FloatDiffProps` | both functions are sums of a list of computed differences, so the error theorems of sums and energies apply; the scan for the peak keeps the index of its best element; powers by induction on the number of factors | partial: Error bounds, zeros at repetition lags, PCM exactness, peaks and even moments proved. VIOLATED by the code: a zero of either function does not imply a repetition (C141_zero_refuted); odd moments of finite samples can be NaN (C141_odd_moment_refuted); the peak-to-peak value of a wave from -1 to 1 is 0 (C141_peak2peak_refuted, characterised by C141_peak2peak); the decrease is NaN for every range (C141_decrease_actual); a NaN first sample hides the peak (C141_peak) |
| C142 | Decibel conversions and the equivalent level as computed | `FloatDecibelProps` | the product by 10 or 20 rounds relatively even on subnormal operands; the rounding of the exponent is amplified by at most a factor of two; errors compose multiplicatively | partial: Conversions, both round trips and the level of a frame proved, for library functions of any relative error up to four units (C142_ex: correctly rounded ones exist). VIOLATED by the code: a quiet frame that is not silent has a mean square that underflows, and the contract of the conversion fails (C142_leq_refuted) |
| C143 | Auditory scales as computed | `FloatErbProps`, `FloatScaleProps` | every rounded operation keeps the order of its operands with the infinities as top and bottom; errors are counted in units of the format and compose; the Bark ramp and its inverse are Lipschitz, so misjudged breakpoints cost nothing | partial: Order and accuracy proved as stated. VIOLATED by the code: the Bark scale does not keep the order of all doubles, because its quotient and its two corrections round independently (C143_bark_order_refuted); what holds instead is C143_bark and C143_bark_order_actual |
| C144 | Geometric mean, flatness, entropy, spread, kurtosis, loudness and silence as computed | `FloatShapeProps` | rounded sums of terms with a relative error, composed with the library functions; range hypotheses keep every intermediate result normal; AM-GM, Cauchy-Schwarz and the parallel-axis identity on the exact side | partial: Proved as stated. VIOLATED by the code: the entropy of a distribution with an empty bin is NaN (C144_entropy_refuted, C144_entropy_zero_actual) and that of a single bin is never finite (C144_entropy_single_actual); the kurtosis of a quiet frame that is not constant is NaN, because the squared variance underflows (C144_kurtosis_refuted) |
| C145 | Skewness and logarithmic spacing as computed | `FloatSkewProps` | each cube of a deviation has five roundings and the sum one per sample, measured against the cubed distances; the even moment, its root and their product are bounded by powers of one plus and minus a unit; the exponents of the spacing are those of linspace, carried through the power of ten | partial: Accuracy proved as stated (C145_skewness, C145_logspace). VIOLATED by the code: a quiet frame that is not constant has skewness NaN, because the powers of its deviations underflow (C145_skewness_refuted); what holds instead is C145_skewness, on deviations within range |
| C146 | Spectral slope and variation as computed | `FloatSlopeProps` | every value is carried with a count of roundings, each in the numerator or in the denominator, and with the powers of two that bound it; products, quotients, roots and sums add their counts | partial: VIOLATED by the code: a falling spectrum has a positive slope (C146_slope_refuted), disjoint spectra have variation 0 (C146_variation_refuted), and a shorter second range is read past its end (C146_short). What holds instead, with its accuracy: the slope is one over the sum of the frequencies, whatever the magnitudes (C146_slope_actual), and the variation is one minus the root of the ratio of the two sums (C146_variation_actual) |
| C147 | Envelope follower as computed | `FloatFollowerProps` | the invariant of every history is that both gains are zero: the mixture is then exactly the sample, and zero times an infinity is undefined | partial: VIOLATED by the code: whatever the times, the envelope reaches a sample at once and drops to zero with the next silent one (C147_smoothing_refuted), and after one infinite or undefined sample every later output is undefined (C147_recovery_refuted). What holds instead: for every history of settings and finite samples every output is finite and is the (rectified) sample itself, with zero in place of a subnormal one, and a reset restores this after any history (C147_follower_actual) |
| C148 | Brown and pink noise of integers as computed | `FloatNoiseProps` | every operation is bounded by its rounding error and every assignment by one unit of truncation; the poles of the filters contract the accumulated error, so that a fixed bound is an invariant | partial: VIOLATED by the code for wide ranges: over the whole range of int the output conversion of brown noise and the sum of the states of pink noise overflow, which is undefined (C148_brown_overflow_refuted, C148_pink_overflow_refuted), and for a range below 50 brown noise is silent (C148_brown_silent_refuted). Proved for white noise in [-M, M]: with 3.5 M in the range of int brown noise is defined, within 3.5 M and within 358 of the exact leaky integrator (C148_brown); with 70 M in the range of int pink noise is defined, within 7.61 M and within 121 of the exact filter bank (C148_pink) |
| C149 | Mean, energy, clipping and normalisation of int samples | `IntProps` | ints are modelled as integers with undefined behaviour outside 32 bits; induction over the range with the bound on the accumulated value as invariant | partial: VIOLATED by the code: two samples at full scale overflow the mean (C149_mean_overflow_refuted), three samples at the full scale of 16 bits overflow the energy (C149_energy_overflow_refuted), the clipping amplifier is undefined exactly when a product leaves int, whatever the interval (C149_amplifier_actual, C149_amplifier_range_actual), normalising ints into ints keeps the signs of the peaks only and zeroes every other sample (C149_normalize_refuted), and a silent range is divided by zero (C149_normalize_silence_refuted). Proved for samples of magnitude at most M: with N M in the range of int the mean is defined, truncated towards zero and between the samples (C149_mean); with N M^2 in the range of int the energy is exact (C149_energy) |

## 4. Trusted base

* Coq 8.16.1's kernel, and `coqc`'s reading of the files.
* The axioms of the standard library listed in section 5.
* The modeller's reading of the C++ source: that each Gallina definition is the
  cited code, up to the simplifications stated in its comment.
* The exact-real idealisation of floating point described in section 1, wherever
  a theorem speaks about `R`.
* Flocq 4.1.0, whose definitions of the IEEE binary formats and operations and whose
  proved lemmas the `Float*` files use. It brings no axioms of its own.
* For those files, that the compiler evaluates each operation as one IEEE operation
  of the type: no extended precision and no contraction into fused operations.
* The stated contracts of the external libraries.

No axiom, `Admitted`, functor, module type or plugin is used, and no kernel check
is switched off.

## 5. Assumptions of each theorem

Printed by `Print Assumptions` (each `*Props.v` file ends with these commands). All axioms are those of Coq's standard library (classical real numbers, functional extensionality, excluded middle); none is added here.


**No axioms (closed under the global context)** (143 theorems): `C01_back_of_empty`, `C01_filled_ring_refines_deque`, `C01_ring_fifo`, `C01_ring_keeps_last_n`, `C01_ring_refines_deque`, `C02_ring_size_laws`, `C03_ring_iteration`, `C04_ring_pushes_in_bounds`, `C04_ring_ub_iff_disallowed`, `C05_moving_average_double_refuted`, `C06_moving_rms_double_refuted`, `C21_binary_search`, `C22_contains`, `C22_index_of`, `C22_index_of_overflow_refuted`, `C22_linear_search`, `C24_concatenate`, `C26_is_power_two`, `C26_is_power_two_boundaries`, `C27_next_power_two`, `C27_next_power_two_outside`, `C28_is_prime_actual`, `C28_is_prime_negative`, `C28_is_prime_refuted`, `C28_is_prime_sound_partial`, `C29_parity`, `C29_parity_refuted`, `C42_join_nul_refuted`, `C42_join_split`, `C42_round_trip`, `C42_split`, `C42_split_items`, `C43_commute`, `C43_trim`, `C43_trim_exact`, `C43_trim_high_refuted`, `C57_audiofile_mono`, `C57_audiofile_overflow_refuted`, `C57_audiofile_skips_refuted`, `C57_block_refuted`, `C57_consecutive`, `C57_partial_frame_refuted`, `C57_snd_read`, `C58_audiofile`, `C58_sndfile_actual`, `C58_sndfile_is_open_refuted`, `C58_sndfile_refuted`, `C65_equal`, `C71_fpclassify`, `C71_sign`, `C72_case_ascii`, `C72_case_high_refuted`, `C74_complex_round_trip`, `C74_short_second`, `C74_split_join`, `C77_seek`, `C78_empty_refuted`, `C78_partial_frame_refuted`, `C78_round_trip`, `C78_write`, `C79_decoder_shape`, `C79_resampler_copy_mono`, `C79_resampler_copy_refuted`, `C79_resampler_output_fits`, `C80_pffft_empty`, `C89_move_hands_over_and_source_recovers`, `C89_ring_buffers_are_independent_values`, `C90_moved_from_object_interferes_refuted`, `C91_fixed_ring_buffers_actual`, `C91_fixed_ring_buffers_partial`, `C91_moved_fixed_ring_refuted`, `C92_empty_name`, `C92_empty_value_refuted`, `C92_environment_actual`, `C92_environment_partial`, `C92_invalid_name_refuted`, `C92_null_view_refuted`, `C92_view_length_ignored_refuted`, `C93_c_empty_name`, `C93_c_environment`, `C93_python_environment_partial`, `C93_python_missing_variable_refuted`, `C94_build_information_partial`, `C94_build_information_refuted`, `C94_platform_partial`, `C94_platform_refuted`, `C95_level_and_path_ignored_refuted`, `C95_log_output_actual`, `C96_insertion_actual`, `C96_insertion_partial`, `C96_insertion_refuted`, `C97_strided_actual`, `C103_concatenate_partial`, `C104_filter_partial`, `C104_generate`, `C104_negative`, `C104_window_partial`, `C104_window_wrap_refuted`, `C109_assign_refuted`, `C109_copy_destroy_ub`, `C109_copy_refuted`, `C109_no_copy_partial`, `C110_histogram_actual`, `C116_nan_bounds`, `C126_agreement`, `C126_atomic`, `C126_map`, `C126_order`, `C126_progress`, `C126_terminates`, `C126_test_and_set_refuted`, `C126_view_partial`, `C126_view_refuted`, `C127_complete`, `C127_mixed_refuted`, `C127_name_race_refuted`, `C127_settings_first`, `C127_undefined_message`, `C135_case_partial`, `C135_case_refuted`, `C135_join`, `C135_join_actual`, `C135_join_refuted`, `C135_ltrim_partial`, `C135_round_trip`, `C135_rtrim_partial`, `C135_split`, `C135_split_high_refuted`, `C135_surrogate`, `C135_trim_partial`, `C135_trim_refuted`, `C137_fields_partial`, `C137_name_refuted`, `C137_unreadable_refuted`, `C137_wide_refuted`, `C149_amplifier_actual`, `C149_amplifier_range_actual`, `C149_energy`, `C149_energy_overflow_refuted`, `C149_mean`, `C149_mean_overflow_refuted`, `C149_normalize_refuted`, `C149_normalize_silence_refuted`


**`ClassicalDedekindReals.sig_forall_dec`** (18 theorems): `C08_moving_median_is_always_zero`, `C10_biquad_causal`, `C11_biquad_chunking`, `C11_biquad_inplace`, `C14_cascade_clear`, `C14_cascade_is_composition`, `C14_cascade_overflow`, `C14_cascade_reset`, `C20_amplifier`, `C24_padder`, `C30_rectangular`, `C61_getters`, `C74_real_only`, `C101_real2complex_actual`, `C101_real2complex_refuted`, `C103_pad_partial`, `C103_pad_short_refuted`, `C113_median_actual`


**`ClassicalDedekindReals.sig_forall_dec` + `FunctionalExtensionality.functional_extensionality_dep`** (119 theorems): `C05_moving_average_is_window_mean`, `C07_moving_average_after_reset`, `C07_moving_average_after_resize`, `C07_moving_average_reset_refuted`, `C08_moving_median_refuted`, `C09_biquad_difference_equation`, `C09_default_biquad`, `C09_difference_equation_unique`, `C09_reset_biquad_difference_equation`, `C09_zero_a0_nonfinite`, `C10_biquad_convolution`, `C10_biquad_linear`, `C10_biquad_time_invariant`, `C11_biquad_reset`, `C14_cascade_order_irrelevant`, `C15_first_order_actual`, `C15_first_order_nonreal`, `C15_first_order_unit_zero_partial`, `C15_highpass_polarity_refuted`, `C19_clipped_amplifier_range`, `C19_clipper_idempotent`, `C19_clipper_monotone`, `C19_clipper_range`, `C20_ceil`, `C20_fix`, `C20_floor`, `C20_rectify`, `C20_round`, `C20_short_destination`, `C23_degenerate`, `C23_linspace`, `C25_normalize`, `C25_normalize_zero`, `C31_bartlett`, `C31_bartlett_tiny`, `C31_triangular`, `C31_triangular_ends`, `C31_welch_actual`, `C31_welch_refuted`, `C31_welch_tiny`, `C32_empty`, `C32_maxabs_minabs`, `C32_mean_affine`, `C32_min_mean_max`, `C33_moment_is_central`, `C35_peak`, `C35_peakabs`, `C37_azcr`, `C37_azcr_inversion_refuted`, `C37_azcr_negative_scale`, `C37_azcr_positive_scale`, `C38_amdf_asdf`, `C38_empty`, `C39_slope_actual`, `C39_slope_refuted`, `C40_decrease_refuted`, `C40_irregularity_actual`, `C40_irregularity_refuted`, `C45_bark`, `C45_bark_inverse`, `C47_sawtooth_negative_time_refuted`, `C47_sawtooth_periodic`, `C47_sawtooth_samples`, `C47_sawtooth_width`, `C47_square_actual`, `C47_square_range_periodic`, `C47_square_refuted`, `C47_triangular_samples`, `C48_frequency_actual`, `C48_set_frequency_refuted`, `C49_default_envelope`, `C49_idle`, `C49_range`, `C49_release`, `C49_release_ends`, `C49_release_time_stuck_refuted`, `C60_brown_integral_silent`, `C60_brown_range`, `C60_brown_response`, `C60_pink_range`, `C60_pink_response`, `C61_set_a0_refuted`, `C61_setters`, `C62_pole_zero_pairs`, `C65_derivative`, `C65_derivative_inverse`, `C67_crest`, `C67_rolloff`, `C68_durations`, `C70_peak2peak_actual`, `C70_peak2peak_refuted`, `C71_fract`, `C71_inv_half_square`, `C75_attack_reaches_target`, `C75_attack_target_refuted`, `C75_decay`, `C76_levels_actual`, `C76_release_rate_kept`, `C76_release_rate_refuted`, `C76_times`, `C97_elementwise_partial`, `C97_normalize_partial`, `C98_moment_partial`, `C98_moment_refuted`, `C98_peak`, `C98_peak_abs_actual`, `C98_peak_abs_refuted`, `C98_python_peaks_partial`, `C99_other_arrays`, `C99_search_partial`, `C99_strided_actual`, `C99_strided_refuted`, `C100_equal_partial`, `C110_histogram_refuted`, `C113_median_partial`, `C113_median_refuted`, `C114_sawtooth_history`, `C114_square_history_actual`, `C133_rectify`


**`ClassicalDedekindReals.sig_forall_dec` + `ClassicalDedekindReals.sig_not_dec` + `FunctionalExtensionality.functional_extensionality_dep`** (124 theorems): `C05_zero_window_ub`, `C06_moving_rms_is_window_rms`, `C07_moving_rms_reset_refuted`, `C07_size`, `C12_poles_exist`, `C12_stability_iff_poles_inside`, `C13_stable_biquad_bounded`, `C13_stable_cascade_bounded`, `C15_first_order_refuted`, `C16_rbj_allpass`, `C16_rbj_bandpass`, `C16_rbj_highpass`, `C16_rbj_lowpass`, `C17_zoelzer_bandpass`, `C17_zoelzer_highpass`, `C17_zoelzer_lowpass`, `C18_butterworth_highpass_partial`, `C18_butterworth_lowpass_partial`, `C18_butterworth_odd_asserts_refuted`, `C30_flattop_ends`, `C30_peak`, `C30_symmetric_bounded`, `C30_tiny`, `C30_unit_range`, `C30_values`, `C33_constant_nonfinite`, `C33_skewness_kurtosis`, `C33_variance`, `C36_energy_power_rssq`, `C36_normalize_rms_actual`, `C36_rms_actual`, `C36_rms_refuted`, `C40_variation_actual`, `C40_variation_refuted`, `C40_variation_short`, `C41_centroid_spread`, `C41_index_centres`, `C44_angles`, `C47_sine_periodic`, `C47_sine_range`, `C47_sine_samples`, `C48_sine_sawtooth_frequency`, `C50_ar_actual`, `C50_ar_split`, `C50_smoothing_refuted`, `C51_cdft`, `C51_complex_round_trip`, `C51_complex_round_trip_back`, `C51_dft`, `C51_hermitian`, `C51_odd_length`, `C51_pffft_cdft`, `C51_pffft_dft_actual`, `C51_pffft_dft_refuted`, `C51_pffft_real_round_trip`, `C51_real_round_trip`, `C51_sizes`, `C52_conv`, `C52_pffft_actual`, `C52_pffft_refuted`, `C53_autocorrelation`, `C53_biased_actual`, `C53_biased_refuted`, `C53_unbiased_actual`, `C53_unbiased_refuted`, `C53_xcorr_raw`, `C54_hilbert`, `C54_pffft_hilbert`, `C55_dct_actual`, `C55_dct_refuted`, `C55_idct_actual`, `C55_lee_dct`, `C55_lee_idct`, `C55_pffft_dct`, `C55_pffft_idct`, `C55_pffft_refuted`, `C55_pffft_round_trip`, `C55_pffft_three`, `C55_round_trip`, `C56_actual`, `C56_one_kind`, `C56_pffft_actual`, `C56_pffft_dct`, `C56_pffft_one_kind`, `C56_pffft_overrun`, `C56_pffft_refuted`, `C56_refuted`, `C63_butterworth_half_power`, `C63_butterworth_highpass_magnitude`, `C63_butterworth_lowpass_magnitude`, `C66_norm`, `C70_peak2rms_actual`, `C70_peak2rms_refuted`, `C80_parseval`, `C80_pffft_refuted`, `C80_pffft_spectrum_actual`, `C80_spectrum`, `C81_hartley`, `C81_involution`, `C81_pffft_actual`, `C81_pffft_refuted`, `C100_equal_lengths_partial`, `C100_long_second_refuted`, `C100_rank_actual`, `C100_short_second_refuted`, `C101_parts_partial`, `C102_complex_partial`, `C102_even_partial`, `C102_odd_refuted`, `C102_rfft_partial`, `C102_spectrum_partial`, `C105_freq`, `C105_freq_biquad`, `C105_freq_steady_state`, `C105_freq_undefined`, `C108_make_oscillator`, `C108_make_window`, `C114_sine_history`, `C114_sine_reset`, `C128_one_thread`, `C128_planned_safe`, `C128_race_refuted`, `C128_results`, `C134_ideal_lowpass`


**`ClassicalDedekindReals.sig_forall_dec` + `ClassicalDedekindReals.sig_not_dec` + `Classical_Prop.classic` + `FunctionalExtensionality.functional_extensionality_dep`** (315 theorems): `C16_rbj_highshelf`, `C16_rbj_lowshelf`, `C17_zoelzer_highshelf_boost_partial`, `C17_zoelzer_highshelf_cut_actual`, `C17_zoelzer_highshelf_cut_refuted`, `C17_zoelzer_lowshelf_actual`, `C17_zoelzer_lowshelf_boost_partial`, `C17_zoelzer_lowshelf_cut_refuted`, `C18_butterworth_capacity`, `C23_logspace`, `C34_mean_inequalities`, `C34_outside_domain`, `C40_flux_actual`, `C40_flux_order_refuted`, `C40_flux_refuted`, `C44_decibel_domain`, `C44_decibel_monotone`, `C44_decibel_round_trips`, `C45_erb`, `C45_erb_inverse`, `C45_mel`, `C45_mel_inverse`, `C46_cent_actual`, `C46_cent_refuted`, `C46_cent_scale`, `C46_cent_zero`, `C59_compression`, `C59_inverse_actual`, `C59_round_trip_refuted`, `C64_butterworth_highshelf_partial`, `C64_butterworth_lowshelf_partial`, `C64_butterworth_shelf_polar_refuted`, `C66_generalized_mean`, `C66_generalized_mean_cases`, `C66_generalized_mean_negative`, `C66_generalized_mean_zero_refuted`, `C67_entropy`, `C67_entropy_uniform`, `C67_spectral_entropy`, `C68_leq_silence`, `C68_loudness`, `C69_snr_adjacent_partial`, `C69_snr_refuted`, `C73_barkspace_refuted`, `C73_space_values`, `C73_spacing_refuted`, `C82_cepstrum`, `C82_cepstrum_nonfinite`, `C82_documentation_refuted`, `C83_chebyshev1_highpass_partial`, `C83_chebyshev1_highpass_ripple`, `C83_chebyshev1_lowpass_partial`, `C83_chebyshev1_lowpass_ripple`, `C83_chebyshev1_odd_asserts_refuted`, `C83_chebyshev1_rejects`, `C84_chebyshev2_highpass_partial`, `C84_chebyshev2_highpass_stopband`, `C84_chebyshev2_lowpass_partial`, `C84_chebyshev2_lowpass_stopband`, `C84_chebyshev2_odd_asserts_refuted`, `C84_chebyshev2_rejects`, `C85_chebyshev_boost_actual`, `C85_chebyshev_boost_gain_refuted`, `C85_chebyshev_boost_hole_refuted`, `C85_chebyshev_clamped_cut_actual`, `C85_chebyshev_clamped_gain_refuted`, `C85_chebyshev_high_boost_actual`, `C85_chebyshev_high_boost_gain_refuted`, `C85_chebyshev_highshelf_partial`, `C85_chebyshev_lowshelf_magnitude`, `C85_chebyshev_lowshelf_partial`, `C85_chebyshev_shelf_rejects`, `C86_bandpass_odd_asserts_refuted`, `C86_bandpass_quarter_rate_refuted`, `C86_bandpass_rejects`, `C86_butterworth_bandpass_gain_refuted`, `C86_butterworth_bandpass_partial`, `C86_butterworth_bandpass_shape`, `C86_chebyshev1_bandpass_partial`, `C86_chebyshev2_bandpass_partial`, `C86_chebyshev2_bandpass_zero_refuted`, `C87_bandstop_odd_asserts_refuted`, `C87_bandstop_rejects`, `C87_butterworth_bandstop_edges_refuted`, `C87_butterworth_bandstop_partial`, `C87_chebyshev1_bandstop_partial`, `C87_chebyshev2_bandstop_partial`, `C88_bandshelf_first_order_checked`, `C88_bandshelf_rejects`, `C88_butterworth_bandshelf_partial`, `C88_chebyshev_bandshelf_clamped_actual`, `C88_chebyshev_bandshelf_partial`, `C97_contiguous_partial`, `C97_dtype_refuted`, `C97_features_partial`, `C97_rank`, `C97_strided_refuted`, `C100_flux_actual`, `C100_flux_refuted`, `C106_leq_actual`, `C106_leq_partial`, `C106_leq_refuted`, `C106_leq_silent`, `C107_euclidean_actual`, `C107_logarithmic_actual`, `C107_logarithmic_refuted`, `C107_manhattan_refuted`, `C111_constants`, `C111_defined`, `C112_flatness`, `C112_flatness_scale`, `C112_outside_domain`, `C115_mean_between_refuted`, `C115_mean_error`, `C115_mean_finite_refuted`, `C115_sum_error`, `C115_sum_finite`, `C116_amplifier`, `C116_clip`, `C116_plain_amplifier`, `C117_max`, `C117_maxabs`, `C117_min`, `C117_minabs`, `C118_normalize`, `C118_normalize_silence`, `C119_energy_error`, `C119_no_nan`, `C119_rssq_error`, `C119_rssq_finite_refuted`, `C119_rssq_zero_refuted`, `C119_variance_constant_refuted`, `C120_advances_refuted`, `C120_clock_error`, `C120_clock_stops_actual`, `C120_float_44100_sharp_actual`, `C120_float_44100_stops_actual`, `C121_last_refuted`, `C121_linspace`, `C121_within_refuted`, `C122_derivative`, `C122_sum_of_differences_refuted`, `C123_bounded`, `C123_decay_refuted`, `C123_ringing_actual`, `C123_silence`, `C124_cascade`, `C125_average_drift`, `C125_average_grid`, `C125_rms_grid`, `C129_attack_ends`, `C129_attack_ends_refuted`, `C129_attack_time`, `C129_decay_ends`, `C129_decay_time`, `C129_range`, `C129_release_ends`, `C129_release_rate`, `C129_release_time`, `C129_sample_rate`, `C129_set_target`, `C130_accuracy`, `C130_double`, `C130_extended_refuted`, `C130_wider`, `C131_sawtooth_range`, `C131_sawtooth_value`, `C131_settings`, `C131_square_levels`, `C131_square_switch`, `C131_triangular_range`, `C132_bartlett`, `C132_bartlett_end_refuted`, `C132_bartlett_symmetric_refuted`, `C132_single_actual`, `C132_triangular`, `C132_welch`, `C133_angle_round_trip`, `C133_deg2rad`, `C133_deg2rad_finite_refuted`, `C133_fract`, `C133_fract_below_one_refuted`, `C133_half`, `C133_idempotent`, `C133_inv`, `C133_rad2deg`, `C133_rounding`, `C133_sign`, `C133_square`, `C133_square_value`, `C134_allpass`, `C134_bandpass`, `C134_conjugate_poles`, `C134_highpass`, `C134_lowpass`, `C134_lowpass_1hz_actual`, `C134_lowpass_passes_refuted`, `C134_lowpass_silent_actual`, `C134_poles_stable_refuted`, `C134_real_poles`, `C134_stability_complete_partial`, `C134_stability_complete_refuted`, `C134_stability_sound`, `C135_space`, `C135_space_refused_refuted`, `C136_double_refuted`, `C136_equal_actual`, `C136_equal_float_actual`, `C136_large_floats`, `C136_reflexive_partial`, `C136_reflexive_refuted`, `C136_small_refuted`, `C136_symmetric`, `C136_transitive_refuted`, `C138_azcr_actual`, `C138_azcr_long_refuted`, `C138_azcr_partial`, `C138_azcr_short`, `C138_crest`, `C138_crest_overflow_refuted`, `C138_crest_silence`, `C138_duration`, `C138_effective_duration`, `C138_norm`, `C138_rolloff`, `C138_rolloff_overflow_refuted`, `C138_rolloff_range`, `C139_centroid`, `C139_centroid_range_refuted`, `C139_harmonic_bound_refuted`, `C139_harmonic_mean`, `C139_harmonic_zero_refuted`, `C140_accuracy`, `C140_blackman_first_actual`, `C140_blackman_nonnegative_refuted`, `C140_empty`, `C140_hamming_range`, `C140_hann_range`, `C140_hann_starts_at_zero`, `C140_single_sample_actual`, `C141_amdf`, `C141_amdf_grid`, `C141_asdf`, `C141_asdf_grid`, `C141_decrease_actual`, `C141_decrease_refuted`, `C141_empty`, `C141_even_moment`, `C141_odd_moment_refuted`, `C141_peak`, `C141_peak2peak`, `C141_peak2peak_refuted`, `C141_peakabs`, `C141_second_moment`, `C141_zero_refuted`, `C142_audio_roundtrip`, `C142_db2mag`, `C142_db2pow`, `C142_leq`, `C142_leq_refuted`, `C142_mag2db`, `C142_nan`, `C142_pow2db`, `C142_power_roundtrip`, `C142_roundtrip`, `C142_unity`, `C143_bark`, `C143_bark_inverse`, `C143_bark_order_actual`, `C143_bark_order_refuted`, `C143_bark_roundtrip`, `C143_cent`, `C143_cent_inverse`, `C143_cent_inverse_odd`, `C143_cent_odd`, `C143_erb`, `C143_erb_inverse`, `C143_erb_inverse_order`, `C143_erb_order`, `C143_erb_roundtrip`, `C143_mel`, `C143_mel_inverse`, `C143_mel_inverse_order`, `C143_mel_order`, `C143_mel_roundtrip`, `C144_entropy`, `C144_entropy_refuted`, `C144_entropy_single_actual`, `C144_entropy_zero_actual`, `C144_flatness`, `C144_geometric_mean`, `C144_geometric_mean_nan`, `C144_geometric_mean_zero`, `C144_kurtosis`, `C144_kurtosis_refuted`, `C144_loudness`, `C144_never_silent`, `C144_silence`, `C144_spread`, `C145_logspace`, `C145_skewness`, `C145_skewness_refuted`, `C146_short`, `C146_slope_actual`, `C146_slope_refuted`, `C146_variation_actual`, `C146_variation_refuted`, `C147_follower_actual`, `C147_recovery_refuted`, `C147_smoothing_refuted`, `C148_brown`, `C148_brown_overflow_refuted`, `C148_brown_silent_refuted`, `C148_pink`, `C148_pink_overflow_refuted`


## 6. Source files modelled

Every definition of the model cites its file and lines. Files under `include/edsp` and `bindings`:

| file | model |
|------|-------|
| `bindings/c/include/cedsp/types.h` | `BindModel.v` |
| `bindings/c/src/algorithm.c` | `BindModel.v` |
| `bindings/c/src/converter.cpp` | `BindModel.v` |
| `bindings/c/src/core.c` | `CoreModel.v` |
| `bindings/c/src/spectral.c` | `BindModel.v` |
| `bindings/c/src/statistics.c` | `BindModel.v` |
| `bindings/python/src/algorithm.cpp` | `BindModel.v` |
| `bindings/python/src/auditory.cpp` | `PyTextModel.v` |
| `bindings/python/src/converter.cpp` | `BindModel.v` |
| `bindings/python/src/core.cpp` | `CoreModel.v` |
| `bindings/python/src/feature_spectral.cpp` | `BindModel.v` |
| `bindings/python/src/feature_statistics.cpp` | `BindModel.v` |
| `bindings/python/src/feature_temporal.cpp` | `BindModel.v` |
| `bindings/python/src/filter.cpp` | `BindModel.v` |
| `bindings/python/src/io.cpp` | `IOModel.v` |
| `bindings/python/src/oscillator.cpp` | `BindModel.v` |
| `bindings/python/src/spectral.cpp` | `BindModel.v` |
| `bindings/python/src/statistics.cpp` | `BindModel.v` |
| `bindings/python/src/string.cpp` | `PyTextModel.v` |
| `bindings/python/src/windowing.cpp` | `BindModel.v` |
| `include/edsp/algorithm/amplifier.hpp` | `AlgModel.v`, `FloatModel.v`, `IntModel.v` |
| `include/edsp/algorithm/binary_search.hpp` | `AlgModel.v` |
| `include/edsp/algorithm/ceil.hpp` | `AlgModel.v`, `FloatNumModel.v` |
| `include/edsp/algorithm/clipper.hpp` | `AlgModel.v`, `FloatModel.v` |
| `include/edsp/algorithm/concatenate.hpp` | `AlgModel.v` |
| `include/edsp/algorithm/derivative.hpp` | `AlgModel.v`, `FloatModel.v` |
| `include/edsp/algorithm/equal.hpp` | `AlgModel.v`, `FloatEqualModel.v` |
| `include/edsp/algorithm/fix.hpp` | `AlgModel.v`, `FloatNumModel.v` |
| `include/edsp/algorithm/floor.hpp` | `AlgModel.v`, `FloatNumModel.v` |
| `include/edsp/algorithm/indexof.hpp` | `AlgModel.v` |
| `include/edsp/algorithm/linear_search.hpp` | `AlgModel.v` |
| `include/edsp/algorithm/linspace.hpp` | `AlgModel.v`, `FloatModel.v` |
| `include/edsp/algorithm/logspace.hpp` | `AlgModel.v`, `FloatSkewModel.v` |
| `include/edsp/algorithm/normalize.hpp` | `FeatModel.v`, `FloatModel.v`, `IntModel.v` |
| `include/edsp/algorithm/padder.hpp` | `AlgModel.v` |
| `include/edsp/algorithm/rectify.hpp` | `AlgModel.v`, `FloatNumModel.v` |
| `include/edsp/algorithm/round.hpp` | `AlgModel.v`, `FloatNumModel.v` |
| `include/edsp/algorithm/silence.hpp` | `FeatModel.v`, `FloatShapeModel.v` |
| `include/edsp/auditory/audspace.hpp` | `ConvModel.v` |
| `include/edsp/auditory/barkspace.hpp` | `ConvModel.v` |
| `include/edsp/auditory/centspace.hpp` | `ConvModel.v` |
| `include/edsp/auditory/converter/bark2hertz.hpp` | `ConvModel.v`, `FloatScaleModel.v` |
| `include/edsp/auditory/converter/cent2hertz.hpp` | `ConvModel.v`, `FloatScaleModel.v` |
| `include/edsp/auditory/converter/erb2hertz.hpp` | `ConvModel.v`, `FloatScaleModel.v` |
| `include/edsp/auditory/converter/hertz2bark.hpp` | `ConvModel.v`, `FloatScaleModel.v` |
| `include/edsp/auditory/converter/hertz2cent.hpp` | `ConvModel.v`, `FloatScaleModel.v` |
| `include/edsp/auditory/converter/hertz2erb.hpp` | `ConvModel.v`, `FloatScaleModel.v` |
| `include/edsp/auditory/converter/hertz2mel.hpp` | `ConvModel.v`, `FloatScaleModel.v` |
| `include/edsp/auditory/converter/mel2hertz.hpp` | `ConvModel.v`, `FloatScaleModel.v` |
| `include/edsp/auditory/erbspace.hpp` | `ConvModel.v` |
| `include/edsp/auditory/melspace.hpp` | `ConvModel.v` |
| `include/edsp/converter/complex2real.hpp` | `ConvModel.v` |
| `include/edsp/converter/db2mag.hpp` | `ConvModel.v`, `DesignModel.v`, `FloatDecibelModel.v` |
| `include/edsp/converter/db2pow.hpp` | `ConvModel.v`, `FloatDecibelModel.v` |
| `include/edsp/converter/deg2rad.hpp` | `ConvModel.v`, `FloatNumModel.v` |
| `include/edsp/converter/mag2db.hpp` | `ConvModel.v`, `FloatDecibelModel.v` |
| `include/edsp/converter/peak2peak.hpp` | `FeatModel.v`, `FloatDiffModel.v` |
| `include/edsp/converter/peak2rms.hpp` | `FeatModel.v` |
| `include/edsp/converter/pow2db.hpp` | `FeatModel.v`, `FloatDecibelModel.v` |
| `include/edsp/converter/rad2deg.hpp` | `ConvModel.v`, `FloatNumModel.v` |
| `include/edsp/converter/real2complex.hpp` | `BindModel.v`, `ConvModel.v` |
| `include/edsp/core/internal/config.hpp` | `CoreModel.v` |
| `include/edsp/core/library_info.hpp` | `CoreModel.v` |
| `include/edsp/core/logger.hpp` | `CoreModel.v`, `ThreadLibModel.v` |
| `include/edsp/core/system.hpp` | `CoreModel.v`, `ThreadModel.v` |
| `include/edsp/experimental/envelope/adsr.hpp` | `ExpModel.v`, `FloatEnvModel.v` |
| `include/edsp/experimental/envelope/ar.hpp` | `ExpModel.v`, `FloatFollowerModel.v` |
| `include/edsp/experimental/quantizer/mu_law_compressor.hpp` | `ExpModel.v` |
| `include/edsp/feature/perceptual/loudness.hpp` | `FeatModel.v`, `FloatShapeModel.v` |
| `include/edsp/feature/spectral/spectral_entropy.hpp` | `FeatModel.v` |
| `include/edsp/feature/spectral/spectral_irregularity.hpp` | `FeatModel.v` |
| `include/edsp/feature/statistics/centroid.hpp` | `FeatModel.v`, `FloatFeatModel.v` |
| `include/edsp/feature/statistics/crest.hpp` | `FeatModel.v`, `FloatFeatModel.v` |
| `include/edsp/feature/statistics/decrease.hpp` | `FeatModel.v`, `FloatDiffModel.v` |
| `include/edsp/feature/statistics/entropy.hpp` | `FeatModel.v`, `FloatShapeModel.v` |
| `include/edsp/feature/statistics/flatness.hpp` | `FeatModel.v`, `FloatShapeModel.v` |
| `include/edsp/feature/statistics/flux.hpp` | `FeatModel.v` |
| `include/edsp/feature/statistics/rolloff.hpp` | `FeatModel.v`, `FloatFeatModel.v` |
| `include/edsp/feature/statistics/slope.hpp` | `FeatModel.v`, `FloatSlopeModel.v` |
| `include/edsp/feature/statistics/spread.hpp` | `FeatModel.v`, `FloatShapeModel.v` |
| `include/edsp/feature/statistics/variation.hpp` | `FeatModel.v`, `FloatSlopeModel.v` |
| `include/edsp/feature/temporal/amdf.hpp` | `FeatModel.v`, `FloatDiffModel.v` |
| `include/edsp/feature/temporal/asdf.hpp` | `FeatModel.v`, `FloatDiffModel.v` |
| `include/edsp/feature/temporal/azcr.hpp` | `FeatModel.v`, `FloatFeatModel.v` |
| `include/edsp/feature/temporal/duration.hpp` | `FeatModel.v`, `FloatFeatModel.v` |
| `include/edsp/feature/temporal/energy.hpp` | `FeatModel.v`, `FloatModel.v`, `IntModel.v` |
| `include/edsp/feature/temporal/leq.hpp` | `ExtraModel.v`, `FeatModel.v`, `FloatDecibelModel.v` |
| `include/edsp/feature/temporal/power.hpp` | `FeatModel.v`, `FloatModel.v` |
| `include/edsp/feature/temporal/rms.hpp` | `FeatModel.v`, `FloatModel.v` |
| `include/edsp/feature/temporal/rssq.hpp` | `FeatModel.v`, `FloatModel.v` |
| `include/edsp/feature/temporal/snr.hpp` | `FeatModel.v` |
| `include/edsp/filter/biquad.hpp` | `BiquadModel.v`, `FloatDesignModel.v`, `FloatFiltersModel.v`, `FloatModel.v` |
| `include/edsp/filter/biquad_cascade.hpp` | `BiquadModel.v`, `FloatFiltersModel.v` |
| `include/edsp/filter/internal/abstract_designer.hpp` | `BandModel.v`, `LayoutModel.v` |
| `include/edsp/filter/internal/bilinear/bandpass_transformer.hpp` | `BandModel.v` |
| `include/edsp/filter/internal/bilinear/bandstop_transformer.hpp` | `BandModel.v` |
| `include/edsp/filter/internal/bilinear/highpass_transformer.hpp` | `LayoutModel.v` |
| `include/edsp/filter/internal/bilinear/layout_base.hpp` | `BandModel.v`, `LayoutModel.v` |
| `include/edsp/filter/internal/bilinear/lowpass_transformer.hpp` | `LayoutModel.v` |
| `include/edsp/filter/internal/butterworth_designer.hpp` | `BandModel.v`, `LayoutModel.v` |
| `include/edsp/filter/internal/chebyshev_II_designer.hpp` | `BandModel.v`, `ChebyModel.v` |
| `include/edsp/filter/internal/chebyshev_I_designer.hpp` | `BandModel.v`, `ChebyModel.v` |
| `include/edsp/filter/internal/rbj_designer.hpp` | `DesignModel.v`, `FloatDesignModel.v` |
| `include/edsp/filter/internal/zoelzer_designer.hpp` | `DesignModel.v` |
| `include/edsp/filter/moving_average_filter.hpp` | `FloatFiltersModel.v`, `MovingFloatModel.v`, `MovingModel.v` |
| `include/edsp/filter/moving_median_filter.hpp` | `MovingModel.v` |
| `include/edsp/filter/moving_rms_filter.hpp` | `FloatFiltersModel.v`, `MovingFloatModel.v`, `MovingModel.v` |
| `include/edsp/io/internal/decoder/libaudiofile_decoder_impl.hpp` | `ExtraModel.v`, `IOModel.v` |
| `include/edsp/io/internal/decoder/libsndfile_decoder_impl.hpp` | `ExtraModel.v`, `IOModel.v` |
| `include/edsp/io/internal/encoder/libsndfile_encoder_impl.hpp` | `ExtraModel.v`, `IOModel.v` |
| `include/edsp/io/internal/metadata/libtag_impl.hpp` | `MetaModel.v` |
| `include/edsp/io/internal/resampler/libsamplerate_impl.hpp` | `ExtraModel.v`, `IOModel.v` |
| `include/edsp/io/metadata.hpp` | `MetaModel.v` |
| `include/edsp/math/complex.hpp` | `LayoutModel.v` |
| `include/edsp/math/constant.hpp` | `ChebyModel.v`, `ConstFloatModel.v`, `ConstModel.v` |
| `include/edsp/math/numeric.hpp` | `FeatModel.v`, `FloatFollowerModel.v`, `FloatModel.v`, `FloatNumModel.v`, `NumModel.v` |
| `include/edsp/meta/contains.hpp` | `AlgModel.v` |
| `include/edsp/meta/ensure.hpp` | `Base.v` |
| `include/edsp/meta/equal.hpp` | `AlgModel.v`, `FloatEqualModel.v` |
| `include/edsp/meta/expects.hpp` | `Base.v` |
| `include/edsp/meta/is_null.hpp` | `CoreModel.v` |
| `include/edsp/oscillator.hpp` | `ExtraModel.v` |
| `include/edsp/oscillators/sawtooth.hpp` | `FloatModel.v`, `FloatWaveModel.v`, `OscModel.v` |
| `include/edsp/oscillators/sinusoidal.hpp` | `FloatModel.v`, `FloatWaveModel.v`, `OscModel.v` |
| `include/edsp/oscillators/square.hpp` | `FloatModel.v`, `FloatWaveModel.v`, `OscModel.v` |
| `include/edsp/oscillators/triangular.hpp` | `FloatWaveModel.v`, `FloatWindowModel.v`, `OscModel.v`, `WindowModel.v` |
| `include/edsp/random/noise/brown_noise_generator.hpp` | `ExpModel.v`, `FloatNoiseModel.v` |
| `include/edsp/random/noise/pink_noise_generator.hpp` | `ExpModel.v`, `FloatNoiseModel.v` |
| `include/edsp/spectral/cepstrum.hpp` | `SpectralModel.v` |
| `include/edsp/spectral/convolution.hpp` | `PffftModel.v`, `SpectralModel.v` |
| `include/edsp/spectral/correlation.hpp` | `BindModel.v`, `PffftModel.v`, `SpectralModel.v` |
| `include/edsp/spectral/dct.hpp` | `PffftModel.v`, `SpectralModel.v` |
| `include/edsp/spectral/dft.hpp` | `PffftModel.v`, `SpectralModel.v` |
| `include/edsp/spectral/fft_engine.hpp` | `SpectralModel.v` |
| `include/edsp/spectral/hartley.hpp` | `PffftModel.v`, `SpectralModel.v` |
| `include/edsp/spectral/hilbert.hpp` | `PffftModel.v`, `SpectralModel.v` |
| `include/edsp/spectral/internal/libfftw_impl.hpp` | `SpectralModel.v`, `ThreadLibModel.v` |
| `include/edsp/spectral/internal/libpffft_impl.hpp` | `PffftModel.v` |
| `include/edsp/spectral/spectrum.hpp` | `PffftModel.v`, `SpectralModel.v` |
| `include/edsp/statistics/generalized_mean.hpp` | `StatModel.v` |
| `include/edsp/statistics/geometric_mean.hpp` | `FloatShapeModel.v`, `StatModel.v` |
| `include/edsp/statistics/harmonic_mean.hpp` | `FloatFeatModel.v`, `StatModel.v` |
| `include/edsp/statistics/histogram.hpp` | `ExtraModel.v` |
| `include/edsp/statistics/kurtosis.hpp` | `FloatShapeModel.v`, `StatModel.v` |
| `include/edsp/statistics/max.hpp` | `FloatModel.v`, `IntModel.v`, `StatModel.v` |
| `include/edsp/statistics/mean.hpp` | `FloatModel.v`, `IntModel.v`, `StatModel.v` |
| `include/edsp/statistics/median.hpp` | `MovingModel.v`, `StatModel.v` |
| `include/edsp/statistics/min.hpp` | `FloatModel.v`, `StatModel.v` |
| `include/edsp/statistics/moment.hpp` | `FloatDiffModel.v`, `FloatModel.v`, `FloatShapeModel.v`, `FloatSkewModel.v`, `StatModel.v` |
| `include/edsp/statistics/norm.hpp` | `FloatFeatModel.v`, `StatModel.v` |
| `include/edsp/statistics/peak.hpp` | `FloatDiffModel.v`, `StatModel.v` |
| `include/edsp/statistics/skewness.hpp` | `FloatSkewModel.v`, `StatModel.v` |
| `include/edsp/statistics/variance.hpp` | `FloatModel.v`, `StatModel.v` |
| `include/edsp/string/join.hpp` | `StringModel.v` |
| `include/edsp/string/split.hpp` | `StringModel.v` |
| `include/edsp/string/to_lower.hpp` | `StringModel.v` |
| `include/edsp/string/to_upper.hpp` | `StringModel.v` |
| `include/edsp/string/trim.hpp` | `StringModel.v` |
| `include/edsp/types/fixed_ring_buffer.hpp` | `MoveModel.v` |
| `include/edsp/types/ring_buffer.hpp` | `MoveModel.v`, `RingModel.v` |
| `include/edsp/types/ring_span.hpp` | `MoveModel.v`, `RingModel.v` |
| `include/edsp/types/string_view.hpp` | `CoreModel.v` |
| `include/edsp/windowing.hpp` | `ExtraModel.v` |
| `include/edsp/windowing/bartlett.hpp` | `FloatWindowModel.v`, `WindowModel.v` |
| `include/edsp/windowing/blackman.hpp` | `FloatCosineModel.v`, `WindowModel.v` |
| `include/edsp/windowing/blackman_harris.hpp` | `FloatCosineModel.v`, `WindowModel.v` |
| `include/edsp/windowing/blackman_nuttall.hpp` | `FloatCosineModel.v`, `WindowModel.v` |
| `include/edsp/windowing/boxcar.hpp` | `WindowModel.v` |
| `include/edsp/windowing/flattop.hpp` | `FloatCosineModel.v`, `WindowModel.v` |
| `include/edsp/windowing/hamming.hpp` | `FloatCosineModel.v`, `WindowModel.v` |
| `include/edsp/windowing/hanning.hpp` | `FloatCosineModel.v`, `WindowModel.v` |
| `include/edsp/windowing/rectangular.hpp` | `WindowModel.v` |
| `include/edsp/windowing/triangular.hpp` | `FloatWaveModel.v`, `FloatWindowModel.v`, `OscModel.v`, `WindowModel.v` |
| `include/edsp/windowing/welch.hpp` | `FloatWindowModel.v`, `WindowModel.v` |

## 7. Source files not modelled

| file | why |
|------|-----|
| `bindings/c/include/cedsp/algorithm.h` | declarations only |
| `bindings/c/include/cedsp/converter.h` | declarations only |
| `bindings/c/include/cedsp/core.h` | declarations only |
| `bindings/c/include/cedsp/spectral.h` | declarations only |
| `bindings/c/include/cedsp/statistics.h` | declarations only |
| `bindings/c/include/cedsp/windowing.h` | declarations only |
| `bindings/c/src/windowing.c` | one-line delegations to the windows modelled in WindowModel.v, with the range [window, window + N) |
| `bindings/python/include/algorithm.hpp` | declarations only |
| `bindings/python/include/auditory.hpp` | declarations only |
| `bindings/python/include/boost_numpy_dependencies.hpp` | declarations only |
| `bindings/python/include/converter.hpp` | declarations only |
| `bindings/python/include/core.hpp` | declarations only |
| `bindings/python/include/feature.hpp` | declarations only |
| `bindings/python/include/filter.hpp` | declarations only |
| `bindings/python/include/io.hpp` | declarations only |
| `bindings/python/include/oscillator.hpp` | declarations only |
| `bindings/python/include/spectral.hpp` | declarations only |
| `bindings/python/include/statistics.hpp` | declarations only |
| `bindings/python/include/string.hpp` | declarations only |
| `bindings/python/include/windowing.hpp` | declarations only |
| `bindings/python/src/package.cpp` | module registration only |
| `include/edsp/algorithm.hpp` | umbrella include |
| `include/edsp/auditory/rangecompress.hpp` | empty |
| `include/edsp/auditory/rangeexpand.hpp` | empty |
| `include/edsp/converter.hpp` | umbrella include |
| `include/edsp/feature/spectral/spectral_centroid.hpp` | one-line delegation to the statistics function modelled in FeatModel.v/StatModel.v |
| `include/edsp/feature/spectral/spectral_crest.hpp` | one-line delegation to the statistics function modelled in FeatModel.v/StatModel.v |
| `include/edsp/feature/spectral/spectral_decrease.hpp` | one-line delegation to the statistics function modelled in FeatModel.v/StatModel.v |
| `include/edsp/feature/spectral/spectral_flatness.hpp` | one-line delegation to the statistics function modelled in FeatModel.v/StatModel.v |
| `include/edsp/feature/spectral/spectral_flux.hpp` | one-line delegation to the statistics function modelled in FeatModel.v/StatModel.v |
| `include/edsp/feature/spectral/spectral_kurtosis.hpp` | one-line delegation to the statistics function modelled in FeatModel.v/StatModel.v |
| `include/edsp/feature/spectral/spectral_rolloff.hpp` | one-line delegation to the statistics function modelled in FeatModel.v/StatModel.v |
| `include/edsp/feature/spectral/spectral_skewness.hpp` | one-line delegation to the statistics function modelled in FeatModel.v/StatModel.v |
| `include/edsp/feature/spectral/spectral_slope.hpp` | one-line delegation to the statistics function modelled in FeatModel.v/StatModel.v |
| `include/edsp/feature/spectral/spectral_spread.hpp` | one-line delegation to the statistics function modelled in FeatModel.v/StatModel.v |
| `include/edsp/feature/spectral/spectral_variation.hpp` | one-line delegation to the statistics function modelled in FeatModel.v/StatModel.v |
| `include/edsp/filter.hpp` | umbrella include and designer aliases |
| `include/edsp/io.hpp` | umbrella include |
| `include/edsp/io/decoder.hpp` | one-line delegations to the implementation modelled in IOModel.v |
| `include/edsp/io/encoder.hpp` | one-line delegations to the implementation modelled in IOModel.v |
| `include/edsp/io/internal/decoder/decoder_impl.hpp` | back-end selection |
| `include/edsp/io/internal/encoder/encoder_impl.hpp` | back-end selection; both branches select the libsndfile encoder modelled in IOModel.v |
| `include/edsp/io/internal/metadata/metadata_impl.hpp` | back-end selection |
| `include/edsp/io/internal/resampler/libresample_impl.hpp` | cannot be selected (see resampler_impl.hpp) |
| `include/edsp/io/internal/resampler/resampler_impl.hpp` | back-end selection; its libresample branch includes a file that does not exist |
| `include/edsp/io/resampler.hpp` | one-line delegations to the implementation; sizes in IOModel.v |
| `include/edsp/math.hpp` | umbrella include |
| `include/edsp/meta/advance.hpp` | iterator and type helpers without run-time behaviour of their own |
| `include/edsp/meta/cast.hpp` | iterator and type helpers without run-time behaviour of their own |
| `include/edsp/meta/data.hpp` | iterator and type helpers without run-time behaviour of their own |
| `include/edsp/meta/empty.hpp` | iterator and type helpers without run-time behaviour of their own |
| `include/edsp/meta/is_char.hpp` | iterator and type helpers without run-time behaviour of their own |
| `include/edsp/meta/is_iterator.hpp` | iterator and type helpers without run-time behaviour of their own |
| `include/edsp/meta/is_signed.hpp` | iterator and type helpers without run-time behaviour of their own |
| `include/edsp/meta/is_unsigned.hpp` | iterator and type helpers without run-time behaviour of their own |
| `include/edsp/meta/iterator.hpp` | iterator and type helpers without run-time behaviour of their own |
| `include/edsp/meta/size.hpp` | iterator and type helpers without run-time behaviour of their own |
| `include/edsp/meta/type_traits.hpp` | iterator and type helpers without run-time behaviour of their own |
| `include/edsp/meta/unused.hpp` | iterator and type helpers without run-time behaviour of their own |
| `include/edsp/random.hpp` | umbrella include |
| `include/edsp/random/binary_generator.hpp` | delegates to std::bernoulli_distribution |
| `include/edsp/random/constant_generator.hpp` | returns its constructor argument |
| `include/edsp/random/noise/perlin_noise_generator.hpp` | cannot be instantiated (lerp called with different types) |
| `include/edsp/random/noise/white_noise_generator.hpp` | delegates to std::uniform_int_distribution; its values are the arbitrary inputs of the coloured noise filters |
| `include/edsp/random/random_generator.hpp` | does not compile when used (std::forward without template argument) |
| `include/edsp/spectral/internal/fft_impl.hpp` | back-end selection |
| `include/edsp/statistics.hpp` | umbrella include |
| `include/edsp/types/any.hpp` | type aliases |
| `include/edsp/types/expected.hpp` | type aliases |
| `include/edsp/types/optional.hpp` | type aliases |
| `include/edsp/types/span.hpp` | type aliases |
| `include/edsp/types/timestamp.hpp` | type aliases |
| `include/edsp/types/variant.hpp` | type aliases |

Within modelled files, the parts left out are: logging calls on failed
preconditions, `constexpr`/`noexcept` qualifications, allocator and iterator
template machinery, and the overloads that differ only in these. `sign` of NaN,
floating-point text insertion into the logger, and the numerical quality of the
external resampler are not modelled.

