{"id": "C01", "title": "Ring buffer behaves like a bounded deque that overwrites", "statement": "A ring_buffer of capacity N>0 driven by any sequence of push_back / emplace_back / emplace_front / pop_front / pop_back / clear behaves exactly like a bounded deque: the observable contents (front, back, iteration order) after the sequence are those of a list in which a push at the back of a full buffer drops the oldest (front) element, a push at the front of a full buffer drops the newest (back) element, and popped values are the elements removed.", "quantifier": "every capacity N>0, every element type, every finite sequence of operations whose pops are applied to non-empty buffers", "why_tests_cant": "wrap-around bugs depend on the combination of front index, size and operation history; the set of histories is infinite", "anchors": ["include/edsp/types/ring_buffer.hpp: push_back, emplace_back, emplace_front, pop_front, pop_back, clear", "include/edsp/thirdparty/nonstd/ring_span.hpp: push_back, push_front, pop_front, pop_back, normalize_"]}
{"id": "C02", "title": "Ring buffer size and capacity laws", "statement": "At every point of every history size() <= capacity(), empty() iff size()=0, full() iff size()=capacity(), capacity() never changes except through resize, push on a non-full buffer increases size by one, on a full buffer leaves it unchanged, and pop decreases it by one.", "quantifier": "every capacity, every finite operation history", "why_tests_cant": "sizes must be right in every reachable state, including those after many wrap-arounds", "anchors": ["include/edsp/types/ring_buffer.hpp: size, empty, full, capacity, resize", "include/edsp/thirdparty/nonstd/ring_span.hpp: size, empty, full, capacity"]}
{"id": "C03", "title": "Ring buffer iteration visits the contents once, oldest first", "statement": "Iterating from begin() to end() visits exactly size() elements, the i-th being the i-th oldest element, for every reachable state; end()-begin() equals size().", "quantifier": "every reachable ring buffer state", "why_tests_cant": "the iterator indexes through the wrap point; every front index/size combination must be right", "anchors": ["include/edsp/types/ring_buffer.hpp: begin, end", "include/edsp/thirdparty/nonstd/ring_span.hpp: ring_iterator"]}
{"id": "C04", "title": "Ring buffer never touches memory outside its storage", "statement": "No operation history on a buffer of positive capacity ever reads or writes a storage cell outside [0,capacity), provided pops/front/back are applied to non-empty buffers; on an empty buffer, and on a buffer of capacity 0, the same calls have undefined behaviour.", "quantifier": "every capacity and every finite operation history", "why_tests_cant": "absence of an out-of-range access is a statement about all histories", "anchors": ["include/edsp/thirdparty/nonstd/ring_span.hpp: at, front_, back_, normalize_, increment_front_, decrement_front_", "include/edsp/types/ring_buffer.hpp"]}
{"id": "C05", "title": "Moving average filter outputs the mean of the last N samples", "statement": "A freshly constructed moving_average of window N>0 returns for the k-th sample the arithmetic mean of the last N samples, counting missing history as zeros.", "quantifier": "every window size N>0 and every (arbitrarily long) real sample stream, exact arithmetic", "why_tests_cant": "the running-sum implementation accumulates state; equality with the windowed mean has to hold for every stream length and wrap", "anchors": ["include/edsp/filter/moving_average_filter.hpp: moving_average::operator(), filter"]}
{"id": "C06", "title": "Moving RMS filter outputs the RMS of the last N samples", "statement": "A freshly constructed moving_rms of window N>0 returns for the k-th sample the square root of the mean of the squares of the last N samples (missing history = zeros).", "quantifier": "every window size N>0 and every real sample stream, exact arithmetic", "why_tests_cant": "as for the moving average: the running sum must never drift from the true windowed sum", "anchors": ["include/edsp/filter/moving_rms_filter.hpp: moving_rms::operator(), filter"]}
{"id": "C07", "title": "Moving filters after reset() behave like fresh filters", "statement": "After reset() (or resize(M)) a moving average / moving RMS filter produces, for any further input, the same outputs as a freshly constructed filter of that window size.", "quantifier": "every window size, every history before the reset, every stream after it", "why_tests_cant": "the defect shows only for particular histories before the reset; tests exercise a few", "anchors": ["include/edsp/filter/moving_average_filter.hpp: reset, resize", "include/edsp/filter/moving_rms_filter.hpp: reset, resize"]}
{"id": "C08", "title": "Moving median filter outputs the median of the window", "statement": "A moving_median of odd window N returns for every sample the middle order statistic of the last N samples.", "quantifier": "every odd window size and every sample stream", "why_tests_cant": "median must be right for every permutation of window values", "anchors": ["include/edsp/filter/moving_median_filter.hpp: operator()", "include/edsp/statistics/median.hpp: median"]}
{"id": "C09", "title": "Biquad realises its difference equation", "statement": "From a freshly constructed or reset state, a biquad built from (a0,a1,a2,b0,b1,b2), a0<>0, outputs for every n: a0*y[n] = b0*x[n]+b1*x[n-1]+b2*x[n-2]-a1*y[n-1]-a2*y[n-2], with x and y zero before the start.", "quantifier": "every coefficient set with a0<>0 and every input stream, exact arithmetic", "why_tests_cant": "the transposed form stores mixed state; equivalence with the difference equation is an induction over the stream", "anchors": ["include/edsp/filter/biquad.hpp: biquad(a0,a1,a2,b0,b1,b2), tick, operator(), filter, reset"]}
{"id": "C10", "title": "Biquad filtering is linear and time invariant", "statement": "From the reset state, filtering a*x+b*y gives a*F(x)+b*F(y), prefixing k zeros to the input prefixes k zeros to the output, and output n depends only on inputs 0..n (causality).", "quantifier": "every coefficient set, all input streams, all scalars, all delays", "why_tests_cant": "linearity/time invariance are universally quantified over signals", "anchors": ["include/edsp/filter/biquad.hpp: tick, filter"]}
{"id": "C11", "title": "Biquad block processing is independent of chunking and in-place safe", "statement": "Filtering a signal in any sequence of consecutive blocks gives the same output as filtering it in one call; reset() afterwards makes the filter behave exactly like a newly constructed one with the same coefficients.", "quantifier": "every coefficient set, every signal, every way of cutting it into blocks", "why_tests_cant": "there are exponentially many ways to cut a signal into blocks", "anchors": ["include/edsp/filter/biquad.hpp: filter, operator(), reset", "include/edsp/filter/biquad_cascade.hpp: filter, reset"]}
{"id": "C12", "title": "Biquad stability() is exactly 'both poles inside the unit circle'", "statement": "stability() returns true if and only if every complex root z of z^2 + a1 z + a2 (normalised coefficients) satisfies |z| < 1.", "quantifier": "every pair of real coefficients a1, a2 and every complex root", "why_tests_cant": "the coefficient plane is continuous; the stability triangle must be right everywhere including real and complex root cases", "anchors": ["include/edsp/filter/biquad.hpp: stability, operator bool"]}
{"id": "C13", "title": "A biquad reported stable never blows up", "statement": "If stability() is true then there is a bound G, depending only on the coefficients, such that for every input bounded by M every output is bounded by G*M, for all time.", "quantifier": "every stable coefficient set, every bounded input stream of any length", "why_tests_cant": "BIBO stability quantifies over infinitely long inputs", "anchors": ["include/edsp/filter/biquad.hpp: stability, tick"]}
{"id": "C14", "title": "Biquad cascade is the in-order composition of its stages", "statement": "A biquad_cascade filters like feeding each sample through its stages in insertion order; size() is the number of pushed stages (<= capacity), the order of stages does not matter for the output from the reset state, and reset() resets every stage while clear() empties the cascade.", "quantifier": "every number of stages up to the capacity, all coefficients, all input streams", "why_tests_cant": "composition must hold for every number of stages and every stream", "anchors": ["include/edsp/filter/biquad_cascade.hpp: push_back, emplace_back, tick, filter, reset, clear, size"]}
{"id": "C15", "title": "First-order section built from a pole and a zero has that pole and that zero", "statement": "biquad(pole, zero) realises the transfer function (1 - zero z^-1)/(1 - pole z^-1) up to a positive gain.", "quantifier": "every real pole/zero pair", "why_tests_cant": "the coefficient swap is invisible for the zero at -1 used by low-pass designs", "anchors": ["include/edsp/filter/biquad.hpp: biquad(const complex&, const complex&)"]}
{"id": "C16", "title": "RBJ cookbook designs are stable and meet their reference gains", "statement": "For every 0 < fc < fs/2 and Q > 0 (and every gain_db for shelves) the RBJ designer returns a biquad whose poles are inside the unit circle, with: low-pass DC gain 1 and Nyquist gain 0; high-pass the converse; band-pass gain 0 at DC and Nyquist; all-pass magnitude 1 at every frequency; shelves gain 10^(gain_db/20) on the shelf side and 1 on the other side.", "quantifier": "every sample rate, corner frequency below Nyquist, Q and gain", "why_tests_cant": "frequencies, Q and gains are continuous parameters", "anchors": ["include/edsp/filter/internal/rbj_designer.hpp: RBJFilterDesigner"]}
{"id": "C17", "title": "Zoelzer designs are stable and meet their reference gains", "statement": "For every 0 < fc < fs/2, Q > 0 and gain_db the Zoelzer designer returns a stable biquad with: low-pass DC gain 1, Nyquist gain 0; high-pass the converse; band-pass 0 at both ends and peak 1 at fc; low shelf DC gain 10^(gain_db/20), Nyquist gain 1; high shelf the converse.", "quantifier": "every sample rate, corner frequency, Q and gain", "why_tests_cant": "continuous parameters; the cut branch of the high shelf is a separate code path", "anchors": ["include/edsp/filter/internal/zoelzer_designer.hpp: ZoelzerFilterDesigner"]}
{"id": "C18", "title": "Butterworth low/high-pass designs are stable at every order", "statement": "For every order n>=1 and 0 < fc < fs/2 the Butterworth low-pass and high-pass designer returns a cascade of exactly ceil(n/2) second-order sections, each reported stable, whose gain at the reference frequency (DC resp. Nyquist) is 1.", "quantifier": "every order within the template capacity, every sample rate and cutoff", "why_tests_cant": "orders and frequencies are unbounded parameters", "anchors": ["include/edsp/filter/internal/butterworth_designer.hpp", "include/edsp/filter/internal/abstract_designer.hpp", "include/edsp/filter/internal/bilinear/lowpass_transformer.hpp", "include/edsp/filter/internal/bilinear/highpass_transformer.hpp"]}
{"id": "C19", "title": "Clipping and clipped amplification stay in range", "statement": "clipper and the clipped amplifier produce, for min <= max, only values in [min,max], leave values already in range unchanged (after scaling), are monotone, and clipper is idempotent.", "quantifier": "every input sequence, factor and bounds min<=max", "why_tests_cant": "range guarantees are universally quantified over sample values", "anchors": ["include/edsp/algorithm/clipper.hpp: clipper", "include/edsp/algorithm/amplifier.hpp: amplifier"]}
{"id": "C20", "title": "Element-wise algorithms keep length and order", "statement": "amplifier, clipper, ceil, floor, round, fix, rectify write exactly one output per input, output i depending only on input i; floor(x)<=x<floor(x)+1, ceil(x)-1<x<=ceil(x), |round(x)-x|<=1/2, fix truncates towards zero, rectify is |x|.", "quantifier": "every input sequence", "why_tests_cant": "all lengths and all values", "anchors": ["include/edsp/algorithm/floor.hpp", "include/edsp/algorithm/ceil.hpp", "include/edsp/algorithm/round.hpp", "include/edsp/algorithm/fix.hpp", "include/edsp/algorithm/rectify.hpp"]}
{"id": "C21", "title": "binary_search finds exactly the present values", "statement": "On a sorted range binary_search returns the position of the first element equal to the value if there is one, and last otherwise.", "quantifier": "every sorted sequence and every value", "why_tests_cant": "correctness of a search is universally quantified over sequences and values", "anchors": ["include/edsp/algorithm/binary_search.hpp: binary_search"]}
{"id": "C22", "title": "linear_search / index_of return the first occurrence", "statement": "linear_search returns the first position holding the value or last; index_of returns that position as an integer or -1; index_of is non-negative iff the value is contained.", "quantifier": "every sequence (of length below 2^31 for index_of) and value", "why_tests_cant": "first-occurrence semantics over all sequences", "anchors": ["include/edsp/algorithm/linear_search.hpp", "include/edsp/algorithm/indexof.hpp", "include/edsp/meta/contains.hpp"]}
{"id": "C23", "title": "linspace produces N evenly spaced points including both ends", "statement": "linspace(x1,x2,N), N>=2, writes exactly N values, the i-th being x1 + i*(x2-x1)/(N-1): the first is x1, the last is x2; logspace writes 10 to those exponents.", "quantifier": "every x1, x2 and N", "why_tests_cant": "the accumulation loop must land on x2 for every N", "anchors": ["include/edsp/algorithm/linspace.hpp", "include/edsp/algorithm/logspace.hpp"]}
{"id": "C24", "title": "padder and concatenate copy faithfully", "statement": "padder writes the input followed by zeros and fills exactly the destination when it is at least as long as the input; concatenate writes the first then the second range.", "quantifier": "every input and destination length", "why_tests_cant": "all length combinations", "anchors": ["include/edsp/algorithm/padder.hpp", "include/edsp/algorithm/concatenate.hpp"]}
{"id": "C25", "title": "normalize scales the peak to one", "statement": "For an input that is not identically zero normalize outputs values in [-1,1], at least one with magnitude 1, proportional to the input with a positive factor; an all-zero input has no finite result.", "quantifier": "every non-empty input", "why_tests_cant": "every signal", "anchors": ["include/edsp/algorithm/normalize.hpp: normalize"]}
{"id": "C26", "title": "is_power_two decides powers of two", "statement": "For every value in the signed 32-bit range above its minimum, is_power_two(x) is true iff x = 2^k for some k>=0.", "quantifier": "every 32-bit integer except INT32_MIN", "why_tests_cant": "2^32 inputs, bit-trick correctness", "anchors": ["include/edsp/math/numeric.hpp: is_power_two"]}
{"id": "C27", "title": "next_power_two returns the smallest power of two not below x", "statement": "For every 1 <= x <= 2^30 next_power_two(x) is the least power of two >= x; for negative x it is 0.", "quantifier": "every integer in the stated range", "why_tests_cant": "bit smearing must be right for every bit pattern", "anchors": ["include/edsp/math/numeric.hpp: next_power_two"]}
{"id": "C28", "title": "is_prime decides primality", "statement": "is_prime(n) is true iff n is prime.", "quantifier": "every unsigned 64-bit n", "why_tests_cant": "infinitely many primes / composites", "anchors": ["include/edsp/math/numeric.hpp: is_prime"]}
{"id": "C29", "title": "is_odd / is_even partition the integers", "statement": "For every integer exactly one of is_odd, is_even holds, is_odd(x) holds iff x is odd and is_even(x) iff x is a multiple of two.", "quantifier": "every integer, including negatives", "why_tests_cant": "sign handling of the C++ remainder", "anchors": ["include/edsp/math/numeric.hpp: is_odd, is_even"]}
{"id": "C30", "title": "Cosine-sum windows are symmetric and bounded", "statement": "hanning, hamming, blackman, blackman_harris, blackman_nutall and flattop windows of size N>=2 satisfy w[i] = w[N-1-i]; hanning, hamming and blackman values lie in [0,1]; all are bounded by the sum of the coefficient magnitudes.", "quantifier": "every size N>=2 and every index", "why_tests_cant": "all sizes and indices", "anchors": ["include/edsp/windowing/hanning.hpp", "include/edsp/windowing/hamming.hpp", "include/edsp/windowing/blackman.hpp", "include/edsp/windowing/blackman_harris.hpp", "include/edsp/windowing/blackman_nuttall.hpp", "include/edsp/windowing/flattop.hpp"]}
{"id": "C31", "title": "Bartlett, triangular and Welch windows are symmetric and bounded", "statement": "bartlett, triangular and welch windows of size N>=2 satisfy w[i]=w[N-1-i] and 0<=w[i]<=1.", "quantifier": "every size N>=2 and every index", "why_tests_cant": "parity-dependent code: even and odd sizes, and sizes modulo 4, behave differently", "anchors": ["include/edsp/windowing/bartlett.hpp", "include/edsp/windowing/triangular.hpp", "include/edsp/windowing/welch.hpp"]}
{"id": "C32", "title": "Mean, min and max are consistent", "statement": "For every non-empty input min <= mean <= max, both min and max are attained, and maxabs/minabs bound and attain the magnitudes; the mean of a scaled and shifted signal is the scaled and shifted mean.", "quantifier": "every non-empty input", "why_tests_cant": "universally quantified over data", "anchors": ["include/edsp/statistics/mean.hpp", "include/edsp/statistics/min.hpp", "include/edsp/statistics/max.hpp"]}
{"id": "C33", "title": "Variance, skewness and kurtosis obey their definitions and invariances", "statement": "variance is the mean squared deviation: non-negative, zero iff the signal is constant, shift invariant, quadratic under scaling, equal to mean of squares minus square of mean; skewness and kurtosis of non-constant signals are invariant under positive affine maps and kurtosis >= 1 (and >= skewness^2 + 1).", "quantifier": "every non-empty (non-constant) input and every affine map", "why_tests_cant": "universal algebraic laws", "anchors": ["include/edsp/statistics/variance.hpp", "include/edsp/statistics/moment.hpp", "include/edsp/statistics/skewness.hpp", "include/edsp/statistics/kurtosis.hpp"]}
{"id": "C34", "title": "Harmonic <= geometric <= arithmetic mean", "statement": "For every non-empty sequence of positive numbers harmonic_mean <= geometric_mean <= mean, with all three between min and max, and flatness lies in (0,1].", "quantifier": "every non-empty positive sequence", "why_tests_cant": "an inequality over all sequences of all lengths", "anchors": ["include/edsp/statistics/harmonic_mean.hpp", "include/edsp/statistics/geometric_mean.hpp", "include/edsp/statistics/mean.hpp", "include/edsp/feature/statistics/flatness.hpp"]}
{"id": "C35", "title": "peak returns the first position of the maximum", "statement": "peak returns (index,value) where value is the maximum, value = x[index], and no earlier element equals it.", "quantifier": "every non-empty input", "why_tests_cant": "ties and positions over all inputs", "anchors": ["include/edsp/statistics/peak.hpp: peak, peakabs", "bindings/c/src/statistics.c: peak_abs"]}
{"id": "C36", "title": "Energy, power, RMS and RSSQ agree with each other", "statement": "For every non-empty signal energy = sum of squares, power = energy/N, rms = sqrt(power), rssq = sqrt(energy).", "quantifier": "every non-empty input", "why_tests_cant": "the identities must hold for all signals", "anchors": ["include/edsp/feature/temporal/energy.hpp", "include/edsp/feature/temporal/power.hpp", "include/edsp/feature/temporal/rms.hpp", "include/edsp/feature/temporal/rssq.hpp"]}
{"id": "C37", "title": "Zero crossing rate is a normalised count of sign changes", "statement": "azcr of a signal of length N>=2 is (number of i with sign change between x[i] and x[i+1])/(N-1), lies in [0,1] and is invariant under scaling by a non-zero factor.", "quantifier": "every signal of length >= 2", "why_tests_cant": "all sign patterns", "anchors": ["include/edsp/feature/temporal/azcr.hpp"]}
{"id": "C38", "title": "AMDF and ASDF measure self-difference", "statement": "amdf/asdf write one value per lag, lag 0 gives 0, all values are non-negative, and value at lag k is (1/N) times the sum over j<N-k of |x[j]-x[j+k]| (resp. squared).", "quantifier": "every input and every lag", "why_tests_cant": "all lags and lengths", "anchors": ["include/edsp/feature/temporal/amdf.hpp", "include/edsp/feature/temporal/asdf.hpp"]}
{"id": "C39", "title": "Spectral slope is the linear-regression slope", "statement": "spectral slope returns (N*sum(f*m) - sum f * sum m)/(N*sum f^2 - (sum f)^2)/sum m.", "quantifier": "every spectrum", "why_tests_cant": "numeric feature over all spectra", "anchors": ["include/edsp/feature/statistics/slope.hpp", "include/edsp/feature/spectral/spectral_slope.hpp"]}
{"id": "C40", "title": "Spectral flux, variation, decrease and irregularity are the documented functionals", "statement": "flux, variation, decrease and irregularity equal their documented formulas on every pair of spectra / spectrum.", "quantifier": "every spectrum", "why_tests_cant": "numeric feature over all spectra", "anchors": ["include/edsp/feature/statistics/flux.hpp", "include/edsp/feature/statistics/variation.hpp", "include/edsp/feature/statistics/decrease.hpp", "include/edsp/feature/spectral/spectral_irregularity.hpp"]}
{"id": "C41", "title": "Centroid and spread describe the distribution's mean and standard deviation", "statement": "For non-negative magnitudes with positive sum the weighted centroid lies between the smallest and largest centre, spread is non-negative and zero iff all mass sits at one centre, and both are invariant under scaling the magnitudes.", "quantifier": "every magnitude vector with positive sum", "why_tests_cant": "universal inequalities", "anchors": ["include/edsp/feature/statistics/centroid.hpp", "include/edsp/feature/statistics/spread.hpp"]}
{"id": "C42", "title": "String split and join are inverse", "statement": "join then split on the same delimiter gives back the list of items when no item is empty or contains the delimiter; split never returns empty items nor items containing the delimiter; concatenating the items of split gives the input without delimiters.", "quantifier": "every list of strings and delimiter", "why_tests_cant": "round-trip over all strings", "anchors": ["include/edsp/string/split.hpp", "include/edsp/string/join.hpp"]}
{"id": "C43", "title": "trim removes exactly the surrounding white space", "statement": "trim returns the unique substring without leading/trailing white space such that the input is ws ++ result ++ ws; trim is idempotent and ltrim/rtrim commute.", "quantifier": "every string", "why_tests_cant": "all strings", "anchors": ["include/edsp/string/trim.hpp"]}
{"id": "C44", "title": "Decibel and angle conversions are inverse of each other", "statement": "db2mag(mag2db m)=m and db2pow(pow2db p)=p for positive m,p, mag2db(db2mag d)=d and pow2db(db2pow d)=d for all d; deg2rad and rad2deg are mutually inverse; all four are strictly increasing.", "quantifier": "every real (positive) argument", "why_tests_cant": "round trip over a continuum", "anchors": ["include/edsp/converter/db2mag.hpp", "include/edsp/converter/mag2db.hpp", "include/edsp/converter/db2pow.hpp", "include/edsp/converter/pow2db.hpp", "include/edsp/converter/deg2rad.hpp", "include/edsp/converter/rad2deg.hpp"]}
{"id": "C45", "title": "Mel, ERB and Bark conversions are strictly increasing bijections", "statement": "hertz2mel/mel2hertz and hertz2erb/erb2hertz are mutually inverse on non-negative frequencies and strictly increasing; hertz2bark is strictly increasing on non-negative frequencies and bark2hertz inverts it on all three pieces.", "quantifier": "every non-negative frequency", "why_tests_cant": "piecewise functions over a continuum, the break points are where bugs sit", "anchors": ["include/edsp/auditory/converter/hertz2mel.hpp", "include/edsp/auditory/converter/mel2hertz.hpp", "include/edsp/auditory/converter/hertz2erb.hpp", "include/edsp/auditory/converter/erb2hertz.hpp", "include/edsp/auditory/converter/hertz2bark.hpp", "include/edsp/auditory/converter/bark2hertz.hpp"]}
{"id": "C46", "title": "Cent conversion is invertible", "statement": "cent2hertz(hertz2cent f) = f for every positive frequency.", "quantifier": "every positive frequency", "why_tests_cant": "fails only in a low-frequency region", "anchors": ["include/edsp/auditory/converter/hertz2cent.hpp", "include/edsp/auditory/converter/cent2hertz.hpp"]}
{"id": "C47", "title": "Oscillators stay within their amplitude and are periodic", "statement": "Every sample of the sine, square, sawtooth and triangular oscillators lies in [-A,A]; sample n equals the ideal waveform at time n/fs; output repeats when the timestamp advances by a whole number of periods.", "quantifier": "every amplitude, frequency, phase, sample rate and sample number", "why_tests_cant": "infinite sample streams", "anchors": ["include/edsp/oscillators/sinusoidal.hpp", "include/edsp/oscillators/square.hpp", "include/edsp/oscillators/sawtooth.hpp", "include/edsp/oscillators/triangular.hpp"]}
{"id": "C48", "title": "Changing an oscillator's frequency changes its period and keeps its duty cycle", "statement": "After set_frequency(f) the square oscillator has period 1/f and duty() still reports the configured duty cycle.", "quantifier": "every oscillator history and new frequency", "why_tests_cant": "stale cached state depends on the call history", "anchors": ["include/edsp/oscillators/sinusoidal.hpp: set_frequency", "include/edsp/oscillators/square.hpp: set_duty, duty, operator()"]}
{"id": "C49", "title": "ADSR envelope stays in range and follows its state machine", "statement": "From construction, for every sequence of key_on, key_off, parameter setting and sample requests the ADSR output stays in [0,1] (levels in [0,1], positive times); after key_off it is non-increasing and reaches idle (exactly 0) after finitely many samples; while idle it outputs 0.", "quantifier": "every history of calls", "why_tests_cant": "state machine over unbounded histories", "anchors": ["include/edsp/experimental/envelope/adsr.hpp"]}
{"id": "C50", "title": "Attack/release envelope follower smooths its input", "statement": "The attack and release time setters influence the follower: with positive times the output after a step is strictly between the previous and the new level.", "quantifier": "every history of setters and inputs", "why_tests_cant": "stale-gate bug needs an invariant over histories", "anchors": ["include/edsp/experimental/envelope/ar.hpp"]}
{"id": "C51", "title": "DFT and inverse DFT are mutually inverse", "statement": "idft(dft x) = x for every real signal of even length and cidft(cdft x) = x for every complex signal of any positive length; the real round trip returns a signal of different length when the length is odd.", "quantifier": "every signal and length", "why_tests_cant": "all lengths and signals", "anchors": ["include/edsp/spectral/dft.hpp", "include/edsp/spectral/internal/libfftw_impl.hpp", "include/edsp/spectral/fft_engine.hpp"]}
{"id": "C52", "title": "conv computes the first N samples of the linear convolution", "statement": "conv of two length-N signals writes out[k] = sum_{j<=k} x[j]*y[k-j] for k<N, with no circular wrap-around contribution.", "quantifier": "every N and every pair of signals", "why_tests_cant": "the zero-padding argument must hold for all N", "anchors": ["include/edsp/spectral/convolution.hpp"]}
{"id": "C53", "title": "xcorr computes the cross-correlation with the selected normalisation", "statement": "xcorr of two length-N signals writes out[k] = sum_j x[j+k]*y[j] (unnormalised), divided by N for Biased and by N-k for Unbiased.", "quantifier": "every N, every pair of signals, every lag, each scale option", "why_tests_cant": "all lags and normalisations", "anchors": ["include/edsp/spectral/correlation.hpp"]}
{"id": "C54", "title": "hilbert returns an analytic signal whose real part is the input", "statement": "For every real signal the real part of hilbert's output equals the input, and its spectrum vanishes at negative frequencies.", "quantifier": "every length and every signal", "why_tests_cant": "parity-dependent limits, all lengths", "anchors": ["include/edsp/spectral/hilbert.hpp"]}
{"id": "C55", "title": "DCT followed by inverse DCT is the identity", "statement": "idct(dct x) = x for every signal (FFTW back end: every length; built-in Lee DCT: every power-of-two length), and the built-in Lee DCT equals the DCT-II definition.", "quantifier": "every length and every signal", "why_tests_cant": "recursive fast transform must be right at every size", "anchors": ["include/edsp/spectral/dct.hpp", "include/edsp/spectral/internal/libfftw_impl.hpp", "include/edsp/spectral/internal/libpffft_impl.hpp: forward_transform, inverse_transform, dct, idct"]}
{"id": "C56", "title": "A transform engine performs the transform that is asked for", "statement": "Each call on an FFT engine performs the transform named by the call, whatever calls preceded it on the same engine.", "quantifier": "every call history on one engine", "why_tests_cant": "plan caching bug depends on the call history", "anchors": ["include/edsp/spectral/internal/libfftw_impl.hpp: fftw_impl", "include/edsp/spectral/fft_engine.hpp"]}
{"id": "C57", "title": "decoder.read returns the next samples of the file, in order, without gaps", "statement": "read(first,last) on an open mono decoder stores the next min(distance, remaining) samples of the stream in order and returns that count, for every buffer size N>0 and request size; consecutive reads return consecutive samples.", "quantifier": "every file content, request size and internal block size", "why_tests_cant": "chunk boundary conditions over all sizes", "anchors": ["include/edsp/io/decoder.hpp: read", "include/edsp/io/internal/decoder/libsndfile_decoder_impl.hpp: read", "include/edsp/io/internal/decoder/libaudiofile_decoder_impl.hpp: read"]}
{"id": "C58", "title": "File handles are closed exactly once and is_open tracks them", "statement": "Over every history of open/close calls ending in destruction every successfully opened handle is closed exactly once, no closed handle is used, and is_open() is true iff a handle is open.", "quantifier": "every call history, every success/failure pattern of the OS", "why_tests_cant": "resource lifetimes over all histories", "anchors": ["include/edsp/io/internal/decoder/libsndfile_decoder_impl.hpp", "include/edsp/io/internal/decoder/libaudiofile_decoder_impl.hpp", "include/edsp/io/internal/encoder/libsndfile_encoder_impl.hpp"]}
{"id": "C59", "title": "mu-law compression is undone by its inverse", "statement": "The inverse mu-law quantizer undoes the mu-law compressor on [-max,max].", "quantifier": "every sample value in range, every compression factor", "why_tests_cant": "round trip over a continuum", "anchors": ["include/edsp/experimental/quantizer/mu_law_compressor.hpp"]}
{"id": "C60", "title": "Noise generators stay in their documented range", "statement": "If the white-noise source stays in [-1,1] the brown and pink generators stay within fixed bounds for ever.", "quantifier": "every sequence of white-noise samples", "why_tests_cant": "feedback state over unbounded streams", "anchors": ["include/edsp/random/noise/brown_noise_generator.hpp", "include/edsp/random/noise/pink_noise_generator.hpp"]}
{"id": "C61", "title": "Biquad coefficient setters take effect", "statement": "After set_a1/set_a2/set_b0/set_b1/set_b2/set_a0 the filter starts again from rest and obeys the difference equation with the new coefficient (and the other coefficients unchanged).", "quantifier": "every biquad, every new value, every input stream", "why_tests_cant": "the effect must be right for every coefficient set and every continuation", "anchors": ["include/edsp/filter/biquad.hpp: set_a0, set_a1, set_a2, set_b0, set_b1, set_b2"]}
{"id": "C62", "title": "A biquad built from pole/zero pairs has exactly those poles and zeros", "statement": "biquad(p1,z1,p2,z2) built from real or conjugate pairs has the transfer function (z-z1)(z-z2)/((z-p1)(z-p2)); other pairs violate the checked precondition.", "quantifier": "all complex pole and zero pairs", "why_tests_cant": "an identity over all complex numbers", "anchors": ["include/edsp/filter/biquad.hpp: biquad(pole_first, zero_first, pole_second, zero_second)"]}
{"id": "C63", "title": "Butterworth magnitude response is maximally flat at every order", "statement": "For every order n within the capacity and 0<fc<fs/2 the low-pass (high-pass) Butterworth cascade has squared magnitude 1/(1+r^(2n)) at every frequency f below Nyquist, r being the ratio tan(pi f/fs)/tan(pi fc/fs) (inverted for the high-pass); in particular 1/2 at the cutoff.", "quantifier": "every order, sample rate, cutoff and evaluation frequency", "why_tests_cant": "a response is a function of a continuous frequency and an unbounded order", "anchors": ["include/edsp/filter/internal/butterworth_designer.hpp", "include/edsp/filter/internal/abstract_designer.hpp", "include/edsp/filter/internal/bilinear/lowpass_transformer.hpp", "include/edsp/filter/internal/bilinear/highpass_transformer.hpp"]}
{"id": "C64", "title": "Butterworth shelves reach the requested gain", "statement": "For every order, cutoff and gain in dB (positive or negative) the Butterworth low (high) shelf is stable, has gain 10^(gain/20) at DC (Nyquist), unit magnitude at the other end and squared magnitude (V+r^(2n))/(1/V+r^(2n)) in between.", "quantifier": "every order, sample rate, cutoff, gain and evaluation frequency", "why_tests_cant": "continuous parameters and unbounded order", "anchors": ["include/edsp/filter/internal/butterworth_designer.hpp", "include/edsp/filter/internal/abstract_designer.hpp"]}
{"id": "C65", "title": "derivative takes first differences and is undone by running sums", "statement": "derivative copies the first sample, writes x[i]-x[i-1] elsewhere, may run in place, and the running sums of its output restore the input; equal is true exactly when both ranges have the same length and all pairs match.", "quantifier": "every input sequence, including in-place use", "why_tests_cant": "the claim ranges over all lengths and overlaps of source and destination", "anchors": ["include/edsp/algorithm/derivative.hpp:derivative", "include/edsp/algorithm/equal.hpp:equal"]}
{"id": "C66", "title": "Power means and the L2 norm", "statement": "generalized_mean(x,b) of positive data lies between min and max and its b-th power is the mean of the b-th powers; orders 1, -1 and 2 are the arithmetic, harmonic and quadratic mean and order 0 (as a limit) the geometric mean; norm is a norm: zero only for the zero signal, absolutely homogeneous, with square the sum of squares.", "quantifier": "every non-empty positive sequence and order; every sequence for norm", "why_tests_cant": "inequalities over all sequences and all orders", "anchors": ["include/edsp/statistics/generalized_mean.hpp:generalized_mean", "include/edsp/statistics/norm.hpp:norm"]}
{"id": "C67", "title": "Crest, entropy and roll-off lie in their ranges", "statement": "crest of a non-zero signal is in [1/N,1]; entropy of a probability mass function is in [0,1] and 1 for the uniform one; spectral entropy is the entropy of the normalised spectrum; roll-off is the first position where the accumulated energy exceeds the requested share, over N.", "quantifier": "every signal / spectrum / probability mass function and share in [0,1)", "why_tests_cant": "inequalities over all inputs of all lengths", "anchors": ["include/edsp/feature/statistics/crest.hpp:crest", "include/edsp/feature/statistics/entropy.hpp:entropy", "include/edsp/feature/spectral/spectral_entropy.hpp:spectral_entropy", "include/edsp/feature/statistics/rolloff.hpp:rolloff"]}
{"id": "C68", "title": "Durations, level, silence and loudness follow energy", "statement": "duration is N/fs; effective_duration counts the samples above the threshold share of the peak; leq is the power in dB (no value for a silent signal); silence compares power with the threshold; loudness is non-negative and zero only for a silent signal.", "quantifier": "every signal, sample rate and threshold", "why_tests_cant": "the claims quantify over all signals and thresholds", "anchors": ["include/edsp/feature/temporal/duration.hpp:effective_duration", "include/edsp/feature/temporal/leq.hpp:leq", "include/edsp/algorithm/silence.hpp:silence", "include/edsp/feature/perceptual/loudness.hpp:loudness"]}
{"id": "C69", "title": "snr is the variance ratio of signal and noise in dB", "statement": "snr(first1,last1,first2) is 10 log10 of the variance of the first signal over the variance of the difference of the two signals, wherever the two signals are stored.", "quantifier": "every pair of signals and every placement in memory", "why_tests_cant": "the placement of the two ranges in memory is unbounded", "anchors": ["include/edsp/feature/temporal/snr.hpp:snr"]}
{"id": "C70", "title": "peak2peak and peak2rms are peak measures", "statement": "peak2peak is maximum minus minimum; peak2rms is the largest magnitude over the RMS value.", "quantifier": "every non-empty signal", "why_tests_cant": "ranges over all signals", "anchors": ["include/edsp/converter/peak2peak.hpp:peak2peak", "include/edsp/converter/peak2rms.hpp:peak2rms"]}
{"id": "C71", "title": "Scalar helpers and floating-point classification", "statement": "fract(x) lies in [0,1), differs from x by an integer and is 1-periodic; inv, half and square are the reciprocal, half and square; for every double exactly one of is_nan, is_inf, is_zero, is_denormal, is_normal holds, namely the one of its IEEE class; sign is -1 exactly for negative numbers and 1 otherwise (also for both zeros and NaN).", "quantifier": "every real / every IEEE double", "why_tests_cant": "2^64 bit patterns; universally quantified reals", "anchors": ["include/edsp/math/numeric.hpp: fract, inv, half, square, is_nan, is_inf, is_zero, is_denormal, is_normal, sign"]}
{"id": "C72", "title": "Case conversion changes letters only", "statement": "to_lower and to_upper keep the length, map each ASCII letter to the other case form and leave every other character as it is; they are total on every char value.", "quantifier": "every string", "why_tests_cant": "all strings, and the characters above 127 are rarely in tests", "anchors": ["include/edsp/string/to_lower.hpp", "include/edsp/string/to_upper.hpp"]}
{"id": "C73", "title": "Auditory spaces are uniform on their scale", "statement": "melspace, erbspace, barkspace and centspace fill the range with n values that start and end at the converted limits and are equally spaced on the named scale.", "quantifier": "every range, size and limits", "why_tests_cant": "a wrong interior spacing is invisible at the end points", "anchors": ["include/edsp/auditory/melspace.hpp", "include/edsp/auditory/erbspace.hpp", "include/edsp/auditory/barkspace.hpp", "include/edsp/auditory/centspace.hpp"]}
{"id": "C74", "title": "Real/complex conversions are inverse", "statement": "Splitting a complex sequence into its real and imaginary parts and joining them gives the sequence back, and joining then splitting gives the two parts back; joining real data alone gives zero imaginary parts.", "quantifier": "every sequence", "why_tests_cant": "all sequences", "anchors": ["include/edsp/converter/complex2real.hpp", "include/edsp/converter/real2complex.hpp"]}
{"id": "C75", "title": "Every ADSR note follows the configured contour", "statement": "After key_on the level rises at the attack rate to exactly the configured attack target, then moves at the decay rate to the sustain level and stays there; this holds for every note, not only the first.", "quantifier": "every parameter setting, note number and sample number", "why_tests_cant": "the second note behaves differently from the first, and the contour is unbounded in length", "anchors": ["include/edsp/experimental/envelope/adsr.hpp: key_on, key_off, operator()"]}
{"id": "C76", "title": "ADSR parameters read back as they were set", "statement": "attack_time, decay_time and release_time return the configured time, also after any number of sample-rate changes; release_rate returns the configured release rate.", "quantifier": "every history of setters", "why_tests_cant": "depends on the order of setter calls", "anchors": ["include/edsp/experimental/envelope/adsr.hpp: set_sample_rate, attack_time, decay_time, release_time, release_rate"]}
{"id": "C77", "title": "Seeking then reading starts at the requested frame", "statement": "After decoder.seek(p) with p between 0 and the number of frames, seek returns p, current() is p, and the next read delivers the samples from frame p on and advances current() by the frames read; any other p gives -1 and leaves the position alone.", "quantifier": "all files, positions, request sizes", "why_tests_cant": "A test seeks to a few positions.", "anchors": ["include/edsp/io/internal/decoder/libsndfile_decoder_impl.hpp: seek, current, read"]}
{"id": "C78", "title": "Written blocks read back unchanged", "statement": "Writing any sequence of blocks with encoder.write and reading the file with decoder.read gives back the concatenation of the blocks (formats that store the value type exactly).", "quantifier": "all block sequences, channel counts, read block sizes", "why_tests_cant": "The number of block sequences is unbounded.", "anchors": ["include/edsp/io/internal/encoder/libsndfile_encoder_impl.hpp: write", "include/edsp/io/internal/decoder/libsndfile_decoder_impl.hpp: read"]}
{"id": "C79", "title": "Python I/O wrappers never write outside their arrays", "statement": "The Python resampler and decoder wrappers copy only into arrays that are large enough, for every channel count, ratio and number of samples produced.", "quantifier": "all sizes, channel counts, ratios", "why_tests_cant": "Overflows depend on channel count and library output sizes.", "anchors": ["bindings/python/src/io.cpp: resampler, decoder", "include/edsp/io/internal/resampler/libsamplerate_impl.hpp: process"]}
{"id": "C80", "title": "The spectrum is the squared magnitude of the Fourier transform and carries the energy", "statement": "spectrum(x)[k] is |X_k|^2 for every k up to N/2, and the two-sided sum of the spectrum equals N times the energy of the signal (Parseval).", "quantifier": "all signals and lengths", "why_tests_cant": "Sums over all lengths and signals.", "anchors": ["include/edsp/spectral/spectrum.hpp: spectrum"]}
{"id": "C81", "title": "The Hartley transform follows its definition and inverts itself", "statement": "hartley(x)[k] = sum_j x[j](cos(2*pi*j*k/N)+sin(2*pi*j*k/N)), and applying hartley twice gives N times the input.", "quantifier": "all signals and lengths", "why_tests_cant": "All lengths.", "anchors": ["include/edsp/spectral/hartley.hpp: hartley", "include/edsp/spectral/internal/libfftw_impl.hpp: dht"]}
{"id": "C82", "title": "The cepstrum is the inverse transform of the log magnitude", "statement": "cepstrum(x) is the documented | F^-1{ log |F{x}|^2 } |^2, and is finite exactly when no spectral value vanishes.", "quantifier": "all signals and lengths", "why_tests_cant": "All lengths; zeros of the spectrum are measure-zero inputs that tests miss.", "anchors": ["include/edsp/spectral/cepstrum.hpp: cepstrum"]}
{"id": "C83", "title": "Chebyshev type I filters are equiripple in the passband", "statement": "Designing a Chebyshev type I low-pass or high-pass of any order within the template's capacity yields ceil(order/2) stable sections whose squared magnitude is 1/(1+(10^(ripple/10)-1) T_n(x)^2) at the prewarped frequency ratio x: within the ripple everywhere in the passband, exactly the ripple at the cutoff, strictly falling in the stopband, zero at the far end.", "quantifier": "every order from 1 to the capacity, sample rate, cutoff below Nyquist, positive ripple and frequency, with and without assertions", "why_tests_cant": "a test samples a few orders and frequencies; the equiripple law is a statement about every frequency and every order", "anchors": ["include/edsp/filter/internal/chebyshev_I_designer.hpp: LowPassAnalogDesigner, LowPass, HighPass"]}
{"id": "C84", "title": "Chebyshev type II filters never exceed the stopband attenuation", "statement": "Designing a Chebyshev type II low-pass or high-pass of any order within the capacity yields ceil(order/2) stable sections whose squared magnitude is T_n(y)^2/(T_n(y)^2+10^(stopband/10)-1): never above the requested attenuation in the stopband, exactly it at the cutoff, strictly monotone in the passband and 1 at its far end.", "quantifier": "every order from 1 to the capacity, sample rate, cutoff below Nyquist, positive stopband attenuation and frequency, with and without assertions", "why_tests_cant": "the bound must hold at every stopband frequency for every order; sampling misses the peaks between the zeros", "anchors": ["include/edsp/filter/internal/chebyshev_II_designer.hpp: LowPassAnalogDesigner, LowPass, HighPass"]}
{"id": "C85", "title": "Chebyshev shelves reach the requested gain to within the ripple", "statement": "Designing a Chebyshev low or high shelf yields stable sections whose gain in the shelf region lies between the requested gain and the gain reduced by the ripple, equals the latter at the cutoff, moves strictly towards 0 dB on the other side and is 0 dB at the far end, for every gain and ripple.", "quantifier": "every order from 1 to the capacity, sample rate, cutoff below Nyquist, gain, ripple and frequency", "why_tests_cant": "the claim ranges over real gains, ripples and frequencies, including gains of either sign and ripples above the gain", "anchors": ["include/edsp/filter/internal/chebyshev_I_designer.hpp: LowShelfAnalogDesigner, LowShelfPass, HighShelfPass", "include/edsp/filter/internal/chebyshev_II_designer.hpp: LowShelfAnalogDesigner, LowShelfPass, HighShelfPass"]}
{"id": "C86", "title": "Band-pass filters pass the requested band at unit gain", "statement": "Designing a band-pass filter from a Butterworth, Chebyshev I or Chebyshev II prototype of any order within the capacity yields that many stable second-order sections whose gain is the prototype's gain at the band-transformed frequency: 1 at the centre (within the ripple for Chebyshev), the edge value at both requested edges, falling outside them, and zero at DC and Nyquist.", "quantifier": "every order from 1 to the capacity, sample rate, centre, bandwidth, ripple, attenuation and frequency, with and without assertions", "why_tests_cant": "the claim is about every frequency, order, centre and bandwidth; a test samples a few", "anchors": ["include/edsp/filter/internal/bilinear/bandpass_transformer.hpp: BandPassTransformer", "include/edsp/filter/internal/butterworth_designer.hpp: BandPass", "include/edsp/filter/internal/chebyshev_I_designer.hpp: BandPass", "include/edsp/filter/internal/chebyshev_II_designer.hpp: BandPass"]}
{"id": "C87", "title": "Band-stop filters reject the requested band and nothing else", "statement": "Designing a band-stop filter from a Butterworth, Chebyshev I or Chebyshev II prototype of any order within the capacity yields that many stable second-order sections with the prototype's DC gain at DC and Nyquist, a null inside the band, and the prototype's edge gain exactly at the two requested edges.", "quantifier": "every order from 1 to the capacity, sample rate, centre, bandwidth, ripple, attenuation and frequency, with and without assertions", "why_tests_cant": "the claim is about every frequency, order, centre and bandwidth; a test samples a few", "anchors": ["include/edsp/filter/internal/bilinear/bandstop_transformer.hpp: BandStopTransformer", "include/edsp/filter/internal/butterworth_designer.hpp: BandStopPass", "include/edsp/filter/internal/chebyshev_I_designer.hpp: BandStopPass", "include/edsp/filter/internal/chebyshev_II_designer.hpp: BandStopPass"]}
{"id": "C88", "title": "Band-shelf filters apply the requested gain inside the band only", "statement": "Designing a band-shelf filter from a Butterworth or Chebyshev shelf prototype of any order within the capacity yields that many stable second-order sections with unit gain at DC and Nyquist, the requested gain at the band's centre (within the ripple over the whole band for Chebyshev) and half of it, or the gain less the ripple, in decibels at both requested edges.", "quantifier": "every order from 1 to the capacity, sample rate, centre, bandwidth, gain, ripple and frequency, with and without assertions", "why_tests_cant": "the claim is about every frequency, order, centre, bandwidth and gain; a test samples a few", "anchors": ["include/edsp/filter/internal/butterworth_designer.hpp: BandShelfPass", "include/edsp/filter/internal/chebyshev_I_designer.hpp: BandShelfPass", "include/edsp/filter/internal/chebyshev_II_designer.hpp: BandShelfPass", "include/edsp/filter/internal/bilinear/bandpass_transformer.hpp: BandPassTransformer"]}
{"id": "C89", "title": "Ring buffers are independent values that can be handed over by move", "statement": "In every program that creates, fills, moves, assigns, destroys and uses any number of ring buffers, each buffer that has not been moved from behaves like its own bounded queue: a move hands over exactly the contents, and a moved-from buffer is usable again after clear or resize.", "quantifier": "every history of construction, move construction, move assignment, destruction and calls over any number of buffers", "why_tests_cant": "aliasing bugs appear only under particular interleavings of moves, destructions and calls on several objects", "anchors": ["include/edsp/types/ring_buffer.hpp: ring_buffer", "include/edsp/thirdparty/nonstd/ring_span.hpp: ring_span"]}
{"id": "C90", "title": "A moved-from ring buffer cannot disturb the new owner", "statement": "After a ring buffer has been moved, no call on the moved-from object changes what the new owner observes.", "quantifier": "every buffer contents and every call on the moved-from object", "why_tests_cant": "needs all contents and all later calls", "anchors": ["include/edsp/types/ring_buffer.hpp: ring_buffer", "include/edsp/thirdparty/nonstd/ring_span.hpp: ring_span::operator="]}
{"id": "C91", "title": "Fixed ring buffers are independent values that can be handed over by move", "statement": "In every program over any number of fixed-capacity ring buffers, each behaves like its own bounded queue, including after it has been moved into and its source destroyed.", "quantifier": "every history of construction, move, destruction and calls over any number of fixed ring buffers", "why_tests_cant": "aliasing bugs appear only under particular interleavings of moves, destructions and calls on several objects", "anchors": ["include/edsp/types/fixed_ring_buffer.hpp: fixed_ring_buffer", "include/edsp/thirdparty/nonstd/ring_span.hpp: ring_span"]}
{"id": "C92", "title": "Environment access behaves like a map from names to values", "statement": "For every initial environment, every history of reading, testing and setting variables returns what a map from names to values would: a set value is read back exactly, other variables are untouched, overwriting happens only if asked for, and errors are reported by their documented code.", "quantifier": "every initial environment and every history of calls with valid names, plus every invalid name and view", "why_tests_cant": "needs every environment, every name that is a prefix of another, and every history", "anchors": ["include/edsp/core/system.hpp: system_env", "include/edsp/meta/is_null.hpp: is_null"]}
{"id": "C93", "title": "The C and Python environment functions report missing variables", "statement": "Reading a variable through the C or Python interface gives its value, or the not-found code when it is missing.", "quantifier": "every environment and every valid name", "why_tests_cant": "needs every environment and name, including missing ones", "anchors": ["bindings/c/src/core.c: get_environment", "bindings/python/src/core.cpp: get_environment_python"]}
{"id": "C94", "title": "Build and platform information is truthful", "statement": "The reported version numbers, build date and time, back-end libraries, operating system, processor and compiler are the ones the library was built with.", "quantifier": "every build configuration and every target platform", "why_tests_cant": "a test sees only the configuration it was built in", "anchors": ["include/edsp/core/library_info.hpp: library_info", "bindings/c/src/core.c: get_build_date", "include/edsp/core/system.hpp: system_info", "include/edsp/core/internal/config.hpp"]}
{"id": "C95", "title": "The logger honours its default level and file", "statement": "A message is written exactly when its level reaches the default level, to the configured destination, and messages appear complete and in order.", "quantifier": "every history of settings and messages", "why_tests_cant": "needs every history and every combination of levels", "anchors": ["include/edsp/core/logger.hpp: logger"]}
{"id": "C96", "title": "The logger writes what was streamed", "statement": "Every item streamed into a message appears as its text followed by one space: integers in decimal, strings and views by their characters, tab and line end as themselves.", "quantifier": "every item: all integers, strings, views and manipulators", "why_tests_cant": "needs all values and views", "anchors": ["include/edsp/core/logger.hpp: logger::operator<<", "include/edsp/core/logger.hpp: logger_impl"]}
{"id": "C97", "title": "A Python function of an array computes on the elements of that array", "statement": "Every Python statistic, feature, element-wise function, transform and filter applied to a one-dimensional numpy array gives what the C++ function gives for the array's elements, whatever view of memory the array is; element-wise functions return a new array and leave the input alone; other shapes raise.", "quantifier": "every array: contents, offset, length, stride and element type", "why_tests_cant": "needs every view and every length; a test uses freshly built arrays", "anchors": ["bindings/python/src/statistics.cpp: execute", "bindings/python/src/algorithm.cpp: execute_inplace", "bindings/python/src/feature_statistics.cpp: execute", "bindings/python/src/spectral.cpp: execute"]}
{"id": "C98", "title": "Statistics through the C interface are those of the library", "statement": "peak is the first largest element with its index, peak_abs the first element of greatest magnitude, and moment the central moment of the order asked for.", "quantifier": "every non-empty array and every order", "why_tests_cant": "needs every array and order", "anchors": ["bindings/c/src/statistics.c: peak", "bindings/c/src/statistics.c: peak_abs", "bindings/c/src/statistics.c: moment"]}
{"id": "C99", "title": "Python searches return the first index or -1", "statement": "linear_search, index_of and, on sorted arrays, binary_search return the index of the first occurrence of the value, or -1 exactly when it is absent.", "quantifier": "every array and every value", "why_tests_cant": "needs every array, position and multiplicity", "anchors": ["bindings/python/src/algorithm.cpp: linear_search_python", "bindings/c/src/algorithm.c: binary_search", "bindings/c/src/algorithm.c: index_of"]}
{"id": "C100", "title": "Python functions of two arrays compute on both or refuse", "statement": "conv, xcorr, ri2complex, weighted_centroid, weighted_spread, slope, flux and equal give the C++ result for the elements of two arrays of one length, and raise for arrays that do not match; equal holds exactly for equal sequences.", "quantifier": "every pair of arrays, of equal and unequal lengths and shapes", "why_tests_cant": "the failing reads depend on what lies after an array in memory", "anchors": ["bindings/python/src/spectral.cpp: execute", "bindings/python/src/feature_statistics.cpp: execute_two_inputs", "bindings/python/src/converter.cpp: ri2complex_python", "bindings/python/src/algorithm.cpp: equal_python"]}
{"id": "C101", "title": "Python converts between real and complex arrays without loss", "statement": "real2complex gives each element with a zero imaginary part; complex2real splits an array into its parts and ri2complex joins them back.", "quantifier": "every array", "why_tests_cant": "needs every array and every previous content of the result's memory", "anchors": ["bindings/python/src/converter.cpp: real2complex_python", "bindings/python/src/converter.cpp: complex2real_python", "bindings/python/src/converter.cpp: ri2complex_python"]}
{"id": "C102", "title": "Python Fourier transforms invert each other", "statement": "fft and ifft, and rfft and irfft, return arrays of the documented sizes and invert each other for every length.", "quantifier": "every array of every positive length", "why_tests_cant": "needs every length, even and odd, and every content", "anchors": ["bindings/python/src/spectral.cpp: fft_python", "bindings/python/src/spectral.cpp: ifft_python", "bindings/c/src/spectral.c: get_ifft_size"]}
{"id": "C103", "title": "Python concatenate and pad", "statement": "concatenate returns the elements of the first array followed by those of the second; pad returns the array followed by zeros up to the size asked for, and raises when that size is too small.", "quantifier": "every array, size and previous content of the result's memory", "why_tests_cant": "needs every size and content", "anchors": ["bindings/python/src/algorithm.cpp: concatenate_python", "bindings/python/src/algorithm.cpp: padder_python"]}
{"id": "C104", "title": "Producing or filtering in pieces equals doing it at once", "statement": "Generating m and then n samples from a Python oscillator, or filtering two arrays one after the other, gives what one call for m+n samples, or for the joined array, gives; a Python window of any size is the C++ window.", "quantifier": "every oscillator, filter, size and split", "why_tests_cant": "needs every split of every length and every state", "anchors": ["bindings/python/src/oscillator.cpp", "bindings/python/src/filter.cpp", "bindings/python/src/windowing.cpp: execute"]}
{"id": "C105", "title": "Evaluated frequency response", "statement": "freq(b, a, out, K) stores exactly the K values of the filter's transfer function at the frequencies pi k / K; each one is the amplitude and phase with which the filter answers a steady sinusoid of that frequency.", "quantifier": "every coefficient list, every number of points and every frequency", "why_tests_cant": "needs every coefficient list and every time", "anchors": ["include/edsp/filter.hpp: freq"]}
{"id": "C106", "title": "Continuous equivalent level", "statement": "The continuous level meter returns the equivalent level, the level of the mean power, of the frames in its window.", "quantifier": "every window size and every sequence of non-silent frames", "why_tests_cant": "needs every history of frames", "anchors": ["include/edsp/feature/temporal/leq.hpp: continuous_leq"]}
{"id": "C107", "title": "Distances are distances", "statement": "distance<...>(x, y) is never negative, does not depend on the order of its arguments and is zero exactly for equal arguments.", "quantifier": "every pair of values", "why_tests_cant": "needs every pair", "anchors": ["include/edsp/math/numeric.hpp: distance"]}
{"id": "C108", "title": "Factories build what their argument names", "statement": "make_window and make_oscillator deliver, for each type, the window or waveform of that name for every size and parameter.", "quantifier": "every type, size, amplitude, rate, frequency and parameter", "why_tests_cant": "needs every size and parameter", "anchors": ["include/edsp/windowing.hpp: make_window", "include/edsp/oscillator.hpp: make_oscillator"]}
{"id": "C109", "title": "Objects owning a handle can be copied and assigned", "statement": "In every program that constructs, copies, assigns, uses and destroys decoders, encoders and resamplers, each handle opened is released exactly once.", "quantifier": "every program over any number of objects", "why_tests_cant": "needs every program", "anchors": ["include/edsp/io/decoder.hpp: decoder", "include/edsp/io/encoder.hpp: encoder", "include/edsp/io/resampler.hpp: resampler", "include/edsp/io/internal/libaudiofile_decoder_impl.hpp"]}
{"id": "C110", "title": "Histogram", "statement": "histogram::compute writes the lower bounds and relative frequencies of the bins.", "quantifier": "every number of bins and every signal", "why_tests_cant": "needs every signal", "anchors": ["include/edsp/statistics/histogram.hpp: compute"]}
{"id": "C111", "title": "Mathematical constants have their documented values", "statement": "Every constant of the constants table equals, to within one part in 10^36, the number its name and documentation define (multiples and powers of pi, e, roots, logarithms, the golden ratio, the limits named after Euler, Apery, Catalan, Glaisher and Khinchin, ...).", "quantifier": "every constant of the table", "why_tests_cant": "a test compares against another literal; the claim is about the real number", "anchors": ["include/edsp/math/constant.hpp: constants"]}
{"id": "C112", "title": "Spectral flatness is a measure between zero and one", "statement": "For positive samples flatness is the geometric mean over the arithmetic mean; it lies in (0,1], is 1 exactly when all samples are equal, and does not change with the level.", "quantifier": "every non-empty range of positive samples and every positive scale", "why_tests_cant": "needs every range", "anchors": ["include/edsp/feature/statistics/flatness.hpp: flatness"]}
{"id": "C113", "title": "The median is the middle sample", "statement": "median(first, last) is the middle element of the sorted range, or the mean of the two middle ones.", "quantifier": "every non-empty range", "why_tests_cant": "needs every range", "anchors": ["include/edsp/statistics/median.hpp: median"]}
{"id": "C114", "title": "Oscillator settings take effect at the next sample and reset restarts the wave", "statement": "After any sequence of setter calls, resets and samples the next sample of an oscillator is the waveform given by the amplitude, frequency, phase and width last set, at the time accumulated since the last reset or time setting with the sample rates in force; after reset it plays what a new oscillator with these settings plays.", "quantifier": "every history of calls", "why_tests_cant": "needs every history of calls", "anchors": ["include/edsp/oscillators/sinusoidal.hpp: oscillator, sin_oscillator", "include/edsp/oscillators/square.hpp: square_oscillator", "include/edsp/oscillators/sawtooth.hpp: sawtooth_oscillator"]}
{"id": "C115", "title": "Floating-point sums and means are close to the exact ones", "statement": "Whenever the computed sum of a range of floats or doubles is finite, it differs from the exact sum of the elements by at most ((1+u)^(n-1)-1) times the sum of their magnitudes, u being half the spacing at one; it is finite whenever the magnitudes add up to less than the range of the type. The mean has one more rounding. The mean lies between the least and greatest element and does not overflow.", "quantifier": "every range of finite elements of every IEEE binary format", "why_tests_cant": "rounding depends on every bit pattern and on the length of the range", "anchors": ["include/edsp/statistics/mean.hpp: mean"]}
{"id": "C116", "title": "Clipping keeps every number between the bounds in floating point", "statement": "clip and the clipping amplifier return a value between min and max for every sample that is not NaN, infinities and overflowing products included, leave samples in between unchanged up to one rounding, and let NaN through.", "quantifier": "every format, every pair of ordered bounds, every factor and every sample including infinities and NaN", "why_tests_cant": "special values and rounding at the bounds", "anchors": ["include/edsp/algorithm/clipper.hpp: clipper", "include/edsp/algorithm/amplifier.hpp: amplifier"]}
{"id": "C117", "title": "Extrema in the presence of NaN and infinities", "statement": "max, min, maxabs and minabs return an element (or its magnitude) that bounds every element that is not NaN when the first element is not NaN, and NaN when it is.", "quantifier": "every format and every non-empty range including NaN and infinities anywhere", "why_tests_cant": "needs every position of special values", "anchors": ["include/edsp/statistics/max.hpp: max, maxabs", "include/edsp/statistics/min.hpp: min, minabs"]}
{"id": "C118", "title": "Normalisation in floating point reaches exactly full scale", "statement": "Normalising finite samples that are not all zero gives finite samples in [-1, 1], with the peak samples exactly at -1 or 1, the order and signs of the samples kept, and each within one rounding of the exact quotient. Silence gives NaN.", "quantifier": "every format and every non-empty range of finite samples, subnormals and the largest numbers included", "why_tests_cant": "a rounding error could push a sample beyond full scale", "anchors": ["include/edsp/algorithm/normalize.hpp: normalize"]}
{"id": "C119", "title": "Energies, levels and dispersions of finite samples are never NaN or negative", "statement": "variance, standard deviation, energy, power, rms and rssq of finite samples are numbers not below zero in floating point, whatever overflows on the way, and the mean is never NaN. The energy differs from the exact sum of squares by at most ((1+u)^(n+1)-1) of it plus an underflow term. rssq is zero only for silence, and finite whenever the exact value is in range; equal samples have variance zero.", "quantifier": "every format and every non-empty range of finite samples", "why_tests_cant": "rounding, overflow and underflow on every range", "anchors": ["include/edsp/statistics/variance.hpp: variance, standard_deviation", "include/edsp/feature/temporal/energy.hpp: energy", "include/edsp/feature/temporal/power.hpp: power", "include/edsp/feature/temporal/rms.hpp: rms", "include/edsp/feature/temporal/rssq.hpp: rssq"]}
{"id": "C120", "title": "An oscillator keeps running for as long as it is asked for samples", "statement": "The time of an oscillator advances by the sampling period at every sample, so its output does not stop.", "quantifier": "every floating-point format, every sampling rate and any number of samples", "why_tests_cant": "the failure appears only after millions of samples", "anchors": ["include/edsp/oscillators/sinusoidal.hpp: oscillator, sin_oscillator", "include/edsp/oscillators/square.hpp: square_oscillator", "include/edsp/oscillators/sawtooth.hpp: sawtooth_oscillator"]}
{"id": "C121", "title": "linspace in floating point", "statement": "linspace(x1, x2, n) gives n values of which the first is x1, the others differ from the exact arithmetic progression by the stated number of roundings, none passes x2 and the last is x2.", "quantifier": "every format, all finite ends and every n up to 2^precision", "why_tests_cant": "rounding accumulates with n", "anchors": ["include/edsp/algorithm/linspace.hpp: linspace"]}
{"id": "C122", "title": "Differences in floating point", "statement": "Every value of derivative() is the exact difference of neighbours up to one rounding, exact for neighbours within a factor of two, zero only for equal neighbours, and finite for neighbours of one sign. Adding the differences up gives the samples back.", "quantifier": "every format and every range", "why_tests_cant": "needs every pair of samples", "anchors": ["include/edsp/algorithm/derivative.hpp: derivative"]}
{"id": "C123", "title": "Stable sections stay bounded and close to the ideal filter in floating point", "statement": "A stable second-order section driven with bounded input gives finite bounded output forever, within a fixed distance of the section in exact arithmetic. Silence gives silence, and the response to an input that ends dies out.", "quantifier": "every format, every stable section and every input sequence of any length", "why_tests_cant": "rounding errors feed back for an unbounded number of samples", "anchors": ["include/edsp/filter/biquad.hpp: biquad::tick, biquad::filter"]}
{"id": "C124", "title": "Cascades stay bounded and close to the ideal filter in floating point", "statement": "A cascade of stable sections driven with bounded input gives finite bounded output forever, within a fixed distance of the same cascade in exact arithmetic: each section multiplies the error it receives by at most its gain and adds the error of its own roundings.", "quantifier": "every format, every number of stable sections and every input sequence of any length", "why_tests_cant": "rounding errors feed back for an unbounded number of samples and through every stage", "anchors": ["include/edsp/filter/biquad_cascade.hpp: biquad_cascade::tick, biquad_cascade::filter", "include/edsp/filter/biquad.hpp: biquad::tick"]}
{"id": "C125", "title": "Moving averages drift at most linearly, and not at all on PCM samples", "statement": "In floating point the k-th output of a moving average of n samples of magnitude up to M differs from the mean of the last n samples by at most ((1+u)^(2k+3)-1) M plus half the smallest number, whatever n. For samples that are multiples of a power of two, of at most K steps with n K <= 2^precision, every output is the correctly rounded mean; likewise moving RMS with n K^2 <= 2^precision.", "quantifier": "every format, window size and input sequence of any length", "why_tests_cant": "the accumulator carries rounding errors over an unbounded number of samples", "anchors": ["include/edsp/filter/moving_average_filter.hpp: moving_average::operator(), filter", "include/edsp/filter/moving_rms_filter.hpp: moving_rms::operator(), filter"]}
{"id": "C126", "title": "Environment access from several threads", "statement": "Any number of threads may read, test and set environment variables at the same time: every call behaves as if calls were made one after the other in the order in which they return, each thread sees its calls in program order, no schedule deadlocks or runs forever, threads that set without overwriting agree on one value, and the text returned by a read stays valid for the thread that asked for it.", "quantifier": "every initial environment, every number of threads, every program of each thread and every schedule", "why_tests_cant": "needs every interleaving of the threads", "anchors": ["include/edsp/core/system.hpp: system_env::get_env, set_env, exist, mutex"]}
{"id": "C127", "title": "Logging from several threads", "statement": "Several threads may log at the same time: nothing is lost or reordered within a thread, each message appears in one piece, and the settings may be changed while others log.", "quantifier": "every number of threads, every sequence of messages and settings, and every schedule", "why_tests_cant": "needs every interleaving of the threads", "anchors": ["include/edsp/core/logger.hpp: logger, ~logger, set_default_name"]}
{"id": "C128", "title": "Transforms from several threads", "statement": "Threads that use their own engines (or the free functions) on their own data may transform at the same time and each gets the result it would get alone.", "quantifier": "every number of threads, all engines, every sequence of transforms and every schedule", "why_tests_cant": "needs every interleaving of the threads", "anchors": ["include/edsp/spectral/internal/libfftw_impl.hpp: fftw_impl", "include/edsp/spectral/fft_engine.hpp: fft_engine", "include/edsp/spectral/dft.hpp: dft, cdft"]}
{"id": "C129", "title": "Envelope in floating point", "statement": "With levels up to full scale and rates that are not negative, an ADSR envelope computed in float or double never produces NaN, never amplifies or inverts a sample, and each segment with a positive rate ends, exactly on its level and within the number of samples the rate promises up to rounding. Attack and decay times set the rates that cover their distance in that time, and a new sample rate keeps every rate per second, up to rounding.", "quantifier": "every IEEE format, every sample rate, every history of key events, settings and samples (infinite rates included)", "why_tests_cant": "the accumulated rounding depends on the whole history; a segment may fail to end only after millions of samples", "anchors": ["include/edsp/experimental/envelope/adsr.hpp: adsr, key_on, key_off, set_attack_rate, set_release_time, set_target, operator()"]}
{"id": "C130", "title": "Mathematical constants as values of a type", "statement": "A constant of the table, read as float, double or a wider type, differs from the number it is named after by little more than the rounding of that type.", "quantifier": "every constant and every binary floating-point format", "why_tests_cant": "a test compares against another rounded literal; the claim is about the real number in every format", "anchors": ["include/edsp/math/constant.hpp: constants"]}
{"id": "C131", "title": "Sawtooth, triangular and square oscillators in floating point", "statement": "In float, double or any wider type, every sample of a sawtooth or triangular oscillator is a finite number no larger in magnitude than the amplitude in force, through any sequence of samples, setters and resets with allowed arguments and even when the clock overflows; it is within a few roundings of the amplitude of the ideal waveform at a phase off by one rounding. Every sample of a square oscillator is exactly the amplitude in force or its opposite, and where it switches is decided without rounding from the stored time, period and active time. Each setting is the last one asked for.", "quantifier": "every binary format, history of calls and arguments", "why_tests_cant": "the extreme samples come from particular roundings and particular phases no test will hit", "anchors": ["include/edsp/oscillators/sawtooth.hpp: sawtooth_oscillator", "include/edsp/oscillators/triangular.hpp: triangular_oscillator", "include/edsp/oscillators/square.hpp: square_oscillator", "include/edsp/oscillators/sinusoidal.hpp: oscillator"]}
{"id": "C132", "title": "Bartlett, triangular and Welch windows in floating point", "statement": "In float, double or any wider type, for every size of at least two points that the format can count exactly, each value of a Bartlett, triangular or Welch window is a finite number between 0 and 1 within a few roundings of the ideal window; the triangular window (and the Welch window of odd size) is exactly symmetric; the Bartlett window is exactly symmetric and exactly zero at both ends.", "quantifier": "every binary format and window size", "why_tests_cant": "the deviations come from particular sizes at which particular products round badly", "anchors": ["include/edsp/windowing/bartlett.hpp: bartlett", "include/edsp/windowing/triangular.hpp: triangular", "include/edsp/windowing/welch.hpp: welch"]}
{"id": "C133", "title": "Rounding functions, scalar helpers and angle conversions in floating point", "statement": "In every binary format floor, ceil, fix and round return the right integer with the sign of the input, leave infinities and NaN alone and are idempotent; rectify, sign, square, inverse and half are exact or within one rounding; the fractional part lies in [0, 1) and is exact for non-negative numbers; degree/radian conversions are within a few roundings of the mathematical value, undo each other up to a few roundings, and are finite for every finite angle.", "quantifier": "every binary format and floating-point argument, including infinities, NaN, signed zeros and subnormal numbers", "why_tests_cant": "the exceptions are isolated arguments among 2^64", "anchors": ["include/edsp/math/numeric.hpp: sign, square, fract, inv, half", "include/edsp/converter/deg2rad.hpp: deg2rad", "include/edsp/converter/rad2deg.hpp: rad2deg", "include/edsp/algorithm/floor.hpp: floor", "include/edsp/algorithm/ceil.hpp: ceil", "include/edsp/algorithm/fix.hpp: fix", "include/edsp/algorithm/round.hpp: round", "include/edsp/algorithm/rectify.hpp: rectify"]}
{"id": "C134", "title": "Stability test and cookbook designs in floating point", "statement": "In every binary format a section that reports itself stable has all its poles inside the unit circle, for every value of its coefficients including infinities and NaN, and a section with its poles inside reports so. A section made from poles inside the circle is stable. A cookbook low-, high-, band- or all-pass design computed in floating point is stable, has coefficients within a few roundings of the ideal design for the sine and cosine the library returned, and passes what it should pass; the all-pass numerator is exactly the reversed denominator.", "quantifier": "every binary format, coefficient, pole, cut-off, sample rate, quality, and every sine and cosine the mathematical library may return", "why_tests_cant": "the failures are at cut-offs and poles whose distance to the limit is below the rounding of the format", "anchors": ["include/edsp/filter/biquad.hpp: biquad::stability, biquad::biquad", "include/edsp/filter/internal/rbj_designer.hpp: RBJFilterDesigner"]}
{"id": "C135", "title": "Python string and auditory functions", "statement": "From Python, split on an ASCII character returns the maximal runs of the other characters of any Unicode text, join puts one separator between the texts, splitting a joined list gives it back, trim, ltrim and rtrim remove exactly the surrounding white space, to_lower and to_upper change the letters only, and a text that cannot be encoded raises an exception. The mel, ERB, Bark and cent spaces return an array of the requested size holding the converted equidistant frequencies, and an invalid size raises an exception.", "quantifier": "every Unicode text of any length, list of texts, delimiter, frequency range and size, and every content of the fresh array", "why_tests_cant": "the failures depend on which characters stand at the ends of the text and on the bytes of their encoding, over unbounded texts", "anchors": ["bindings/python/src/string.cpp: trim_python, ltrim_python, rtrim_python, join_python, to_lower_python, to_upper_python, split_python", "bindings/python/src/auditory.cpp: generate_python, erbspace, barkspace, centspace, melspace"]}
{"id": "C136", "title": "Approximate equality of floating-point numbers", "statement": "equal(a, b) on a floating-point type tells whether two numbers agree up to the precision of that type: it is symmetric and true of a number and itself, false of numbers that differ by more than the rounding of the type, and transitive enough to group numbers.", "quantifier": "every floating-point type and every pair of its values, including infinities, NaN and subnormals", "why_tests_cant": "the answer depends on the magnitude of the arguments and on their rounding to another format; no finite set of pairs covers the ranges", "anchors": ["include/edsp/meta/equal.hpp: equal"]}
{"id": "C137", "title": "Audio metadata", "statement": "The metadata reader returns the title, artist, album, genre, track and year stored in the file whose name it is given, and reports a file it cannot read.", "quantifier": "every file name, every content of the disk, every tag and text of any length", "why_tests_cant": "the failures depend on the characters of texts and names and on the state of the disk", "anchors": ["include/edsp/io/metadata.hpp: metadata", "include/edsp/io/internal/metadata/libtag_impl.hpp: libtag_metadata"]}
{"id": "C138", "title": "Temporal features and norm as computed", "statement": "For float and double samples the zero-crossing rate is the number of sign changes over the number of neighbours, correctly rounded and between 0 and 1; the duration is the correctly rounded quotient of the sample count and the rate; the effective duration counts the samples above the threshold times the peak and never exceeds the duration; the crest is a number between 0 and 1 and the quotient of the peak and the sum of the magnitudes; the roll-off is the first position where the running energy passes the share; the norm equals the root of the sum of squares.", "quantifier": "every binary floating-point format, every range of finite samples of any length up to the stated limits, every rate, threshold and share", "why_tests_cant": "the results depend on the rounding of every partial sum and on overflow; ranges long enough to saturate a counter are not in any test", "anchors": ["include/edsp/feature/temporal/azcr.hpp: azcr", "include/edsp/feature/temporal/duration.hpp: duration, effective_duration", "include/edsp/feature/statistics/crest.hpp: crest", "include/edsp/feature/statistics/rolloff.hpp: rolloff", "include/edsp/statistics/norm.hpp: norm"]}
{"id": "C139", "title": "Centroid and harmonic mean as computed", "statement": "For float and double samples from zero up, the centroid and the harmonic mean have a relative error of a few roundings per sample, are never negative, and lie where the exact values lie: the centroid between the first and the last position, the harmonic mean between the smallest and the largest sample.", "quantifier": "every binary floating-point format and every range of nonnegative finite samples of any length up to 2^precision whose sums do not overflow", "why_tests_cant": "the error is a bound over all roundings of all partial sums; a test sees single values", "anchors": ["include/edsp/feature/statistics/centroid.hpp: centroid", "include/edsp/statistics/harmonic_mean.hpp: harmonic_mean"]}
{"id": "C140", "title": "Cosine windows as computed", "statement": "The Hann, Hamming, Blackman, Blackman-Harris, Blackman-Nuttall and flat-top windows written into float or double ranges are finite and differ from the documented cosine sums by no more than the error of the library cosine plus 64 roundings; Hann samples lie between 0 and 1 and start at 0, Hamming samples never reach 0, and Blackman samples are not negative.", "quantifier": "every binary format with 11 to 53 bits, every window length from 2 to 2^precision, every cosine function with bounded error", "why_tests_cant": "the bound ranges over every length and every sample, and over every library cosine; tests compare a few lengths with a tolerance", "anchors": ["include/edsp/windowing/hanning.hpp: hanning", "include/edsp/windowing/hamming.hpp: hamming", "include/edsp/windowing/blackman.hpp: blackman", "include/edsp/windowing/blackman_harris.hpp: blackman_harris", "include/edsp/windowing/blackman_nuttall.hpp: blackman_nutall", "include/edsp/windowing/flattop.hpp: flattop"]}
{"id": "C141", "title": "Difference functions, peaks, moments and decrease as computed", "statement": "The average magnitude and square difference functions of float or double samples have one value per lag, are never negative or NaN, are within a stated relative error of the exact averages, are the exact averages rounded once on PCM samples, and are exactly zero at and only at the lags the signal repeats itself at; the peak is the first largest sample itself; even central moments are never negative or NaN; the peak-to-peak value is the largest difference of two samples; and the decrease of a spectrum is a number.", "quantifier": "every binary format, every non-empty finite range up to 2^precision samples, every lag, every even order", "why_tests_cant": "rounding, underflow and overflow depend on every sample; tests compare a few signals with a tolerance", "anchors": ["include/edsp/feature/temporal/amdf.hpp: amdf", "include/edsp/feature/temporal/asdf.hpp: asdf", "include/edsp/statistics/peak.hpp: peak, peakabs", "include/edsp/statistics/moment.hpp: moment", "include/edsp/converter/peak2peak.hpp: peak2peak", "include/edsp/feature/statistics/decrease.hpp: decrease"]}
{"id": "C142", "title": "Decibel conversions and the equivalent level as computed", "statement": "With library logarithms and powers of a stated relative error, the level in decibels of every positive float or double, down to the smallest subnormal, is finite and has the relative error of the logarithm and one product; one is exactly 0 dB; zero, negative numbers and NaN are refused; decibels convert back with a stated relative error that grows with the level; a trip to decibels and back loses at most eighty units between 2^-16 and 2^16; and the equivalent level of a frame is that of its exact mean square up to a stated error, for every frame that is not silent.", "quantifier": "every binary format of 11 to 53 bits, every positive number of it, every level in range, every non-empty frame", "why_tests_cant": "the error depends on the magnitude, on subnormal numbers and on the accuracy of the library; tests compare a few levels with a tolerance", "anchors": ["include/edsp/converter/mag2db.hpp: mag2db", "include/edsp/converter/pow2db.hpp: pow2db", "include/edsp/converter/db2mag.hpp: db2mag", "include/edsp/converter/db2pow.hpp: db2pow", "include/edsp/feature/temporal/leq.hpp: leq"]}
{"id": "C143", "title": "Auditory scales as computed", "statement": "On floats and doubles the mel and ERB conversions and their inverses never invert the order of two inputs; the mel scale and its inverse have a relative error of a stated number of units, and a frequency survives the trip there and back; the Bark number of every frequency is within 256 units of the exact one, so frequencies whose exact Bark numbers differ by more keep their order, and frequencies up to 20 kHz survive the trip to Bark and back within a stated error; the ERB scale, its inverse and their round trip below 20 kHz are within a stated error of the exact ones; the cent conversions are odd and their error is a stated combination of the library's and of three roundings.", "quantifier": "every binary format of 24 to 53 bits, every finite frequency in range, every library logarithm and exponential that is monotone or has a stated relative error", "why_tests_cant": "the order of neighbouring frequencies and the error depend on every rounding; tests compare a few frequencies with a tolerance", "anchors": ["include/edsp/converter/hertz2mel.hpp: hertz2mel", "include/edsp/converter/mel2hertz.hpp: mel2hertz", "include/edsp/converter/hertz2erb.hpp: hertz2erb", "include/edsp/converter/erb2hertz.hpp: erb2hertz", "include/edsp/converter/hertz2bark.hpp: hertz2bark", "include/edsp/converter/bark2hertz.hpp: bark2hertz", "include/edsp/converter/hertz2cent.hpp: hertz2cent", "include/edsp/converter/cent2hertz.hpp: cent2hertz"]}
{"id": "C144", "title": "Geometric mean, flatness, entropy, spread, kurtosis, loudness and silence as computed", "statement": "On floats and doubles: the geometric mean of positive samples has a stated relative error, is zero when a sample is zero and NaN when a logarithm is NaN; the flatness is within a stated factor of the quotient of the geometric and arithmetic means, which never exceeds one; the normalised entropy of positive probabilities is within a stated error of the exact one; the spread is, within a stated error, the root of the second moment about the computed centroid, which exceeds the one about the true centroid by the square of the distance between the two; the kurtosis of samples within range is within a stated factor of the exact quotient of moments about the computed mean, which is never below one; the loudness is within a stated factor of the power 0.67 of the energy; a frame is called silent whenever its exact power is below the threshold by more than a stated slack and never when it reaches the threshold by as much, nor when it holds a NaN or the threshold is not positive.", "quantifier": "every binary format of 24 to 53 bits, every non-empty list of samples in range, every library logarithm, exponential and power of a stated relative error", "why_tests_cant": "rounding errors accumulate over every length of input and decide comparisons near the threshold; tests compare a few frames with a tolerance", "anchors": ["include/edsp/statistics/geometric_mean.hpp: geometric_mean", "include/edsp/feature/statistics/flatness.hpp: flatness", "include/edsp/feature/statistics/entropy.hpp: entropy", "include/edsp/feature/statistics/spread.hpp: spread", "include/edsp/statistics/kurtosis.hpp: kurtosis", "include/edsp/feature/perceptual/loudness.hpp: loudness", "include/edsp/algorithm/silence.hpp: silence"]}
{"id": "C145", "title": "Skewness and logarithmic spacing as computed", "statement": "On floats and doubles: the skewness of samples that are not all equal and lie within range of their computed mean is finite and within a stated error, relative to the mean cubed distance, of the exact quotient of moments about the computed mean; it is never NaN for finite samples that are not all equal. Logarithmic spacing writes exactly N values, the first of them the library power of ten of the first bound, and the k-th is ten to the exact k-th exponent up to the error of the library and of k additions in the exponent.", "quantifier": "every binary format of 24 to 53 bits, every non-empty list of samples in range, every pair of bounds, every number of points, every library power of a stated relative error", "why_tests_cant": "rounding errors accumulate over every length of input and are amplified by the power; tests compare a few frames with a tolerance", "anchors": ["include/edsp/statistics/skewness.hpp: skewness", "include/edsp/statistics/moment.hpp: moment", "include/edsp/algorithm/logspace.hpp: logspace"]}
{"id": "C146", "title": "Spectral slope and variation as computed", "statement": "On floats and doubles: the slope of a magnitude spectrum over its frequencies is the least-squares slope, and the variation of two spectra measures how little they have in common, both up to the rounding of the sums and of a few operations; a second range shorter than the first is never read past its end.", "quantifier": "every binary format of 24 to 53 bits, every pair of lists of any length whose sums lie within range", "why_tests_cant": "the result depends on every element of both ranges and the rounding errors accumulate over every length; tests compare a few spectra", "anchors": ["include/edsp/feature/statistics/slope.hpp: slope", "include/edsp/feature/statistics/variation.hpp: variation"]}
{"id": "C147", "title": "Envelope follower as computed", "statement": "On floats and doubles: an attack/release envelope follower approaches its input at the configured attack and release times, its outputs are finite for finite inputs, and an infinite or undefined sample does not spoil it for ever.", "quantifier": "every binary format, every history of settings, resets and samples, every implementation of the exponential", "why_tests_cant": "the output depends on the whole history of calls and samples; tests run one configuration over a few samples", "anchors": ["include/edsp/experimental/envelope/ar.hpp: ar", "include/edsp/math/numeric.hpp: is_denormal"]}
{"id": "C148", "title": "Brown and pink noise of integers as computed", "statement": "For int samples, with the arithmetic in doubles and every assignment truncated: a brown or pink noise generator always returns a value, stays within a fixed multiple of the range of its white source, and follows the documented filter of the white samples, however long it runs.", "quantifier": "every sequence of white samples of any length, every range of the source", "why_tests_cant": "rounding and truncation errors feed back into the state at every sample, and the extreme states need long runs of extreme samples that a random test never draws", "anchors": ["include/edsp/random/noise/brown_noise_generator.hpp: brown_noise_generator", "include/edsp/random/noise/pink_noise_generator.hpp: pink_noise_generator"]}
{"id": "C149", "title": "Mean, energy, clipping and normalisation of int samples", "statement": "For a range of int samples of any length: the mean lies between the samples and is the exact mean rounded towards zero, the energy is the sum of the squares, the clipping amplifier returns the product limited to the given interval, and normalisation scales the range so that its peak is one while keeping its shape.", "quantifier": "every range of ints of any length, every factor and every interval", "why_tests_cant": "overflow depends on the length and on all the samples together, and signed overflow is undefined rather than a visible wrong value", "anchors": ["include/edsp/statistics/mean.hpp: mean", "include/edsp/feature/temporal/energy.hpp: energy", "include/edsp/algorithm/amplifier.hpp: amplifier", "include/edsp/statistics/max.hpp: maxabs", "include/edsp/algorithm/normalize.hpp: normalize"]}
