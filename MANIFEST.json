{"claims": [
{"property": "C01", "status": "proved", "theorems": ["C01_ring_refines_deque", "C01_filled_ring_refines_deque", "C01_back_of_empty", "C01_ring_keeps_last_n", "C01_ring_fifo"], "note": ""},
{"property": "C02", "status": "proved", "theorems": ["C02_ring_size_laws"], "note": ""},
{"property": "C03", "status": "proved", "theorems": ["C03_ring_iteration"], "note": ""},
{"property": "C04", "status": "proved", "theorems": ["C04_ring_ub_iff_disallowed", "C04_ring_pushes_in_bounds"], "note": ""},
{"property": "C05", "status": "proved", "theorems": ["C05_moving_average_is_window_mean", "C05_zero_window_ub", "C05_moving_average_double_refuted"], "note": "Exact arithmetic. In double precision the property is false: C05_moving_average_double_refuted shows a permanent bias from rounding."},
{"property": "C06", "status": "proved", "theorems": ["C06_moving_rms_is_window_rms", "C06_moving_rms_double_refuted"], "note": "Exact arithmetic. In double precision the property is false: C06_moving_rms_double_refuted shows a permanent NaN from rounding."},
{"property": "C07", "status": "partial", "theorems": ["C07_moving_average_reset_refuted", "C07_moving_rms_reset_refuted", "C07_moving_average_after_reset", "C07_moving_average_after_resize", "C07_size"], "note": "VIOLATED by the code: reset()/resize() keep the accumulator and stale cells. C07_*_refuted give counterexamples for every window >= 2; C07_*_after_* state exactly what is computed instead."},
{"property": "C08", "status": "partial", "theorems": ["C08_moving_median_is_always_zero", "C08_moving_median_refuted"], "note": "VIOLATED by the code: statistics::median is a stub returning 0. C08_moving_median_is_always_zero characterises it, C08_moving_median_refuted is the counterexample."},
{"property": "C09", "status": "proved", "theorems": ["C09_biquad_difference_equation", "C09_difference_equation_unique", "C09_default_biquad", "C09_zero_a0_nonfinite", "C09_reset_biquad_difference_equation"], "note": ""},
{"property": "C10", "status": "proved", "theorems": ["C10_biquad_linear", "C10_biquad_time_invariant", "C10_biquad_causal", "C10_biquad_convolution"], "note": ""},
{"property": "C11", "status": "proved", "theorems": ["C11_biquad_chunking", "C11_biquad_inplace", "C11_biquad_reset"], "note": ""},
{"property": "C12", "status": "proved", "theorems": ["C12_stability_iff_poles_inside", "C12_poles_exist"], "note": ""},
{"property": "C13", "status": "proved", "theorems": ["C13_stable_biquad_bounded", "C13_stable_cascade_bounded"], "note": ""},
{"property": "C14", "status": "proved", "theorems": ["C14_cascade_is_composition", "C14_cascade_overflow", "C14_cascade_order_irrelevant", "C14_cascade_reset", "C14_cascade_clear"], "note": ""},
{"property": "C15", "status": "partial", "theorems": ["C15_first_order_actual", "C15_first_order_unit_zero_partial", "C15_first_order_refuted", "C15_highpass_polarity_refuted", "C15_first_order_nonreal"], "note": "VIOLATED by the code: the two-argument pole/zero constructor drops the sign and scale; the exact behaviour is proved (C15_actual) and the claim is refuted for the high-pass polarity."},
{"property": "C16", "status": "proved", "theorems": ["C16_rbj_lowpass", "C16_rbj_highpass", "C16_rbj_bandpass", "C16_rbj_allpass", "C16_rbj_lowshelf", "C16_rbj_highshelf"], "note": ""},
{"property": "C17", "status": "partial", "theorems": ["C17_zoelzer_lowpass", "C17_zoelzer_highpass", "C17_zoelzer_bandpass", "C17_zoelzer_lowshelf_actual", "C17_zoelzer_lowshelf_boost_partial", "C17_zoelzer_lowshelf_cut_refuted", "C17_zoelzer_highshelf_boost_partial", "C17_zoelzer_highshelf_cut_actual", "C17_zoelzer_highshelf_cut_refuted"], "note": "VIOLATED by the code for cuts: a Zoelzer low shelf with negative gain boosts by |gain| dB, and the high-shelf cut passes a1 twice to the biquad (C17_zoelzer_lowshelf_cut_refuted, C17_zoelzer_highshelf_cut_refuted). Pass filters and boosts are proved."},
{"property": "C18", "status": "partial", "theorems": ["C18_butterworth_lowpass_partial", "C18_butterworth_highpass_partial", "C18_butterworth_odd_asserts_refuted", "C18_butterworth_capacity"], "note": "VIOLATED by the code when assertions are compiled in: every odd order calls insert() with the pole/zero pair (-1, infinity), whose imaginary part is infinite, and fails an assertion (C18_butterworth_odd_asserts_refuted). Even orders, and all orders without assertions, are proved; odd high-pass has gain -1 (unit magnitude, inverted polarity) at Nyquist."},
{"property": "C19", "status": "proved", "theorems": ["C19_clipper_range", "C19_clipped_amplifier_range", "C19_clipper_monotone", "C19_clipper_idempotent"], "note": "Element values are exact reals; calls with destination inside the memory and not clobbering unread source elements."},
{"property": "C20", "status": "proved", "theorems": ["C20_amplifier", "C20_floor", "C20_ceil", "C20_round", "C20_fix", "C20_rectify", "C20_short_destination"], "note": "Element values are exact reals; calls with destination inside the memory and not clobbering unread source elements."},
{"property": "C21", "status": "proved", "theorems": ["C21_binary_search"], "note": "Element values are exact reals; calls with destination inside the memory and not clobbering unread source elements."},
{"property": "C22", "status": "proved", "theorems": ["C22_linear_search", "C22_contains", "C22_index_of", "C22_index_of_overflow_refuted"], "note": "index_of needs length <= 2^31; beyond it the int32 conversion wraps (C22_index_of_overflow_refuted)."},
{"property": "C23", "status": "proved", "theorems": ["C23_linspace", "C23_logspace", "C23_degenerate"], "note": "Element values are exact reals; calls with destination inside the memory and not clobbering unread source elements."},
{"property": "C24", "status": "proved", "theorems": ["C24_padder", "C24_concatenate"], "note": "Element values are exact reals; calls with destination inside the memory and not clobbering unread source elements."},
{"property": "C25", "status": "proved", "theorems": ["C25_normalize", "C25_normalize_zero"], "note": ""},
{"property": "C26", "status": "proved", "theorems": ["C26_is_power_two", "C26_is_power_two_boundaries"], "note": ""},
{"property": "C27", "status": "proved", "theorems": ["C27_next_power_two", "C27_next_power_two_outside"], "note": "Also: 0 gives 0, and every x strictly between 2^30 and 2^31 overflows (UB)."},
{"property": "C28", "status": "partial", "theorems": ["C28_is_prime_actual", "C28_is_prime_negative", "C28_is_prime_sound_partial", "C28_is_prime_refuted"], "note": "VIOLATED by the code: the loop falls through to 'return false', so 2 and 3 are the only numbers reported prime (C28_is_prime_actual, C28_is_prime_refuted); a positive answer is right (C28_is_prime_sound_partial)."},
{"property": "C29", "status": "partial", "theorems": ["C29_parity", "C29_parity_refuted"], "note": "VIOLATED by the code for negative odd integers, all reported even (C29_parity_refuted). Exact for non-negative integers."},
{"property": "C30", "status": "proved", "theorems": ["C30_values", "C30_symmetric_bounded", "C30_unit_range", "C30_flattop_ends", "C30_peak", "C30_tiny", "C30_rectangular"], "note": ""},
{"property": "C31", "status": "partial", "theorems": ["C31_bartlett", "C31_bartlett_tiny", "C31_triangular", "C31_triangular_ends", "C31_welch_actual", "C31_welch_refuted", "C31_welch_tiny"], "note": "VIOLATED by the code for welch of even size (never symmetric, C31_welch_refuted). bartlett and triangular proved; triangular uses half-width (N+1)/2 or (N-1)/2 for odd N depending on N mod 4 (C31_triangular_ends)."},
{"property": "C32", "status": "proved", "theorems": ["C32_min_mean_max", "C32_maxabs_minabs", "C32_mean_affine", "C32_empty"], "note": "Exact arithmetic."},
{"property": "C33", "status": "proved", "theorems": ["C33_moment_is_central", "C33_variance", "C33_skewness_kurtosis", "C33_constant_nonfinite"], "note": "Exact arithmetic."},
{"property": "C34", "status": "proved", "theorems": ["C34_mean_inequalities", "C34_outside_domain"], "note": "Exact arithmetic."},
{"property": "C35", "status": "proved", "theorems": ["C35_peak", "C35_peakabs"], "note": "Exact arithmetic."},
{"property": "C36", "status": "partial", "theorems": ["C36_energy_power_rssq", "C36_rms_actual", "C36_rms_refuted", "C36_normalize_rms_actual"], "note": "VIOLATED by the code: rms starts its accumulation at 1 and is too large for every signal (C36_rms_refuted, C36_rms_actual); energy, power and rssq are proved. normalize_rms inherits the error (C36_normalize_rms_actual)."},
{"property": "C37", "status": "partial", "theorems": ["C37_azcr", "C37_azcr_positive_scale", "C37_azcr_negative_scale", "C37_azcr_inversion_refuted"], "note": "VIOLATED by the code for negative factors: zero samples count as positive, so inverting a signal with exact zeros can change the rate (C37_azcr_inversion_refuted). Count, range, positive scaling and inversion without zeros are proved."},
{"property": "C38", "status": "proved", "theorems": ["C38_amdf_asdf", "C38_empty"], "note": "Exact arithmetic."},
{"property": "C39", "status": "partial", "theorems": ["C39_slope_actual", "C39_slope_refuted"], "note": "VIOLATED by the code: the element count is measured after the loop and is 0, so the result is 1/sum(f) for every spectrum (C39_slope_actual, C39_slope_refuted)."},
{"property": "C40", "status": "partial", "theorems": ["C40_flux_actual", "C40_flux_refuted", "C40_flux_order_refuted", "C40_variation_actual", "C40_variation_short", "C40_variation_refuted", "C40_decrease_refuted", "C40_irregularity_actual", "C40_irregularity_refuted"], "note": "VIOLATED by the code: flux normalises the second spectrum by the wrong memory range, variation uses the wrong numerator, decrease divides by zero on every input, irregularity compares a sample with itself plus one. Exact behaviour proved in the _actual theorems."},
{"property": "C41", "status": "proved", "theorems": ["C41_centroid_spread", "C41_index_centres"], "note": "Exact arithmetic."},
{"property": "C42", "status": "proved", "theorems": ["C42_split", "C42_split_items", "C42_round_trip", "C42_join_split", "C42_join_nul_refuted"], "note": "For items without NUL characters: join goes through c_str() and truncates at the first NUL (C42_join_nul_refuted)."},
{"property": "C43", "status": "partial", "theorems": ["C43_trim", "C43_trim_exact", "C43_commute", "C43_trim_high_refuted"], "note": "VIOLATED by the code for chars below -1 (bytes 128..254 where char is signed): isspace on them is undefined (C43_trim_high_refuted). Proved for every string of other characters."},
{"property": "C44", "status": "proved", "theorems": ["C44_decibel_round_trips", "C44_decibel_monotone", "C44_decibel_domain", "C44_angles"], "note": "Exact reals."},
{"property": "C45", "status": "proved", "theorems": ["C45_mel", "C45_mel_inverse", "C45_erb", "C45_erb_inverse", "C45_bark", "C45_bark_inverse"], "note": "Exact reals."},
{"property": "C46", "status": "partial", "theorems": ["C46_cent_actual", "C46_cent_refuted", "C46_cent_scale", "C46_cent_zero"], "note": "VIOLATED by the code below the reference 440*2^(-4.75) Hz: the result is negative (C46_cent_refuted, C46_cent_actual). Proved above it."},
{"property": "C47", "status": "partial", "theorems": ["C47_sine_samples", "C47_sine_range", "C47_sine_periodic", "C47_square_actual", "C47_square_refuted", "C47_square_range_periodic", "C47_sawtooth_samples", "C47_sawtooth_width", "C47_sawtooth_periodic", "C47_triangular_samples", "C47_sawtooth_negative_time_refuted"], "note": "VIOLATED by the code for the square wave: every sample is the negation of the ideal wave (C47_square_actual, C47_square_refuted); and for the sawtooth at negative timestamps, out of range (C47_sawtooth_negative_time_refuted). Sine, sawtooth and triangle from time zero proved."},
{"property": "C48", "status": "partial", "theorems": ["C48_frequency_actual", "C48_set_frequency_refuted", "C48_sine_sawtooth_frequency"], "note": "VIOLATED by the code: inverse_frequency_ is never refreshed (C48_set_frequency_refuted); C48_frequency_actual gives the exact behaviour after every history. Sine and sawtooth follow the new frequency."},
{"property": "C49", "status": "partial", "theorems": ["C49_range", "C49_release", "C49_release_ends", "C49_idle", "C49_default_envelope", "C49_release_time_stuck_refuted"], "note": "Range, idle behaviour and release (levels max(0,v-kr), idle exactly at 0, finite when a release rate or time is positive) proved. VIOLATED by the code when set_release_time is called during the release with a zero sustain level: the release rate becomes 0 and the envelope never ends (C49_release_time_stuck_refuted)."},
{"property": "C50", "status": "partial", "theorems": ["C50_ar_split", "C50_ar_actual", "C50_smoothing_refuted"], "note": "VIOLATED by the code: the gains are only computed when they are already positive, so the follower returns its input for ever (C50_ar_actual, C50_smoothing_refuted)."},
{"property": "C51", "status": "proved", "theorems": ["C51_pffft_cdft", "C51_pffft_dft_actual", "C51_pffft_dft_refuted", "C51_pffft_real_round_trip", "C51_cdft", "C51_complex_round_trip", "C51_complex_round_trip_back", "C51_dft", "C51_sizes", "C51_hermitian", "C51_real_round_trip", "C51_odd_length"], "note": "Both back ends, exact arithmetic, the FFTW and PFFFT libraries specified by their documented formulas; lengths below 2^31 (PFFFT: the sizes it supports). Odd lengths: characterised. On PFFFT the real spectrum is packed (C51_pffft_dft_actual), the round trip still holds"},
{"property": "C52", "status": "partial", "theorems": ["C52_pffft_actual", "C52_pffft_refuted", "C52_conv"], "note": "Proved for FFTW, exact arithmetic; VIOLATED by the code on PFFFT: packed spectra are multiplied as if unpacked (C52_pffft_actual, C52_pffft_refuted)"},
{"property": "C53", "status": "partial", "theorems": ["C53_xcorr_raw", "C53_biased_actual", "C53_biased_refuted", "C53_unbiased_actual", "C53_unbiased_refuted", "C53_autocorrelation"], "note": "Unnormalised form proved; VIOLATED by the code: Biased divides by 2N, Unbiased does not scale"},
{"property": "C54", "status": "proved", "theorems": ["C54_pffft_hilbert", "C54_hilbert"], "note": "Both back ends, exact arithmetic"},
{"property": "C55", "status": "partial", "theorems": ["C55_lee_dct", "C55_lee_idct", "C55_pffft_dct", "C55_pffft_idct", "C55_pffft_round_trip", "C55_pffft_three", "C55_pffft_refuted", "C55_dct_actual", "C55_dct_refuted", "C55_idct_actual", "C55_round_trip"], "note": "Round trip proved for every length on FFTW and every power of two on PFFFT (Lee's algorithm proved by induction); VIOLATED by the code: the output is twice the documented DCT-II, and PFFFT accepts other lengths, e.g. 96, and transforms them wrongly"},
{"property": "C56", "status": "partial", "theorems": ["C56_pffft_one_kind", "C56_pffft_dct", "C56_pffft_actual", "C56_pffft_overrun", "C56_pffft_refuted", "C56_actual", "C56_one_kind", "C56_refuted"], "note": "Proved for engines used for one kind of transform; VIOLATED by the code otherwise on both back ends: the first call fixes the transform (C56_actual, C56_refuted, C56_pffft_actual, C56_pffft_overrun)"},
{"property": "C57", "status": "partial", "theorems": ["C57_snd_read", "C57_consecutive", "C57_block_refuted", "C57_partial_frame_refuted", "C57_audiofile_mono", "C57_audiofile_overflow_refuted", "C57_audiofile_skips_refuted"], "note": "Proved for whole-frame requests and block sizes; VIOLATED by the code: block sizes that are not a multiple of the channel count read nothing; the audiofile decoder overflows its buffer or drops samples on multichannel files"},
{"property": "C58", "status": "partial", "theorems": ["C58_audiofile", "C58_sndfile_actual", "C58_sndfile_refuted", "C58_sndfile_is_open_refuted"], "note": "Proved for the audiofile decoder; VIOLATED by the code for libsndfile: close() keeps the handle, so an explicit close is always followed by a double close and is_open() stays true"},
{"property": "C59", "status": "partial", "theorems": ["C59_compression", "C59_inverse_actual", "C59_round_trip_refuted"], "note": "VIOLATED by the code: the inverse divides by ln(1+mu) instead of mu (C59_inverse_actual, C59_round_trip_refuted). The compressor is proved. The lambdas miss a capture, so the templates do not compile; the model is of their formulas."},
{"property": "C60", "status": "proved", "theorems": ["C60_brown_range", "C60_brown_integral_silent", "C60_pink_range", "C60_brown_response", "C60_pink_response"], "note": "In exact arithmetic, for floating and integer value types, without the range limit of the integer type (rounding and overflow of int are C148); with an integer type brown noise is identically 0 for white noise below 50 (C60_brown_integral_silent). The Perlin generator cannot be instantiated and is not modelled."},
{"property": "C61", "status": "partial", "theorems": ["C61_setters", "C61_getters", "C61_set_a0_refuted"], "note": "VIOLATED by the code for set_a0: the stored a0 is never read by the filter. The other five setters are proved."},
{"property": "C62", "status": "proved", "theorems": ["C62_pole_zero_pairs"], "note": ""},
{"property": "C63", "status": "proved", "theorems": ["C63_butterworth_lowpass_magnitude", "C63_butterworth_highpass_magnitude", "C63_butterworth_half_power"], "note": "For odd orders the statement is about builds without assertions (see C18)."},
{"property": "C64", "status": "partial", "theorems": ["C64_butterworth_lowshelf_partial", "C64_butterworth_highshelf_partial", "C64_butterworth_shelf_polar_refuted"], "note": "VIOLATED under the C++ standard: std::polar is called with a negative magnitude for every order >= 2 (C64_butterworth_shelf_polar_refuted). Proved for implementations that compute rho*(cos,sin) without checking."},
{"property": "C65", "status": "proved", "theorems": ["C65_derivative", "C65_derivative_inverse", "C65_equal"], "note": "derivative has an extra template parameter that cannot be deduced; the model is of its body."},
{"property": "C66", "status": "partial", "theorems": ["C66_generalized_mean", "C66_generalized_mean_cases", "C66_generalized_mean_zero_refuted", "C66_generalized_mean_negative", "C66_norm"], "note": "VIOLATED by the code for order 0 (returns 1 instead of the geometric mean) ; also odd orders above one have no finite value on negative data. Everything else proved."},
{"property": "C67", "status": "proved", "theorems": ["C67_crest", "C67_entropy", "C67_entropy_uniform", "C67_spectral_entropy", "C67_rolloff"], "note": ""},
{"property": "C68", "status": "proved", "theorems": ["C68_durations", "C68_leq_silence", "C68_loudness"], "note": ""},
{"property": "C69", "status": "partial", "theorems": ["C69_snr_adjacent_partial", "C69_snr_refuted"], "note": "VIOLATED by the code: the reference variance is taken over [first1, first2). Correct only when the second signal directly follows the first in memory (C69_snr_adjacent_partial); undefined when it lies before (C69_snr_refuted)."},
{"property": "C70", "status": "partial", "theorems": ["C70_peak2peak_actual", "C70_peak2peak_refuted", "C70_peak2rms_actual", "C70_peak2rms_refuted"], "note": "VIOLATED by the code: peak2peak subtracts magnitudes (correct iff no sample is negative or the signal is constant), peak2rms uses the wrong rms of C36."},
{"property": "C71", "status": "proved", "theorems": ["C71_fract", "C71_inv_half_square", "C71_fpclassify", "C71_sign"], "note": ""},
{"property": "C72", "status": "partial", "theorems": ["C72_case_ascii", "C72_case_high_refuted"], "note": "VIOLATED by the code for chars below -1: tolower/toupper on them is undefined (C72_case_high_refuted). Proved for every other string."},
{"property": "C73", "status": "partial", "theorems": ["C73_space_values", "C73_spacing_refuted", "C73_barkspace_refuted"], "note": "VIOLATED by the code: the values are equally spaced in Hz and then converted (C73_spacing_refuted, C73_barkspace_refuted); C73_space_values gives the exact values."},
{"property": "C74", "status": "proved", "theorems": ["C74_complex_round_trip", "C74_split_join", "C74_real_only", "C74_short_second"], "note": ""},
{"property": "C75", "status": "partial", "theorems": ["C75_attack_reaches_target", "C75_decay", "C75_attack_target_refuted"], "note": "First note proved (C75_attack_reaches_target, C75_decay). VIOLATED by the code for later notes: key_off and the end of the attack overwrite the attack target (C75_attack_target_refuted)."},
{"property": "C76", "status": "partial", "theorems": ["C76_times", "C76_release_rate_refuted", "C76_release_rate_kept", "C76_levels_actual"], "note": "Times proved. VIOLATED by the code for release_rate(), which returns the release time (C76_release_rate_refuted)."},
{"property": "C77", "status": "proved", "theorems": ["C77_seek"], "note": "libsndfile decoder; request in whole frames"},
{"property": "C78", "status": "partial", "theorems": ["C78_write", "C78_round_trip", "C78_partial_frame_refuted", "C78_empty_refuted"], "note": "Proved for non-empty whole-frame blocks; VIOLATED by the code otherwise: partial frames are dropped, empty ranges dereferenced"},
{"property": "C79", "status": "partial", "theorems": ["C79_resampler_output_fits", "C79_resampler_copy_refuted", "C79_resampler_copy_mono", "C79_decoder_shape"], "note": "Resampler output bound, mono copy and decoder shape proved; VIOLATED by the code: the final copy of the resampler overflows for two or more channels"},
{"property": "C80", "status": "partial", "theorems": ["C80_pffft_spectrum_actual", "C80_pffft_empty", "C80_pffft_refuted", "C80_spectrum", "C80_parseval"], "note": "Proved for FFTW, exact arithmetic; VIOLATED by the code on PFFFT: the first value is wrong and the last one missing"},
{"property": "C81", "status": "partial", "theorems": ["C81_pffft_actual", "C81_pffft_refuted", "C81_hartley", "C81_involution"], "note": "Proved for FFTW, exact arithmetic; VIOLATED by the code on PFFFT: the first sample is ignored"},
{"property": "C82", "status": "partial", "theorems": ["C82_cepstrum", "C82_cepstrum_nonfinite", "C82_documentation_refuted"], "note": "Value and finiteness characterised; VIOLATED by the code: neither of the documented squares is taken and the signal is zero-padded"},
{"property": "C83", "status": "partial", "theorems": ["C83_chebyshev1_lowpass_partial", "C83_chebyshev1_highpass_partial", "C83_chebyshev1_lowpass_ripple", "C83_chebyshev1_highpass_ripple", "C83_chebyshev1_odd_asserts_refuted", "C83_chebyshev1_rejects"], "note": "Proved in exact arithmetic for every order without assertions and every even order with them; VIOLATED by the code for odd orders when assertions are compiled in: the zero at infinity fails the realness check"},
{"property": "C84", "status": "partial", "theorems": ["C84_chebyshev2_lowpass_partial", "C84_chebyshev2_highpass_partial", "C84_chebyshev2_lowpass_stopband", "C84_chebyshev2_highpass_stopband", "C84_chebyshev2_odd_asserts_refuted", "C84_chebyshev2_rejects"], "note": "Proved in exact arithmetic for every order without assertions and every even order with them; VIOLATED by the code for odd orders when assertions are compiled in"},
{"property": "C85", "status": "partial", "theorems": ["C85_chebyshev_lowshelf_partial", "C85_chebyshev_highshelf_partial", "C85_chebyshev_lowshelf_magnitude", "C85_chebyshev_shelf_rejects", "C85_chebyshev_clamped_gain_refuted", "C85_chebyshev_clamped_cut_actual", "C85_chebyshev_boost_actual", "C85_chebyshev_boost_gain_refuted", "C85_chebyshev_high_boost_actual", "C85_chebyshev_high_boost_gain_refuted", "C85_chebyshev_boost_hole_refuted"], "note": "Proved for 0 < ripple < |gain|, exact arithmetic, both types (they compute the same filter); VIOLATED by the code: 0 dB gives no finite filter, and a cut with ripple >= |gain| misses the gain at DC for odd orders, while a boost with ripple >= gain follows another law, proved for every order (C85_chebyshev_boost_actual): at most 1 dB asked for amplifies DC by more than 19 dB (40 dB for odd orders), and odd orders have a cutoff with no finite filter. The same laws are proved for the high shelf"},
{"property": "C86", "status": "partial", "theorems": ["C86_butterworth_bandpass_partial", "C86_butterworth_bandpass_shape", "C86_butterworth_bandpass_gain_refuted", "C86_bandpass_quarter_rate_refuted", "C86_chebyshev1_bandpass_partial", "C86_chebyshev2_bandpass_partial", "C86_chebyshev2_bandpass_zero_refuted", "C86_bandpass_odd_asserts_refuted", "C86_bandpass_rejects"], "note": "Proved in exact arithmetic: shape, edges, stability and zeros for all three families. VIOLATED by the code: the reference frequency is sqrt(T1+T2) instead of sqrt(T1*T2), so the passband gain is not 1 (refuted for every order around a quarter of the sample rate and whenever T1+T2 <> T1*T2); odd orders fail an assertion when assertions are compiled in, and a type II design whose reference lands exactly on a transmission zero divides by zero (C86_chebyshev2_bandpass_zero_refuted)"},
{"property": "C87", "status": "partial", "theorems": ["C87_butterworth_bandstop_partial", "C87_butterworth_bandstop_edges_refuted", "C87_chebyshev1_bandstop_partial", "C87_chebyshev2_bandstop_partial", "C87_bandstop_odd_asserts_refuted", "C87_bandstop_rejects"], "note": "Proved in exact arithmetic: the exact magnitude law, stability, the ends and the null for all three families. VIOLATED by the code: the band-stop transform uses cot instead of tan of half the bandwidth, so the requested edges are not at half power unless the band is exactly a quarter of the sample rate wide; odd orders fail an assertion when assertions are compiled in"},
{"property": "C88", "status": "partial", "theorems": ["C88_butterworth_bandshelf_partial", "C88_chebyshev_bandshelf_partial", "C88_chebyshev_bandshelf_clamped_actual", "C88_bandshelf_rejects", "C88_bandshelf_first_order_checked"], "note": "Proved in exact arithmetic for assertions off (Butterworth) and for assertions off or even orders (Chebyshev), with 0 < ripple < |gain|; a Chebyshev cut no deeper than its ripple is covered too (C88_chebyshev_bandshelf_clamped_actual), the corresponding boost is not. VIOLATED by the code: with the precondition of std::polar enforced every Butterworth shelf of order 2 or more fails, and a 0 dB Chebyshev shelf has no finite design; with assertions on, the first-order Butterworth band-shelf is proved equal to the one without, except at the bandwidths where its pole or zero pair contains 0, which fail an assertion"},
{"property": "C89", "status": "proved", "theorems": ["C89_ring_buffers_are_independent_values", "C89_move_hands_over_and_source_recovers"], "note": "all programs of construction, move, assignment, destruction and calls over any number of buffers"},
{"property": "C90", "status": "partial", "theorems": ["C90_moved_from_object_interferes_refuted"], "note": "VIOLATED by the code: the moved-from object keeps a span over the storage it gave away, so pushing into it overwrites the new owner's oldest element (refuted)"},
{"property": "C91", "status": "partial", "theorems": ["C91_fixed_ring_buffers_partial", "C91_moved_fixed_ring_refuted", "C91_fixed_ring_buffers_actual"], "note": "Proved for programs without moves and characterised for all programs. VIOLATED by the code: a moved fixed ring buffer keeps pointing into its source's array, so it reads a destroyed object once the source dies (refuted)"},
{"property": "C92", "status": "partial", "theorems": ["C92_environment_partial", "C92_environment_actual", "C92_empty_value_refuted", "C92_invalid_name_refuted", "C92_empty_name", "C92_null_view_refuted", "C92_view_length_ignored_refuted"], "note": "Proved for histories without empty values, characterised for all. VIOLATED by the code: a variable with an empty value is reported as not found; a name with '=' gives unknown instead of invalid_argument; view lengths are ignored; a null view is undefined behaviour"},
{"property": "C93", "status": "partial", "theorems": ["C93_c_environment", "C93_c_empty_name", "C93_python_environment_partial", "C93_python_missing_variable_refuted"], "note": "Proved for the C function and for existing variables in Python. VIOLATED by the code: reading a missing variable from Python builds a string from a null pointer"},
{"property": "C94", "status": "partial", "theorems": ["C94_build_information_partial", "C94_build_information_refuted", "C94_platform_partial", "C94_platform_refuted"], "note": "Proved for the fields listed. VIOLATED by the code: the major version is the minor one, every transform library is reported as FFTW, the C build date is the build time, and Windows, ARM and MSVC are reported as unknown"},
{"property": "C95", "status": "partial", "theorems": ["C95_log_output_actual", "C95_level_and_path_ignored_refuted"], "note": "VIOLATED by the code: level and file settings are stored and never consulted; every message goes to the terminal in full (characterised for all histories)"},
{"property": "C96", "status": "partial", "theorems": ["C96_insertion_actual", "C96_insertion_partial", "C96_insertion_refuted"], "note": "Proved for wide integers, C strings, whole views and colours; characterised for all items; floating-point insertion is not modelled. VIOLATED by the code: tab and endl insert the numbers 9 and 10, 8-bit integers insert a character, view lengths are ignored"},
{"property": "C97", "status": "partial", "theorems": ["C97_contiguous_partial", "C97_features_partial", "C97_elementwise_partial", "C97_normalize_partial", "C97_rank", "C97_strided_actual", "C97_strided_refuted", "C97_dtype_refuted"], "note": "Proved for contiguous arrays of doubles and for refusing other ranks; characterised for all strides. VIOLATED by the code: strides are ignored, so x[::2] uses the wrong elements and x[::-1] reads past the end, and other element types are reinterpreted"},
{"property": "C98", "status": "partial", "theorems": ["C98_moment_partial", "C98_moment_refuted", "C98_peak", "C98_peak_abs_actual", "C98_peak_abs_refuted", "C98_python_peaks_partial"], "note": "Proved for peak and orders 1 to 8. VIOLATED by the code: peak_abs returns the plain peak, and moments of other orders are 0"},
{"property": "C99", "status": "partial", "theorems": ["C99_search_partial", "C99_strided_actual", "C99_strided_refuted", "C99_other_arrays"], "note": "Proved for contiguous arrays of doubles; characterised for all strides, types and ranks. VIOLATED by the code: the view a[::2] is searched in the wrong elements (C99_strided_refuted), and other element types are undefined"},
{"property": "C100", "status": "partial", "theorems": ["C100_equal_lengths_partial", "C100_short_second_refuted", "C100_long_second_refuted", "C100_rank_actual", "C100_flux_refuted", "C100_flux_actual", "C100_equal_partial"], "note": "Proved for contiguous arrays of one length and for equal. VIOLATED by the code: a shorter second array is read past its end, a longer one is cut, the features accept a matrix as one argument, and flux of two separate arrays is undefined"},
{"property": "C101", "status": "partial", "theorems": ["C101_real2complex_actual", "C101_real2complex_refuted", "C101_parts_partial"], "note": "Proved for splitting and joining. VIOLATED by the code: real2complex never reads its argument and returns whatever the memory held, followed by zeros"},
{"property": "C102", "status": "partial", "theorems": ["C102_complex_partial", "C102_rfft_partial", "C102_spectrum_partial", "C102_even_partial", "C102_odd_refuted"], "note": "Proved for fft/ifft and for rfft/irfft of even length. VIOLATED by the code: an odd number of samples comes back one short, a single one is undefined"},
{"property": "C103", "status": "partial", "theorems": ["C103_concatenate_partial", "C103_pad_partial", "C103_pad_short_refuted"], "note": "Proved for concatenate and for growing sizes. VIOLATED by the code: padding to fewer elements than given is undefined instead of raising"},
{"property": "C104", "status": "partial", "theorems": ["C104_generate", "C104_filter_partial", "C104_window_partial", "C104_negative", "C104_window_wrap_refuted"], "note": "Proved for oscillators, for filters over contiguous arrays and for windows below 2^31 elements. VIOLATED by the code: larger windows wrap their size"},
{"property": "C105", "status": "proved", "theorems": ["C105_freq", "C105_freq_steady_state", "C105_freq_biquad", "C105_freq_undefined"], "note": "Over exact reals; a pole on the grid, missing room or coefficients, and a negative K are characterised as failures"},
{"property": "C106", "status": "partial", "theorems": ["C106_leq_actual", "C106_leq_refuted", "C106_leq_partial", "C106_leq_silent"], "note": "VIOLATED by the code: the mean of the levels is returned, not the level of the mean power, and missing frames count as 0 dB. Proved: what is returned, that it never exceeds the equivalent level of a full window, and that it equals it for frames of equal power"},
{"property": "C107", "status": "partial", "theorems": ["C107_manhattan_refuted", "C107_euclidean_actual", "C107_logarithmic_actual", "C107_logarithmic_refuted"], "note": "VIOLATED by the code: manhattan is the signed difference, euclidean the squared one (no triangle inequality), logarithmic the signed log ratio of magnitudes. Proved: the exact value of each; euclidean is non-negative, symmetric and zero exactly on equal arguments"},
{"property": "C108", "status": "partial", "theorems": ["C108_make_window", "C108_make_oscillator"], "note": "Proved for all windows as computed and for all oscillators; VIOLATED by the code for the square wave, which is inverted, and for the even-sized Welch window, which is off centre (C31, C47)"},
{"property": "C109", "status": "partial", "theorems": ["C109_copy_refuted", "C109_copy_destroy_ub", "C109_assign_refuted", "C109_no_copy_partial"], "note": "VIOLATED by the code: a copy of an open object makes every completing program release a handle twice, an assignment leaks. Proved: copy-free programs over audiofile decoders release every handle exactly once and fail only by misuse"},
{"property": "C110", "status": "partial", "theorems": ["C110_histogram_actual", "C110_histogram_refuted"], "note": "VIOLATED by the code: compute() writes nothing"},
{"property": "C111", "status": "proved", "theorems": ["C111_constants", "C111_defined"], "note": "All constants, those defined by limits included; every name is also shown to mean exactly one number. The rounding to a type is C130"},
{"property": "C112", "status": "proved", "theorems": ["C112_flatness", "C112_flatness_scale", "C112_outside_domain"], "note": "Over exact reals; samples that are not positive and the empty range have no finite value"},
{"property": "C113", "status": "partial", "theorems": ["C113_median_actual", "C113_median_refuted", "C113_median_partial"], "note": "VIOLATED by the code: the function is a stub returning zero"},
{"property": "C114", "status": "partial", "theorems": ["C114_sine_history", "C114_sawtooth_history", "C114_square_history_actual", "C114_sine_reset"], "note": "Proved for the sine and sawtooth (hence triangular) oscillators; VIOLATED by the code for the square wave, whose period stays that of the constructor (C48) and which is inverted (C47): the value it has instead is proved"},
{"property": "C115", "status": "partial", "theorems": ["C115_sum_error", "C115_mean_error", "C115_sum_finite", "C115_mean_between_refuted", "C115_mean_finite_refuted"], "note": "Error and overflow bounds proved. VIOLATED by the code: in doubles the mean of 0.1, 0.1, 0.1 exceeds 0.1, and the mean of two large numbers is infinite"},
{"property": "C116", "status": "proved", "theorems": ["C116_clip", "C116_nan_bounds", "C116_plain_amplifier", "C116_amplifier"], "note": "All IEEE binary formats, round to nearest even, operations not contracted"},
{"property": "C117", "status": "proved", "theorems": ["C117_max", "C117_min", "C117_maxabs", "C117_minabs"], "note": "All IEEE binary formats; the empty range is undefined behaviour"},
{"property": "C118", "status": "proved", "theorems": ["C118_normalize", "C118_normalize_silence"], "note": "All IEEE binary formats, round to nearest even"},
{"property": "C119", "status": "partial", "theorems": ["C119_no_nan", "C119_energy_error", "C119_rssq_error", "C119_rssq_zero_refuted", "C119_rssq_finite_refuted", "C119_variance_constant_refuted"], "note": "Signs, absence of NaN and error bounds proved. VIOLATED by the code: squares underflow and overflow, so rssq of a tiny sample is 0 and of a large one infinite, and the rounded mean gives equal samples a positive variance"},
{"property": "C120", "status": "partial", "theorems": ["C120_clock_stops_actual", "C120_clock_error", "C120_float_44100_stops_actual", "C120_advances_refuted", "C120_float_44100_sharp_actual"], "note": "VIOLATED by the code: the time is accumulated, so in every format it reaches a value that no further sample changes and the output is constant from then on; in float at 44100 Hz this happens at 512 s, after a stretch in which tones are 34 percent sharp. The error before that is bounded"},
{"property": "C121", "status": "partial", "theorems": ["C121_linspace", "C121_last_refuted", "C121_within_refuted"], "note": "Size, first value and error bounds proved. VIOLATED by the code: the last of 11 values from 0 to 1 is not 1, and the last of 10 exceeds 1"},
{"property": "C122", "status": "partial", "theorems": ["C122_derivative", "C122_sum_of_differences_refuted"], "note": "Per-difference claims proved; VIOLATED: the running sum of the differences need not return the samples"},
{"property": "C123", "status": "partial", "theorems": ["C123_bounded", "C123_silence", "C123_ringing_actual", "C123_decay_refuted"], "note": "Boundedness and closeness proved for every section with poles inside the unit circle, up to rounding (the bound degrades as the poles approach the circle); silence proved. VIOLATED by the code (as by any direct rounding): a stable section with a pole at 0.9 never falls silent in doubles after one sample"},
{"property": "C124", "status": "proved", "theorems": ["C124_cascade"], "note": "All IEEE binary formats, round to nearest even; sections at rest; exact cascade as in C14"},
{"property": "C125", "status": "proved", "theorems": ["C125_average_drift", "C125_average_grid", "C125_rms_grid"], "note": "All IEEE binary formats, round to nearest even. C05 and C06 show that drift and NaN do occur for other samples"},
{"property": "C126", "status": "partial", "theorems": ["C126_atomic", "C126_map", "C126_order", "C126_progress", "C126_terminates", "C126_agreement", "C126_view_partial", "C126_view_refuted", "C126_test_and_set_refuted"], "note": "Atomicity, program order, absence of deadlock, termination and agreement proved for all schedules. VIOLATED by the code: a view into the environment is handed out after the lock is released, so a thread that overwrites the variable invalidates it (proved valid if no thread overwrites it). Testing and then setting is not atomic"},
{"property": "C127", "status": "partial", "theorems": ["C127_complete", "C127_settings_first", "C127_undefined_message", "C127_mixed_refuted", "C127_name_race_refuted"], "note": "Completeness and order per thread proved; absence of races proved if settings are left alone. VIOLATED by the code: the characters of two messages interleave, and setting the name while another thread logs is a data race"},
{"property": "C128", "status": "partial", "theorems": ["C128_results", "C128_planned_safe", "C128_one_thread", "C128_race_refuted"], "note": "Results proved correct unless two threads meet in the planner, which cannot happen with plans made beforehand or with one transforming thread. VIOLATED by the code: the FFTW planner is called without a lock, so any two threads starting with a transform can race"},
{"property": "C129", "status": "partial", "theorems": ["C129_range", "C129_attack_ends", "C129_release_ends", "C129_decay_ends", "C129_release_time", "C129_release_rate", "C129_set_target", "C129_sample_rate", "C129_attack_time", "C129_decay_time", "C129_attack_ends_refuted"], "note": "Range, sign and absence of NaN proved for every history; end of attack, decay and release proved, with a bound on the samples, for rates above half a unit in the last place of the level. VIOLATED by the code: a smaller positive rate is absorbed by rounding and the segment never ends (refuted in float)"},
{"property": "C130", "status": "partial", "theorems": ["C130_accuracy", "C130_double", "C130_wider", "C130_extended_refuted"], "note": "Proved for every format up to double, and that wider types hold exactly the double. VIOLATED by the code: the literals have type double, so the constants of a 64-bit extended type are off by hundreds of its roundings (refuted for pi)"},
{"property": "C131", "status": "proved", "theorems": ["C131_sawtooth_range", "C131_triangular_range", "C131_sawtooth_value", "C131_settings", "C131_square_levels", "C131_square_switch"], "note": "Range, accuracy, levels, switching and settings, for all histories and formats (fmod with the integer 1 computed in a format at least as wide as T, as in double or long double). The sine is a libm function and is covered over the reals only (C47)"},
{"property": "C132", "status": "partial", "theorems": ["C132_bartlett", "C132_triangular", "C132_welch", "C132_single_actual", "C132_bartlett_symmetric_refuted", "C132_bartlett_end_refuted"], "note": "Range, accuracy and the stated symmetries proved for all sizes and formats. VIOLATED by the code: the Bartlett window of 4 points in double is not symmetric and that of 50 points does not end in zero (C132_bartlett_symmetric_refuted, C132_bartlett_end_refuted); a single point gives NaN (C132_single_actual)"},
{"property": "C133", "status": "partial", "theorems": ["C133_rounding", "C133_idempotent", "C133_rectify", "C133_sign", "C133_square", "C133_fract", "C133_inv", "C133_square_value", "C133_half", "C133_deg2rad", "C133_rad2deg", "C133_angle_round_trip", "C133_fract_below_one_refuted", "C133_deg2rad_finite_refuted"], "note": "All statements proved for all arguments and formats except: VIOLATED by the code: fract(-2^-60) is 1 (C133_fract_below_one_refuted), deg2rad overflows for large finite angles because it multiplies first (C133_deg2rad_finite_refuted). The conversions are proved with the stored value of pi, for formats of 8 to 53 bits"},
{"property": "C134", "status": "partial", "theorems": ["C134_stability_sound", "C134_stability_complete_partial", "C134_lowpass", "C134_highpass", "C134_bandpass", "C134_allpass", "C134_lowpass_silent_actual", "C134_conjugate_poles", "C134_real_poles", "C134_ideal_lowpass", "C134_lowpass_1hz_actual", "C134_lowpass_passes_refuted", "C134_stability_complete_refuted", "C134_poles_stable_refuted"], "note": "Soundness of the test proved for all inputs; stability and accuracy of the pass designs proved when the cosine keeps a distance of a few roundings from 1 and the bandwidth term is above a few roundings, for any sine and cosine returned; pole pairs likewise. VIOLATED by the code: the test rejects some stable sections (C134_stability_complete_refuted), poles just inside the circle give a denominator with a root on it (C134_poles_stable_refuted), and below a cut-off of about 1.7 Hz at 44100 Hz in float the cosine rounds to 1 and the low-pass filter outputs only zeros (C134_lowpass_silent_actual, C134_lowpass_passes_refuted). The shelves are not modelled in floating point"},
{"property": "C135", "status": "partial", "theorems": ["C135_split", "C135_surrogate", "C135_split_high_refuted", "C135_join_actual", "C135_join", "C135_join_refuted", "C135_round_trip", "C135_ltrim_partial", "C135_rtrim_partial", "C135_trim_partial", "C135_trim_refuted", "C135_case_partial", "C135_case_refuted", "C135_space", "C135_space_refused_refuted"], "note": "Split, the spaces of valid sizes and join of texts without NUL proved in full; exact conditions given for the rest. VIOLATED by the code: a text whose first or last character that is not a space is not ASCII makes trim undefined (C135_trim_refuted), any character that is not ASCII makes the case conversions undefined (C135_case_refuted), join drops everything after a NUL (C135_join_refuted), a delimiter that is not ASCII cuts characters in two (C135_split_high_refuted), and a size NumPy refuses ends the process instead of raising (C135_space_refused_refuted)"},
{"property": "C136", "status": "partial", "theorems": ["C136_equal_actual", "C136_equal_float_actual", "C136_symmetric", "C136_reflexive_partial", "C136_reflexive_refuted", "C136_large_floats", "C136_small_refuted", "C136_transitive_refuted", "C136_double_refuted"], "note": "Characterised exactly for all values of every type (C136_equal_actual): symmetric; reflexive up to 2^127; exact on floats from 1 on. VIOLATED by the code: all numbers are compared as floats with an absolute tolerance, so doubles that differ by 1 are equal and doubles from 2^128 on differ from themselves, as infinities do (C136_double_refuted, C136_reflexive_refuted); below 2^-25 all numbers are equal (C136_small_refuted); not transitive (C136_transitive_refuted)"},
{"property": "C137", "status": "partial", "theorems": ["C137_fields_partial", "C137_unreadable_refuted", "C137_name_refuted", "C137_wide_refuted"], "note": "Proved for readable files with Latin-1 texts, TagLib being represented by its documentation. VIOLATED by the code: of an unreadable file every accessor dereferences a null pointer (C137_unreadable_refuted), other texts come back as other characters (C137_wide_refuted), and a name is cut at its first NUL (C137_name_refuted)"},
{"property": "C138", "status": "partial", "theorems": ["C138_azcr_actual", "C138_azcr_partial", "C138_azcr_short", "C138_duration", "C138_effective_duration", "C138_crest", "C138_crest_silence", "C138_rolloff", "C138_rolloff_range", "C138_norm", "C138_azcr_long_refuted", "C138_rolloff_overflow_refuted", "C138_crest_overflow_refuted"], "note": "Zero-crossing rate exact and correctly rounded up to 2^precision neighbours (C138_azcr_partial), and characterised beyond (C138_azcr_actual); durations, crest, roll-off and norm characterised. VIOLATED by the code: float stops counting at 2^24 sign changes, so a signal that alternates 2^25 times has rate 1/2 (C138_azcr_long_refuted); a single sample gives NaN and an empty range is undefined (C138_azcr_short); an overflowing energy gives a negative roll-off (C138_rolloff_overflow_refuted) and overflowing magnitudes a crest of 0 (C138_crest_overflow_refuted)"},
{"property": "C139", "status": "partial", "theorems": ["C139_centroid", "C139_harmonic_mean", "C139_centroid_range_refuted", "C139_harmonic_bound_refuted", "C139_harmonic_zero_refuted"], "note": "Relative error bounds proved for both. VIOLATED by the code: the centroid can lie beyond the last position (C139_centroid_range_refuted); the harmonic mean of the single number 49 is above 49 (C139_harmonic_bound_refuted) and of a subnormal number is 0 (C139_harmonic_zero_refuted)"},
{"property": "C140", "status": "partial", "theorems": ["C140_accuracy", "C140_hann_range", "C140_hamming_range", "C140_hann_starts_at_zero", "C140_empty", "C140_single_sample_actual", "C140_blackman_first_actual", "C140_blackman_nonnegative_refuted"], "note": "Error bound for all six windows and every length from 2 to 2^precision (C140_accuracy); Hann range and start, Hamming range. VIOLATED by the code: the first Blackman sample is negative for every length, -2^-26 in float and -2^-56 in double (C140_blackman_nonnegative_refuted, C140_blackman_first_actual); a window of one sample is NaN (C140_single_sample_actual)"},
{"property": "C141", "status": "partial", "theorems": ["C141_amdf", "C141_asdf", "C141_empty", "C141_peak", "C141_peakabs", "C141_peak2peak", "C141_decrease_actual", "C141_amdf_grid", "C141_asdf_grid", "C141_even_moment", "C141_second_moment", "C141_zero_refuted", "C141_odd_moment_refuted", "C141_peak2peak_refuted", "C141_decrease_refuted"], "note": "Error bounds, zeros at repetition lags, PCM exactness, peaks and even moments proved. VIOLATED by the code: a zero of either function does not imply a repetition (C141_zero_refuted); odd moments of finite samples can be NaN (C141_odd_moment_refuted); the peak-to-peak value of a wave from -1 to 1 is 0 (C141_peak2peak_refuted, characterised by C141_peak2peak); the decrease is NaN for every range (C141_decrease_actual); a NaN first sample hides the peak (C141_peak)"},
{"property": "C142", "status": "partial", "theorems": ["C142_mag2db", "C142_pow2db", "C142_nan", "C142_unity", "C142_db2mag", "C142_roundtrip", "C142_db2pow", "C142_power_roundtrip", "C142_audio_roundtrip", "C142_leq", "C142_leq_refuted"], "note": "Conversions, both round trips and the level of a frame proved, for library functions of any relative error up to four units (C142_ex: correctly rounded ones exist). VIOLATED by the code: a quiet frame that is not silent has a mean square that underflows, and the contract of the conversion fails (C142_leq_refuted)"},
{"property": "C143", "status": "partial", "theorems": ["C143_erb", "C143_erb_inverse", "C143_erb_roundtrip", "C143_cent", "C143_cent_inverse", "C143_mel_order", "C143_erb_order", "C143_mel_inverse_order", "C143_erb_inverse_order", "C143_bark_order_refuted", "C143_mel", "C143_mel_inverse", "C143_mel_roundtrip", "C143_bark", "C143_bark_order_actual", "C143_bark_inverse", "C143_bark_roundtrip", "C143_cent_odd", "C143_cent_inverse_odd"], "note": "Order and accuracy proved as stated. VIOLATED by the code: the Bark scale does not keep the order of all doubles, because its quotient and its two corrections round independently (C143_bark_order_refuted); what holds instead is C143_bark and C143_bark_order_actual"},
{"property": "C144", "status": "partial", "theorems": ["C144_geometric_mean", "C144_geometric_mean_zero", "C144_geometric_mean_nan", "C144_silence", "C144_never_silent", "C144_flatness", "C144_entropy", "C144_entropy_zero_actual", "C144_entropy_single_actual", "C144_loudness", "C144_spread", "C144_kurtosis", "C144_entropy_refuted", "C144_kurtosis_refuted"], "note": "Proved as stated. VIOLATED by the code: the entropy of a distribution with an empty bin is NaN (C144_entropy_refuted, C144_entropy_zero_actual) and that of a single bin is never finite (C144_entropy_single_actual); the kurtosis of a quiet frame that is not constant is NaN, because the squared variance underflows (C144_kurtosis_refuted)"},
{"property": "C145", "status": "partial", "theorems": ["C145_skewness", "C145_logspace", "C145_skewness_refuted"], "note": "Accuracy proved as stated (C145_skewness, C145_logspace). VIOLATED by the code: a quiet frame that is not constant has skewness NaN, because the powers of its deviations underflow (C145_skewness_refuted); what holds instead is C145_skewness, on deviations within range"},
{"property": "C146", "status": "partial", "theorems": ["C146_slope_actual", "C146_variation_actual", "C146_short", "C146_slope_refuted", "C146_variation_refuted"], "note": "VIOLATED by the code: a falling spectrum has a positive slope (C146_slope_refuted), disjoint spectra have variation 0 (C146_variation_refuted), and a shorter second range is read past its end (C146_short). What holds instead, with its accuracy: the slope is one over the sum of the frequencies, whatever the magnitudes (C146_slope_actual), and the variation is one minus the root of the ratio of the two sums (C146_variation_actual)"},
{"property": "C147", "status": "partial", "theorems": ["C147_follower_actual", "C147_smoothing_refuted", "C147_recovery_refuted"], "note": "VIOLATED by the code: whatever the times, the envelope reaches a sample at once and drops to zero with the next silent one (C147_smoothing_refuted), and after one infinite or undefined sample every later output is undefined (C147_recovery_refuted). What holds instead: for every history of settings and finite samples every output is finite and is the (rectified) sample itself, with zero in place of a subnormal one, and a reset restores this after any history (C147_follower_actual)"},
{"property": "C148", "status": "partial", "theorems": ["C148_brown", "C148_brown_overflow_refuted", "C148_brown_silent_refuted", "C148_pink", "C148_pink_overflow_refuted"], "note": "VIOLATED by the code for wide ranges: over the whole range of int the output conversion of brown noise and the sum of the states of pink noise overflow, which is undefined (C148_brown_overflow_refuted, C148_pink_overflow_refuted), and for a range below 50 brown noise is silent (C148_brown_silent_refuted). Proved for white noise in [-M, M]: with 3.5 M in the range of int brown noise is defined, within 3.5 M and within 358 of the exact leaky integrator (C148_brown); with 70 M in the range of int pink noise is defined, within 7.61 M and within 121 of the exact filter bank (C148_pink)"},
{"property": "C149", "status": "partial", "theorems": ["C149_mean", "C149_mean_overflow_refuted", "C149_energy", "C149_energy_overflow_refuted", "C149_amplifier_actual", "C149_amplifier_range_actual", "C149_normalize_refuted", "C149_normalize_silence_refuted"], "note": "VIOLATED by the code: two samples at full scale overflow the mean (C149_mean_overflow_refuted), three samples at the full scale of 16 bits overflow the energy (C149_energy_overflow_refuted), the clipping amplifier is undefined exactly when a product leaves int, whatever the interval (C149_amplifier_actual, C149_amplifier_range_actual), normalising ints into ints keeps the signs of the peaks only and zeroes every other sample (C149_normalize_refuted), and a silent range is divided by zero (C149_normalize_silence_refuted). Proved for samples of magnitude at most M: with N M in the range of int the mean is defined, truncated towards zero and between the samples (C149_mean); with N M^2 in the range of int the energy is exact (C149_energy)"}
]}
