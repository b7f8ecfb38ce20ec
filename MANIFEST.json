{
 "claims": [
  {
   "property": "C01",
   "status": "proved",
   "theorems": [
    "C01_fft_is_dft",
    "C01_fft_is_dft_nostd"
   ],
   "note": "Any length n >= 1 on a new object; also the no_std build for powers of two. Exact arithmetic over R; rounding is outside the model."
  },
  {
   "property": "C02",
   "status": "proved",
   "theorems": [
    "C02_ifft_is_idft",
    "C02_fft_then_ifft",
    "C02_ifft_then_fft"
   ],
   "note": "Inverse DFT, both round trips on one object, exact arithmetic."
  },
  {
   "property": "C03",
   "status": "proved",
   "theorems": [
    "C03_history_independent_refuted"
   ],
   "note": "REFUTED as stated: after a transform of 64 points a 32 point transform on the same object differs (stale longer split buffers). C04 gives the histories for which it holds."
  },
  {
   "property": "C04",
   "status": "proved",
   "theorems": [
    "C04_good_histories",
    "C04_same_size"
   ],
   "note": "Any arithmetic (bit for bit)."
  },
  {
   "property": "C05",
   "status": "proved",
   "theorems": [
    "C05_fft_contract",
    "C05_ifft_contract"
   ],
   "note": "Any arithmetic, every reachable object, all four build configurations."
  },
  {
   "property": "C06",
   "status": "proved",
   "theorems": [
    "C06_fft_error_keeps_buffer",
    "C06_ifft_error_keeps_buffer_refuted"
   ],
   "note": "Forward: proved for every arithmetic. Inverse: REFUTED as stated, without std the buffer comes back conjugated."
  },
  {
   "property": "C07",
   "status": "proved",
   "theorems": [
    "C07_entry_points_refuted",
    "C07_other_lengths",
    "C07_simd_other_lengths",
    "C07_stockham_is_dft",
    "C07_f32_plan_is_dft",
    "C07_simd_ifft"
   ],
   "note": "REFUTED as stated: all three entry points panic on one sample. Proved for every other length (normal return, DFT, inverse)."
  },
  {
   "property": "C08",
   "status": "proved",
   "theorems": [
    "C08_stack_is_dft",
    "C08_stack_round_trip",
    "C08_stack_other_sizes"
   ],
   "note": "Proved, exact arithmetic for the DFT part, any arithmetic for the error part."
  },
  {
   "property": "C09",
   "status": "proved",
   "theorems": [
    "C09_strategies_same",
    "C09_strategies_dft",
    "C09_strategies_refuted",
    "C09_radix4_wrong"
   ],
   "note": "REFUTED as stated for Radix4: on every size 4^k >= 16 (std) the result is wrong for every input with x[2] <> x[n/2], in every reachable planner state (C09_radix4_wrong; C09_strategies_refuted is one witness). Proved for all other combinations."
  },
  {
   "property": "C10",
   "status": "proved",
   "theorems": [
    "C10_radix4_refuted",
    "C10_radix4_total",
    "C10_radix4_permuted",
    "C10_radix4_wrong",
    "C10_radix4_dft",
    "C10_mixed_same",
    "C10_mixed_dft",
    "C10_mixed_twiddles_same",
    "C10_mixed_twiddles_dft",
    "C10_mixed_twiddles_refuted"
   ],
   "note": "REFUTED as stated: fft_radix4 is wrong on every size 4^k >= 16 (C10_radix4_wrong: for every input with x[2] <> x[n/2]) and fft_mixed_radix_with_twiddles panics for one sample. What fft_radix4 does there is characterised: it never fails (C10_radix4_total, any float type) and computes the DFT of a permutation of the input (C10_radix4_permuted). Proved for the remaining lengths of each function."
  },
  {
   "property": "C11",
   "status": "proved",
   "theorems": [
    "C11_factorize",
    "C11_factorize_terminates_refuted"
   ],
   "note": "Proved for n >= 1 (terminates, product, primes, ascending). The n = 0 clause is REFUTED: no amount of fuel is enough."
  },
  {
   "property": "C12",
   "status": "proved",
   "theorems": [
    "C12_fft_split",
    "C12_fft_split_any_history",
    "C12_ifft_split",
    "C12_ifft_split_exact",
    "C12_mismatch"
   ],
   "note": "fft_split bit for bit; ifft_split bit for bit under the stated identities of the scaling factor (conversion of n, negation), which exact arithmetic satisfies."
  },
  {
   "property": "C13",
   "status": "proved",
   "theorems": [
    "C13_group",
    "C13_transforms"
   ],
   "note": "Any lane width, any group size, any arithmetic."
  },
  {
   "property": "C14",
   "status": "proved",
   "theorems": [
    "C14_strided",
    "C14_scratch_irrelevant",
    "C14_errors",
    "C14_empty_scratch"
   ],
   "note": "Any arithmetic. The boundary case of an empty scratch (returns Ok, nothing changed) is stated in C14_empty_scratch."
  },
  {
   "property": "C15",
   "status": "proved",
   "theorems": [
    "C15_strided_alloc",
    "C15_uninitialised_scratch"
   ],
   "note": "Any arithmetic, arbitrary initial scratch contents."
  },
  {
   "property": "C16",
   "status": "proved",
   "theorems": [
    "C16_out_of_place_strided",
    "C16_bad_strides",
    "C16_success_iff"
   ],
   "note": "Any arithmetic."
  },
  {
   "property": "C17",
   "status": "proved",
   "theorems": [
    "C17_out_of_place",
    "C17_vec"
   ],
   "note": "Any arithmetic."
  },
  {
   "property": "C18",
   "status": "proved",
   "theorems": [
    "C18_twiddle_cache",
    "C18_chirp_cache"
   ],
   "note": "Any arithmetic, any history."
  },
  {
   "property": "C19",
   "status": "proved",
   "theorems": [
    "C19_twiddles",
    "C19_precomputed_agree",
    "C19_which_table"
   ],
   "note": "Values over the reals. C19_which_table is for any float type and any history: which calls get the printed table, and the entries bit for bit."
  },
  {
   "property": "C20",
   "status": "proved",
   "theorems": [
    "C20_parallel_ifft",
    "C20_schedule_independent",
    "C20_parallel_ifft_exact"
   ],
   "note": "Any arithmetic; schedule = arbitrary permutation of the element tasks; the equality with the sequential loop needs only that the two usize-to-f32 conversions agree for f32."
  },
  {
   "property": "C21",
   "status": "proved",
   "theorems": [
    "C21_threshold_set",
    "C21_heuristic",
    "C21_setters_nostd",
    "C21_setters_ignored",
    "C21_no_overrides",
    "C21_setters_refuted"
   ],
   "note": "Threshold setter proved. The other setters: proved without std; REFUTED as stated with std (they are ignored because the base threshold is computed from the environment only)."
  },
  {
   "property": "C22",
   "status": "proved",
   "theorems": [
    "C22_repeatable",
    "C22_length_check",
    "C22_errors",
    "C22_fft_is_dft",
    "C22_ifft_is_idft",
    "C22_round_trip",
    "C22_round_trip_refuted"
   ],
   "note": "Repeatability, length check and the errors of both directions proved for any arithmetic (C22_errors: buffer kept forward, left conjugated by the failed inverse); round trip proved for the plans of plan_works and REFUTED for 16-point Radix4 plans (not f32)."
  },
  {
   "property": "C23",
   "status": "proved",
   "theorems": [
    "C23_batch",
    "C23_batch_inverse",
    "C23_inverse_failing_unchanged_refuted",
    "C23_batch_dft"
   ],
   "note": "Proved for batch and multi_channel. For batch_inverse without std the failing buffer is conjugated: that clause is REFUTED."
  },
  {
   "property": "C24",
   "status": "proved",
   "theorems": [
    "C24_linear"
   ],
   "note": "Exact arithmetic."
  },
  {
   "property": "C25",
   "status": "proved",
   "theorems": [
    "C25_parseval"
   ],
   "note": "Exact arithmetic."
  },
  {
   "property": "C26",
   "status": "proved",
   "theorems": [
    "C26_convolution",
    "C26_shift"
   ],
   "note": "Exact arithmetic."
  },
  {
   "property": "C27",
   "status": "proved",
   "theorems": [
    "C27_hermitian"
   ],
   "note": "Exact arithmetic."
  },
  {
   "property": "C28",
   "status": "proved",
   "theorems": [
    "C28_rfft_is_dft",
    "C28_planner_rfft_is_dft",
    "C28_scalar_object",
    "C28_simd_object",
    "C28_simd_object_refuted",
    "C28_packed",
    "C28_stack"
   ],
   "note": "Exact arithmetic over R for every even length, every kernel variant, every reachable planner and the trait, planner, packed and stack entry points; the inner FFT is any provider that computes the DFT, then instantiated with the scalar and SIMD objects. REFUTED for the SIMD object at 2 samples (length-1 inner FFT panics): C28_simd_object_refuted."
  },
  {
   "property": "C29",
   "status": "proved",
   "theorems": [
    "C29_irfft_is_idft",
    "C29_planner_irfft",
    "C29_packed",
    "C29_round_trip",
    "C29_stack"
   ],
   "note": "Exact arithmetic over R; irfft computes the real inverse DFT of the Hermitian extension, and rfft then irfft is the identity."
  },
  {
   "property": "C30",
   "status": "proved",
   "theorems": [
    "C30_argument_errors",
    "C30_stack_errors",
    "C30_never_panics",
    "C30_inner_error_overwrites_output"
   ],
   "note": "Any float type. Argument errors leave output, scratch and FFT state unchanged; no length combination panics when the FFT provider is total. C30_inner_error_overwrites_output shows that errors raised by the inner FFT do modify the output (outside the claim)."
  },
  {
   "property": "C31",
   "status": "proved",
   "theorems": [
    "C31_kernels_agree",
    "C31_packed_agrees",
    "C31_fma_refuted"
   ],
   "note": "Any float type with the listed IEEE laws, builds without fused multiply-add. C31_fma_refuted shows the restriction to non-FMA builds is necessary."
  },
  {
   "property": "C32",
   "status": "proved",
   "theorems": [
    "C32_stft_frames",
    "C32_scalar_object",
    "C32_errors",
    "C32_frame"
   ],
   "note": "Exact arithmetic for any FFT provider that computes the DFT on window-sized buffers, and for the scalar object after any calls no larger than the window. Error cases for any float type."
  },
  {
   "property": "C33",
   "status": "proved",
   "theorems": [
    "C33_streaming_equals_batch",
    "C33_errors"
   ],
   "note": "Any float type and any FFT provider, bit for bit, whenever the batch stft succeeds."
  },
  {
   "property": "C34",
   "status": "proved",
   "theorems": [
    "C34_istft_inverts_stft",
    "C34_scalar_object",
    "C34_errors",
    "C34_inverse_frame"
   ],
   "note": "Exact arithmetic, output buffer zeroed by the caller, every sample whose window energy exceeds the code's 1e-8 threshold. C35 covers non-zero output buffers."
  },
  {
   "property": "C35",
   "status": "proved",
   "theorems": [
    "C35_overwrites_output_refuted",
    "C35_scratch_irrelevant",
    "C35_accumulates"
   ],
   "note": "REFUTED as stated: C35_overwrites_output_refuted (frames are added to the caller's buffer). C35_accumulates gives the exact dependence; C35_scratch_irrelevant is the part that holds."
  },
  {
   "property": "C36",
   "status": "proved",
   "theorems": [
    "C36_stream_equals_batch",
    "C36_scalar_object"
   ],
   "note": "Any float type, any provider that keeps buffer lengths (the scalar object does: C36_scalar_object), bit for bit."
  },
  {
   "property": "C37",
   "status": "proved",
   "theorems": [
    "C37_every_hop_refuted",
    "C37_scalar_refuted",
    "C37_short_window_refuted",
    "C37_small_hop"
   ],
   "note": "REFUTED as stated: C37_scalar_refuted (every hop larger than the window panics on the third frame), C37_short_window_refuted. C37_small_hop: no sequence of pushes and flushes panics for hop <= window."
  },
  {
   "property": "C38",
   "status": "proved",
   "theorems": [
    "C38_parallel_frames",
    "C38_parallel_inverse",
    "C38_hop_error",
    "C38_same_errors_refuted",
    "C38_same_samples_refuted"
   ],
   "note": "Bit for bit for every schedule, scalar object. C38_same_errors_refuted and C38_same_samples_refuted record the two differences outside the statement."
  },
  {
   "property": "C39",
   "status": "proved",
   "theorems": [
    "C39_haar_reconstructs",
    "C39_even_length",
    "C39_synthesis_then_analysis",
    "C39_stack_agrees",
    "C39_stack_inverse_agrees",
    "C39_batch"
   ],
   "note": "Exact arithmetic for reconstruction; stack/heap agreement for any float type. The odd-length clause is stated as the code behaves (the last sample is dropped)."
  },
  {
   "property": "C40",
   "status": "proved",
   "theorems": [
    "C40_reconstruction",
    "C40_panics",
    "C40_every_length_refuted"
   ],
   "note": "REFUTED as stated: C40_every_length_refuted (six samples, two levels). C40_reconstruction and C40_panics together decide every length and level count: reconstruction succeeds iff all intermediate lengths are even, otherwise the inverse panics."
  },
  {
   "property": "C41",
   "status": "proved",
   "theorems": [
    "C41_never_panics",
    "C41_filter_bank",
    "C41_db2_interior",
    "C41_db4_refuted",
    "C41_sym4_refuted",
    "C41_coif1_refuted",
    "C41_with_analysis_taps"
   ],
   "note": "REFUTED for db4, sym4, coif1 (C41_db4_refuted, C41_sym4_refuted, C41_coif1_refuted: the synthesis taps are in the wrong order). db2 reconstructs every interior sample (C41_db2_interior); C41_filter_bank: the loops are right for every bank whose synthesis taps undo the analysis taps; C41_with_analysis_taps: db4/sym4/coif1 would reconstruct with the analysis taps; C41_never_panics: any signal length, any float type."
  },
  {
   "property": "C42",
   "status": "proved",
   "theorems": [
    "C42_fft2d",
    "C42_fft2d_square",
    "C42_fft3d",
    "C42_errors",
    "C42_errors_3d",
    "C42_nostd_2d",
    "C42_nostd_3d",
    "C42_fft2d_refuted"
   ],
   "note": "REFUTED as stated: C42_fft2d_refuted (32 rows of 64 columns: the first column sees what the last row transform left in the object). C42_fft2d, C42_fft3d: right for every shape satisfying right_after (later transforms not smaller than earlier ones, or at most 16 points); exact arithmetic."
  },
  {
   "property": "C43",
   "status": "proved",
   "theorems": [
    "C43_flatten_2d",
    "C43_flatten_2d_ragged",
    "C43_flatten_3d",
    "C43_flatten_3d_ragged"
   ],
   "note": "Any element type; 3D with zero rows reports zero columns."
  },
  {
   "property": "C44",
   "status": "proved",
   "theorems": [
    "C44_dct2_dct3_formula",
    "C44_dct2_dct3_inverse",
    "C44_empty",
    "C44_total"
   ],
   "note": "Over exact reals; for every length. The outputs are also proved equal to the written-out DCT-II/III sums, and totality and length hold for any float type."
  },
  {
   "property": "C45",
   "status": "proved",
   "theorems": [
    "C45_dct4_involution",
    "C45_dct1_involution",
    "C45_formula"
   ],
   "note": "Over exact reals; outputs also equal the written-out sums."
  },
  {
   "property": "C46",
   "status": "proved",
   "theorems": [
    "C46_planned_dct2",
    "C46_output_mismatch",
    "C46_longer_buffers_refuted",
    "C46_shorter_buffers_refuted",
    "C46_nostd_lengths"
   ],
   "note": "REFUTED as stated in its second half: a buffer longer than planned panics (cos table index), a shorter one is accepted and transformed with the wrong table. Proved: for every planner history, kernel variant and sequence of calls with the planned length the results are exactly dct2 (std, or power-of-two length); output/input length mismatch gives MismatchedLengths; no_std rejects other lengths with the output untouched."
  },
  {
   "property": "C47",
   "status": "proved",
   "theorems": [
    "C47_dst1_involution",
    "C47_dst4_involution",
    "C47_formula"
   ],
   "note": "Over exact reals; outputs also equal the written-out sums."
  },
  {
   "property": "C48",
   "status": "proved",
   "theorems": [
    "C48_formula",
    "C48_dst3_dst2_refuted",
    "C48_inverse_of_dst2"
   ],
   "note": "REFUTED: dst3 halves the first sample and uses frequencies shifted by one, on two points it returns two equal values. The sum that does invert dst2 is proved."
  },
  {
   "property": "C49",
   "status": "proved",
   "theorems": [
    "C49_dct_stack",
    "C49_dst_stack",
    "C49_batch",
    "C49_multi_channel",
    "C49_window_stack"
   ],
   "note": "Any float type, so bit for bit."
  },
  {
   "property": "C50",
   "status": "proved",
   "theorems": [
    "C50_dht_involution",
    "C50_dht_from_dft"
   ],
   "note": "Over exact reals."
  },
  {
   "property": "C51",
   "status": "proved",
   "theorems": [
    "C51_goertzel",
    "C51_errors",
    "C51_rate_error"
   ],
   "note": "goertzel_f32 for every non-empty signal and positive rate returns the magnitude of the DFT bin floor(f*n/rate) mod n, exact arithmetic; the error cases for any float type."
  },
  {
   "property": "C52",
   "status": "proved",
   "theorems": [
    "C52_czt",
    "C52_czt_dft",
    "C52_zero_start"
   ],
   "note": "czt_f32 equals sum x[n] a^-n w^(nk) for every length and parameters (exact arithmetic); the DFT is the special case."
  },
  {
   "property": "C53",
   "status": "proved",
   "theorems": [
    "C53_analytic",
    "C53_errors",
    "C53_total"
   ],
   "note": "Power-of-two lengths: real part equals the input, spectrum is one-sided (X[0] and X[n/2] kept, 2X[k] below, 0 above). Totality and error cases hold for any float type."
  },
  {
   "property": "C54",
   "status": "proved",
   "theorems": [
    "C54_cepstrum",
    "C54_errors",
    "C54_total"
   ],
   "note": "Power-of-two lengths: value, zero imaginary part and evenness over exact reals; totality and error cases for any float type."
  },
  {
   "property": "C55",
   "status": "proved",
   "theorems": [
    "C55_total",
    "C55_mfcc",
    "C55_batch",
    "C55_triangles",
    "C55_nonneg",
    "C55_edges"
   ],
   "note": "Totality, length, mfcc and batch behaviour for any float type; triangular formula, non-negativity and edges over exact reals."
  },
  {
   "property": "C56",
   "status": "proved",
   "theorems": [
    "C56_range",
    "C56_periodic_symmetry",
    "C56_formula",
    "C56_hann_overlap",
    "C56_hann_cola",
    "C56_bartlett",
    "C56_nuttall",
    "C56_tukey",
    "C56_kaiser"
   ],
   "note": "Range, symmetry and overlap-add over exact reals for every length, plus the written-out formulas; kaiser is symmetric, positive and peaks at 1 with the code's 20-term Bessel sum; hann overlap-add is proved for every hop dividing the length."
  },
  {
   "property": "C57",
   "status": "proved",
   "theorems": [
    "C57_bohman_refuted",
    "C57_bohman_asymmetry"
   ],
   "note": "REFUTED as stated at every length >= 2: the first sample is -1/pi and the last 1/pi (C57_bohman_refuted). C57_bohman_asymmetry gives the exact asymmetry and the symmetric part."
  },
  {
   "property": "C58",
   "status": "proved",
   "theorems": [
    "C58_magnitudes",
    "C58_zero_hop_refuted",
    "C58_zero_window"
   ],
   "note": "Magnitudes, shape and maximum over exact reals for every schedule of the parallel STFT. REFUTED for the zero hop: C58_zero_hop_refuted (division by zero panic)."
  },
  {
   "property": "C59",
   "status": "proved",
   "theorems": [
    "C59_panics_iff",
    "C59_pixel",
    "C59_averages",
    "C59_long_input_refuted"
   ],
   "note": "Averages and pixel scale over exact reals; C59_panics_iff for any float type. C59_long_input_refuted shows that the bound on the input length is needed."
  },
  {
   "property": "C60",
   "status": "proved",
   "theorems": [
    "C60_db",
    "C60_db_scale",
    "C60_wide",
    "C60_gradients",
    "C60_legacy_gray",
    "C60_clamped",
    "C60_end_points",
    "C60_from_magnitude",
    "C60_from_magnitude_wide",
    "C60_parse"
   ],
   "note": "Decibel laws and the palettes over exact reals; 16-bit colours for any float type. The colorous gradients (viridis, plasma, inferno) are an oracle returning bytes. Matching without regard to case is specified by two written-out alphabets (L_case.v), not by the model's lower-casing."
  },
  {
   "property": "C61",
   "status": "proved",
   "theorems": [
    "C61_entries_kept",
    "C61_known_name",
    "C61_name_learned",
    "C61_same_bytes",
    "C61_ids_are_paths"
   ],
   "note": "Any hash function, any file system which may change from call to call, any history of calls."
  },
  {
   "property": "C62",
   "status": "proved",
   "theorems": [
    "C62_unique_names",
    "C62_same_name",
    "C62_distinct_ids_refuted"
   ],
   "note": "REFUTED as stated: C62_distinct_ids_refuted (same file name in two directories, for every hash function). C62_unique_names: true after any history when equal names mean equal contents and the hash has no collisions on the contents."
  },
  {
   "property": "C63",
   "status": "proved",
   "theorems": [
    "C63_features",
    "C63_machine_part",
    "C63_example_choice",
    "C63_words_unique",
    "C63_features_arg",
    "C63_commands"
   ],
   "note": "All strings (ASCII white space). The 'at most one' clauses are about the features derived from the machine; C63_extra_arch shows that user extras can name another architecture."
  },
  {
   "property": "C64",
   "status": "proved",
   "theorems": [
    "C64_kaiser_empty_refuted",
    "C64_window_lengths",
    "C64_tukey_total"
   ],
   "note": "REFUTED as stated: kaiser(0) panics for every float type in builds with overflow checks (C64_kaiser_empty_refuted; release builds return the empty window, C82_kaiser). C64_window_lengths covers all other lengths and windows for any float type; tukey is total whenever the computed taper is at most the length (C64_tukey_total), which C56_tukey shows always holds over exact reals."
  },
  {
   "property": "C65",
   "status": "proved",
   "theorems": [
    "C65_fft_error",
    "C65_ifft_error",
    "C65_roundtrip_error",
    "C65_twiddle_error",
    "C65_bluestein_error",
    "C65_float_fft_error",
    "C65_float_roundtrip_error",
    "C65_float_bluestein_error",
    "C65_float_small_error",
    "C65_f64_small_refuted",
    "C65_float_precomputed_error",
    "C65_float_bluestein_f32",
    "C65_f64_long_refuted",
    "C65_ifft_bluestein_error"
   ],
   "note": "Standard model of floating-point arithmetic (no overflow or underflow, record `rounded`); the elementary functions enter only through the accuracy of the twiddle step, chirp and literals. C65_float_* instantiate everything with prec-bit round-to-nearest-even arithmetic (Flocq FLX, 24 bits f32, 53 bits f64), correctly rounded sin/cos, conversions of integers through f32 and tables printed with 10 or 16 decimals, leaving no hypothesis but the size. REFUTED for f64: lengths 8 and 16 do not reach f64 accuracy because the kernel literals are f32 (C65_f64_small_refuted), nor do the non-powers of two above 4097 because the chirp takes i*i through f32 (C65_f64_long_refuted; C65_float_bluestein_f32 gives the f32 bound that does hold). C65_ifft_bluestein_error (P_rerr.v): the inverse at other lengths."
  },
  {
   "property": "C66",
   "status": "proved",
   "theorems": [
    "C66_tables",
    "C66_scratch",
    "C66_dst2_row",
    "C66_dst3_refuted",
    "C66_dst4_refuted"
   ],
   "note": "History independence and scratch: any float type (C66_tables, C66_scratch). The row clause holds for DST-II (C66_dst2_row) and is REFUTED as stated for DST-III and DST-IV (C66_dst3_refuted, C66_dst4_refuted): their tables are no row of dst3 / dst4."
  },
  {
   "property": "C67",
   "status": "proved",
   "theorems": [
    "C67_complex_vec",
    "C67_copies",
    "C67_transform",
    "C67_exact",
    "C67_mismatch"
   ],
   "note": "Any float type except C67_exact (exact reals). The fields are public: with im shorter than re to_complex_vec panics, with im longer its tail is dropped (both stated in C67_complex_vec)."
  },
  {
   "property": "C68",
   "status": "proved",
   "theorems": [
    "C68_stream_any",
    "C68_stream",
    "C68_rows",
    "C68_keeps_up",
    "C68_keeps_up_refuted",
    "C68_reset",
    "C68_colours"
   ],
   "note": "REFUTED as stated in one clause: C68_keeps_up_refuted (1024-sample chunks hold back 512 more samples per call, without bound); C68_keeps_up for chunks of at most 512. Everything else for any float type and any history (C68_stream_any) and exactly over the reals (C68_stream). web-spectrogram/src/lib.rs does not parse as committed (merge residue at 122-123 and 166-167); the model reads the evident text without the residue."
  },
  {
   "property": "C69",
   "status": "proved",
   "theorems": [
    "C69_flat_magnitudes",
    "C69_fft_split",
    "C69_palette"
   ],
   "note": "Exact reals for the magnitudes and the DFT; palette clauses for any float type. The wasm-bindgen layer (conversion to JavaScript values) is not modelled."
  },
  {
   "property": "C70",
   "status": "proved",
   "theorems": [
    "C70_mixdown_any",
    "C70_mixdown",
    "C70_setup_errors",
    "C70_never_panics_refuted",
    "C70_wav",
    "C70_wav_range",
    "C70_wav_range_refuted",
    "C70_wav_mono_refuted"
   ],
   "note": "REFUTED as stated in three clauses: read_audio panics for a track declaring zero channels, for a packet larger than the first one's capacity and for packets with fewer channels than the track declares (C70_never_panics_refuted); read_wav does not mix channels (C70_wav_mono_refuted) and maps -32768 below -1 (C70_wav_range_refuted; C70_wav_range gives the exact range). The mixdown itself: any float type (C70_mixdown_any), exact averages over the reals (C70_mixdown). The symphonia decoder and hound reader are inputs (event lists). Matching without regard to case is specified by two written-out alphabets (L_case.v), not by the model's lower-casing."
  },
  {
   "property": "C71",
   "status": "proved",
   "theorems": [
    "C71_put_pixel",
    "C71_image",
    "C71_every_window_refuted"
   ],
   "note": "Exact reals, window length at least 2 (C71_image). REFUTED as stated for window lengths 0 and 1, for which the program panics (C71_every_window_refuted: hop 0). Command-line parsing and file writing are not modelled."
  },
  {
   "property": "C72",
   "status": "proved",
   "theorems": [
    "C72_png",
    "C72_svg"
   ],
   "note": "Integer code, no axioms. The PNG container encoding (image crate) is not modelled: the sample sequence handed to the encoder is. SVG: the rectangle list with position and fill."
  },
  {
   "property": "C73",
   "status": "proved",
   "theorems": [
    "C73_inside",
    "C73_sign_lost",
    "C73_every_index_refuted",
    "C73_panics"
   ],
   "note": "REFUTED as stated: get(n/2) is 1 instead of -1 (C73_every_index_refuted) and n < 2 panics (C73_panics, any float type). Positive part over the reals: right inside the table (C73_inside), right up to the lost sign (-1)^(k/(n/2)) for even n (C73_sign_lost)."
  },
  {
   "property": "C74",
   "status": "proved",
   "theorems": [
    "C74_exit",
    "C74_analyze",
    "C74_commands",
    "C74_web_steps"
   ],
   "note": "No axioms. Command outcomes are an arbitrary function; argument parsing (clap) is not modelled. C74_commands pins the command line each task starts; the web script's words are given by the specification `words`."
  },
  {
   "property": "C75",
   "status": "proved",
   "theorems": [
    "C75_arch",
    "C75_flags",
    "C75_detect"
   ],
   "note": "No axioms. Outputs of uname, lscpu, sysctl and the environment are arbitrary byte strings; white space, line breaks and letter case are the ASCII ones."
  },
  {
   "property": "C76",
   "status": "proved",
   "theorems": [
    "C76_peak",
    "C76_never_above",
    "C76_reset_refuted"
   ],
   "note": "No axioms. Every interleaving, with relaxed loads of the peak returning any older value; in_range says the bytes in use fit in usize and no more is freed than was allocated. REFUTED once reset_alloc runs with live blocks (C76_reset_refuted: a later free wraps the counter). The default realloc and alloc_zeroed of GlobalAlloc go through alloc and dealloc and are not separate events."
  },
  {
   "property": "C77",
   "status": "proved",
   "theorems": [
    "C77_report",
    "C77_best_exists",
    "C77_nan_panics",
    "C77_one_best_refuted"
   ],
   "note": "Over the reals (times are compared as reals); C77_nan_panics holds for any float type. Two winners are possible: C77_one_best_refuted."
  },
  {
   "property": "C78",
   "status": "proved",
   "theorems": [
    "C78_splice",
    "C78_no_markers",
    "C78_again",
    "C78_marker_in_table_refuted",
    "C78_reversed_refuted"
   ],
   "note": "No axioms. Reading and writing the file are outside the model. REFUTED as to repeated runs when the table contains the end marker or the markers are reversed (C78_marker_in_table_refuted, C78_reversed_refuted)."
  },
  {
   "property": "C79",
   "status": "proved",
   "theorems": [
    "C79_canvas",
    "C79_page",
    "C79_db"
   ],
   "note": "C79_canvas holds for any number type without axioms; C79_page and C79_db over the reals. app.mjs does not parse at this commit (merge residue); it is modelled with the residue removed. Reading the file and decoding the audio are the browser's."
  },
  {
   "property": "C80",
   "status": "proved",
   "theorems": [
    "C80_palette",
    "C80_texel",
    "C80_floor",
    "C80_too_dark",
    "C80_same_picture_refuted",
    "C80_same_brightness_refuted",
    "C80_preferred"
   ],
   "note": "REFUTED as stated: for every size of more than one row the pictures differ (C80_same_picture_refuted), and levels differ even for one row (C80_same_brightness_refuted, C80_floor, C80_too_dark). Positive part: same palette (C80_palette). The sampling of the texture is modelled at pixel centres with nearest filtering; the texture format is assumed accepted by the driver."
  },
  {
   "property": "C81",
   "status": "proved",
   "theorems": [
    "C81_arguments",
    "C81_unambiguous",
    "C81_image",
    "C81_read_error"
   ],
   "note": "Arguments: any reading of numbers (parse_f32 is arbitrary), no axioms. Image over the reals. Reading the WAV container and writing the PNG are outside the model."
  },
  {
   "property": "C82",
   "status": "proved",
   "theorems": [
    "C82_strided",
    "C82_fft2d",
    "C82_fft3d",
    "C82_stft",
    "C82_stft_exact_slots",
    "C82_istft",
    "C82_next_frame",
    "C82_kaiser"
   ],
   "note": "(C82_kaiser adds the one subtraction below zero: kaiser(0).) Any float type, any FFT provider, any word size, debug (overflow checks) and release (wrapping) builds. fft2d/fft3d for every planner reachable by calls."
  },
  {
   "property": "C83",
   "status": "proved",
   "theorems": [
    "C83_strided_never_wrong",
    "C83_strided_refuted",
    "C83_fft2d_never_ok",
    "C83_fft2d_refuted",
    "C83_stft_wraps",
    "C83_stft_refuted",
    "C83_istft_wraps_refuted"
   ],
   "note": "REFUTED as stated, on every word size: C83_strided_refuted and C83_fft2d_refuted (the check itself wraps, the call panics instead of reporting the mismatch), C83_stft_wraps/C83_stft_refuted and C83_istft_wraps_refuted (release builds transform the start of the signal again, or add a frame to the start of the output; debug builds panic). What holds: C83_strided_never_wrong (unbounded-integer result or panic, never another value), C83_fft2d_never_ok (never reports success)."
  },
  {
   "property": "C84",
   "status": "proved",
   "theorems": [
    "C84_fits",
    "C84_checked",
    "C84_refuted"
   ],
   "note": "REFUTED as stated: C84_refuted (2h-bit words, 2^h + 1 points: release builds are wrong by at least 1 on a unit impulse in exact arithmetic; 65537 points on wasm32). C84_fits: bit for bit the unbounded-integer transform whenever (n-1)^2 and the padded length fit a word. C84_checked: with overflow checks such a length panics when its tables are built, every shorter one gets the same tables."
  },
  {
   "property": "C85",
   "status": "proved",
   "theorems": [
    "C85_rfft_any_provider",
    "C85_rfft_error",
    "C85_rfft_other_error",
    "C85_irfft_error",
    "C85_roundtrip_error",
    "C85_table_error",
    "C85_float_rfft_error",
    "C85_float_roundtrip_error"
   ],
   "note": "Standard model (`rounded`), no overflow or underflow; any provider of stated accuracy in C85_rfft_any_provider, the crate's transform elsewhere. The table is built by repeated multiplication (C85_table_error: the error grows with the index). C85_float_* instantiate with prec-bit round-to-nearest-even arithmetic and correctly rounded sin/cos. Literal 1/2 is a hypothesis of the generic theorems and proved of binary floats."
  },
  {
   "property": "C86",
   "status": "proved",
   "theorems": [
    "C86_stft_error",
    "C86_roundtrip_error",
    "C86_scalar_pow2",
    "C86_scalar_other",
    "C86_float_roundtrip_error"
   ],
   "note": "Standard model, no overflow or underflow, exact comparison with the threshold. Any FFT provider of stated accuracy (`accurate`: error factor and gain) in C86_stft_error and C86_roundtrip_error; the crate's object after any calls no larger than the window in C86_scalar_pow2 and C86_scalar_other; prec-bit round to nearest in C86_float_roundtrip_error. The output buffer starts at zero (C35)."
  },
  {
   "property": "C87",
   "status": "proved",
   "theorems": [
    "C87_fft2d_error",
    "C87_fft3d_error",
    "C87_float_fft2d_error"
   ],
   "note": "Standard model, fresh object, the shapes of C42 (`right_after`; the other shapes are wrong already in exact arithmetic)."
  },
  {
   "property": "C88",
   "status": "proved",
   "theorems": [
    "C88_dct_error",
    "C88_dst_error",
    "C88_dht_error",
    "C88_roundtrip_error"
   ],
   "note": "`flx prec`: every operation correctly rounded to prec bits, unbounded exponent, cos and sin correctly rounded, integer conversions rounded once. The exact sums are the ones of C44, C45, C47, C48 and C50. The stack, batch and multi-channel variants compute the same values (C49)."
  },
  {
   "property": "C89",
   "status": "proved",
   "theorems": [
    "C89_ieee_fft",
    "C89_ieee_ifft",
    "C89_ieee_roundtrip",
    "C89_ieee_small",
    "C89_ieee_bluestein",
    "C89_bluestein_overflow_refuted",
    "C89_ifft_overflow_refuted"
   ],
   "note": "`ieee o`: Flocq's binary_float for binary32 and binary64, round to nearest even, with all special values; sin, cos and the printing of the precomputed tables come from an oracle `o` assumed accurate to 2 units of 2^-prec where the theorem says so (`accurate_trig`, `accurate_tables`; C89_library and C89_tables show that correctly rounded ones are). REFUTED without headroom: C89_bluestein_overflow_refuted, C89_ifft_overflow_refuted. NaN payloads are not modelled."
  },
  {
   "property": "C90",
   "status": "proved",
   "theorems": [
    "C90_range",
    "C90_formula",
    "C90_kaiser",
    "C90_bartlett",
    "C90_single_refuted",
    "C90_kaiser_overflow_refuted",
    "C90_blackman_refuted"
   ],
   "note": "`ieee o`, `ieeex x` at binary32: Flocq's numbers with all special values. The cosine is the oracle o_cos (ln, log10 and powf are not used by the windows); `cos_bounded` and `cos_accurate` are hypotheses where stated, C90_library shows a correctly rounded cosine meets both. REFUTED as a claim about all parameters: C90_single_refuted (one sample), C90_kaiser_overflow_refuted (beta = 21), C90_blackman_refuted (negative first sample). The accuracy of Bohman and Tukey and of Kaiser against the Bessel function is not bounded; C57 and C64 have the exact formulas."
  },
  {
   "property": "C91",
   "status": "proved",
   "theorems": [
    "C91_rfft_kernels",
    "C91_parallel_ifft",
    "C91_ifft_split",
    "C91_f64_scale_refuted",
    "C91_fma_refuted"
   ],
   "note": "`ieee o` at both formats; NaN payloads and signs are not modelled (one NaN). The laws needed by C12, C20 and C31 are proved of Flocq's operations (ieee_sign_laws, mul_one, fas_f32, fas_small). REFUTED with the fma feature: C91_fma_refuted; REFUTED beyond 2^24 samples in binary64: C91_f64_scale_refuted (the scale factors; no whole transform of that length is computed)."
  },
  {
   "property": "C92",
   "status": "proved",
   "theorems": [
    "C92_server",
    "C92_installed_copy",
    "C92_failed_install",
    "C92_before_install",
    "C92_rest_from_network",
    "C92_offline_refuted",
    "C92_update_refuted",
    "C92_missing_file_refuted"
   ],
   "note": "axum, tower-http's ServeDir/ServeFile and the browser's Cache/fetch are modelled from their documentation (M_sw.v), not from their code: methods other than GET, ranges, conditional requests, percent-encoding and content types are left out. REFUTED: C92_offline_refuted, C92_update_refuted, C92_missing_file_refuted. No page registers the worker, so none of this is reached by a visitor unless it is registered by other means."
  },
  {
   "property": "C93",
   "status": "proved",
   "theorems": [
    "C93_pixels",
    "C93_last_pixel_refuted",
    "C93_db",
    "C93_db_scale",
    "C93_zero_range_refuted",
    "C93_gradients",
    "C93_gray_monotone",
    "C93_extremes",
    "C93_from_magnitude",
    "C93_zero_floor_refuted"
   ],
   "note": "`ieee o`, `ieeex x` at binary32. ln and log10 are oracles: `ln_ok` (monotone on [1, 2^23], 0 at 1, at least 1/2 from 2 on), `ln_rounded x 16`, `log_ok` (no NaN from 10^-10 on), log10(1) = +0 where stated; C93_library shows that correctly rounded ones meet all. REFUTED: C93_last_pixel_refuted, C93_zero_range_refuted, C93_zero_floor_refuted. The colours of the colorous crate are an oracle."
  },
  {
   "property": "C94",
   "status": "proved",
   "theorems": [
    "C94_parse",
    "C94_first_use_decides",
    "C94_value",
    "C94_default",
    "C94_default_refuted",
    "C94_default_slow",
    "C94_overflow_refuted",
    "C94_zero_threads",
    "C94_agrees"
   ],
   "note": "M_tune.v models the OnceLocks, the parsing and the W-bit product; num_cpus and the elapsed nanoseconds are oracles, one thread at a time. C94_agrees ties it to the decision in M_fft.v used by C20 and C21. REFUTED: C94_default_refuted (README's default), C94_overflow_refuted. Whichever branch is chosen gives the same bits (C20, C91)."
  },
  {
   "property": "C95",
   "status": "proved",
   "theorems": [
    "C95_ieee_rfft",
    "C95_ieee_irfft",
    "C95_ieee_roundtrip",
    "C95_early_overflow_refuted"
   ],
   "note": "`ieee o` as in C89: sin and cos within 2 units (accurate_trig), tables only with the precomputed ones (accurate_tables). Lengths are powers of two from 64 on; the bounds are relative to the sum of the absolute values, so the round trip's is weak for long flat signals. REFUTED: C95_early_overflow_refuted (finite whenever the spectrum is representable)."
  },
  {
   "property": "C96",
   "status": "proved",
   "theorems": [
    "C96_once",
    "C96_agreement",
    "C96_progress",
    "C96_bounded",
    "C96_sequential",
    "C96_settings_refuted"
   ],
   "note": "M_conc.v: programs of single accesses (loads of the atomics, environment reads, OnceLock operations, clock and num_cpus answering anything), interleaved in any order. OnceLock follows std's documentation (one initialiser at a time, others wait, a panic empties it). Relaxed atomics are treated as sequentially consistent, which matters only while setters run. C96_sequential ties the programs to M_tune.decide (C94). REFUTED: C96_settings_refuted (settings are read one by one)."
  },
  {
   "property": "C97",
   "status": "proved",
   "theorems": [
    "C97_lossless",
    "C97_pcm",
    "C97_error",
    "C97_any_signal_refuted",
    "C97_overflow_refuted"
   ],
   "note": "P_haar.v on the Flocq instance of L_ieee.v. One invariant lemma (multi_frame) carries both proofs through the loops of M_wave.v: exact steps for samples on a grid, signs of zeros included, and an error recursion otherwise. The one-level and stack versions are the same functions (C39). REFUTED for arbitrary samples: C97_any_signal_refuted, C97_overflow_refuted."
  },
  {
   "property": "C98",
   "status": "proved",
   "theorems": [
    "C98_fft",
    "C98_ifft",
    "C98_rfft",
    "C98_irfft",
    "C98_stft",
    "C98_stft_local",
    "C98_poisons_object",
    "C98_stft_spreads",
    "C98_ieee",
    "C98_clean_data_refuted"
   ],
   "note": "L_bad.v, P_bad.v. The specification is the record absorbing (six closure conditions on a predicate) and tainted; absorbing_nonfinite and absorbing_nan show IEEE infinities/NaN and NaN alone qualify. The Stockham stages are followed by a residue argument (after s stages every position congruent to the sample modulo n/2^s is tainted), the unrolled kernels by search, Bluestein through its three transforms. REFUTED that finite samples give finite bins on a used object: C98_clean_data_refuted, with the general form C98_poisons_object and C98_stft_spreads (the stale split buffers of C03)."
  },
  {
   "property": "C99",
   "status": "proved",
   "theorems": [
    "C99_parallel_feature",
    "C99_exact",
    "C99_contract",
    "C99_butterfly8",
    "C99_butterfly8_exact"
   ],
   "note": "M_par.v, P_par.v. C99_contract gives the errors, C99_exact the values, C99_parallel_feature the equality of the two feature sets (rayon is only reached through FftPlan, C21), C99_butterfly8 the dead code."
  },
  {
   "property": "C100",
   "status": "proved",
   "theorems": [
    "C100_ieee_stft",
    "C100_ieee_small",
    "C100_unit_range"
   ],
   "note": "P_istft.v on the Flocq instance of L_ieee.v: the closed form of the frames (as in C98) and C89 per frame, plus the rounding of the windowing products. As in C89 accurate_trig (within 2 units) and accurate_tables are hypotheses; C89_library shows a library meeting them. The round trip is C106."
  },
  {
   "property": "C101",
   "status": "proved",
   "theorems": [
    "C101_fft2d",
    "C101_fft3d",
    "C101_sums",
    "C101_czt",
    "C101_goertzel",
    "C101_hilbert",
    "C101_dct2_planner",
    "C101_haar",
    "C101_haar_odd_refuted",
    "C101_ieee"
   ],
   "note": "P_bad2.v, specification `absorbing` and `tainted` as in C98. The multi-dimensional transforms are followed line by line: a line containing the value is full of it afterwards, other lines are untouched. C101_ieee: infinities/NaN and NaN alone qualify for f32 and f64, square root included. REFUTED for odd lengths of the Haar transform: C101_haar_odd_refuted."
  },
  {
   "property": "C102",
   "status": "proved",
   "theorems": [
    "C102_ieee_fft2d",
    "C102_ieee_fft3d",
    "C102_unit_range"
   ],
   "note": "P_ind.v on the Flocq instance of L_ieee.v: the closed form of each pass of lines (as in C42 and C87), C89 per line, and the previous pass's error carried through the next by the triangle inequality. The order of the sides is the one in which the shared planner's twiddles stay right (C43); accurate_trig and accurate_tables are hypotheses as in C89."
  },
  {
   "property": "C103",
   "status": "proved",
   "theorems": [
    "C103_fft",
    "C103_length",
    "C103_ifft",
    "C103_roundtrip",
    "C103_float_fft",
    "C103_float_roundtrip"
   ],
   "note": "L_l2.v bounds the errors of one pass of butterflies together (parallelogram law and the triangle inequality in Euclidean norm), so that no sum of moduli enters; P_l2.v has the theorems. Standard model (`rounded`), no overflow or underflow; C103_float_* instantiate it with prec-bit round to nearest as in C65. Lengths up to 16 (straight-line kernels) and Bluestein lengths have the componentwise bounds of C65 only."
  },
  {
   "property": "C104",
   "status": "proved",
   "theorems": [
    "C104_goertzel",
    "C104_magnitude",
    "C104_float",
    "C104_nan_refuted",
    "C104_error_refuted"
   ],
   "note": "P_goer.v. The computed recurrence is the exact one run on perturbed samples; the perturbations are summed through the complex state s1 - e^(-iw) s2, which grows by one sample per step (fold_err), and C51's identity turns the states into the DFT bin of the perturbed signal. REFUTED as a guarantee of a number, or of a small relative error, in IEEE f32: C104_nan_refuted, C104_error_refuted (computed in Flocq's binary32; the only hypothesis on the library is cos 0 = 1). C104_float takes sqrt to be the real one; the coefficient is within 68 units for bins below n (flx_coeff)."
  },
  {
   "property": "C105",
   "status": "proved",
   "theorems": [
    "C105_czt",
    "C105_float_czt",
    "C105_hilbert",
    "C105_float_hilbert"
   ],
   "note": "P_derr.v. Chirp-z: the calculus `near` of L_err.v through the three nested loops (czt_wk, czt_bin), the reciprocal of a by hand (ainv_near). Analytic signal: the Euclidean bounds of C103 for both transforms, the mask being off by at most u at the doubled bins; `analytic` is stated by the spectrum, as in C53. Standard model, no overflow or underflow; the comparison with zero in czt is exact equality."
  },
  {
   "property": "C106",
   "status": "proved",
   "theorems": [
    "C106_roundtrip",
    "C106_stream"
   ],
   "note": "P_iistft.v: the frames there and back by C89_ieee_roundtrip, the overlap-add loop by induction over the frames covering a sample (ola_I), then the division. sin and cos are the library's, accurate to two units (accurate_trig); ln, log10, powf are not used. C106_stream gives the same bound for StftStream::next_frame followed by IstftStream::push_frame and flush, through the bit-exact C33 and C36."
  },
  {
   "property": "C107",
   "status": "proved",
   "theorems": [
    "C107_dct",
    "C107_dst",
    "C107_dht",
    "C107_roundtrip"
   ],
   "note": "P_iterr.v: the ordered sum by induction with a relative and an absolute part (enum_I), the angle by rk_mul/rk_div, sin and cos of the library accurate to two units (accurate_sin_cos; C107_library shows one). The stack and batch variants run the same loop bodies on the same data (M_trig.v), see C49. C107_roundtrip composes each bound with the exact inverse identity of the transform pair (lemma back); C107_ones_back is 1000 ones in f64."
  },
  {
   "property": "C108",
   "status": "proved",
   "theorems": [
    "C108_finite",
    "C108_error",
    "C108_overflow_refuted"
   ],
   "note": "P_icep.v: the FFT and its inverse by C89_ieee_fft and C89_ieee_ifft, the magnitude by sqrt_band (squares may underflow, they cannot overflow below 2^62), the logarithm by ln_lip. The literal 1e-12 is the quotient of 1 and f32(10^12), which is the number Rust reads (9223372 * 2^-63). Lengths under 32 are not covered by the bound. REFUTED as stated without the bound on the signal: C108_overflow_refuted."
  },
  {
   "property": "C109",
   "status": "proved",
   "theorems": [
    "C109_energies",
    "C109_mfcc",
    "C109_batch"
   ],
   "note": "P_imel.v: the bin edges are arbitrary usize values (usize_small); each weight is a number between 0 and 1 after rounding (weight_I), and the accumulator is bounded by the prefix sum of the magnitudes along both loops (step_I, up_I, down_I). The coefficients by the logarithm's bound and C107_dct; batches by induction over the frames."
  }
 ]
}