{"id": "C01", "title": "Forward FFT equals the DFT for every length", "statement": "On a freshly created scalar FFT object (std build), `fft` on a buffer of any length n >= 1 returns Ok and replaces the buffer x by y with y[k] = sum_j x[j]*exp(-2*pi*i*j*k/n) for every k, in exact arithmetic. This covers the hand-written kernels (2,4,8,16), the Stockham loop for larger powers of two and the chirp (Bluestein) path for every other length.", "quantifier": "every length n >= 1, every complex input vector, every target/feature configuration with std", "why_tests_cant": "tests sample a few lengths and random vectors; the claim is over all lengths and all inputs, and the three algorithms switch on the length", "anchors": ["src/fft.rs: ScalarFftImpl::fft, stockham_fft_with_threshold, fft_split_simd, FftPlanner::get_twiddles, FftPlanner::get_bluestein", "src/fft_kernels.rs: fft2, fft4, fft8, fft16"]}
{"id": "C02", "title": "Inverse FFT equals the inverse DFT and undoes the forward FFT", "statement": "On a fresh object `ifft` on a buffer of length n >= 1 yields x[j] = (1/n) sum_k y[k]*exp(+2*pi*i*j*k/n); hence fft followed by ifft, and ifft followed by fft, restore the original buffer exactly (exact arithmetic), also when both calls use the same object.", "quantifier": "every length n >= 1, every complex input vector", "why_tests_cant": "round-trip tests use a handful of sizes with tolerances that hide index errors", "anchors": ["src/fft.rs: ScalarFftImpl::ifft, ScalarFftImpl::fft"]}
{"id": "C03", "title": "Results do not depend on what the FFT object was used for before", "statement": "For any sequence of earlier transforms performed with the same FFT object, a further `fft` on a buffer returns the same buffer that a freshly created object would return.", "quantifier": "every finite history of API calls on one object, every later input", "why_tests_cant": "the space of histories is unbounded; tests almost always use a fresh object or one repeated size", "anchors": ["src/fft.rs: FftPlanner (split_re, split_im, bluestein_scratch), ScalarFftImpl::stockham_fft_with_threshold, ScalarFftImpl::fft"]}
{"id": "C04", "title": "Histories after which the FFT object is still correct", "statement": "If every earlier power-of-two transform on the object had a length not larger than the present power-of-two length (or, for a chirp transform, than its padded length, and every earlier padded length is not larger), the result equals that of a fresh object; in particular repeating one size any number of times is always correct.", "quantifier": "every finite history of fft calls satisfying the size condition", "why_tests_cant": "needs an invariant over unbounded histories", "anchors": ["src/fft.rs: stockham_fft_with_threshold, ScalarFftImpl::fft, FftPlanner"]}
{"id": "C05", "title": "fft/ifft error contract", "statement": "`fft` and `ifft` never panic and always terminate on a reachable object: an empty buffer gives Err(EmptyInput); a length-1 buffer gives Ok unchanged; every other length gives Ok in std builds; without std a length that is not a power of two gives Err(NonPowerOfTwoNoStd) and every power of two gives Ok. The buffer length never changes, and no other error value is ever returned.", "quantifier": "every input length, every configuration, every reachable object state", "why_tests_cant": "absence of panics for all lengths and states cannot be sampled", "anchors": ["src/fft.rs: ScalarFftImpl::fft, ScalarFftImpl::ifft, FftError"]}
{"id": "C06", "title": "A failing forward or inverse transform leaves the buffer untouched", "statement": "Whenever `fft` or `ifft` returns Err the caller's buffer has its original contents.", "quantifier": "every input and configuration", "why_tests_cant": "error paths over all lengths and build configurations (std / no_std)", "anchors": ["src/fft.rs: ScalarFftImpl::fft, ScalarFftImpl::ifft, FftPlan::ifft, ScalarFftImpl::ifft_split, ifft_inplace_stack"]}
{"id": "C07", "title": "The public Stockham entry point and SIMD objects accept every non-empty length", "statement": "`stockham_fft`, the SIMD FFT objects returned by `new_fft_impl`, and `FftPlan<f32>` with Radix2/Radix4 return normally (no panic) for every buffer length, and for every length n >= 1 compute the DFT.", "quantifier": "every buffer length", "why_tests_cant": "a panic at one specific length is only found if that length is tried on that entry point", "anchors": ["src/fft.rs: ScalarFftImpl::stockham_fft, SimdFftX86_64Impl::fft, SimdFftAarch64Impl::fft, SimdFftWasmImpl::fft, new_fft_impl, FftPlan::fft"]}
{"id": "C08", "title": "Stack-only FFT equals the DFT and rejects other sizes", "statement": "`fft_inplace_stack` on an array of N complex numbers computes the DFT for every power of two N, `ifft_inplace_stack` the inverse DFT (so they undo each other); N=0 gives EmptyInput, N=1 is the identity, every other N gives NonPowerOfTwoNoStd, and on error the array is unchanged.", "quantifier": "every N and every array content", "why_tests_cant": "const-generic N: tests instantiate a few values; the bit-reversal loop must be right for all powers of two", "anchors": ["src/fft.rs: fft_inplace_stack, ifft_inplace_stack"]}
{"id": "C09", "title": "All strategies compute the same transform", "statement": "`fft_with_strategy` with Radix2, Radix4, SplitRadix or Auto on a fresh object gives the same result (the DFT) for every length.", "quantifier": "every length, every input, every strategy", "why_tests_cant": "a permutation error only shows for particular lengths and non-symmetric inputs", "anchors": ["src/fft.rs: fft_with_strategy, fft_radix4, plan_strategy"]}
{"id": "C10", "title": "Radix4, mixed-radix and twiddle-buffer entry points", "statement": "`fft_radix4`, `fft_mixed_radix` and `fft_mixed_radix_with_twiddles` compute the DFT for every length >= 1 and report EmptyInput for the empty buffer.", "quantifier": "every length and input", "why_tests_cant": "depends on the factorisation of the length; unbounded", "anchors": ["src/fft.rs: fft_radix4, fft_mixed_radix, fft_mixed_radix_with_twiddles, factorize"]}
{"id": "C11", "title": "Integer factorisation used for mixed radix is correct and terminates", "statement": "For every n >= 1 the factor list used to choose the mixed-radix path terminates, multiplies to n, contains only primes, and is in ascending order; the call also terminates for n = 0.", "quantifier": "every natural number n", "why_tests_cant": "number-theoretic statement over all n", "anchors": ["src/fft.rs: factorize"]}
{"id": "C12", "title": "Split (structure-of-arrays) transforms agree with interleaved ones", "statement": "`fft_split`/`ifft_split` on separate re/im arrays give exactly the parts of `fft`/`ifft` on the interleaved buffer, for every floating point type (bit-exact); different array lengths give MismatchedLengths and leave both arrays unchanged.", "quantifier": "every length, every re/im content, every float type", "why_tests_cant": "bit-exact agreement over all inputs, and every rounding behaviour", "anchors": ["src/fft.rs: ScalarFftImpl::fft_split, ScalarFftImpl::ifft_split, fft_split_simd, FftImpl::fft_split default, fft_split, fft_split_complex", "src/num.rs: SplitComplex, copy_from_complex, copy_to_complex"]}
{"id": "C13", "title": "SIMD-width processing gives the same bits as scalar processing", "statement": "The 4-lane (SSE/AVX/NEON) and 2-lane (NEON f64) loops followed by the scalar tail write exactly the same values as the scalar loop, for every group size, every lane width, and whatever the float operations round to.", "quantifier": "every lane width, every group length including non multiples of the width, every float arithmetic", "why_tests_cant": "tests run on one CPU and only see that lane width", "anchors": ["src/fft.rs: ScalarFftImpl::<f32>::fft_split_simd, ScalarFftImpl::<f64>::fft_split_simd"]}
{"id": "C14", "title": "Strided in-place transforms touch only the strided samples", "statement": "`fft_strided(input, stride, scratch)` with scratch of length n transforms exactly the samples at 0, stride, ..., (n-1)*stride as `fft` would transform the gathered vector, leaves every other sample unchanged, does not depend on the previous scratch contents; stride 0 gives InvalidStride and a too short input MismatchedLengths, both with the input unchanged. Same for `ifft_strided`.", "quantifier": "every input, stride, scratch length and scratch content", "why_tests_cant": "frame condition over all strides/lengths", "anchors": ["src/fft.rs: fft_strided, ifft_strided, fft_strided_alloc, ifft_strided_alloc"]}
{"id": "C15", "title": "Strided transforms with internally allocated scratch", "statement": "`fft_strided_alloc(input, stride)` behaves like `fft_strided` with n = floor(len/stride); uninitialised or stale scratch contents can never influence the output.", "quantifier": "every input, stride and every previous scratch content", "why_tests_cant": "uninitialised memory contents cannot be enumerated by tests", "anchors": ["src/fft.rs: FftImpl::fft_strided_alloc, FftImpl::ifft_strided_alloc, ScalarFftImpl::fft_strided_alloc"]}
{"id": "C16", "title": "Out-of-place strided transforms", "statement": "`fft_out_of_place_strided` succeeds exactly when both strides are non-zero, divide their buffers, and give the same non-zero count (and the length is supported); it then writes the transform of the gathered input to the strided output positions and leaves all other output positions unchanged; on error the output is unchanged.", "quantifier": "every pair of buffers and strides", "why_tests_cant": "combination space of lengths and strides is unbounded", "anchors": ["src/fft.rs: fft_out_of_place_strided, ifft_out_of_place_strided"]}
{"id": "C17", "title": "Out-of-place transforms", "statement": "`fft_out_of_place`, `ifft_out_of_place`, `fft_vec`, `ifft_vec` return what the in-place call returns on a copy of the input, independent of the previous contents of the output, and report MismatchedLengths with the output unchanged when lengths differ.", "quantifier": "every input/output pair", "why_tests_cant": "stale-output dependence over all contents", "anchors": ["src/fft.rs: FftImpl::fft_out_of_place, FftImpl::ifft_out_of_place, ScalarFftImpl::fft_vec, ScalarFftImpl::ifft_vec"]}
{"id": "C18", "title": "Twiddle and chirp caches are transparent", "statement": "After any history of calls the tables handed out by the planner for a size equal the tables a new planner computes for that size: caching never changes a result.", "quantifier": "every history of planner calls and every size", "why_tests_cant": "invariant over unbounded histories", "anchors": ["src/fft.rs: FftPlanner::get_twiddles, FftPlanner::get_bluestein"]}
{"id": "C19", "title": "Twiddle table contents", "statement": "The planner's table for size n has n/2 entries and entry k equals exp(-2*pi*i*k/n) in exact arithmetic although it is built by a running product; precomputed tables agree with it.", "quantifier": "every n and k", "why_tests_cant": "the running product must be right for every k", "anchors": ["src/fft.rs: FftPlanner::get_twiddles", "build.rs: main"]}
{"id": "C20", "title": "Parallel inverse FFT equals the sequential one under every schedule", "statement": "With the `parallel` feature, the element-wise parallel conjugation and scaling passes of `ifft` produce the same buffer as the sequential loops for every order in which the worker threads process the elements, for every decision of the parallel heuristic.", "quantifier": "every thread schedule (permutation of element tasks), every threshold, every input", "why_tests_cant": "schedules cannot be enumerated by tests", "anchors": ["src/fft.rs: ScalarFftImpl::ifft, should_parallelize_fft"]}
{"id": "C21", "title": "Parallel tuning setters take effect", "statement": "After `set_parallel_fft_threshold(t)` with t > 0 a length n is processed in parallel iff n >= t; with 0 the heuristic applies; the other setters (L1 cache, per-core work, threads, block size) change the decision as documented.", "quantifier": "every setting of the override variables and environment values, every n", "why_tests_cant": "global-state combinations; documented effect of each setter", "anchors": ["src/fft.rs: set_parallel_fft_threshold, set_parallel_fft_l1_cache, set_parallel_fft_per_core_work, set_parallel_fft_threads, set_parallel_fft_block_size, should_parallelize_fft, parallel_fft_threshold"]}
{"id": "C22", "title": "FFT plans check lengths and are repeatable", "statement": "An `FftPlan` for length n rejects every buffer of another length with MismatchedLengths leaving it unchanged, and for length-n buffers every call, whatever calls preceded it on the plan, gives the same result as the first call would; fft followed by ifft on a plan restores the data.", "quantifier": "every n, every strategy, every history of calls on the plan", "why_tests_cant": "unbounded call histories", "anchors": ["src/fft.rs: FftPlan::new, FftPlan::fft, FftPlan::ifft, FftPlan::fft_out_of_place, FftPlan::ifft_out_of_place, FftPlan::fft_split, FftPlan::ifft_split"]}
{"id": "C23", "title": "Batch processing semantics", "statement": "`batch`/`batch_inverse`/`multi_channel` transform the buffers in order and stop at the first failing one: buffers before it are transformed, it and those after it are unchanged, and the error of that buffer is returned; with no failing buffer all are transformed.", "quantifier": "every list of buffers, every position of a failing buffer", "why_tests_cant": "all batch shapes and failure positions", "anchors": ["src/fft.rs: batch, batch_inverse, multi_channel, multi_channel_inverse"]}
{"id": "C24", "title": "Linearity", "statement": "fft(a*x + b*y) = a*fft(x) + b*fft(y) for every length, in exact arithmetic, on fresh objects.", "quantifier": "every length, vectors x, y and complex scalars a, b", "why_tests_cant": "universally quantified algebraic law", "anchors": ["src/fft.rs: ScalarFftImpl::fft"]}
{"id": "C25", "title": "Energy conservation (Parseval)", "statement": "sum |fft(x)[k]|^2 = n * sum |x[j]|^2 for every length, in exact arithmetic.", "quantifier": "every length and input", "why_tests_cant": "universally quantified algebraic law", "anchors": ["src/fft.rs: ScalarFftImpl::fft"]}
{"id": "C26", "title": "Circular convolution via FFT", "statement": "ifft(fft(x) .* fft(y)) is the circular convolution of x and y for every length; a circular shift of the input multiplies bin k by exp(-2*pi*i*k*s/n).", "quantifier": "every length, all inputs and shifts", "why_tests_cant": "universally quantified algebraic law", "anchors": ["src/fft.rs: ScalarFftImpl::fft, ScalarFftImpl::ifft"]}
{"id": "C27", "title": "Hermitian symmetry for real input", "statement": "For a buffer with zero imaginary parts, fft output satisfies y[n-k] = conj(y[k]) and y[0] (and y[n/2] for even n) are real.", "quantifier": "every length and real input", "why_tests_cant": "all lengths/inputs", "anchors": ["src/fft.rs: ScalarFftImpl::fft"]}
{"id": "C28", "title": "Real FFT equals the first half of the complex DFT", "statement": "`rfft` on a real buffer of even length n >= 2 writes output[k] = sum_j x[j] exp(-2*pi*i*j*k/n) for k = 0..n/2, for every implementation path, with fresh or reused planner, and for any previous contents of output and scratch.", "quantifier": "every even n, every real input, every scratch/output content, every planner history", "why_tests_cant": "all lengths and stale-buffer contents", "anchors": ["src/rfft.rs: RfftPlanner::rfft_with_scratch, rfft_packed, rfft_direct, rfft_stack, RealFftImpl::rfft"]}
{"id": "C29", "title": "Inverse real FFT reconstructs the signal", "statement": "`irfft` of the half spectrum produced by `rfft` gives back the original real signal; for an arbitrary half spectrum it gives the inverse DFT of its Hermitian extension, ignoring the imaginary parts of the DC and Nyquist bins.", "quantifier": "every even n, every half spectrum", "why_tests_cant": "all lengths/inputs", "anchors": ["src/rfft.rs: RfftPlanner::irfft_with_scratch, irfft_packed, irfft_direct, irfft_stack, RealFftImpl::irfft"]}
{"id": "C30", "title": "Real FFT argument checking", "statement": "`rfft`/`irfft` return EmptyInput for an empty signal, InvalidValue for an odd length, MismatchedLengths for a spectrum buffer that is not n/2+1 long or a scratch shorter than n/2, never panic on any lengths, and leave the output unchanged on these errors.", "quantifier": "every combination of the three lengths", "why_tests_cant": "three unbounded lengths", "anchors": ["src/rfft.rs: RfftPlanner::rfft_with_scratch, RfftPlanner::irfft_with_scratch, rfft_stack, irfft_stack"]}
{"id": "C31", "title": "Real FFT implementation paths agree", "statement": "The scalar, AVX and NEON butterfly passes of the real FFT produce identical outputs for every length (given commutative add/mul, a-b = a+(-b) and -(-a) = a, which IEEE arithmetic satisfies, in builds without fused multiply-add).", "quantifier": "every length, every input, every such float arithmetic", "why_tests_cant": "one machine exercises one path", "anchors": ["src/rfft.rs: rfft_direct, rfft_direct_f32_avx, rfft_direct_f32_neon, irfft_direct_f32_avx, irfft_direct_f32_neon"]}
{"id": "C32", "title": "STFT frames are windowed DFTs", "statement": "`stft(signal, window, hop, frames)` with enough frame slots returns Ok and makes frame i the DFT of the window-length vector w[j]*signal[i*hop+j], with samples beyond the signal end read as 0; hop 0 gives InvalidHopSize and too few slots MismatchedLengths.", "quantifier": "every signal, window, hop, number of slots and previous frame contents", "why_tests_cant": "all shapes, boundary frames", "anchors": ["src/stft.rs: stft, frame"]}
{"id": "C33", "title": "Streaming STFT equals batch STFT", "statement": "Repeatedly calling the streaming analyser until it reports no more frames yields exactly ceil(len/hop) frames equal bit for bit to those of the batch call, then keeps reporting the end.", "quantifier": "every signal, window and hop; any number of extra calls", "why_tests_cant": "unbounded call sequences", "anchors": ["src/stft.rs: StftStream::new, StftStream::next_frame, stft"]}
{"id": "C34", "title": "ISTFT inverts STFT wherever the windows overlap enough", "statement": "For every signal, window and hop > 0, overlap-add synthesis of the analysed frames into a zeroed buffer gives back every sample whose sum of squared window values exceeds 1e-8.", "quantifier": "every signal, window, hop", "why_tests_cant": "all shapes; exact arithmetic identity", "anchors": ["src/stft.rs: stft, istft"]}
{"id": "C35", "title": "ISTFT overwrites its output", "statement": "The result of `istft` does not depend on the previous contents of the output or scratch buffers.", "quantifier": "every previous buffer content", "why_tests_cant": "stale contents cannot be enumerated", "anchors": ["src/stft.rs: istft, inverse_parallel"]}
{"id": "C36", "title": "Streaming ISTFT equals batch ISTFT", "statement": "For hop <= window length, the concatenation of the pieces returned by `push_frame` and the final `flush` equals the batch `istft` result bit for bit, each push returns exactly hop samples, and the total length is (frames-1)*hop + window.", "quantifier": "every window, hop, frame sequence of any length", "why_tests_cant": "unbounded frame sequences with a circular buffer", "anchors": ["src/stft.rs: IstftStream::new, IstftStream::push_frame, IstftStream::flush, istft"]}
{"id": "C37", "title": "Streaming ISTFT accepts every hop", "statement": "`IstftStream` never panics for any accepted window length and hop size, for any number of frames.", "quantifier": "every hop/window and number of pushes", "why_tests_cant": "a panic that occurs only at the third push with hop > window", "anchors": ["src/stft.rs: IstftStream::push_frame"]}
{"id": "C38", "title": "Parallel STFT equals sequential STFT under every schedule", "statement": "`stft::parallel` produces the same frames as `stft` for every order in which frames are processed, whenever `stft` accepts the arguments; `inverse_parallel` agrees with `istft` on every sample with sufficient window energy.", "quantifier": "every schedule, signal, window, hop", "why_tests_cant": "schedules cannot be enumerated", "anchors": ["src/stft.rs: parallel, inverse_parallel"]}
{"id": "C39", "title": "Haar wavelet single-level perfect reconstruction", "statement": "haar_inverse(haar_forward(x)) = x for even length, and = x without its last sample for odd length (a trailing sample is dropped, not padded); averages and differences have length floor(n/2); haar_forward(haar_inverse(a, d)) = (a, d). The stack versions agree with the heap versions bit for bit and panic on wrong buffer sizes.", "quantifier": "every signal", "why_tests_cant": "all lengths/values", "anchors": ["src/wavelet.rs: haar_forward, haar_inverse, haar_forward_inplace_stack, haar_inverse_inplace_stack"]}
{"id": "C40", "title": "Multi-level Haar reconstruction", "statement": "multi-level inverse of a multi-level forward transform returns the original signal (prefix) for every length and number of levels, without panicking.", "quantifier": "every signal length and level count", "why_tests_cant": "failure depends on the parity of intermediate lengths", "anchors": ["src/wavelet.rs: haar_forward_multi, haar_inverse_multi, multi_level_forward, multi_level_inverse"]}
{"id": "C41", "title": "Daubechies/Symlet/Coiflet reconstruction", "statement": "Inverse of forward transform restores the interior samples of the signal for db2, db4, sym4 and coif1 (with coefficients satisfying the orthogonality conditions).", "quantifier": "every signal and every orthonormal filter", "why_tests_cant": "all signals, sign/reversal conventions", "anchors": ["src/wavelet.rs: db2_forward, db2_inverse, db4_forward, db4_inverse, sym4_forward, sym4_inverse, coif1_forward, coif1_inverse"]}
{"id": "C42", "title": "Two- and three-dimensional FFT", "statement": "`fft2d_inplace`/`fft3d_inplace` compute the separable multi-dimensional DFT for every rows x cols (x depth) shape with a fresh FFT object.", "quantifier": "every shape and content", "why_tests_cant": "shape-dependent state reuse between row and column passes", "anchors": ["src/ndfft.rs: fft2d_inplace, fft3d_inplace"]}
{"id": "C43", "title": "Flattening nested arrays", "statement": "`flatten_2d`/`flatten_3d` succeed exactly when all rows (planes) have equal length and then place element (r,c) at r*cols+c; ragged input is rejected.", "quantifier": "every nested vector", "why_tests_cant": "all shapes", "anchors": ["src/ndfft.rs: flatten_2d, flatten_3d"]}
{"id": "C44", "title": "DCT-II and DCT-III are inverse up to n/2", "statement": "dct3(dct2(x)) = (n/2) x = dct2(dct3(x)) for every n >= 1; outputs have the input's length; empty input gives empty output without panic.", "quantifier": "every length and input", "why_tests_cant": "orthogonality identity for all n", "anchors": ["src/dct.rs: dct2, dct3"]}
{"id": "C45", "title": "DCT-I and DCT-IV are self-inverse up to scale", "statement": "dct1(dct1(x)) = 2(n-1) x for n >= 2, and dct4(dct4(x)) = (n/2) x for n >= 1.", "quantifier": "every length and input", "why_tests_cant": "orthogonality identity for all n", "anchors": ["src/dct.rs: dct1, dct4"]}
{"id": "C46", "title": "Planned DCT-II equals the direct DCT-II", "statement": "The planner's FFT-based DCT-II closure gives the same output as `dct2` for every planned length >= 1 with any planner history, and reports an error for every buffer whose length differs from the planned length.", "quantifier": "every length, input and planner history", "why_tests_cant": "all lengths, unbounded histories", "anchors": ["src/dct.rs: DctPlanner::plan_dct2, DctPlanner::dct2_with_table, dct2"]}
{"id": "C47", "title": "DST-I and DST-IV are self-inverse up to scale", "statement": "dst1(dst1(x)) = ((n+1)/2) x and dst4(dst4(x)) = (n/2) x for every n.", "quantifier": "every length and input", "why_tests_cant": "orthogonality identity for all n", "anchors": ["src/dst.rs: dst1, dst4"]}
{"id": "C48", "title": "DST-III inverts DST-II up to scale", "statement": "dst3(dst2(x)) = (n/2) x for every input (the documentation calls DST-III the inverse of DST-II up to scaling).", "quantifier": "every length and input", "why_tests_cant": "tests only check lengths", "anchors": ["src/dst.rs: dst2, dst3"]}
{"id": "C49", "title": "Stack and batch DCT/DST/window variants agree with heap versions", "statement": "The stack-only, batch and multi-channel variants of DCT, DST, DHT and the window functions return exactly the heap version's values (bit for bit) and the stack versions reject lengths that are not even powers of two with NonPowerOfTwoNoStd without touching the output.", "quantifier": "every N and input", "why_tests_cant": "const-generic N", "anchors": ["src/dct.rs: dct1_inplace_stack, dct2_inplace_stack, batch_i..batch_iv", "src/dst.rs: dst2_inplace_stack, dst2_inplace_stack_fft, dst3_inplace_stack_fft, dst4_inplace_stack", "src/window.rs: hann_inplace_stack, hamming_inplace_stack, blackman_inplace_stack"]}
{"id": "C50", "title": "Hartley transform is an involution up to n and relates to the DFT", "statement": "dht(dht(x)) = n x, and dht(x)[k] = Re X[k] - Im X[k] for the DFT X of x.", "quantifier": "every length and input", "why_tests_cant": "orthogonality identity for all n", "anchors": ["src/hartley.rs: dht, batch"]}
{"id": "C51", "title": "Goertzel detector equals the DFT bin magnitude", "statement": "goertzel_f32(x, rate, f) returns |X[k]| with k = floor(f*n/rate) for every non-empty x and rate > 0; empty input and non-positive rate give EmptyInput / InvalidValue.", "quantifier": "every signal, rate and frequency", "why_tests_cant": "all lengths, recurrences", "anchors": ["src/goertzel.rs: goertzel_f32"]}
{"id": "C52", "title": "Chirp-z transform evaluates the z-transform on the spiral", "statement": "czt_f32(x, m, w, a)[k] = sum_n x[n] a^{-n} w^{nk} for every k < m and non-zero a; with w = exp(-2*pi*i/N), a = 1, m = N it is the DFT.", "quantifier": "every signal, m, w, a", "why_tests_cant": "all lengths/parameters", "anchors": ["src/czt.rs: czt_f32"]}
{"id": "C53", "title": "Analytic signal", "statement": "hilbert_analytic(x) for a power-of-two length returns a complex signal whose real part is x and whose spectrum vanishes on the negative frequencies; empty and non-power-of-two lengths are rejected with EmptyInput / NonPowerOfTwoNoStd.", "quantifier": "every power-of-two length and input", "why_tests_cant": "all lengths/inputs", "anchors": ["src/hilbert.rs: hilbert_analytic"]}
{"id": "C54", "title": "Real cepstrum", "statement": "real_cepstrum(x) returns the inverse DFT of log(|X[k]|+1e-12) (which is real and even: c[n-j] = c[j]); never panics; rejects empty and non-power-of-two lengths.", "quantifier": "every length and input", "why_tests_cant": "all lengths/inputs", "anchors": ["src/cepstrum.rs: real_cepstrum"]}
{"id": "C55", "title": "Mel filter bank and MFCC are total and non-negative", "statement": "mel_filterbank never panics for any sample rate and number of filters, returns exactly num_filters values, and these are non-negative for non-negative magnitudes; mfcc returns num_coeffs values or InvalidValue iff num_coeffs > num_mel; a batch fails iff some frame fails.", "quantifier": "every magnitude vector, rate, filter count", "why_tests_cant": "index arithmetic over arbitrary parameters", "anchors": ["src/cepstrum.rs: mel_filterbank, mfcc, mfcc_batch"]}
{"id": "C56", "title": "Window functions: range, symmetry and constant overlap-add", "statement": "hann/hamming/blackman windows of length n are within [0,1] (hamming >= 0.08), periodic-symmetric (w[n-i] = w[i]), and hann sums to 1 under 50% overlap; nuttall, bartlett, tukey are symmetric (w[n-1-i] = w[i]).", "quantifier": "every length and index", "why_tests_cant": "all lengths", "anchors": ["src/window.rs: hann, hamming, blackman, kaiser", "src/window_more.rs: tukey, bartlett, nuttall"]}
{"id": "C57", "title": "Bohman window is symmetric and non-negative", "statement": "bohman(n) satisfies w[n-1-i] = w[i] and 0 <= w[i] for n >= 2.", "quantifier": "every length and index", "why_tests_cant": "tests only check the length", "anchors": ["src/window_more.rs: bohman"]}
{"id": "C58", "title": "Spectrogram magnitudes", "statement": "stft_magnitudes returns ceil(len/hop) rows of win_len/2 magnitudes of the Hann-windowed DFT frames and the true maximum of all returned magnitudes; a zero hop is reported as an error.", "quantifier": "every signal, window length and hop", "why_tests_cant": "all shapes", "anchors": ["src/visual/spectrogram.rs: stft_magnitudes"]}
{"id": "C59", "title": "Logarithmic frequency binning", "statement": "log_scale_bins(values, max_bin) returns max_bin+1 values, each the average of the inputs mapped to it (0 if none), never panics when values.len() <= max_bin+1, and map_bin_to_pixel is monotone with 0 -> 0 and max_bin -> max_bin.", "quantifier": "every value vector and max_bin", "why_tests_cant": "floor of a ratio of logarithms for all bins", "anchors": ["src/visual/spectrogram.rs: map_bin_to_pixel, log_scale_bins"]}
{"id": "C60", "title": "Decibel and colour scaling", "statement": "magnitude_to_db is monotone in the magnitude, lies in [floor, 0] for 0 <= mag <= max and floor <= 0; db_scale lies in [0,1]; colour mapping is monotone-free but total: end points map to the documented end colours and 16-bit colours are 257 times the 8-bit ones.", "quantifier": "every magnitude, maximum and floor", "why_tests_cant": "all real parameters", "anchors": ["src/visual/spectrogram.rs: magnitude_to_db, db_scale, map_color_u8, map_color_u16, color_from_magnitude_u8"]}
{"id": "C61", "title": "Song index lookups", "statement": "After any history of index/identify calls: identify never changes an existing name entry, repeated identify of the same path returns the same id without re-reading the file once the name is known, files with the same bytes and unknown names get the id under which those bytes were indexed, and every id returned is a path previously passed in.", "quantifier": "every history of operations and file contents", "why_tests_cant": "unbounded histories", "anchors": ["src/media/index.rs: SongIndex::index_song, SongIndex::identify"]}
{"id": "C62", "title": "Identify distinguishes different songs", "statement": "identify of two files with different contents returns different ids.", "quantifier": "every pair of files and history", "why_tests_cant": "depends on histories with equal file names in different directories", "anchors": ["src/media/index.rs: SongIndex::identify"]}
{"id": "C63", "title": "Build configuration selection", "statement": "compute_config selects at most one architecture feature and at most one x86 instruction-set feature, sets RUSTFLAGS exactly for avx512/avx2, appends the extra features in order, and chooses the parallel benchmark exactly when `parallel` is among the features.", "quantifier": "every arch string, flag string, cpu count and extra string", "why_tests_cant": "all strings", "anchors": ["xtask/src/lib.rs: compute_config, BuildConfig::features_arg"]}
{"id": "C64", "title": "Window constructors are total and return len values", "statement": "hann, hamming, blackman, kaiser, tukey, bartlett, bohman and nuttall return exactly len values for every len, including 0 and 1, without panicking.", "quantifier": "every length and shape parameter", "why_tests_cant": "unsigned subtractions at lengths 0 and 1 and float-to-integer casts for arbitrary parameters", "anchors": ["src/window.rs: hann, hamming, blackman, kaiser", "src/window_more.rs: tukey, bartlett, bohman, nuttall"]}
{"id": "C65", "title": "The FFT's rounding error is bounded", "statement": "In floating-point arithmetic (relative error at most u per operation) every output of fft on a power-of-two length n differs from the exact DFT by at most ((1+d)(1+gamma)(1+u))^log2(n) - 1 times the sum of the input moduli, where d is the accuracy of the twiddles; the running-product twiddle table itself is off by at most ((1+e)(1+gamma))^k - 1 at entry k. Similar bounds hold for ifft, for the round trip and for Bluestein lengths, and f32/f64 arithmetic satisfies them with explicit constants (11 n log2 n units for n >= 32).", "quantifier": "every input, every power-of-two length (and Bluestein lengths), every rounding satisfying the standard model", "why_tests_cant": "the bound is over all inputs and lengths; tests compare a few signals at a loose tolerance", "anchors": ["src/fft.rs: ScalarFftImpl::fft, ifft, FftPlanner::get_twiddles, get_bluestein", "src/fft_kernels.rs: fft2, fft4, fft8, fft16", "src/num.rs: Complex::add, sub, mul"]}
{"id": "C66", "title": "The DST planner's tables are the factors of the transforms, independently of history", "statement": "plan_dst2, plan_dst3 and plan_dst4 return, after any history of table requests and scratch use, a table depending on the size only (sin(pi/n (i+1/2)), sin(pi i/n), sin(pi/n (i+1/2))), and the table of each type is a row of the transform of that type; the scratch buffer has the requested length and is never out of bounds.", "quantifier": "every history of planner uses and every size", "why_tests_cant": "caches only matter over unbounded histories; the tables are returned but no test relates them to the transforms", "anchors": ["src/dst.rs: DstPlanner::plan_dst2, plan_dst3, plan_dst4, scratch, build_table_offset"]}
{"id": "C67", "title": "Split and interleaved complex layouts convert losslessly", "statement": "from_complex_vec then to_complex_vec is the identity and conversely for equal lengths; copy_from_complex and copy_to_complex panic exactly when the three lengths are not all equal and are inverse to each other, whatever the target held; new panics exactly for different lengths; fft/ifft of a ComplexVec equals fft/ifft of the interleaved data, through the free functions and through FftPlan, and inconsistent lengths give MismatchedLengths with nothing touched.", "quantifier": "every data, every pair of lengths (the fields are public), every length and strategy", "why_tests_cant": "all lengths and inconsistent values of the public fields", "anchors": ["src/num.rs: SplitComplex, ComplexVec, copy_from_complex, copy_to_complex", "src/fft.rs: complex32_to_split, split_to_complex32, fft_complex_vec, ifft_complex_vec, FftPlan::fft_complex_vec, FftPlan::ifft_complex_vec"]}
{"id": "C68", "title": "The live spectrogram shows the stream, however it is chunked", "statement": "Over any sequence of compute_frame, set_colormap and reset_state calls, the k-th row shown is made of the windowed magnitudes of samples 512k to 512k+1023 of the concatenated chunks since the last reset, coloured relative to the loudest bin seen so far; no call panics; every row is empty or 512 opaque pixels; the display keeps up with the audio (fewer than one window of samples is held back).", "quantifier": "every sequence of calls, every chunking, every sample values", "why_tests_cant": "depends on unbounded call histories and chunk sizes", "anchors": ["web-spectrogram/src/lib.rs: State, compute_frame, set_colormap, reset_state"]}
{"id": "C69", "title": "The web bindings return what the library computes", "statement": "stft_magnitudes returns the magnitudes row after row with the dimensions and the maximum; fft_split returns the DFT of the pair of arrays, or an error for different lengths; the palette mapping is a bijection and the colour functions return the library's colours.", "quantifier": "every sample list, window, hop, palette, colour value", "why_tests_cant": "all lengths and all float values", "anchors": ["web-spectrogram/src/lib.rs: stft_magnitudes, fft_split, map_color_u8, color_from_magnitude_u8, Colormap"]}
{"id": "C70", "title": "Decoded audio is mixed down to mono without losing or inventing samples", "statement": "read_audio returns the first track's packets in order, each as its frames averaged over the channels, skipping undecodable packets and failing on other errors; it never panics. read_wav returns one sample per frame, in [-1, 1].", "quantifier": "every file (track list, channel counts, packet sequence, decoder events, sample values)", "why_tests_cant": "depends on packet sequences and channel layouts that no fixture file contains", "anchors": ["sanity-check/src/lib.rs: read_audio, read_wav"]}
{"id": "C71", "title": "The spectrogram image shows every frame and bin", "statement": "For every window length, samples, scale, range and colour map the program produces an image with one column per frame and win/2 rows, lowest frequency at the bottom, whose pixel is the 16-bit colour of the bin's magnitude (or, on the logarithmic axis, of the average of the bins mapped to that row) relative to the loudest bin.", "quantifier": "every sample list, window length, scale mode, range, colour map, thread schedule", "why_tests_cant": "all lengths, values and schedules; the tests only check that files are written", "anchors": ["sanity-check/src/main.rs: main, ScaleMode, ColorArg", "src/visual/spectrogram.rs: stft_magnitudes, log_scale_bins, color_from_magnitude_u16"]}
{"id": "C72", "title": "PNG and SVG outputs carry the image's colours", "statement": "The 8-bit PNG contains the high byte of every sample, which for the program's images is exactly the 8-bit colour; the 16-bit PNG contains every sample; the SVG has one unit rectangle per pixel, row after row, whose fill attribute is #rrggbb with the 8-bit colour.", "quantifier": "every image size and every pixel value", "why_tests_cant": "all 2^48 pixel values and all sizes", "anchors": ["sanity-check/src/lib.rs: save_png, save_svg, PngDepth"]}
{"id": "C73", "title": "TwiddleFactorBuffer holds the twiddle factors", "statement": "TwiddleFactorBuffer::new(n).get(k) is exp(-2 pi i k/n) for every n and every index k, and never panics.", "quantifier": "every n and k", "why_tests_cant": "all sizes and indices, in particular k >= n/2 and n < 2", "anchors": ["src/fft.rs: TwiddleFactorBuffer::new, TwiddleFactorBuffer::get"]}
{"id": "C74", "title": "The task runner reports failures", "statement": "xtask exits with 0 exactly when every command it started succeeded, starts a command only after the previous ones succeeded, exits with the failing command's code (1 if it was killed or could not be started), and analyze checks the lints exactly when formatting succeeded.", "quantifier": "every outcome (exit code, signal, spawn failure) of every command, every task", "why_tests_cant": "outcomes such as signals and spawn failures do not occur in tests", "anchors": ["xtask/src/main.rs: main, Commands", "xtask/src/lib.rs: clippy_command, fmt_command, sanity_command, web_spectrogram_command"]}
{"id": "C75", "title": "Machine detection falls back in the documented order", "statement": "The architecture is the ARCH variable when it is not blank, else the trimmed output of uname; the CPU flags are the first line of lscpu mentioning flags in any letter case, else the output of sysctl; the number of CPUs defaults to 1; the features follow from these.", "quantifier": "every environment and every output of the probe programs", "why_tests_cant": "depends on the machine; tests only cover compute_config", "anchors": ["xtask/src/lib.rs: detect_config, detect_arch, detect_cpu_flags, detect_nproc"]}
{"id": "C76", "title": "Allocation tracking reports the true peak", "statement": "Once all allocations have finished, the counting allocator reports the number of allocations and exactly the largest number of bytes that were in use at any moment; at no moment does it report more than was really in use. (Refuted once reset_alloc is called while blocks are live, as the benchmarks do.)", "quantifier": "every number of threads, every interleaving of their atomic steps including stale relaxed reads of the peak, every sequence of allocations and releases", "why_tests_cant": "the counter is shared by racing threads; a lost update would only show up in rare interleavings", "anchors": ["kofft-bench/benches/bench_fft.rs: CountingAllocator, update_peak, reset_alloc, alloc_stats"]}
{"id": "C77", "title": "The benchmark report keeps, orders and ranks every record", "statement": "save_results writes every record of the run exactly once with its measured values unchanged, ordered by transform, size and time; the previous time is that of the last record of the same test in the previous file and the change is the percentage saved; best is set exactly on the records not slower than any of their group.", "quantifier": "every list of records, every previous file", "why_tests_cant": "benchmark reporting is not tested at all", "anchors": ["kofft-bench/benches/bench_fft.rs: save_results"]}
{"id": "C78", "title": "The README table is spliced between its markers", "statement": "update_readme replaces exactly the text between the first start marker and the first end marker by the table, keeps everything else, changes nothing when a marker is missing, and running it again replaces the table instead of accumulating.", "quantifier": "every file content, every table", "why_tests_cant": "depends on the position and order of markers in arbitrary text", "anchors": ["kofft-bench/examples/update_bench_readme.rs: update_readme"]}
{"id": "C79", "title": "The page's canvas shows the spectrogram", "statement": "On a browser without WebGL the page draws, for every file, one column per half-overlapping frame and 512 rows, each pixel opaque and coloured with the library's colour for the magnitude of that bin of the windowed DFT relative to the loudest bin.", "quantifier": "every list of samples, every colour function, every size", "why_tests_cant": "the JavaScript test draws a two by two picture with constant colours", "anchors": ["web-spectrogram/app.mjs: drawSpectrogramCanvas, magnitudeToDb, initApp", "web-spectrogram/src/lib.rs: stft_magnitudes, color_from_magnitude_u8"]}
{"id": "C80", "title": "WebGL and canvas draw the same picture", "statement": "The WebGL path shows at every pixel the colour the canvas path shows there. (Refuted: the texture is filled frame by frame but read row by row and from the bottom, and the shader takes the natural logarithm. The palette itself is the same.)", "quantifier": "every list of magnitudes, every size, every level", "why_tests_cant": "the shader does not run in the tests at all", "anchors": ["web-spectrogram/app.mjs: drawSpectrogramWebGL, drawSpectrogram, fragment shader"]}
{"id": "C81", "title": "The spectrogram example reads its arguments and draws every bin", "statement": "The example accepts exactly two files with options anywhere, the last valid value of each option counting, and saves one column per frame and 512 rows with bin 0 at the bottom, each pixel the library's colour for the magnitude of that bin; an unreadable sample stops it.", "quantifier": "every command line, every file, every floor and palette", "why_tests_cant": "the example's tests never call its main function", "anchors": ["examples/spectrogram.rs: main"]}
{"id": "C82", "title": "Integer arithmetic that fits a machine word is exact", "statement": "On a machine with W-bit usize, with or without overflow checks, fft_strided/ifft_strided, fft2d_inplace, fft3d_inplace, stft, istft and StftStream::next_frame return what they return with unbounded integers whenever the extents they compute (last index times stride, rows*cols, frame index times hop plus window length) fit a word; stft called with exactly the number of slots it asks for needs only signal length plus window length to fit.", "quantifier": "all word sizes, overflow checks on or off, all buffers, strides, shapes, hops and FFT providers, any float type", "why_tests_cant": "Tests run on one word size with small extents; the claim is about every word size and every extent that fits.", "anchors": ["src/fft.rs:1175-1260", "src/ndfft.rs:74-153", "src/stft.rs:76-205"]}
{"id": "C83", "title": "Overflowing extents are reported, never silently wrong", "statement": "When a stride, shape or hop makes an extent overflow usize, the call reports the length mismatch (strided, 2D) or treats the position as past the end (stft, istft); it does not panic and does not produce other values.", "quantifier": "all word sizes, overflow checks on or off, all strides, shapes and hops", "why_tests_cant": "Needs arguments near 2^63 (2^31 on wasm32) that no test passes.", "anchors": ["src/fft.rs:1188", "src/fft.rs:1249", "src/ndfft.rs:81", "src/stft.rs:92-97", "src/stft.rs:137-145"]}
{"id": "C84", "title": "The chirp index square does not overflow", "statement": "On a machine with W-bit usize the non-power-of-two transform computes the DFT for every length whose buffers can be allocated.", "quantifier": "all word sizes W = 2h, all lengths, exact arithmetic for the wrong case, any float type for the lengths that fit", "why_tests_cant": "On 64-bit hosts the first wrong length is 2^32 + 1; on wasm32 it is 65537, which no test uses.", "anchors": ["src/fft.rs:410-437"]}
{"id": "C85", "title": "Rounding errors of the real transforms", "statement": "Under the standard model of floating-point arithmetic the packed real transform and its inverse return the exact half spectrum and signal up to an explicit relative error; for prec-bit round-to-nearest arithmetic at power-of-two lengths from 64 it is at most 12 n log2 n 2^-prec times the sum of |x| for a bin and 50 n log2 n 2^-prec times that sum for the round trip.", "quantifier": "all signals, all even lengths (any FFT provider of stated accuracy), every kernel path, all precisions of at least 24 bits", "why_tests_cant": "Tests compare a few signals with fixed tolerances on one machine; no tolerance is derived for other lengths, the twiddle recurrence grows with the length.", "anchors": ["src/rfft.rs:172-183", "src/rfft.rs:430-770", "src/rfft.rs:780-833"]}
{"id": "C86", "title": "Rounding errors of the short-time transform and its inverse", "statement": "With every operation off by a relative error of at most u, every STFT frame is within an explicit bound of the exact DFT of the windowed samples, and synthesis after analysis returns every sample whose window energy clears the 1e-8 threshold up to an explicit bound; in binary floating point with windows of n = 2^L >= 32 points the bounds are 11 n L 2^-prec times the frame's sum of |signal * window| and 23 n L 2^-prec (mass / energy + |sample|).", "quantifier": "all signals, windows, hops, frame counts, FFT providers of stated accuracy, histories no larger than the window, all precisions from 24 bits", "why_tests_cant": "Tests check a handful of windows and signals against a fixed tolerance; they cannot bound the error over every signal, window and hop.", "anchors": ["src/stft.rs:76-205"]}
{"id": "C87", "title": "Rounding errors of the multi-dimensional transforms", "statement": "The 2D and 3D transforms are within an explicit bound of the exact separable DFT; in binary floating point a 2D transform is within 11 (rows log2 rows + cols log2 cols) 2^-prec times the sum of the absolute entries.", "quantifier": "all grids of the shapes of C42, all arithmetics with accurate line transforms, all precisions from 24 bits", "why_tests_cant": "Tests compare small grids with a tolerance.", "anchors": ["src/ndfft.rs:74-153"]}
{"id": "C88", "title": "Rounding errors of the cosine, sine and Hartley transforms", "statement": "In prec-bit round-to-nearest arithmetic (prec at least 24, no overflow or underflow) every output of dct2, dct3, dct4, dst1, dst2, dst3 and dst4 of n samples differs from the exact sum by at most 30 n 2^-prec times the sum of the magnitudes of the input; 60 n for dct1 and 120 n for dht. A transform followed by its inverse (dct2 and dct3 either way, dct4, dst1, dst4 and dht with themselves) returns the input times n/2, (n+1)/2 or n, with an error of at most 70 n^2 (630 n^2 for dht) in the same unit.", "quantifier": "all precisions from 24 bits, all input lengths n with 100 n <= 2^prec, all inputs", "why_tests_cant": "Tests compare a few short fixed signals with a loose tolerance; a bound for every input and length needs the error of each angle, cosine, product and partial sum.", "anchors": ["src/dct.rs:108-176", "src/dst.rs:89-146", "src/hartley.rs:11-45"]}
{"id": "C89", "title": "The FFT in IEEE arithmetic, overflow and underflow included", "statement": "In IEEE binary32 and binary64 arithmetic (infinities, NaN, gradual underflow, round to nearest even) the transform of a finite signal of n = 2^k samples whose magnitudes sum to at most 2^(emax-2) is finite and within 15 n log2 n 2^-prec times that sum (plus 2^(13-emax) per output for underflow) of the exact DFT; the inverse likewise, the round trip within twice that. Lengths up to 16 likewise. Other lengths go through the chirp and need 2 n m times the sum of the magnitudes to be at most 2^(emax-2), m the padded length. Without that headroom the claim is false: an impulse of 2^126 and length 3 has a representable DFT but the code returns infinities and NaN; the inverse transform of two samples 2^127 overflows although the exact result is 2^127 and 0.", "quantifier": "all formats of the two, all inputs, all power-of-two lengths (lengths up to 4096 for the chirp), all sin/cos libraries accurate to 2 units in the last place of 1", "why_tests_cant": "Tests use samples of moderate size; overflow inside the chirp, subnormals and the error for every signal are out of their reach.", "anchors": ["src/fft.rs:370-408", "src/fft.rs:410-437", "src/fft.rs:1054-1190", "src/fft_kernels.rs:1-224", "src/num.rs:39-102", "build.rs:17-66"]}
{"id": "C90", "title": "The windows in f32 arithmetic", "statement": "In IEEE binary32 arithmetic the Hann and Tukey windows have every sample a number in [0, 1] and the Hamming window in [0.08, 1], for every length up to 2^64 and (Tukey) every alpha including NaN and infinities; Hann, Hamming, Blackman and Nuttall samples are within 1/200000 of their formulas; Kaiser (|beta| <= 20) and Bartlett samples of lengths 2 to 2^24 lie in [2^-26, 1] and [0, 1], read the same bits from both ends, and Kaiser is 1 in the middle of an odd length. It is false that windows are always numbers in [0, 1]: the one-sample Kaiser, Bartlett, Bohman and Nuttall windows are NaN, the middle of a Kaiser window with beta = 21 is NaN, and the first Blackman sample is slightly negative.", "quantifier": "all lengths, all shape parameters, all cosine libraries with values in [-1, 1] (accurate to 1/8000000 for the formulas)", "why_tests_cant": "Tests compare a few lengths with a tolerance; they cannot show the bounds for all lengths, the exact symmetry, or where overflow to NaN starts.", "anchors": ["src/window.rs:24-110", "src/window_more.rs:13-75"]}
{"id": "C91", "title": "Bit-for-bit equalities in IEEE arithmetic", "statement": "In IEEE binary32 and binary64 arithmetic, special values included and with no assumption on the arithmetic: the AVX and NEON post-processing of the real transforms and of their inverses gives the bits of the scalar code when the fma target feature is off; the parallel inverse transform gives the bits of the sequential one for every order of the tasks; the inverse on split buffers gives the bits of the inverse on interleaved buffers, at every length in binary32 and up to 2^24 samples in binary64. With the fma feature the first fails in binary32 (eight samples, two units in the last place); beyond 2^24 samples the scale factors of the two inverses differ in binary64.", "quantifier": "all inputs including NaN and infinities, all providers and planner states, all task orders, all sin/cos libraries", "why_tests_cant": "Tests compare the variants on a few inputs with a tolerance; equality of bits for every input and the exact length where the two conversions part are out of their reach.", "anchors": ["src/rfft.rs:425-765", "src/fft.rs:1134-1180", "src/fft.rs:1393-1439", "src/num.rs:39-102"]}
{"id": "C92", "title": "The static server and the service worker", "statement": "The server answers /health with an empty success, every existing file with its current contents and every unknown path with index.html. An install of the service worker succeeds exactly when the network is up and the four files of the application shell are answered with a success; from then until the next install each of the four is answered from that moment's copy whatever happens to the network or the site, all other requests go to the network, and a failed install changes nothing. It is false that an installed page works offline (the WebAssembly module is not in the shell), that a new version of the page is ever seen after an install, and that an install notices a missing file (the server answers index.html for it).", "quantifier": "all site contents, all paths, all sequences of installs, fetches, network failures and site updates", "why_tests_cant": "There are no tests of the server's fallback or of the worker; stale copies and offline failures appear only after sequences of events in a browser.", "anchors": ["web-spectrogram/src/main.rs:11-23", "web-spectrogram/sw.js:1-18", "web-spectrogram/app.mjs:18-29"]}
{"id": "C93", "title": "The spectrogram's pixels, decibels and colours in f32 arithmetic", "statement": "In IEEE binary32 arithmetic: the logarithmic pixel of bin 0 is 0, pixels never exceed the last one and never fall from one bin to the next, the last bin goes to the last or last but one pixel, and log_scale_bins does not panic, for up to 2^22 bins; magnitude_to_db is never NaN and never below the floor; db_scale with a positive range is a number in [0, 1] for every magnitude and maximum including NaN and infinities; Fire and Rainbow colours lie channel by channel between the two stops around t; gray levels never fall; t <= 0, t >= 1 and NaN give the end colours and black; the loudest bin has the colour of 1 and silence that of 0. It is false that the last bin always reaches the last pixel (16 bins: pixel 14, the last stays empty), that db_scale is a number when the range is 0, and that the loudest bin is bright when the floor is 0 dB.", "quantifier": "all bins and bin counts up to 2^22, all magnitudes, maxima, floors and ranges including NaN and infinities, all t, all logarithm libraries that are monotone (correctly rounded at 16 for the refutation)", "why_tests_cant": "Tests look at a handful of values; the bin counts where rounding loses the last pixel and the inputs that give NaN are sparse.", "anchors": ["src/visual/spectrogram.rs:96-234"]}
{"id": "C94", "title": "Parallel settings from the environment", "statement": "A KOFFT_PAR_FFT_* variable is used exactly when it is a decimal numeral below 2^W, optionally after one '+'; anything else counts as unset. A new process computes the base threshold as KOFFT_PAR_FFT_THRESHOLD if that is positive, otherwise cores times the per-core minimum, when the product fits a word; from the first use on no environment variable and no setter except set_parallel_fft_threshold changes the choice. It is false that by default a transform is parallelised when each core gets 4096 points (README): the measured figure is points per second, so the documented rule holds only where copying one megabyte takes 32 seconds; and a large cache setting makes the product wrap, so that everything is parallel in release builds and every inverse transform panics in checked builds.", "quantifier": "all environments, all strings, all processor counts, all measured times, all sequences of inverse transforms, variable changes and setter calls", "why_tests_cant": "The tests set one variable to a number and read it back; they do not compare the default with the documentation, and the OnceLocks make the order of calls matter.", "anchors": ["src/fft.rs:47-307", "src/fft.rs:1142-1150", "README.md:84-92"]}
{"id": "C95", "title": "Real FFT in IEEE arithmetic", "statement": "With f32 or f64 numbers including overflow and underflow, on every kernel (scalar, AVX, NEON): the real FFT of n = 2^k >= 64 finite samples whose absolute values add up to at most 2^(emax-4) returns finite bins, each within 16 n log2(n) 2^-prec of the exact spectrum relative to that sum plus an underflow floor; the inverse of n/2+1 finite bins likewise; there and back the samples are recovered within 64 n log2(n) 2^-prec when n times the sum fits. It is false that the real FFT is finite whenever its exact spectrum is representable: the bins are doubled before they are halved, so the f32 impulse 2^127, 0, 0, 0 gives an infinite bin although the complex FFT of the same samples is finite.", "quantifier": "both formats, all finite signals in range, all accurate sin and cos, all three kernels, all previous buffer contents, with and without the precomputed tables and fused operations", "why_tests_cant": "Tests compare a few short signals near 1 with a tolerance; signals near the ends of the range and the SIMD kernels with arbitrary data are never run.", "anchors": ["src/rfft.rs:425-513", "src/rfft.rs:515-773", "src/rfft.rs:791-860"]}
{"id": "C96", "title": "Parallel settings used by many threads", "statement": "Any number of transforms started at the same time compute the settings without deadlock: in every interleaving of their single accesses, with the environment changing meanwhile, some unfinished call can always go on, each call ends after at most 43 accesses, each OnceLock keeps the first value it gets, and two calls of the same length between which no setter is called make the same choice. One call alone behaves as in the sequential model. It is false that a choice made while setters run corresponds to some setting in force: a call can read the old block size and the new thread count and choose the parallel branch although it would be sequential before, between and after the two setter calls.", "quantifier": "any number of calls, all interleavings, all environments and changes of it, all setter calls, all answers of the clock and num_cpus, with and without overflow checks", "why_tests_cant": "A test sees a few schedules; the initialisers take part in a nested lock order and run once per process.", "anchors": ["src/fft.rs:47-307", "src/fft.rs:634-640", "src/fft.rs:1072-1082", "src/fft.rs:1143-1150"]}
{"id": "C97", "title": "The Haar wavelet in IEEE arithmetic", "statement": "In IEEE binary32 and binary64 arithmetic the multi-level Haar transform followed by its inverse returns every sample unchanged, bit for bit except that a negative zero may lose its sign, if the samples are whole multiples of 2^e up to 2^m steps, m + levels is at most the precision and e - levels not below the smallest exponent: 16-bit audio in f32 survives nine levels, 24-bit audio in f64 thirty. For any other finite signal no larger than a quarter of the largest number the round trip's error is at most 6 * levels * (u * max + smallest subnormal), u = 2^-24 or 2^-53. It is false that every signal is reconstructed: (1, 2^-30) loses its second sample, and two samples of the largest finite number come back as infinity or NaN.", "quantifier": "binary32 and binary64, all lengths for which the inverse does not panic (C40), all levels (up to 1000 for the error), all signals", "why_tests_cant": "Losslessness is a statement about all 2^16 values at all positions and lengths; tests compare with a tolerance.", "anchors": ["src/wavelet.rs:12-32", "src/wavelet.rs:54-83", "src/wavelet.rs:121-149", "src/wavelet.rs:538-547"]}
{"id": "C98", "title": "Values that are not numbers are never hidden", "statement": "If one sample of the input is infinite or NaN (or any value every operation preserves), then on any object whatever its history every output bin of fft and ifft has a part that is infinite or NaN, at every supported length; every bin of the real FFT's half spectrum; at least one of each pair of neighbouring samples of the inverse real FFT; and every bin of every STFT frame whose window reaches the sample, even where the window is zero. On a new object the other STFT frames do not depend on that sample. It is false that finite samples give finite bins on a used object: for f32 and f64 one such transform of N points (a power of two) taints every later transform of n points, 16 < n < N a power of two, whatever its data, and on an object that has once done a longer transform one NaN sample taints all STFT frames from there on.", "quantifier": "any float type, any predicate preserved by the operations, any configuration, any reachable object, all supported lengths, all data", "why_tests_cant": "Tests use finite data on new objects; the claim is about every position of the bad sample, every length and every history.", "anchors": ["src/fft.rs:604-785", "src/fft.rs:790-1050", "src/fft.rs:1053-1160", "src/rfft.rs:425-508", "src/stft.rs:76-106"]}
{"id": "C99", "title": "The one-shot transforms", "statement": "fft_parallel and ifft_parallel return the discrete Fourier transform and its inverse exactly in real arithmetic, each undoing the other, never panic, and refuse exactly the empty buffer and, without std, lengths that are not powers of two, leaving the buffer of the forward transform as it was. Despite the name and the documentation the parallel feature does not change them: the result is the same value whether it is on or off, in any arithmetic. The unused butterfly8 performs the same operations as the 8-point kernel and is the 8-point transform.", "quantifier": "any float type for the contract and the feature, real arithmetic for the values; all configurations, all lengths, all data", "why_tests_cant": "A claim about all lengths, data and feature sets; tests of fft_parallel compare with fft on a few sizes under one feature set.", "anchors": ["src/fft.rs:2115-2127", "src/fft.rs:1596-1640"]}
{"id": "C100", "title": "Short-time Fourier transform in IEEE arithmetic", "statement": "With f32 or f64 numbers including overflow and underflow, the STFT of a finite signal under a finite window of n = 2^k >= 32 samples, 15 n log2(n) <= 2^prec, returns on a new object exactly one spectrum per slot, every bin finite and within 16 n log2(n) 2^-prec (S + n floor) of the transform of the exactly windowed frame, where S is the sum of |sample * window| over the frame, at most 2^(emax-3), and floor is 2^13 times the smallest normal number; windows of up to 16 samples need no assumption about sin and cos. If signal and window stay within [-1, 1], no condition on the range is left.", "quantifier": "both formats, all finite signals and windows in range, all hops and slot counts, all previous frame contents, all accurate sin and cos, with and without precomputed tables and fused operations", "why_tests_cant": "Tests compare a few frames of a short signal near 1 with a tolerance; the claim covers every signal, window, hop and the ends of the range.", "anchors": ["src/stft.rs:76-106", "src/fft.rs:1053-1160"]}
{"id": "C101", "title": "Values that are not numbers in the other transforms", "statement": "If one sample is infinite or NaN (or has any property every operation preserves), then every bin of the 2-D and 3-D transform has a part with it, whatever the object has done before and in whatever row, column or plane the sample is; so does every output of DCT-I to IV, DST-I to IV, the Hartley transform and the DCT planner, both parts of every bin of the chirp-z transform, every sample of the analytic signal, Goertzel's magnitude when the square root preserves the property too, and both Haar coefficients of the sample's pair. It is false for the Haar transform of an odd number of samples: the last one is dropped and a NaN there leaves no trace.", "quantifier": "any float type and any predicate preserved by the operations, all lengths and shapes, all positions, all object and planner histories, all configurations", "why_tests_cant": "Tests use finite data; the claim is about every position of the bad sample in every shape.", "anchors": ["src/ndfft.rs:74-153", "src/dct.rs:63-176", "src/dst.rs:89-146", "src/hartley.rs:11-45", "src/czt.rs:16-54", "src/goertzel.rs:16-59", "src/hilbert.rs:13-46", "src/wavelet.rs:12-21"]}
{"id": "C102", "title": "Two- and three-dimensional transforms in IEEE arithmetic", "statement": "With f32 or f64 numbers including overflow and underflow, the 2-D transform of finite data with power-of-two rows >= cols >= 32, 15 rows log2(rows) <= 2^prec, succeeds on a new planner, every value finite and within 23 (rows log2 rows + cols log2 cols) 2^-prec (S + rows cols floor) of the exact 2-D transform, S the sum of the moduli, at most 2^(emax-4); the 3-D transform with 32 <= depth <= rows <= cols likewise with 35 (depth log2 depth + rows log2 rows + cols log2 cols), S at most 2^(emax-5). If all entries have modulus at most 1, no condition on the range is left in the 2-D case.", "quantifier": "both formats, all finite data in range, all power-of-two shapes in that order, all scratch contents, all accurate sin and cos, with and without precomputed tables and fused operations", "why_tests_cant": "Tests compare one or two tiny pictures near 1 with a tolerance; the claim covers every content, every shape and the ends of the range.", "anchors": ["src/ndfft.rs:74-153", "src/fft.rs:1053-1160"]}
{"id": "C103", "title": "Root-mean-square rounding error of the FFT", "statement": "In arithmetic where every operation is off by a relative error of at most u, the FFT of n = 2^k >= 32 samples differs from the exact DFT X, as a vector, by at most (b^k - 1) ||X||, b the error factor of one butterfly, the inverse by (b^k (1+u)^2 - 1) ||IDFT||, and forward followed by inverse returns x within (b^2k (1+u)^2 - 1) ||x||, Euclidean norms throughout, ||X|| = sqrt(n) ||x||. In prec-bit binary arithmetic that is a relative error of at most 11 n log2(n) 2^-prec for the spectrum and 22 n log2(n) 2^-prec for the round trip, and every sample comes back within 22 n log2(n) 2^-prec ||x||.", "quantifier": "all complex signals of power-of-two length from 32 up to the stated size, all roundings, both table sources, fused and unfused products", "why_tests_cant": "Tests look at the largest difference for a handful of signals; the error energy for every signal cannot be sampled.", "anchors": ["src/fft.rs: ScalarFftImpl::fft, ifft, FftPlanner::get_twiddles", "src/num.rs: Complex::add, sub, mul"]}
{"id": "C104", "title": "The Goertzel detector under rounding: an error bound, and NaN for a finite signal", "statement": "In arithmetic where every operation is off by a relative error of at most u and the computed coefficient by at most 2e, the number whose square root goertzel_f32 returns is the squared modulus of DFT bin k to within (g^2n (1 + 4 n^2 s) - 1) (sum |x_j|)^2, where s = (1+e)(1+u)^3 - 1 and g = 1 + 3 n s; in prec-bit arithmetic 750 n^2 2^-prec (sum |x_j|)^2. Where the bin's power exceeds that error the returned value is the modulus to within (1+u) times the error's square root plus u times the modulus. Below it nothing is promised: in IEEE f32 there are two finite samples with sum 2^-22 for which the detector at frequency 0 returns NaN, and two with sum 2^-23 for which it returns more than 4000 times the modulus.", "quantifier": "all real signals, rates and frequencies, all roundings; the two refutations for every library whose cosine of zero is one", "why_tests_cant": "The subtraction under the square root cancels only for particular bit patterns; tests with ordinary tones never meet a negative value there.", "anchors": ["src/goertzel.rs: goertzel_f32"]}
{"id": "C105", "title": "Rounding errors of the chirp-z transform and of the analytic signal", "statement": "In arithmetic where every operation is off by a relative error of at most u, point k of czt_f32 differs from the exact sum over j of x_j b^j w^(jk), b = 1/a, by at most ((1+gamma)^((k+2)n) (1+i)^n (1+u)^(n+1) - 1) times the sum of |x_j| |b|^j |w|^(jk), gamma the error of one complex product and i that of the reciprocal; in prec-bit arithmetic 6.1 (k+6) n 2^-prec times that sum. For n = 2^m >= 32 hilbert_analytic differs from the exact analytic signal by at most 2 (q^2 (1+u)^3 - 1) ||x|| in Euclidean norm, q the error factor of one transform; in prec-bit arithmetic 44 n log2(n) 2^-prec ||x||, and the real parts give every sample back to within that.", "quantifier": "all real signals, all points w and start points a other than 0, all roundings", "why_tests_cant": "The powers of w are accumulated by repeated multiplication, so the error grows with the point's index; tests look at a few short transforms with a fixed tolerance.", "anchors": ["src/czt.rs: czt_f32", "src/hilbert.rs: hilbert_analytic"]}
{"id": "C106", "title": "Analysis followed by synthesis in IEEE arithmetic", "statement": "With f32 or f64 numbers including overflow and underflow, a finite signal and a window of n = 2^k >= 32 values, both within [-1, 1], 30 n log2(n) <= 2^prec: stft followed by istft on the same new object, with a zeroed output buffer and any scratch contents, succeeds, returns finite samples only (also where the window energy is below the 1e-8 threshold), and every sample whose exact window energy e is at least 3e-8 and 5 m^2 2^-prec differs from the signal's by at most 66 m n log2(n) S 2^-prec / e, where m = ceil(n / hop) and S >= 1 bounds the sum of |sample * window| over each frame. The streaming objects (StftStream, then IstftStream pushed and flushed) return the same samples with the same bound.", "quantifier": "all signals and windows in range, all hops, all numbers of frames, both formats, every library whose sin and cos are accurate to two units", "why_tests_cant": "Reconstruction tests use one window and hop and a tolerance chosen by hand; they cannot show that no sample overflows or what the division by a small window energy does to the rounding error.", "anchors": ["src/stft.rs: stft", "src/stft.rs: istft", "src/stft.rs: StftStream::next_frame", "src/stft.rs: IstftStream::push_frame", "src/stft.rs: IstftStream::flush", "src/fft.rs: ScalarFftImpl::fft", "src/fft.rs: ScalarFftImpl::ifft"]}
{"id": "C107", "title": "The cosine, sine and Hartley transforms in IEEE arithmetic", "statement": "With f32 or f64 numbers including overflow and underflow and a finite signal of n samples, 100 n <= 2^prec, whose absolute sum is at most 2^(emax-3) (2^(emax-5) for dct1): dct1..dct4, dst1..dst4 and dht return finite numbers only, each within c n 2^-prec |x|_1 + 4 n (least positive number) of the exact sum, with c = 25 for dct2..dct4 and dst1..dst4, 52 for dct1 (n >= 2) and 200 for dht. Applying the inverse (dct3 after dct2, dct2 after dct3, dct4, dst1, dst4 and dht twice) when 4 n (|x|_1 + 1) <= 2^(emax-3) gives finite numbers within 57 n^2 2^-prec |x|_1 + 9 n^2 (least positive number) of n/2 times the signal ((n+1)/2 times for dst1); for dht 1200 and 20 in place of 57 and 9, and n times the signal.", "quantifier": "all finite signals in range, all lengths in range (powers of two or not), both formats, every library whose sin and cos are accurate to two units", "why_tests_cant": "Tests compare a few small signals with a tolerance chosen by hand; they cannot show that no finite signal in range overflows, nor bound the error of the angle product factor*(i+1/2)*k for large indices.", "anchors": ["src/dct.rs: dct1", "src/dct.rs: dct2", "src/dct.rs: dct3", "src/dct.rs: dct4", "src/dst.rs: dst1", "src/dst.rs: dst2", "src/dst.rs: dst3", "src/dst.rs: dst4", "src/hartley.rs: dht"]}
{"id": "C108", "title": "The real cepstrum in f32 arithmetic", "statement": "For every finite f32 signal of n = 2^m >= 32 samples with 15 n log2(n) <= 2^24 and absolute sum at most 2^60, silence included: real_cepstrum returns n finite numbers of modulus at most 131, so adding 1e-12 does avoid the logarithm of 0. Where every |X_k| + 1e-12 is at least g, and g at least four times the FFT's error bound err = 15 n log2(n) 2^-24 (|x|_1 + n 2^-115), each is within 66 * 15 n log2(n) 2^-24 + 3 err / g + 10^-4 of the exact cepstrum. REFUTED without the bound on the signal: the magnitude is taken by squaring without scaling, so the impulse 2^64, 0, 0, 0, whose spectrum is representable, has a cepstrum without a single finite number.", "quantifier": "all finite signals in range, all power-of-two lengths in range, every configuration, every library with sin and cos accurate to two units and a logarithm accurate to a millionth (for the refutation: every library with ln(+inf) = +inf)", "why_tests_cant": "The tests take the cepstrum of one short signal; they cannot show that no finite signal in range produces an infinity or a NaN, and none has samples near the top of the range.", "anchors": ["src/cepstrum.rs: real_cepstrum"]}
{"id": "C109", "title": "Mel energies and mel-frequency cepstral coefficients in f32 arithmetic", "statement": "For at most 2^22 finite non-negative f32 magnitudes whose sum is at most 2^126, every rate (zero, negative, infinite and NaN included), every number of filters and whatever log10 and powf return: mel_filterbank returns finite non-negative energies, none above 3/2 of the sum of the magnitudes plus 1/2. With ln accurate to a millionth and sin and cos to two units, and 1 <= nmel <= 2^24/100, mfcc then returns the requested number of coefficients, all finite and of modulus at most 170 nmel, and mfcc_batch returns exactly these for every frame of a batch of any size.", "quantifier": "all magnitudes in range, all rates, all filter counts, all libraries", "why_tests_cant": "The tests check that eight ones give finite energies at one rate; the bin edges come from log10 and powf, which differ between platforms, so no set of runs covers the edges another platform computes.", "anchors": ["src/cepstrum.rs: mel_filterbank", "src/cepstrum.rs: mfcc", "src/cepstrum.rs: mfcc_batch"]}
