# Formal model of okian/kofft: design

All proofs are in Rocq (Coq 8.16.1) under `rocq/theories`. The code in `/repo` was read as text; it was
neither built nor run. `properties.jsonl` lists the properties, `MANIFEST.json` the theorems for each of them,
`seeded/LOG.jsonl` the mutation tests of the theorems.
In that log `theorems_failed` is what the build reported: the first failing lemma or theorem of each file reached.
For the generated mutants `claim_broken` and `properties_using_failed_theorems` are computed afterwards by a script
that follows names from the failed lemma through the current sources (`claim_source` says so where no theorem of the
property itself failed). They over-approximate: they include properties written after the mutant was run, and a
failing proof script does not show that the property is false of the mutant.
Entries without `claim_source` survived their first run and were classified by hand.

Build: `cd rocq && coq_makefile -f _CoqProject -o Makefile && make -j4`.

## 1. How the code is modelled

* `Exec.v` is the execution vocabulary: a run gives `Done a`, `Panic` or `NoFuel` (a loop that exceeded its
  fuel; theorems show that it never occurs, or, for `factorize 0`, that it always does). Array access, slicing,
  subtraction below zero, division and remainder by zero are explicit and give `Panic` where Rust panics. Loops have
  a Hoare-style rule (`for_inv`).
* `Num.v` models `src/num.rs`. `Float T` is a class of uninterpreted operations mirroring the trait
  `num::Float`; `FloatX T` has the further operations used by single modules (sqrt, ln, comparisons, rounding to
  integers). No law is assumed about any of them.
* `M_*.v` are the model files, function by function, with file and line references.
  Every `&mut` argument is returned; `Result<(), FftError>` is data; state kept in `RefCell`s (FFT planner with its
  twiddle, Bluestein and scratch buffers, real-FFT planner, DCT/DST planners, streaming objects, the web demo's
  `STATE`, the song index) is an explicit record threaded through the calls, so theorems about
  histories quantify over arbitrary sequences of calls.
* The build configuration (features `std`, `parallel`, `precomputed-twiddles`, target feature `fma`, the float
  type, the SIMD lane count) is a record `cfg`; theorems quantify over it.

Two kinds of theorems:

1. *Any float type.* Quantified over every instance of `Float T` (`FloatX T`). Since the operations are
   uninterpreted, these equalities hold bit for bit for f32 and f64, whatever NaN, infinities and rounding do.
2. *Exact arithmetic.* For the instance over Coq's reals (`RC.v`, `RX.v`). "fft computes the DFT", "irfft inverts
   rfft" are of this kind; the DFT, inverse DFT, cosine sums etc. are separate definitions in `RC.v`, `L_dft.v` and the
   `P_*.v` files. The f32 literals 0.70710677, 0.9238795, 0.38268343 of `fft_kernels.rs` stand for the ideal
   constants in this instance.

Rounding is treated in C65, C85 to C91, C93, C95, C97 and C100 (`L_err.v`, `L_flx.v`, `L_rerr.v`, `P_err.v`, `P_rerr.v`, `P_serr.v`, `P_nderr.v`, `P_terr.v`): every operation may have a relative
error u (standard model); `L_flx.v` instantiates it with Flocq's FLX format (24 or 53 bits, round to nearest
even, no overflow or underflow). There the three literals are their actual f32 values. C89 (`L_ierr.v`, `L_pi.v`, `L_ieee.v`,
`P_ierr.v`) runs the same model on Flocq's IEEE binary32 and binary64 numbers with infinities, NaN and subnormals;
`L_pi.v` bounds pi by rational numbers to check the two constants. C90 (`L_ieeex.v`, `L_iwin.v`, `P_iwin.v`) does so for the windows
in binary32, C91 (`P_ieq.v`) for the bit-for-bit equalities, C93 (`P_ispec.v`) for the spectrogram's pixels and colours,
C95 (`L_irerr.v`, `P_irerr.v`) for the real FFT, C97 (`P_haar.v`) for the Haar wavelet and C100 (`P_istft.v`) for the STFT.

`L_*.v` are proofs: `L_stk`, `L_fft`, `L_obj`, `L_obj2`, `L_plan`, `L_stack`, `L_prov` closed forms of the loops for
any float type and the planner invariant; `L_fftR`, `L_dft` exact values; `L_rfft`, `L_stft`, `L_nd`, `L_wave`, `L_trig`,
`L_fact` for the other modules. `P_*.v` hold the property theorems, each followed by `Print Assumptions` and
with an `Example` giving a non-trivial case that meets the hypotheses.

## 2. Trusted base

* Coq's kernel (and `coqchk`). No kernel check is switched off, nothing is admitted, there are no axioms of our own,
  no module types, functors or plugins. `native_compute` is not used; `vm_compute` is.
* Axioms of the standard library, per theorem as listed in section 6: the three axioms behind Coq's real numbers
  (`ClassicalDedekindReals.sig_forall_dec`, `sig_not_dec`, `FunctionalExtensionality.functional_extensionality_dep`) and
  `Classical_Prop.classic` (through the analysis part of the standard library). Flocq is used in the rounding files only
  (`L_flx.v`, `P_err.v`, `P_rerr.v`, `P_serr.v`, `P_nderr.v`, `P_terr.v`, `L_ieee.v`, `P_ierr.v`, `P_irerr.v`, `L_ieeex.v`,
  `L_iwin.v`, `P_iwin.v`, `P_ieq.v`, `P_ispec.v`, `P_haar.v`, `P_bad.v`, `P_bad2.v`, `P_istft.v`, `P_ind.v`, `P_l2.v`, `P_goer.v`, `P_derr.v`, `P_iistft.v`, `P_iterr.v`, `P_icep.v`, `P_imel.v`); no other third-party library is used.
  Of the manifest theorems 221 closed, 126 `R`, 137 `R+C`, 1 `R-`.
* The reading of the Rust source as Gallina text in `M_*.v` and `Num.v`. The references to files and lines make it
  checkable by hand; the mutation log shows that the theorems depend on the details.
* Oracles: things outside the source that the model takes as arbitrary parameters or inputs, so that theorems hold
  whatever they do (unless a hypothesis is stated):
  - the sin, cos and float printing of C89 to C91: arbitrary functions, accurate to 2 units where the theorem says so (C90: a
    cosine in [-1, 1], or accurate to 1/8000000); ln, log10 and powf of `ieeex`: arbitrary functions
    (C93: monotone ln, log10 without NaN, as stated);
  - num_cpus and the time a copy takes (C94, C96): arbitrary numbers, each time anew in C96;
  - `OnceLock` (C96): as documented (one initialiser at a time, others wait, a panic leaves it empty); relaxed atomics:
    every access takes effect at once, in one total order;
  - axum, tower-http and the browser's cache (C92): as documented;
  - rayon: element tasks run in an arbitrary order (a permutation), each atomically on its own element;
  - uninitialised memory (`MaybeUninit` buffers of the out-of-place strided transforms): arbitrary initial contents;
  - the `colorous` gradients: an arbitrary function, byte valued where the theorem says so;
  - `blake3` hash in the song index: an arbitrary function; the file system may change from call to call;
  - the symphonia decoder and hound WAV reader: arbitrary event and sample lists;
  - environment variables, outputs of `uname`, `lscpu`, `sysctl`, outcomes of `cargo` commands: arbitrary;
  - the calibration time measurement of `calibrated_per_core_work`: an arbitrary number.

## 3. Simplifications

* `usize` is `nat` in all model files but M_word.v, which repeats the functions that multiply caller-supplied integers
  (strided, 2D, 3D, stft, istft, streaming analysis, the chirp index) for W-bit words with and without overflow checks;
  C82 and C84 carry the results of the other files over to machines where the extents fit. Subtractions that would go below zero are modelled (they
  panic in debug builds; release builds would wrap).
* `n as f32` is `fofnat n` (through `from_f32`) or `fas n` (direct cast), two arbitrary functions; over the reals both
  are exact. `as usize` casts of floats are `ffloor`/`fround_nat`, over the reals with the saturation at 0.
* Text is ASCII/bytes where strings are processed (xtask).
* `Arc`, `Rc`, `HashMap`: by value; a map is a list searched by key. Memory exhaustion is not modelled.
* `unsafe` blocks: the SIMD intrinsics are modelled lane by lane; pointer casts between `[T]` and `[f32]` are the
  identity guarded by the type test the source makes.
* `web-spectrogram/src/lib.rs` does not parse at this commit (merge residue at lines 122-123 and 166-167); the
  model reads the evident text without it.

## 4. What is modelled and what is not

| source | model | not modelled |
|---|---|---|
| `src/num.rs` | `Num.v`, `M_util.v` | libm itself |
| `src/fft_kernels.rs` | `M_fft_kernels.v` | |
| `src/fft.rs` | `M_fft.v`, `M_util.v`, `M_word.v`, `M_tune.v`, `M_conc.v`, `M_par.v` | |
| `src/rfft.rs` | `M_rfft.v` | |
| `src/stft.rs` | `M_stft.v`, `M_word.v` | |
| `src/ndfft.rs` | `M_nd.v`, `M_word.v` | |
| `src/wavelet.rs` | `M_wave.v` | |
| `src/dct.rs`, `dst.rs`, `hartley.rs`, `goertzel.rs`, `czt.rs` | `M_trig.v` | |
| `src/hilbert.rs`, `cepstrum.rs` | `M_cep.v` | |
| `src/window.rs`, `window_more.rs` | `M_win.v` | |
| `src/visual/spectrogram.rs` | `M_spec.v` | the colorous crate |
| `src/media/index.rs` | `M_index.v` | blake3, file I/O |
| `build.rs` | table values in `M_fft.v` (`freparse` stands for printing and re-reading a decimal) | emission of the Rust text |
| `sanity-check/` | `M_sanity.v` | clap, symphonia, hound, PNG container |
| `web-spectrogram/src/lib.rs` | `M_web.v` | wasm-bindgen glue |
| `web-spectrogram/src/main.rs` (routes), `sw.js` | `M_sw.v` | axum, tower-http, sockets, the browser's update of the worker script |
| `web-spectrogram/app.mjs` | `M_page.v` (canvas and WebGL drawing; as if the merge residue were removed) | loading, audio decoding |
| `examples/spectrogram.rs` | `M_page.v` | WAV and PNG containers |
| `xtask/` | `M_xtask.v` | clap, process execution |
| `kofft-bench/` | `M_bench.v` (allocation counters, report, README splice) | criterion, the timed closures, serde, file renames, formatting of the table |
| other `examples/`, `tests/` | see section 6 for the parts covered | usage examples, tests |

## 5. Defects found

Each is a theorem named `..._refuted` (or the stated theorem):

* A scalar FFT object used for 64 points returns a wrong result for a following 32-point transform: the split
  buffers keep the longer length (C03); consequence: `fft2d_inplace` is wrong for 32 rows of 64 columns (C42).
* `stockham_fft` and with it the SIMD objects panic for one sample (C07); real FFT of 2 samples through SIMD
  objects panics (C28).
* `fft_radix4` is wrong on every size 4^k from 16 on (it permutes with a bit counter stepping by two bits, so the upper half is never moved; C09, C10, C22). `factorize(0)` does not terminate (C11).
* `ifft` without `std` leaves the buffer conjugated when it fails (C06, C23).
* The parallel tuning setters other than the threshold have no effect with `std` (C21).
* `fft_strided` with empty scratch returns Ok and does nothing (C14).
* rfft: an error of the inner FFT overwrites the output (C30).
* `istft` adds to the caller's output buffer (C35); `IstftStream` panics at the third frame when the hop exceeds the
  window (C37); `inverse_parallel` zeroes samples where the sequential version leaves them (C38).
* Multi-level Haar panics on odd intermediate lengths (C40); db4, sym4 and coif1 do not reconstruct (C41).
* `DctPlanner`: a longer buffer panics, a shorter one is transformed with the wrong table (C46).
* `dst3` is not the inverse of `dst2` (C48); the planner tables for DST-III/IV are not the factors of
  `dst3`/`dst4` (C66).
* `bohman` is not symmetric (C57); `kaiser(0)` panics (C64).
* Spectrogram: zero hop panics (C58); `log_scale_bins` panics for too long inputs (C59).
* Song index: same file name in two directories gives one identifier (C62).
* f64 transforms of 8 and 16 points only have f32 accuracy (C65).
* f64 transforms of lengths above 4096 that are not a power of two have f32 accuracy or worse: the chirp converts `i*i`
  to `f32` first, so for every length from 4098 to 8191 the transform of a unit impulse is off by more than 2^-12
  (`C65_f64_long_refuted`). Up to 4096 points f64 accuracy is proved.
* Live spectrogram falls behind for chunks longer than 512 samples (C68).
* sanity-check: panics for zero channels and for growing packets, no downmix of WAV files, samples below -1 (C70);
  window lengths 0 and 1 panic (C71).
* `TwiddleFactorBuffer::get` loses the sign from n/2 on and panics for n < 2 (C73).
* `reset_alloc` while blocks are live makes the byte counter wrap and the reported peak come near 2^64 (C76).
* Benchmark report: several winners are possible, a NaN time panics (C77); the README updater accumulates text when the
  table contains the end marker or the markers are reversed (C78).
* `app.mjs` and `web-spectrogram/src/lib.rs` do not parse (merge residue). The WebGL path shows the bins in the wrong
  places for every picture of more than one row and too dark, black below 35 dB under the maximum (C80).
* Integer overflow: the length checks of the strided and 2D transforms wrap, so an absurd stride or shape panics instead
  of being reported; `stft`/`istft` with spare slots and a huge hop wrap to the start of the signal in release builds
  (C83). On wasm32 transforms of more than 65536 points that are not a power of two are wrong (`i * i` wraps, C84).
* One-sample Kaiser, Bartlett, Bohman and Nuttall windows are NaN (0/0); a Kaiser window with beta = 21 has a NaN in the
  middle, since a power in `bessel0` overflows f32; the first Blackman sample is slightly negative (C90).
* With the fma feature the scalar and the AVX post-processing of the real FFT differ in the last places (C91, C31).
* `sw.js`: the WebAssembly module is not cached, so an installed page does not start offline; a new `app.mjs` is never
  seen after an install; the server's fallback makes a missing file look present. No page registers the worker (C92).
* Parallel default: the calibration yields points per second and is used as points per core, so with a 1 ms copy nothing below
  131 million points per core is parallel (README: 4096). The threshold product can wrap to 0 (C94). `fft` itself is never
  parallel, only the conjugation and scaling of `ifft` are.
* The real FFT adds X_k and its mirror image before it halves the sum: bins above half the range become infinite although the
  spectrum is representable and the complex FFT is finite (C95).
* The parallel settings are read one atomic at a time, so a choice made while two setters run can match none of the settings
  ever in force (C96).
* The Haar wavelet computes (a + b) / 2, so samples above half the range overflow although the average is representable (C97).
* The buffers kept between calls carry NaN from one transform of f32 or f64 data to every later shorter one on the same object (C98, a consequence of C03).
* The logarithmic axis can leave its last pixel empty (16 bins); a range of 0 or a floor of 0 dB gives NaN and a black
  loudest bin (C93).

## 6. Properties

Axiom codes (from `Print Assumptions`, see section 2): `-` closed under the global context; `R` the axioms of
Coq's real numbers (`sig_forall_dec`, `sig_not_dec`, `functional_extensionality_dep`); `R-` the first and the
last of them; `R+C` in addition `Classical_Prop.classic`.

### C01 Forward FFT equals the DFT for every length

*Status:* proved. *File:* `P_fft.v`.

Any length n >= 1 on a new object; also the no_std build for powers of two. Exact arithmetic over R; rounding is outside the model.

Theorems (axioms): `C01_fft_is_dft` (R), `C01_fft_is_dft_nostd` (R)

### C02 Inverse FFT equals the inverse DFT and undoes the forward FFT

*Status:* proved. *File:* `P_fft.v`.

Inverse DFT, both round trips on one object, exact arithmetic.

Theorems (axioms): `C02_ifft_is_idft` (R), `C02_fft_then_ifft` (R), `C02_ifft_then_fft` (R)

### C03 Results do not depend on what the FFT object was used for before

*Status:* proved. *File:* `P_fft.v`.

REFUTED as stated: after a transform of 64 points a 32 point transform on the same object differs (stale longer split buffers). C04 gives the histories for which it holds.

Theorems (axioms): `C03_history_independent_refuted` (R)

### C04 Histories after which the FFT object is still correct

*Status:* proved. *File:* `P_fft.v`.

Any arithmetic (bit for bit).

Theorems (axioms): `C04_good_histories` (-), `C04_same_size` (-)

### C05 fft/ifft error contract

*Status:* proved. *File:* `P_fft.v`.

Any arithmetic, every reachable object, all four build configurations.

Theorems (axioms): `C05_fft_contract` (-), `C05_ifft_contract` (-)

### C06 A failing forward or inverse transform leaves the buffer untouched

*Status:* proved. *File:* `P_fft.v`.

Forward: proved for every arithmetic. Inverse: REFUTED as stated, without std the buffer comes back conjugated.

Theorems (axioms): `C06_fft_error_keeps_buffer` (-), `C06_ifft_error_keeps_buffer_refuted` (R)

### C07 The public Stockham entry point and SIMD objects accept every non-empty length

*Status:* proved. *File:* `P_entry.v`.

REFUTED as stated: all three entry points panic on one sample. Proved for every other length (normal return, DFT, inverse).

Theorems (axioms): `C07_entry_points_refuted` (-), `C07_other_lengths` (-), `C07_simd_other_lengths` (-), `C07_stockham_is_dft` (R), `C07_f32_plan_is_dft` (R), `C07_simd_ifft` (R)

### C08 Stack-only FFT equals the DFT and rejects other sizes

*Status:* proved. *File:* `P_entry.v`.

Proved, exact arithmetic for the DFT part, any arithmetic for the error part.

Theorems (axioms): `C08_stack_is_dft` (R), `C08_stack_round_trip` (R), `C08_stack_other_sizes` (-)

### C09 All strategies compute the same transform

*Status:* proved. *File:* `P_entry.v`.

REFUTED as stated for Radix4: on every size 4^k >= 16 (std) the result is wrong for every input with x[2] <> x[n/2], in every reachable planner state (C09_radix4_wrong; C09_strategies_refuted is one witness). Proved for all other combinations.

Theorems (axioms): `C09_strategies_same` (-), `C09_strategies_dft` (R), `C09_strategies_refuted` (R), `C09_radix4_wrong` (R)

### C10 Radix4, mixed-radix and twiddle-buffer entry points

*Status:* proved. *File:* `P_entry.v`.

REFUTED as stated: fft_radix4 is wrong on every size 4^k >= 16 (C10_radix4_wrong: for every input with x[2] <> x[n/2]) and fft_mixed_radix_with_twiddles panics for one sample. What fft_radix4 does there is characterised: it never fails (C10_radix4_total, any float type) and computes the DFT of a permutation of the input (C10_radix4_permuted). Proved for the remaining lengths of each function.

Theorems (axioms): `C10_radix4_refuted` (R), `C10_radix4_total` (-), `C10_radix4_permuted` (R), `C10_radix4_wrong` (R), `C10_radix4_dft` (R), `C10_mixed_same` (-), `C10_mixed_dft` (R), `C10_mixed_twiddles_same` (-), `C10_mixed_twiddles_dft` (R), `C10_mixed_twiddles_refuted` (-)

### C11 Integer factorisation used for mixed radix is correct and terminates

*Status:* proved. *File:* `P_entry.v`.

Proved for n >= 1 (terminates, product, primes, ascending). The n = 0 clause is REFUTED: no amount of fuel is enough.

Theorems (axioms): `C11_factorize` (-), `C11_factorize_terminates_refuted` (-)

### C12 Split (structure-of-arrays) transforms agree with interleaved ones

*Status:* proved. *File:* `P_layout.v`.

fft_split bit for bit; ifft_split bit for bit under the stated identities of the scaling factor (conversion of n, negation), which exact arithmetic satisfies.

Theorems (axioms): `C12_fft_split` (-), `C12_fft_split_any_history` (-), `C12_ifft_split` (-), `C12_ifft_split_exact` (R), `C12_mismatch` (-)

### C13 SIMD-width processing gives the same bits as scalar processing

*Status:* proved. *File:* `P_layout.v`.

Any lane width, any group size, any arithmetic.

Theorems (axioms): `C13_group` (-), `C13_transforms` (-)

### C14 Strided in-place transforms touch only the strided samples

*Status:* proved. *File:* `P_layout.v`.

Any arithmetic. The boundary case of an empty scratch (returns Ok, nothing changed) is stated in C14_empty_scratch.

Theorems (axioms): `C14_strided` (-), `C14_scratch_irrelevant` (-), `C14_errors` (-), `C14_empty_scratch` (-)

### C15 Strided transforms with internally allocated scratch

*Status:* proved. *File:* `P_layout.v`.

Any arithmetic, arbitrary initial scratch contents.

Theorems (axioms): `C15_strided_alloc` (-), `C15_uninitialised_scratch` (-)

### C16 Out-of-place strided transforms

*Status:* proved. *File:* `P_layout.v`.

Any arithmetic.

Theorems (axioms): `C16_out_of_place_strided` (-), `C16_bad_strides` (-), `C16_success_iff` (-)

### C17 Out-of-place transforms

*Status:* proved. *File:* `P_layout.v`.

Any arithmetic.

Theorems (axioms): `C17_out_of_place` (-), `C17_vec` (-)

### C18 Twiddle and chirp caches are transparent

*Status:* proved. *File:* `P_fft.v`.

Any arithmetic, any history.

Theorems (axioms): `C18_twiddle_cache` (-), `C18_chirp_cache` (-)

### C19 Twiddle table contents

*Status:* proved. *File:* `P_fft.v`.

Values over the reals. C19_which_table is for any float type and any history: which calls get the printed table, and the entries bit for bit.

Theorems (axioms): `C19_twiddles` (R), `C19_precomputed_agree` (R), `C19_which_table` (-)

### C20 Parallel inverse FFT equals the sequential one under every schedule

*Status:* proved. *File:* `P_plan.v`.

Any arithmetic; schedule = arbitrary permutation of the element tasks; the equality with the sequential loop needs only that the two usize-to-f32 conversions agree for f32.

Theorems (axioms): `C20_parallel_ifft` (-), `C20_schedule_independent` (-), `C20_parallel_ifft_exact` (R)

### C21 Parallel tuning setters take effect

*Status:* proved. *File:* `P_plan.v`.

Threshold setter proved. The other setters: proved without std; REFUTED as stated with std (they are ignored because the base threshold is computed from the environment only).

Theorems (axioms): `C21_threshold_set` (-), `C21_heuristic` (-), `C21_setters_nostd` (-), `C21_setters_ignored` (-), `C21_no_overrides` (-), `C21_setters_refuted` (-)

### C22 FFT plans check lengths and are repeatable

*Status:* proved. *File:* `P_plan.v`.

Repeatability, length check and the errors of both directions proved for any arithmetic (C22_errors: buffer kept forward, left conjugated by the failed inverse); round trip proved for the plans of plan_works and REFUTED for 16-point Radix4 plans (not f32).

Theorems (axioms): `C22_repeatable` (-), `C22_length_check` (-), `C22_errors` (-), `C22_fft_is_dft` (R), `C22_ifft_is_idft` (R), `C22_round_trip` (R), `C22_round_trip_refuted` (R)

### C23 Batch processing semantics

*Status:* proved. *File:* `P_plan.v`.

Proved for batch and multi_channel. For batch_inverse without std the failing buffer is conjugated: that clause is REFUTED.

Theorems (axioms): `C23_batch` (-), `C23_batch_inverse` (-), `C23_inverse_failing_unchanged_refuted` (R), `C23_batch_dft` (R)

### C24 Linearity

*Status:* proved. *File:* `P_fft.v`.

Exact arithmetic.

Theorems (axioms): `C24_linear` (R)

### C25 Energy conservation (Parseval)

*Status:* proved. *File:* `P_fft.v`.

Exact arithmetic.

Theorems (axioms): `C25_parseval` (R)

### C26 Circular convolution via FFT

*Status:* proved. *File:* `P_fft.v`.

Exact arithmetic.

Theorems (axioms): `C26_convolution` (R), `C26_shift` (R)

### C27 Hermitian symmetry for real input

*Status:* proved. *File:* `P_fft.v`.

Exact arithmetic.

Theorems (axioms): `C27_hermitian` (R)

### C28 Real FFT equals the first half of the complex DFT

*Status:* proved. *File:* `P_rfft.v`.

Exact arithmetic over R for every even length, every kernel variant, every reachable planner and the trait, planner, packed and stack entry points; the inner FFT is any provider that computes the DFT, then instantiated with the scalar and SIMD objects. REFUTED for the SIMD object at 2 samples (length-1 inner FFT panics): C28_simd_object_refuted.

Theorems (axioms): `C28_rfft_is_dft` (R), `C28_planner_rfft_is_dft` (R), `C28_scalar_object` (R), `C28_simd_object` (R), `C28_simd_object_refuted` (-), `C28_packed` (R), `C28_stack` (R)

### C29 Inverse real FFT reconstructs the signal

*Status:* proved. *File:* `P_rfft.v`.

Exact arithmetic over R; irfft computes the real inverse DFT of the Hermitian extension, and rfft then irfft is the identity.

Theorems (axioms): `C29_irfft_is_idft` (R), `C29_planner_irfft` (R), `C29_packed` (R), `C29_round_trip` (R), `C29_stack` (R)

### C30 Real FFT argument checking

*Status:* proved. *File:* `P_rfft.v`.

Any float type. Argument errors leave output, scratch and FFT state unchanged; no length combination panics when the FFT provider is total. C30_inner_error_overwrites_output shows that errors raised by the inner FFT do modify the output (outside the claim).

Theorems (axioms): `C30_argument_errors` (-), `C30_stack_errors` (-), `C30_never_panics` (-), `C30_inner_error_overwrites_output` (R)

### C31 Real FFT implementation paths agree

*Status:* proved. *File:* `P_rfft.v`.

Any float type with the listed IEEE laws, builds without fused multiply-add. C31_fma_refuted shows the restriction to non-FMA builds is necessary.

Theorems (axioms): `C31_kernels_agree` (-), `C31_packed_agrees` (-), `C31_fma_refuted` (-)

### C32 STFT frames are windowed DFTs

*Status:* proved. *File:* `P_stft.v`.

Exact arithmetic for any FFT provider that computes the DFT on window-sized buffers, and for the scalar object after any calls no larger than the window. Error cases for any float type.

Theorems (axioms): `C32_stft_frames` (R), `C32_scalar_object` (R), `C32_errors` (-), `C32_frame` (R)

### C33 Streaming STFT equals batch STFT

*Status:* proved. *File:* `P_stft.v`.

Any float type and any FFT provider, bit for bit, whenever the batch stft succeeds.

Theorems (axioms): `C33_streaming_equals_batch` (-), `C33_errors` (-)

### C34 ISTFT inverts STFT wherever the windows overlap enough

*Status:* proved. *File:* `P_stft.v`.

Exact arithmetic, output buffer zeroed by the caller, every sample whose window energy exceeds the code's 1e-8 threshold. C35 covers non-zero output buffers.

Theorems (axioms): `C34_istft_inverts_stft` (R+C), `C34_scalar_object` (R+C), `C34_errors` (-), `C34_inverse_frame` (-)

### C35 ISTFT overwrites its output

*Status:* proved. *File:* `P_stft.v`.

REFUTED as stated: C35_overwrites_output_refuted (frames are added to the caller's buffer). C35_accumulates gives the exact dependence; C35_scratch_irrelevant is the part that holds.

Theorems (axioms): `C35_overwrites_output_refuted` (R+C), `C35_scratch_irrelevant` (-), `C35_accumulates` (R+C)

### C36 Streaming ISTFT equals batch ISTFT

*Status:* proved. *File:* `P_stft.v`.

Any float type, any provider that keeps buffer lengths (the scalar object does: C36_scalar_object), bit for bit.

Theorems (axioms): `C36_stream_equals_batch` (-), `C36_scalar_object` (-)

### C37 Streaming ISTFT accepts every hop

*Status:* proved. *File:* `P_stft.v`.

REFUTED as stated: C37_scalar_refuted (every hop larger than the window panics on the third frame), C37_short_window_refuted. C37_small_hop: no sequence of pushes and flushes panics for hop <= window.

Theorems (axioms): `C37_every_hop_refuted` (-), `C37_scalar_refuted` (-), `C37_short_window_refuted` (-), `C37_small_hop` (-)

### C38 Parallel STFT equals sequential STFT under every schedule

*Status:* proved. *File:* `P_stft.v`.

Bit for bit for every schedule, scalar object. C38_same_errors_refuted and C38_same_samples_refuted record the two differences outside the statement.

Theorems (axioms): `C38_parallel_frames` (-), `C38_parallel_inverse` (-), `C38_hop_error` (-), `C38_same_errors_refuted` (R), `C38_same_samples_refuted` (R+C)

### C39 Haar wavelet single-level perfect reconstruction

*Status:* proved. *File:* `P_wave.v`.

Exact arithmetic for reconstruction; stack/heap agreement for any float type. The odd-length clause is stated as the code behaves (the last sample is dropped).

Theorems (axioms): `C39_haar_reconstructs` (R), `C39_even_length` (R), `C39_synthesis_then_analysis` (R), `C39_stack_agrees` (-), `C39_stack_inverse_agrees` (-), `C39_batch` (R)

### C40 Multi-level Haar reconstruction

*Status:* proved. *File:* `P_wave.v`.

REFUTED as stated: C40_every_length_refuted (six samples, two levels). C40_reconstruction and C40_panics together decide every length and level count: reconstruction succeeds iff all intermediate lengths are even, otherwise the inverse panics.

Theorems (axioms): `C40_reconstruction` (R), `C40_panics` (-), `C40_every_length_refuted` (R)

### C41 Daubechies/Symlet/Coiflet reconstruction

*Status:* proved. *File:* `P_wave.v`.

REFUTED for db4, sym4, coif1 (C41_db4_refuted, C41_sym4_refuted, C41_coif1_refuted: the synthesis taps are in the wrong order). db2 reconstructs every interior sample (C41_db2_interior); C41_filter_bank: the loops are right for every bank whose synthesis taps undo the analysis taps; C41_with_analysis_taps: db4/sym4/coif1 would reconstruct with the analysis taps; C41_never_panics: any signal length, any float type.

Theorems (axioms): `C41_never_panics` (-), `C41_filter_bank` (R), `C41_db2_interior` (R), `C41_db4_refuted` (R), `C41_sym4_refuted` (R), `C41_coif1_refuted` (R), `C41_with_analysis_taps` (R)

### C42 Two- and three-dimensional FFT

*Status:* proved. *File:* `P_nd.v`.

REFUTED as stated: C42_fft2d_refuted (32 rows of 64 columns: the first column sees what the last row transform left in the object). C42_fft2d, C42_fft3d: right for every shape satisfying right_after (later transforms not smaller than earlier ones, or at most 16 points); exact arithmetic.

Theorems (axioms): `C42_fft2d` (R), `C42_fft2d_square` (R), `C42_fft3d` (R), `C42_errors` (-), `C42_errors_3d` (-), `C42_nostd_2d` (-), `C42_nostd_3d` (-), `C42_fft2d_refuted` (R)

### C43 Flattening nested arrays

*Status:* proved. *File:* `P_nd.v`.

Any element type; 3D with zero rows reports zero columns.

Theorems (axioms): `C43_flatten_2d` (-), `C43_flatten_2d_ragged` (-), `C43_flatten_3d` (-), `C43_flatten_3d_ragged` (-)

### C44 DCT-II and DCT-III are inverse up to n/2

*Status:* proved. *File:* `P_trig.v`.

Over exact reals; for every length. The outputs are also proved equal to the written-out DCT-II/III sums, and totality and length hold for any float type.

Theorems (axioms): `C44_dct2_dct3_formula` (R), `C44_dct2_dct3_inverse` (R), `C44_empty` (-), `C44_total` (-)

### C45 DCT-I and DCT-IV are self-inverse up to scale

*Status:* proved. *File:* `P_trig.v`.

Over exact reals; outputs also equal the written-out sums.

Theorems (axioms): `C45_dct4_involution` (R), `C45_dct1_involution` (R), `C45_formula` (R)

### C46 Planned DCT-II equals the direct DCT-II

*Status:* proved. *File:* `P_dctp.v`.

REFUTED as stated in its second half: a buffer longer than planned panics (cos table index), a shorter one is accepted and transformed with the wrong table. Proved: for every planner history, kernel variant and sequence of calls with the planned length the results are exactly dct2 (std, or power-of-two length); output/input length mismatch gives MismatchedLengths; no_std rejects other lengths with the output untouched.

Theorems (axioms): `C46_planned_dct2` (R), `C46_output_mismatch` (-), `C46_longer_buffers_refuted` (R), `C46_shorter_buffers_refuted` (R), `C46_nostd_lengths` (-)

### C47 DST-I and DST-IV are self-inverse up to scale

*Status:* proved. *File:* `P_trig.v`.

Over exact reals; outputs also equal the written-out sums.

Theorems (axioms): `C47_dst1_involution` (R), `C47_dst4_involution` (R), `C47_formula` (R)

### C48 DST-III inverts DST-II up to scale

*Status:* proved. *File:* `P_trig.v`.

REFUTED: dst3 halves the first sample and uses frequencies shifted by one, on two points it returns two equal values. The sum that does invert dst2 is proved.

Theorems (axioms): `C48_formula` (R), `C48_dst3_dst2_refuted` (R), `C48_inverse_of_dst2` (R)

### C49 Stack and batch DCT/DST/window variants agree with heap versions

*Status:* proved. *File:* `P_trig.v`, `P_win.v`.

Any float type, so bit for bit.

Theorems (axioms): `C49_dct_stack` (-), `C49_dst_stack` (-), `C49_batch` (-), `C49_multi_channel` (-), `C49_window_stack` (-)

### C50 Hartley transform is an involution up to n and relates to the DFT

*Status:* proved. *File:* `P_trig.v`.

Over exact reals.

Theorems (axioms): `C50_dht_involution` (R), `C50_dht_from_dft` (R)

### C51 Goertzel detector equals the DFT bin magnitude

*Status:* proved. *File:* `P_det.v`.

goertzel_f32 for every non-empty signal and positive rate returns the magnitude of the DFT bin floor(f*n/rate) mod n, exact arithmetic; the error cases for any float type.

Theorems (axioms): `C51_goertzel` (R+C), `C51_errors` (-), `C51_rate_error` (R+C)

### C52 Chirp-z transform evaluates the z-transform on the spiral

*Status:* proved. *File:* `P_det.v`.

czt_f32 equals sum x[n] a^-n w^(nk) for every length and parameters (exact arithmetic); the DFT is the special case.

Theorems (axioms): `C52_czt` (R+C), `C52_czt_dft` (R+C), `C52_zero_start` (R+C)

### C53 Analytic signal

*Status:* proved. *File:* `P_cep.v`.

Power-of-two lengths: real part equals the input, spectrum is one-sided (X[0] and X[n/2] kept, 2X[k] below, 0 above). Totality and error cases hold for any float type.

Theorems (axioms): `C53_analytic` (R), `C53_errors` (-), `C53_total` (-)

### C54 Real cepstrum

*Status:* proved. *File:* `P_cep.v`.

Power-of-two lengths: value, zero imaginary part and evenness over exact reals; totality and error cases for any float type.

Theorems (axioms): `C54_cepstrum` (R+C), `C54_errors` (-), `C54_total` (-)

### C55 Mel filter bank and MFCC are total and non-negative

*Status:* proved. *File:* `P_cep.v`.

Totality, length, mfcc and batch behaviour for any float type; triangular formula, non-negativity and edges over exact reals.

Theorems (axioms): `C55_total` (-), `C55_mfcc` (-), `C55_batch` (-), `C55_triangles` (R+C), `C55_nonneg` (R+C), `C55_edges` (R+C)

### C56 Window functions: range, symmetry and constant overlap-add

*Status:* proved. *File:* `P_win.v`.

Range, symmetry and overlap-add over exact reals for every length, plus the written-out formulas; kaiser is symmetric, positive and peaks at 1 with the code's 20-term Bessel sum; hann overlap-add is proved for every hop dividing the length.

Theorems (axioms): `C56_range` (R), `C56_periodic_symmetry` (R), `C56_formula` (R), `C56_hann_overlap` (R), `C56_hann_cola` (R), `C56_bartlett` (R+C), `C56_nuttall` (R), `C56_tukey` (R+C), `C56_kaiser` (R+C)

### C57 Bohman window is symmetric and non-negative

*Status:* proved. *File:* `P_win.v`.

REFUTED as stated at every length >= 2: the first sample is -1/pi and the last 1/pi (C57_bohman_refuted). C57_bohman_asymmetry gives the exact asymmetry and the symmetric part.

Theorems (axioms): `C57_bohman_refuted` (R+C), `C57_bohman_asymmetry` (R+C)

### C58 Spectrogram magnitudes

*Status:* proved. *File:* `P_spec.v`.

Magnitudes, shape and maximum over exact reals for every schedule of the parallel STFT. REFUTED for the zero hop: C58_zero_hop_refuted (division by zero panic).

Theorems (axioms): `C58_magnitudes` (R+C), `C58_zero_hop_refuted` (-), `C58_zero_window` (-)

### C59 Logarithmic frequency binning

*Status:* proved. *File:* `P_spec.v`.

Averages and pixel scale over exact reals; C59_panics_iff for any float type. C59_long_input_refuted shows that the bound on the input length is needed.

Theorems (axioms): `C59_panics_iff` (-), `C59_pixel` (R+C), `C59_averages` (R+C), `C59_long_input_refuted` (R+C)

### C60 Decibel and colour scaling

*Status:* proved. *File:* `P_spec.v`.

Decibel laws and the palettes over exact reals; 16-bit colours for any float type. The colorous gradients (viridis, plasma, inferno) are an oracle returning bytes. Matching without regard to case is specified by two written-out alphabets (L_case.v), not by the model's lower-casing.

Theorems (axioms): `C60_db` (R+C), `C60_db_scale` (R+C), `C60_wide` (-), `C60_gradients` (R+C), `C60_legacy_gray` (R+C), `C60_clamped` (R+C), `C60_end_points` (R+C), `C60_from_magnitude` (R+C), `C60_from_magnitude_wide` (-), `C60_parse` (-)

### C61 Song index lookups

*Status:* proved. *File:* `P_index.v`.

Any hash function, any file system which may change from call to call, any history of calls.

Theorems (axioms): `C61_entries_kept` (-), `C61_known_name` (-), `C61_name_learned` (-), `C61_same_bytes` (-), `C61_ids_are_paths` (-)

### C62 Identify distinguishes different songs

*Status:* proved. *File:* `P_index.v`.

REFUTED as stated: C62_distinct_ids_refuted (same file name in two directories, for every hash function). C62_unique_names: true after any history when equal names mean equal contents and the hash has no collisions on the contents.

Theorems (axioms): `C62_unique_names` (-), `C62_same_name` (-), `C62_distinct_ids_refuted` (-)

### C63 Build configuration selection

*Status:* proved. *File:* `P_xtask.v`.

All strings (ASCII white space). The 'at most one' clauses are about the features derived from the machine; C63_extra_arch shows that user extras can name another architecture.

Theorems (axioms): `C63_features` (-), `C63_machine_part` (-), `C63_example_choice` (-), `C63_words_unique` (-), `C63_features_arg` (-), `C63_commands` (-)

### C64 Window constructors are total and return len values

*Status:* proved. *File:* `P_win.v`.

REFUTED as stated: kaiser(0) panics for every float type in builds with overflow checks (C64_kaiser_empty_refuted; release builds return the empty window, C82_kaiser). C64_window_lengths covers all other lengths and windows for any float type; tukey is total whenever the computed taper is at most the length (C64_tukey_total), which C56_tukey shows always holds over exact reals.

Theorems (axioms): `C64_kaiser_empty_refuted` (-), `C64_window_lengths` (-), `C64_tukey_total` (-)

### C65 The FFT's rounding error is bounded

*Status:* proved. *File:* `P_err.v`, `P_rerr.v`.

Standard model of floating-point arithmetic (no overflow or underflow, record `rounded`); the elementary functions enter only through the accuracy of the twiddle step, chirp and literals. C65_float_* instantiate everything with prec-bit round-to-nearest-even arithmetic (Flocq FLX, 24 bits f32, 53 bits f64), correctly rounded sin/cos, conversions of integers through f32 and tables printed with 10 or 16 decimals, leaving no hypothesis but the size. REFUTED for f64: lengths 8 and 16 do not reach f64 accuracy because the kernel literals are f32 (C65_f64_small_refuted), nor do the non-powers of two above 4097 because the chirp takes i*i through f32 (C65_f64_long_refuted; C65_float_bluestein_f32 gives the f32 bound that does hold). C65_ifft_bluestein_error (P_rerr.v): the inverse at other lengths.

Theorems (axioms): `C65_fft_error` (R), `C65_ifft_error` (R), `C65_roundtrip_error` (R), `C65_twiddle_error` (R), `C65_bluestein_error` (R), `C65_float_fft_error` (R+C), `C65_float_roundtrip_error` (R+C), `C65_float_bluestein_error` (R+C), `C65_float_small_error` (R+C), `C65_f64_small_refuted` (R+C), `C65_float_precomputed_error` (R+C), `C65_float_bluestein_f32` (R+C), `C65_f64_long_refuted` (R+C), `C65_ifft_bluestein_error` (R)

### C66 The DST planner's tables are the factors of the transforms, independently of history

*Status:* proved. *File:* `P_util.v`.

History independence and scratch: any float type (C66_tables, C66_scratch). The row clause holds for DST-II (C66_dst2_row) and is REFUTED as stated for DST-III and DST-IV (C66_dst3_refuted, C66_dst4_refuted): their tables are no row of dst3 / dst4.

Theorems (axioms): `C66_tables` (-), `C66_scratch` (-), `C66_dst2_row` (R), `C66_dst3_refuted` (R), `C66_dst4_refuted` (R)

### C67 Split and interleaved complex layouts convert losslessly

*Status:* proved. *File:* `P_util.v`.

Any float type except C67_exact (exact reals). The fields are public: with im shorter than re to_complex_vec panics, with im longer its tail is dropped (both stated in C67_complex_vec).

Theorems (axioms): `C67_complex_vec` (-), `C67_copies` (-), `C67_transform` (-), `C67_exact` (R), `C67_mismatch` (-)

### C68 The live spectrogram shows the stream, however it is chunked

*Status:* proved. *File:* `P_web.v`.

REFUTED as stated in one clause: C68_keeps_up_refuted (1024-sample chunks hold back 512 more samples per call, without bound); C68_keeps_up for chunks of at most 512. Everything else for any float type and any history (C68_stream_any) and exactly over the reals (C68_stream). web-spectrogram/src/lib.rs does not parse as committed (merge residue at 122-123 and 166-167); the model reads the evident text without the residue.

Theorems (axioms): `C68_stream_any` (-), `C68_stream` (R+C), `C68_rows` (-), `C68_keeps_up` (-), `C68_keeps_up_refuted` (-), `C68_reset` (-), `C68_colours` (R+C)

### C69 The web bindings return what the library computes

*Status:* proved. *File:* `P_web.v`.

Exact reals for the magnitudes and the DFT; palette clauses for any float type. The wasm-bindgen layer (conversion to JavaScript values) is not modelled.

Theorems (axioms): `C69_flat_magnitudes` (R+C), `C69_fft_split` (R), `C69_palette` (-)

### C70 Decoded audio is mixed down to mono without losing or inventing samples

*Status:* proved. *File:* `P_sanity.v`.

REFUTED as stated in three clauses: read_audio panics for a track declaring zero channels, for a packet larger than the first one's capacity and for packets with fewer channels than the track declares (C70_never_panics_refuted); read_wav does not mix channels (C70_wav_mono_refuted) and maps -32768 below -1 (C70_wav_range_refuted; C70_wav_range gives the exact range). The mixdown itself: any float type (C70_mixdown_any), exact averages over the reals (C70_mixdown). The symphonia decoder and hound reader are inputs (event lists). Matching without regard to case is specified by two written-out alphabets (L_case.v), not by the model's lower-casing.

Theorems (axioms): `C70_mixdown_any` (-), `C70_mixdown` (R+C), `C70_setup_errors` (-), `C70_never_panics_refuted` (-), `C70_wav` (R+C), `C70_wav_range` (R-), `C70_wav_range_refuted` (R+C), `C70_wav_mono_refuted` (R+C)

### C71 The spectrogram image shows every frame and bin

*Status:* proved. *File:* `P_sanity.v`.

Exact reals, window length at least 2 (C71_image). REFUTED as stated for window lengths 0 and 1, for which the program panics (C71_every_window_refuted: hop 0). Command-line parsing and file writing are not modelled.

Theorems (axioms): `C71_put_pixel` (-), `C71_image` (R+C), `C71_every_window_refuted` (-)

### C72 PNG and SVG outputs carry the image's colours

*Status:* proved. *File:* `P_sanity.v`.

Integer code, no axioms. The PNG container encoding (image crate) is not modelled: the sample sequence handed to the encoder is. SVG: the rectangle list with position and fill.

Theorems (axioms): `C72_png` (-), `C72_svg` (-)

### C73 TwiddleFactorBuffer holds the twiddle factors

*Status:* proved. *File:* `P_util.v`.

REFUTED as stated: get(n/2) is 1 instead of -1 (C73_every_index_refuted) and n < 2 panics (C73_panics, any float type). Positive part over the reals: right inside the table (C73_inside), right up to the lost sign (-1)^(k/(n/2)) for even n (C73_sign_lost).

Theorems (axioms): `C73_inside` (R), `C73_sign_lost` (R), `C73_every_index_refuted` (R), `C73_panics` (-)

### C74 The task runner reports failures

*Status:* proved. *File:* `P_xtask.v`.

No axioms. Command outcomes are an arbitrary function; argument parsing (clap) is not modelled. C74_commands pins the command line each task starts; the web script's words are given by the specification `words`.

Theorems (axioms): `C74_exit` (-), `C74_analyze` (-), `C74_commands` (-), `C74_web_steps` (-)

### C75 Machine detection falls back in the documented order

*Status:* proved. *File:* `P_xtask.v`.

No axioms. Outputs of uname, lscpu, sysctl and the environment are arbitrary byte strings; white space, line breaks and letter case are the ASCII ones.

Theorems (axioms): `C75_arch` (-), `C75_flags` (-), `C75_detect` (-)

### C76 Allocation tracking reports the true peak

*Status:* proved. *File:* `P_bench.v`.

No axioms. Every interleaving, with relaxed loads of the peak returning any older value; in_range says the bytes in use fit in usize and no more is freed than was allocated. REFUTED once reset_alloc runs with live blocks (C76_reset_refuted: a later free wraps the counter). The default realloc and alloc_zeroed of GlobalAlloc go through alloc and dealloc and are not separate events.

Theorems (axioms): `C76_peak` (-), `C76_never_above` (-), `C76_reset_refuted` (-)

### C77 The benchmark report keeps, orders and ranks every record

*Status:* proved. *File:* `P_bench.v`.

Over the reals (times are compared as reals); C77_nan_panics holds for any float type. Two winners are possible: C77_one_best_refuted.

Theorems (axioms): `C77_report` (R+C), `C77_best_exists` (R+C), `C77_nan_panics` (-), `C77_one_best_refuted` (R+C)

### C78 The README table is spliced between its markers

*Status:* proved. *File:* `P_bench.v`.

No axioms. Reading and writing the file are outside the model. REFUTED as to repeated runs when the table contains the end marker or the markers are reversed (C78_marker_in_table_refuted, C78_reversed_refuted).

Theorems (axioms): `C78_splice` (-), `C78_no_markers` (-), `C78_again` (-), `C78_marker_in_table_refuted` (-), `C78_reversed_refuted` (-)

### C79 The page's canvas shows the spectrogram

*Status:* proved. *File:* `P_page.v`.

C79_canvas holds for any number type without axioms; C79_page and C79_db over the reals. app.mjs does not parse at this commit (merge residue); it is modelled with the residue removed. Reading the file and decoding the audio are the browser's.

Theorems (axioms): `C79_canvas` (-), `C79_page` (R+C), `C79_db` (R+C)

### C80 WebGL and canvas draw the same picture

*Status:* proved. *File:* `P_page.v`.

REFUTED as stated: for every size of more than one row the pictures differ (C80_same_picture_refuted), and levels differ even for one row (C80_same_brightness_refuted, C80_floor, C80_too_dark). Positive part: same palette (C80_palette). The sampling of the texture is modelled at pixel centres with nearest filtering; the texture format is assumed accepted by the driver.

Theorems (axioms): `C80_palette` (R+C), `C80_texel` (R+C), `C80_floor` (R+C), `C80_too_dark` (R+C), `C80_same_picture_refuted` (R+C), `C80_same_brightness_refuted` (R+C), `C80_preferred` (-)

### C81 The spectrogram example reads its arguments and draws every bin

*Status:* proved. *File:* `P_page.v`.

Arguments: any reading of numbers (parse_f32 is arbitrary), no axioms. Image over the reals. Reading the WAV container and writing the PNG are outside the model.

Theorems (axioms): `C81_arguments` (-), `C81_unambiguous` (-), `C81_image` (R+C), `C81_read_error` (-)

### C82 Integer arithmetic that fits a machine word is exact

*Status:* proved. *File:* `P_word.v`.

(C82_kaiser adds the one subtraction below zero: kaiser(0).) Any float type, any FFT provider, any word size, debug (overflow checks) and release (wrapping) builds. fft2d/fft3d for every planner reachable by calls.

Theorems (axioms): `C82_strided` (-), `C82_fft2d` (-), `C82_fft3d` (-), `C82_stft` (-), `C82_stft_exact_slots` (-), `C82_istft` (-), `C82_next_frame` (-), `C82_kaiser` (-)

### C83 Overflowing extents are reported, never silently wrong

*Status:* proved. *File:* `P_word.v`.

REFUTED as stated, on every word size: C83_strided_refuted and C83_fft2d_refuted (the check itself wraps, the call panics instead of reporting the mismatch), C83_stft_wraps/C83_stft_refuted and C83_istft_wraps_refuted (release builds transform the start of the signal again, or add a frame to the start of the output; debug builds panic). What holds: C83_strided_never_wrong (unbounded-integer result or panic, never another value), C83_fft2d_never_ok (never reports success).

Theorems (axioms): `C83_strided_never_wrong` (-), `C83_strided_refuted` (-), `C83_fft2d_never_ok` (-), `C83_fft2d_refuted` (-), `C83_stft_wraps` (-), `C83_stft_refuted` (R), `C83_istft_wraps_refuted` (R+C)

### C84 The chirp index square does not overflow

*Status:* proved. *File:* `P_word.v`.

REFUTED as stated: C84_refuted (2h-bit words, 2^h + 1 points: release builds are wrong by at least 1 on a unit impulse in exact arithmetic; 65537 points on wasm32). C84_fits: bit for bit the unbounded-integer transform whenever (n-1)^2 and the padded length fit a word. C84_checked: with overflow checks such a length panics when its tables are built, every shorter one gets the same tables.

Theorems (axioms): `C84_fits` (-), `C84_checked` (-), `C84_refuted` (R+C)

### C85 Rounding errors of the real transforms

*Status:* proved. *File:* `P_rerr.v`.

Standard model (`rounded`), no overflow or underflow; any provider of stated accuracy in C85_rfft_any_provider, the crate's transform elsewhere. The table is built by repeated multiplication (C85_table_error: the error grows with the index). C85_float_* instantiate with prec-bit round-to-nearest-even arithmetic and correctly rounded sin/cos. Literal 1/2 is a hypothesis of the generic theorems and proved of binary floats.

Theorems (axioms): `C85_rfft_any_provider` (R), `C85_rfft_error` (R), `C85_rfft_other_error` (R), `C85_irfft_error` (R), `C85_roundtrip_error` (R), `C85_table_error` (R), `C85_float_rfft_error` (R+C), `C85_float_roundtrip_error` (R+C)

### C86 Rounding errors of the short-time transform and its inverse

*Status:* proved. *File:* `P_serr.v`.

Standard model, no overflow or underflow, exact comparison with the threshold. Any FFT provider of stated accuracy (`accurate`: error factor and gain) in C86_stft_error and C86_roundtrip_error; the crate's object after any calls no larger than the window in C86_scalar_pow2 and C86_scalar_other; prec-bit round to nearest in C86_float_roundtrip_error. The output buffer starts at zero (C35).

Theorems (axioms): `C86_stft_error` (R), `C86_roundtrip_error` (R), `C86_scalar_pow2` (R), `C86_scalar_other` (R), `C86_float_roundtrip_error` (R+C)

### C87 Rounding errors of the multi-dimensional transforms

*Status:* proved. *File:* `P_nderr.v`.

Standard model, fresh object, the shapes of C42 (`right_after`; the other shapes are wrong already in exact arithmetic).

Theorems (axioms): `C87_fft2d_error` (R), `C87_fft3d_error` (R), `C87_float_fft2d_error` (R+C)

### C88 Rounding errors of the cosine, sine and Hartley transforms

*Status:* proved. *File:* `P_terr.v`.

`flx prec`: every operation correctly rounded to prec bits, unbounded exponent, cos and sin correctly rounded, integer conversions rounded once. The exact sums are the ones of C44, C45, C47, C48 and C50. The stack, batch and multi-channel variants compute the same values (C49).

Theorems (axioms): `C88_dct_error` (R+C), `C88_dst_error` (R+C), `C88_dht_error` (R+C), `C88_roundtrip_error` (R+C)

### C89 The FFT in IEEE arithmetic, overflow and underflow included

*Status:* proved. *File:* `P_ierr.v`.

`ieee o`: Flocq's binary_float for binary32 and binary64, round to nearest even, with all special values; sin, cos and the printing of the precomputed tables come from an oracle `o` assumed accurate to 2 units of 2^-prec where the theorem says so (`accurate_trig`, `accurate_tables`; C89_library and C89_tables show that correctly rounded ones are). REFUTED without headroom: C89_bluestein_overflow_refuted, C89_ifft_overflow_refuted. NaN payloads are not modelled.

Theorems (axioms): `C89_ieee_fft` (R+C), `C89_ieee_ifft` (R+C), `C89_ieee_roundtrip` (R+C), `C89_ieee_small` (R+C), `C89_ieee_bluestein` (R+C), `C89_bluestein_overflow_refuted` (R+C), `C89_ifft_overflow_refuted` (R+C)

### C90 The windows in f32 arithmetic

*Status:* proved. *File:* `P_iwin.v`.

`ieee o`, `ieeex x` at binary32: Flocq's numbers with all special values. The cosine is the oracle o_cos (ln, log10 and powf are not used by the windows); `cos_bounded` and `cos_accurate` are hypotheses where stated, C90_library shows a correctly rounded cosine meets both. REFUTED as a claim about all parameters: C90_single_refuted (one sample), C90_kaiser_overflow_refuted (beta = 21), C90_blackman_refuted (negative first sample). The accuracy of Bohman and Tukey and of Kaiser against the Bessel function is not bounded; C57 and C64 have the exact formulas.

Theorems (axioms): `C90_range` (R+C), `C90_formula` (R+C), `C90_kaiser` (R+C), `C90_bartlett` (R+C), `C90_single_refuted` (R+C), `C90_kaiser_overflow_refuted` (R+C), `C90_blackman_refuted` (R+C)

### C91 Bit-for-bit equalities in IEEE arithmetic

*Status:* proved. *File:* `P_ieq.v`.

`ieee o` at both formats; NaN payloads and signs are not modelled (one NaN). The laws needed by C12, C20 and C31 are proved of Flocq's operations (ieee_sign_laws, mul_one, fas_f32, fas_small). REFUTED with the fma feature: C91_fma_refuted; REFUTED beyond 2^24 samples in binary64: C91_f64_scale_refuted (the scale factors; no whole transform of that length is computed).

Theorems (axioms): `C91_rfft_kernels` (R+C), `C91_parallel_ifft` (R+C), `C91_ifft_split` (R+C), `C91_f64_scale_refuted` (R+C), `C91_fma_refuted` (R+C)

### C92 The static server and the service worker

*Status:* proved. *File:* `P_sw.v`.

axum, tower-http's ServeDir/ServeFile and the browser's Cache/fetch are modelled from their documentation (M_sw.v), not from their code: methods other than GET, ranges, conditional requests, percent-encoding and content types are left out. REFUTED: C92_offline_refuted, C92_update_refuted, C92_missing_file_refuted. No page registers the worker, so none of this is reached by a visitor unless it is registered by other means.

Theorems (axioms): `C92_server` (-), `C92_installed_copy` (-), `C92_failed_install` (-), `C92_before_install` (-), `C92_rest_from_network` (-), `C92_offline_refuted` (-), `C92_update_refuted` (-), `C92_missing_file_refuted` (-)

### C93 The spectrogram's pixels, decibels and colours in f32 arithmetic

*Status:* proved. *File:* `P_ispec.v`.

`ieee o`, `ieeex x` at binary32. ln and log10 are oracles: `ln_ok` (monotone on [1, 2^23], 0 at 1, at least 1/2 from 2 on), `ln_rounded x 16`, `log_ok` (no NaN from 10^-10 on), log10(1) = +0 where stated; C93_library shows that correctly rounded ones meet all. REFUTED: C93_last_pixel_refuted, C93_zero_range_refuted, C93_zero_floor_refuted. The colours of the colorous crate are an oracle.

Theorems (axioms): `C93_pixels` (R+C), `C93_last_pixel_refuted` (R+C), `C93_db` (R+C), `C93_db_scale` (R+C), `C93_zero_range_refuted` (R+C), `C93_gradients` (R+C), `C93_gray_monotone` (R+C), `C93_extremes` (R+C), `C93_from_magnitude` (R+C), `C93_zero_floor_refuted` (R+C)

### C94 Parallel settings from the environment

*Status:* proved. *File:* `P_tune.v`.

M_tune.v models the OnceLocks, the parsing and the W-bit product; num_cpus and the elapsed nanoseconds are oracles, one thread at a time. C94_agrees ties it to the decision in M_fft.v used by C20 and C21. REFUTED: C94_default_refuted (README's default), C94_overflow_refuted. Whichever branch is chosen gives the same bits (C20, C91).

Theorems (axioms): `C94_parse` (-), `C94_first_use_decides` (-), `C94_value` (-), `C94_default` (-), `C94_default_refuted` (-), `C94_default_slow` (-), `C94_overflow_refuted` (-), `C94_zero_threads` (-), `C94_agrees` (-)

### C95 Real FFT in IEEE arithmetic

*Status:* proved. *File:* `P_irerr.v`.

`ieee o` as in C89: sin and cos within 2 units (accurate_trig), tables only with the precomputed ones (accurate_tables). Lengths are powers of two from 64 on; the bounds are relative to the sum of the absolute values, so the round trip's is weak for long flat signals. REFUTED: C95_early_overflow_refuted (finite whenever the spectrum is representable).

Theorems (axioms): `C95_ieee_rfft` (R+C), `C95_ieee_irfft` (R+C), `C95_ieee_roundtrip` (R+C), `C95_early_overflow_refuted` (R+C)

### C96 Parallel settings used by many threads

*Status:* proved. *File:* `P_conc.v`.

M_conc.v: programs of single accesses (loads of the atomics, environment reads, OnceLock operations, clock and num_cpus answering anything), interleaved in any order. OnceLock follows std's documentation (one initialiser at a time, others wait, a panic empties it). Relaxed atomics are treated as sequentially consistent, which matters only while setters run. C96_sequential ties the programs to M_tune.decide (C94). REFUTED: C96_settings_refuted (settings are read one by one).

Theorems (axioms): `C96_once` (-), `C96_agreement` (-), `C96_progress` (-), `C96_bounded` (-), `C96_sequential` (-), `C96_settings_refuted` (-)

### C97 The Haar wavelet in IEEE arithmetic

*Status:* proved. *File:* `P_haar.v`.

P_haar.v on the Flocq instance of L_ieee.v. One invariant lemma (multi_frame) carries both proofs through the loops of M_wave.v: exact steps for samples on a grid, signs of zeros included, and an error recursion otherwise. The one-level and stack versions are the same functions (C39). REFUTED for arbitrary samples: C97_any_signal_refuted, C97_overflow_refuted.

Theorems (axioms): `C97_lossless` (R+C), `C97_pcm` (R+C), `C97_error` (R+C), `C97_any_signal_refuted` (R+C), `C97_overflow_refuted` (R+C)

### C98 Values that are not numbers are never hidden

*Status:* proved. *File:* `P_bad.v`.

L_bad.v, P_bad.v. The specification is the record absorbing (six closure conditions on a predicate) and tainted; absorbing_nonfinite and absorbing_nan show IEEE infinities/NaN and NaN alone qualify. The Stockham stages are followed by a residue argument (after s stages every position congruent to the sample modulo n/2^s is tainted), the unrolled kernels by search, Bluestein through its three transforms. REFUTED that finite samples give finite bins on a used object: C98_clean_data_refuted, with the general form C98_poisons_object and C98_stft_spreads (the stale split buffers of C03).

Theorems (axioms): `C98_fft` (-), `C98_ifft` (-), `C98_rfft` (-), `C98_irfft` (-), `C98_stft` (-), `C98_stft_local` (-), `C98_poisons_object` (-), `C98_stft_spreads` (-), `C98_ieee` (R+C), `C98_clean_data_refuted` (R+C)

### C99 The one-shot transforms

*Status:* proved. *File:* `P_par.v`.

M_par.v, P_par.v. C99_contract gives the errors, C99_exact the values, C99_parallel_feature the equality of the two feature sets (rayon is only reached through FftPlan, C21), C99_butterfly8 the dead code.

Theorems (axioms): `C99_parallel_feature` (-), `C99_exact` (R), `C99_contract` (-), `C99_butterfly8` (-), `C99_butterfly8_exact` (R)

### C100 Short-time Fourier transform in IEEE arithmetic

*Status:* proved. *File:* `P_istft.v`.

P_istft.v on the Flocq instance of L_ieee.v: the closed form of the frames (as in C98) and C89 per frame, plus the rounding of the windowing products. As in C89 accurate_trig (within 2 units) and accurate_tables are hypotheses; C89_library shows a library meeting them. The round trip is C106.

Theorems (axioms): `C100_ieee_stft` (R+C), `C100_ieee_small` (R+C), `C100_unit_range` (R+C)

### C101 Values that are not numbers in the other transforms

*Status:* proved. *File:* `P_bad2.v`.

P_bad2.v, specification `absorbing` and `tainted` as in C98. The multi-dimensional transforms are followed line by line: a line containing the value is full of it afterwards, other lines are untouched. C101_ieee: infinities/NaN and NaN alone qualify for f32 and f64, square root included. REFUTED for odd lengths of the Haar transform: C101_haar_odd_refuted.

Theorems (axioms): `C101_fft2d` (-), `C101_fft3d` (-), `C101_sums` (-), `C101_czt` (-), `C101_goertzel` (-), `C101_hilbert` (-), `C101_dct2_planner` (-), `C101_haar` (-), `C101_haar_odd_refuted` (R+C), `C101_ieee` (R+C)

### C102 Two- and three-dimensional transforms in IEEE arithmetic

*Status:* proved. *File:* `P_ind.v`.

P_ind.v on the Flocq instance of L_ieee.v: the closed form of each pass of lines (as in C42 and C87), C89 per line, and the previous pass's error carried through the next by the triangle inequality. The order of the sides is the one in which the shared planner's twiddles stay right (C43); accurate_trig and accurate_tables are hypotheses as in C89.

Theorems (axioms): `C102_ieee_fft2d` (R+C), `C102_ieee_fft3d` (R+C), `C102_unit_range` (R+C)

### C103 Root-mean-square rounding error of the FFT

*Status:* proved. *File:* `P_l2.v`.

L_l2.v bounds the errors of one pass of butterflies together (parallelogram law and the triangle inequality in Euclidean norm), so that no sum of moduli enters; P_l2.v has the theorems. Standard model (`rounded`), no overflow or underflow; C103_float_* instantiate it with prec-bit round to nearest as in C65. Lengths up to 16 (straight-line kernels) and Bluestein lengths have the componentwise bounds of C65 only.

Theorems (axioms): `C103_fft` (R), `C103_length` (R), `C103_ifft` (R), `C103_roundtrip` (R), `C103_float_fft` (R+C), `C103_float_roundtrip` (R+C)

### C104 The Goertzel detector under rounding: an error bound, and NaN for a finite signal

*Status:* proved. *File:* `P_goer.v`.

P_goer.v. The computed recurrence is the exact one run on perturbed samples; the perturbations are summed through the complex state s1 - e^(-iw) s2, which grows by one sample per step (fold_err), and C51's identity turns the states into the DFT bin of the perturbed signal. REFUTED as a guarantee of a number, or of a small relative error, in IEEE f32: C104_nan_refuted, C104_error_refuted (computed in Flocq's binary32; the only hypothesis on the library is cos 0 = 1). C104_float takes sqrt to be the real one; the coefficient is within 68 units for bins below n (flx_coeff).

Theorems (axioms): `C104_goertzel` (R+C), `C104_magnitude` (R+C), `C104_float` (R+C), `C104_nan_refuted` (R+C), `C104_error_refuted` (R+C)

### C105 Rounding errors of the chirp-z transform and of the analytic signal

*Status:* proved. *File:* `P_derr.v`.

P_derr.v. Chirp-z: the calculus `near` of L_err.v through the three nested loops (czt_wk, czt_bin), the reciprocal of a by hand (ainv_near). Analytic signal: the Euclidean bounds of C103 for both transforms, the mask being off by at most u at the doubled bins; `analytic` is stated by the spectrum, as in C53. Standard model, no overflow or underflow; the comparison with zero in czt is exact equality.

Theorems (axioms): `C105_czt` (R), `C105_float_czt` (R+C), `C105_hilbert` (R), `C105_float_hilbert` (R+C)

### C106 Analysis followed by synthesis in IEEE arithmetic

*Status:* proved. *File:* `P_iistft.v`.

P_iistft.v: the frames there and back by C89_ieee_roundtrip, the overlap-add loop by induction over the frames covering a sample (ola_I), then the division. sin and cos are the library's, accurate to two units (accurate_trig); ln, log10, powf are not used. C106_stream gives the same bound for StftStream::next_frame followed by IstftStream::push_frame and flush, through the bit-exact C33 and C36.

Theorems (axioms): `C106_roundtrip` (R+C), `C106_stream` (R+C)

### C107 The cosine, sine and Hartley transforms in IEEE arithmetic

*Status:* proved. *File:* `P_iterr.v`.

P_iterr.v: the ordered sum by induction with a relative and an absolute part (enum_I), the angle by rk_mul/rk_div, sin and cos of the library accurate to two units (accurate_sin_cos; C107_library shows one). The stack and batch variants run the same loop bodies on the same data (M_trig.v), see C49. C107_roundtrip composes each bound with the exact inverse identity of the transform pair (lemma back); C107_ones_back is 1000 ones in f64.

Theorems (axioms): `C107_dct` (R+C), `C107_dst` (R+C), `C107_dht` (R+C), `C107_roundtrip` (R+C)

### C108 The real cepstrum in f32 arithmetic

*Status:* proved. *File:* `P_icep.v`.

P_icep.v: the FFT and its inverse by C89_ieee_fft and C89_ieee_ifft, the magnitude by sqrt_band (squares may underflow, they cannot overflow below 2^62), the logarithm by ln_lip. The literal 1e-12 is the quotient of 1 and f32(10^12), which is the number Rust reads (9223372 * 2^-63). Lengths under 32 are not covered by the bound. REFUTED as stated without the bound on the signal: C108_overflow_refuted.

Theorems (axioms): `C108_finite` (R+C), `C108_error` (R+C), `C108_overflow_refuted` (R+C)

### C109 Mel energies and mel-frequency cepstral coefficients in f32 arithmetic

*Status:* proved. *File:* `P_imel.v`.

P_imel.v: the bin edges are arbitrary usize values (usize_small); each weight is a number between 0 and 1 after rounding (weight_I), and the accumulator is bounded by the prefix sum of the magnitudes along both loops (step_I, up_I, down_I). The coefficients by the logarithm's bound and C107_dct; batches by induction over the frames.

Theorems (axioms): `C109_energies` (R+C), `C109_mfcc` (R+C), `C109_batch` (R+C)
