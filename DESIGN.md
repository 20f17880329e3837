# Formal model of tfhe-go in Rocq (Coq 8.16.1)

The Go sources in /repo were read as text. The model lives in `rocq/theories` (logical name `Verif`).

## Layout

| kind | files | content |
|---|---|---|
| foundations | `Base*.v` | sums, loops, list update, modular equality, words |
| ring theory | `NegaRing.v` | the ring Z[X]/(X^N+1) as antiperiodic functions Z -> Z, equality mod Q, used as *specification* |
| model | `Model*.v` | executable total Gallina, function by function, each citing file:lines; no proofs |
| specification | `Spec*.v` | small independent specs (rounding, phase, noise, codecs, transition systems) |
| proofs | `Pf*.v` | lemmas |
| properties | `Prop*.v` | property theorems closed by `exact lemma`, with `Print Assumptions`, and `Example`s meeting the hypotheses |

## Modelling decisions

* **Words.** The torus type T is uint32 or uint64; a value is a `Z` in [0,2^w). Every Go `+ - * <<` on T is followed by an explicit `mod 2^w`.
  Go `int` is 64-bit; where overflow is possible it is written explicitly, otherwise `Z` with a side condition in the theorem.
* **Slices** are lists. Loops that write through an index are folds of `upd` (so overwriting, order and aliasing are visible);
  output parameters (`xxxTo(out, in...)`) become functions taking the previous content of `out` whenever it matters (accumulating variants, partially overwritten outputs).
* **Panics** are `None` / an explicit `Panic` constructor where the property is about them; index-out-of-range is a panic.
* **float64** used by `DivRound`, `ModSwitch`: an axiom-free integer model of IEEE-754 binary64 round-to-nearest-even on rationals (`ModelFloat.v`).
* **FFT.** Two levels. (a) `ModelFFT.v`: the butterfly networks, over an arbitrary commutative ring with a root of unity (exact arithmetic instead of complex128).
  (b) In the scheme model a transform-domain polynomial is represented by the exact integer polynomial it stands for; FwdFFT is the signed lift
  `float64(int64(x))` without rounding and InvFFT reduces mod Q. The rounding error of complex128 arithmetic is bounded separately: `ModelF64Arith.v` instantiates (a) with binary64
  (`SpecFloat`, one rounding per operation) and `ModelSplitFFT.v` has the split multiplications on transforms (C66). Compilers that fuse
  multiply and add round differently; they are outside C66. The AVX2 and FMA code is `ModelFused.v` (butterflies and pair products as the kernels execute
  them) and `ModelFusedMul.v` (transforms and conversions on lists); its rounding is C67.
* **Randomness** (masks, noises, keys, key streams) are universally quantified inputs (oracles); the BLAKE2 XOF is not modelled; the scheme theorems take Gaussian samples as arbitrary integers, the sampler itself is C74.
* **Concurrency**: small-step transition systems over a nondeterministic scheduler; SafeCopy: footprints over a heap.
* **Marshalling**: byte lists, writers that may fail after any number of bytes, readers over a finite stream; floats in codecs are their 64-bit patterns.
* **Assembly** (`*_amd64.s`): `ModelAsm.v` is a machine model of the x86-64/AVX2 subset used (registers, flags of CMPQ, block memory with faults, lanes);
  the kernels are transcribed instruction by instruction (`ModelAsmInt.v`, `ModelAsmFlt.v`; float lanes hold elements of an abstract ring; `ModelAsmFold.v`: float lanes are binary64 numbers,
  `ModelF64.v`, on the operations of the standard library's `SpecFloat`; VROUNDPD, VCVTPD2DQ, math.Round and int64() are defined there). The meaning given to each instruction is trusted. The scheme models use the pure Go versions.

## Per-property plan

| id | model | proof |
|---|---|---|
| C01 | `DivRoundBits` on words | div/mod arithmetic |
| C02 | `IsPowerOfTwo`, `Log2` on words | bit lemmas (`Z.land x (x-1)`) |
| C03 | digit-by-digit `Sqrt` loop | loop invariant |
| C04 | `ModInverse`, `ModExp` | Bezout / square-and-multiply invariants; unsigned version refuted |
| C05 | float64 model | error analysis of one rounded division; refutation beyond 2^53 |
| C06 | unrolled loops as loops of 8 writes + tail | loop rule, aliasing as same array |
| C07 | rotate/reverse/bit-reverse loops | index permutations |
| C08 | float4 packing | index arithmetic |
| C09, C10 | monomial / permute loops | equality with ring operation in `NegaRing` |
| C11 | split multiplication | digit expansion modulo 2^w |
| C12, C13 | butterfly networks over a ring | induction on log size |
| C14, C15 | decomposer | arithmetic, induction on level |
| C16-C18 | samplers as state machines over key stream | invariants, counting |
| C19 | CDT binary search | invariants; refuted at r = MaxUint64 |
| C20 | encoder with float division | rounding lemma |
| C21-C23 | LWE/GLWE encryption | phase algebra |
| C24 | heap model of key views | aliasing invariants |
| C25-C29 | extraction, key switch, products, CMux | phase identities with exact error term and bound |
| C30, C31 | mod switch, LUT generation | rounding and box arithmetic |
| C32, C33 | blind rotation | induction over mask; extended version refuted by witness |
| C34, C35 | bootstrap and gates | composition |
| C36 | bits | induction |
| C37-C40 | codecs | reader/writer lemmas, composition |
| C41-C43, C58 | parameters | case analysis, computation |
| C44, C45, C50 | transition systems | invariants, commuting steps |
| C46 | public encryption | phase algebra; dirty-output refutation |
| C47-C52 | multi-key | as single-key, per-party induction; refutations |
| C53-C57 | extensions | as above |
| C59, C60 | slice extrema; uni-encryption | loop invariant; phase algebra, refutation |
| C61-C64 | `ModelAsm*` | loop invariants on the machine model (terminates, memory window, value of each lane) |
| C65 | `ModelAsmFold`, `ModelF64` | as C61, with exactness lemmas for binary64 (scaling by 2^k, subtraction of the rounded part) |
| C66 | `ModelF64Arith`, `ModelSplitFFT` | standard model of floating point from `SpecFloat` (relative error 2^-53 of each operation); run the same network on binary64 and on reals, induction over the stages with the l2 norm: each stage multiplies the relative error bound by 1 + 28*2^-53; Cauchy-Schwarz for products; the split sizes of the code keep the total below 3/8, so rounding finds the integer |
| C67 | `ModelFused`, `ModelFusedMul` | the kernel proofs of C63 and C64 without any law of arithmetic (the result is named operation by operation); fused operations of `SpecFloat` round once; the error analysis of C66 is over an abstract transform (`kernOK`), instantiated by the portable loops and by the kernels |
| C68 | `ModelProdFFT` | `kernNear`: a kernel whose inverse transform returns integers within the error and 1/2 of the exact coefficients (no bound on the values: the reduction modulo 2^w is proved near for every valid binary64 number); relation between float accumulators and integer polynomials kept through the product loops |
| C69 | `ModelBlindFFT` | the monomial table's transform of X^a - 1 is near the exact one; a block of the loop is one float sum of (key x digit x monomial) terms, near the block of C32 by `kernNear`; C32's invariant with the extra D (1 + k N) per block |
| C71 | `ModelBootFFT`, `ModelBootExtFFT` | C34's position arithmetic, extraction and key switch over any blind rotation with the property of C32 (`any_boot`) or of C33 (`any_bootE`), instantiated with C69 and C72 |
| C72 | `ModelExtFFT` | as C69 for the E accumulators of the extended loop: a bit adds two terms (product with X^a or X^a - 1, subtraction of the unrotated one), so a block is a sum of 2 bs terms; per-component closeness is woven into the polynomial of E N coefficients and C33's invariant carries over |
| C73 | `ModelFFTOps` | a transformed ciphertext has phase ph if its components are transforms of polynomials whose phase is ph (`fct_phase`); pointwise laws of C12 per component, the phase is linear and commutes with substitution; a + bi is the value of a + b X^(N/2) at every point z^(1-4r); loops by invariants |
| C74 | `ModelGauss` | binary32 steps computed exactly on integers; SpecFloat signs commute with multiplication and rounding, induction on the rounds; standard-model error bounds of C66 for the range; tables by exact integer comparison of all 128 entries |
| C75 | `ModelFFTLev` | conversion loops are pointwise maps; a word survives swrap then wrap; decryption of transforms reduces to C23 and C60 on the inverse transforms; two-loop induction (`updLoop2`) for encryption followed by transforming |
| C76 | `ModelCDT` | a rounded sum of nonnegative floats is at least its first summand (truncated mantissa of SpecFloat's rounding, two cases on the exponent); multiplication by 2^64 is exact; induction on the loop |
| C70 | `ModelObj` | heap of arrays; `holds` relates an object to its value and the arrays it occupies; frame lemma; induction on the nesting of the type, inner induction on the loops |

## Trusted base

1. **Kernel.** The Coq 8.16.1 kernel, including `vm_compute` (examples, refutation witnesses, parameter sets) and `coqchk`.
2. **Axioms.** No axiom is declared in this development. `Print Assumptions` stands under every property theorem and reports
   *Closed under the global context* for all of them except those that speak about real numbers. Those list the standard library's
   `ClassicalDedekindReals.sig_forall_dec` and `FunctionalExtensionality.functional_extensionality_dep` (`C66_binary64`, `C67_binary64`,
   `C67_InvFFTTo`, `C67_InvFFTAddTo`, `C67_InvFFTSubTo`, the theorems of C74 that mention real numbers, and those of C76 except `C76_entry`, `C76_returns` and the two refutations), and also `ClassicalDedekindReals.sig_not_dec` (`C12_real_instance`, `C12_real_product`,
   `C66_MulPolyTo`, `C66_MulAddPolyTo`, `C66_MulSubPolyTo`, `C66_ShortMul`, `C66_roundtrip`, `C66_sum_error`, `C67_MulPolyTo`,
   `C67_MulAddPolyTo`, `C67_MulSubPolyTo`, `C67_ShortMul`, `C67_roundtrip` and the theorems of C68, C69, C71 and C72). (A listing of the whole environment also shows the constants of the standard
   library's real numbers and of `ssr.ssrunder`, which these load; no theorem here uses them otherwise.)
3. **Faithfulness of the model.** The Gallina functions were written by reading the Go text; nothing checks them against a Go compiler.
   Each cites the file and lines it follows, and the seeded-bug log (`seeded/LOG.jsonl`) records which theorems notice edits.
4. **Exact transforms.** At the scheme level an FFT-domain polynomial is the integer polynomial it stands for. `C12_refines_integer_model`
   proves that the butterfly networks compute the same function in exact arithmetic. The complex128 rounding error is the subject of C66: for the
   Go code with one rounding per operation and N <= 2^15, split multiplication is exact modulo 2^w, and a sum of products on transforms
   deviates per coefficient by at most the bound of `C66_sum_error`. C68 carries this to the gadget and external products of tfhe/product.go, on the portable and
   on the AVX2 path: every coefficient is within `prodErr` of the exact product, and the phase bound of C28 grows accordingly. C69 does the same for the blind
   rotation loops (bootstrap.go:270-357), C72 for the extended one (bootstrap.go:66-266); its worst-case bound is informative for small parameters only: for ParamsBinary one block is within 62640 of 2^32, but the 229 blocks
   together, each amplified by 1 + k N in the phase, exceed 2^32. C71 composes it with extraction and key switching into bootstrapping, with C72 for tables larger than the ring. The other scheme theorems
   are about exact transforms; there the bound of C68 or C69 has to be added once per product. C69 assumes the exponential near on |a| <= 2^k (`cexp_near_full`: the monomial table goes
   once around the circle) and that the in-place inverse transform leaves binary64 numbers in its argument (`left`). C68 also assumes that `cmplx.Exp` returns binary64 numbers (`cexp_valid`), as any Go float64 is.
   `cmplx.Exp` is an oracle there: the theorems assume that it is within 5*2^-52 of the exact exponential for arguments up to pi
   (`cexp_near`; math/cmplx is not modelled). The AVX2 kernels use fused operations and are the subject of C67. `C67_FwdFFTTo`, `C67_InvFFTTo`, `C67_InvFFTAddTo` and `C67_InvFFTSubTo` run the kernels
   one after the other on the memory, as fft.go calls them (`SpecAvx.v`). Not covered: a CPU with AVX2 but without FMA (portable transforms, AVX2 conversions).
5. **Oracles.** Uniform words `U i`, Gaussian samples `G i` and XOF bytes are arbitrary functions (variables of the theorems), so every
   statement holds for every stream; nothing is claimed about distributions, and C16-C19 only about which values can come out.
6. **Go semantics.** 64-bit `int`; two's complement conversions; `int64(f)` for `f = 2^63` saturating as on amd64
   (implementation-defined elsewhere); slices passed to one call do not overlap unless a theorem says so; sequential consistency for
   data-race-free programs (the interleaving theorems prove race freedom on the model and use it).
7. **I/O.** `io.Writer` either accepts all bytes or returns an error after some prefix; `io.Reader` (through `io.ReadFull`) delivers a prefix of
   a fixed stream.

## What is modelled

| package | modelled (file of the model) | not modelled |
|---|---|---|
| math/num | all of `num.go` (`ModelNum`), float rounding in `DivRound` (`ModelFloat`) | `Sqrt` on floats, generic constraints |
| math/vec | arithmetic, rotate, reverse, bit reverse, copies and casts, Go versions of the unrolled loops (`ModelVec`), AVX2 kernels (`ModelAsmInt`) | `CastTo` for float targets |
| math/poly | `Evaluator` add/sub/mul/monomial/permute in both domains, split and binary multiplications (`ModelPoly`), butterfly networks, twiddle order, monomial and permutation transforms (`ModelFFT`), AVX2 kernels on Fourier coefficients and AVX2 transforms (`ModelAsmFlt`), AVX2 conversions between words and float64 (`ModelAsmFold`), binary64 rounding of the Go transforms (`ModelF64Arith`, `ModelSplitFFT`) | `cmplx.Exp`; rounding of the fused operations in the AVX2 transforms |
| math/csprng | buffer handling of the uniform, binary, block-binary and Gaussian/CDT samplers (`ModelSampler`); the ziggurat `GaussianSampler` on binary64 (`ModelGauss`) | BLAKE2 XOF, `math/rand` seeding, `math.Log` and `math.Exp` (parameters) |
| tfhe | encoder, decomposer, LWE/GLWE/GGSW encryption and decryption, also of transformed ciphertexts, and conversions (`ModelFFTLev`), key generation, products, CMux, key switching, extraction, modulus switch, LUT generation, the three blind rotations, bootstrapping, binary gates and bit operations, public keys, parameters, marshalling of every type, `SafeCopy`, `Copy`/`CopyFrom`/`Clear` (`ModelObj`, `ModelKey`), parallel key generation | `PublicEncryptor` beyond the types in C46 |
| mktfhe | CRS, single-key key generation, hybrid product, relinearised accumulation, key switching, blind rotation, bootstrapping (also parallel), gates, encryptor/decryptor, parameters, `SafeCopy`, marshalling (`ModelCodec`, same code as tfhe) | - |
| xtfhe | ManyLUT (`ModelManyLUT`), parameter sets (`ModelXParams`), BFV key generation, multiplication, automorphisms and packing (`ModelBFV`; the transform of the tensor is exact and its quotient by the scale correctly rounded), circuit bootstrapping and its keys (`ModelCB`), FHEW keys, blind rotation and bootstrapping (`ModelFHEW`), re-randomisation and sanitisation (`ModelSanit`: the cumulative table of `NewCDTSampler` is a parameter there; its construction on binary64 is `ModelCDT`, with `math.Exp` a parameter that is zero or positive on everything but NaN; tables that are not multiples of Q / 2 messageModulus, such as those of `GenLUTFull`, fall outside C57), `SafeCopy`; further packages as listed in the property plan | sampler internals of sanitisation |

Simplifications that are not repeated at each definition: buffers of an evaluator are arguments holding arbitrary old content; the
compiled parameter object is unfolded into the numbers a function uses; generic code is modelled once with the word size `w` as a parameter.

## Findings

Each is a theorem with a concrete witness; the guarded positive theorem next to it says when the code is right.

| theorem | what goes wrong |
|---|---|
| `C04_ModInverse_unsigned_refuted` | `ModInverse` on unsigned types can be wrong for moduli not dividing 2^w |
| `C04_ModExp_m1_refuted`, `C04_ModExp_overflow_refuted` | modulus 1 with exponent 0 gives 1; large moduli overflow silently |
| `C05_DivRound_refuted` | `DivRound` goes through float64 and is off for operands beyond 2^53 |
| `C06_empty_refuted` | vector kernels panic on empty vectors |
| `C06_forward_overlap_refuted` | an output starting inside an input is not computed pointwise |
| `C07_BitReverse_diverges_refuted` | `BitReverseInPlace` loops for ever on a length that is not a power of two |
| `C19_range_refuted`, `C19_center_refuted` | Gaussian table sampler: the largest word leaves the table; a nonzero centre is counted twice |
| `C76_center_refuted`, `C76_zero_refuted` | `NewCDTSampler` on binary64: the double-counted centre again (centre 100, deviation 1: every sample is above the tail interval); deviation 0 makes the sum NaN, whose conversion to uint64 Go does not define |
| `C20_half_step_refuted`, `C20_negative_refuted` | on 64 bits the full half step does not decode; negative messages with a modulus not dividing Q |
| `C29_alias_c1_refuted` | CMux with the output aliasing c1 returns c0 when 1 is selected |
| `C30_half_step_refuted` | modulus switch through float64 is not the exact rounding on 64 bits |
| `C33_initial_rotation_refuted`, `C33_single_block_refuted` | extended blind rotation: initial rotation misplaces coefficients for indices not divisible by the extension factor; with one block, block 0 is processed twice |
| `C36_64_bits_refuted` | 64-bit splitting of a negative integer does not give x mod 2^64 |
| `C38_FFT_header_refuted`, `C39_FFT_header_refuted`, `C39_LWESecretKey_refuted` | wrong byte counts returned by header error paths and by `LWESecretKey.ReadFrom` |
| `C38_empty_KSK_refuted`, `C38_empty_KSK_panics_refuted` | `ByteSize`/`WriteTo` of an empty key-switching key panic |
| `C41_NaN_refuted`, `C41_overflow_refuted`, `C41_small_rank_refuted`, `C41_zero_modulus_refuted` | `Compile` accepts NaN deviations, an overflowing GLWERank*PolyRank, ranks below 16, modulus 0 |
| `C41_ManyLUT_count_refuted` | `ManyLUTParametersLiteral.Compile` accepts more tables than there are coefficients |
| `C42_malformed_panics_refuted`, `C42_truncated_base_refuted` | malformed parameter bytes panic, or are truncated and accepted |
| `C43_Compile_refuted` | gadgets with Base^Level above Q are accepted |
| `C44_Decryptor_refuted` | `mktfhe.Decryptor.SafeCopy` shares its scratch buffers with the original: concurrent use corrupts results |
| `C46_reused_LWE_output_refuted`, `C46_reused_GLWE_output_refuted`, `C46_second_FFT_refuted`, `C46_MK_second_refuted` | public encryption adds to the old mask of its output or buffer: reuse does not decrypt |
| `C47_index_refuted` | multi-key constructors accept party index = party count; the first encryption then slices out of range |
| `C49_Sub_refuted` | `ExternalProdSubGLWETo` subtracts the hybrid product but adds the bodies |
| `C51_XOR_refuted` | multi-key XOR/XNOR use offset Q/8 instead of Q/4 |
| `C53_modulus_refuted`, `C53_lut_count_refuted`, `C53_half_box_refuted` | ManyLUT tables: index panic, or functions in the wrong places, when 2 * modulus * LUTCount does not divide the rank |
| `C60_poly_refuted` | `UniDecryptPolyTo` returns the base, not 0, for a zero coefficient with negative noise |
| `C75_uni_poly_refuted` | `FFTUniDecryptPolyTo` has the same fault as `UniDecryptPolyTo` |
| `C61_forward_overlap_refuted` | the AVX2 kernels read overwritten elements when an input starts before the output in the same allocation |
| `C62_level_refuted` | the AVX2 decomposition uses `len(dcmpOut)` as the level, the Go version `gadgetParams.level`: a longer `dcmpOut` gives different digits and is overwritten (`tfhe/asm_decompose_amd64.go:20-34`) |
| `C63_forward_overlap_refuted` | the AVX2 kernels on Fourier coefficients read overwritten elements when an input starts before the output in the same allocation |
| `C65_Go_tie_refuted` | at a value halfway between two integers the AVX2 conversion to the torus rounds to even, the Go version away from zero: 0.5 becomes 0 or 1 depending on the CPU (`math/poly/asm_fold_amd64.s:97-118`, `asm_fold.go:148`) |
| `C62_short_refuted` | the AVX2 decomposition reads and writes past the end of polynomials whose rank is not a multiple of 8 (uint32) or 4 (uint64) |
| `C70_UniEncryption_refuted` | `CopyFrom` of `UniEncryption` and `FFTUniEncryption` copies the ciphertexts but not `GadgetParams`: from a source with another base, later hybrid products and decryptions use the wrong base |
| `C74_finite_refuted` | `normFloat` can return ±Inf: if both uniforms of a tail round are 0 (each has probability 2^-23), x and y are +Inf and `y+y >= x*x` holds; the rounded sample is then 2^63 in uint64 (amd64), whatever the standard deviation |
| `C54_Tensor_refuted`, `C54_Tensor_always_zero` | `BFVEvaluator.Tensor`/`TensorTo` write the evaluator's buffer, never `ctOut` (`xtfhe/bfv_evaluator.go:106`): the returned ciphertext is zero |
| `C54_Relinearize_refuted`, `C54_Relinearize_ignores` | `Relinearize`/`RelinearizeTo` read the evaluator's buffer and ignore their argument (`xtfhe/bfv_evaluator.go:123-131`); `MulTo` works because both use the buffer |
