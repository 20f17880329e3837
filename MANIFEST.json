{
 "claims": [
  {
   "property": "C01",
   "status": "proved",
   "theorems": [
    "C01_DivRoundBits_unsigned",
    "C01_DivRoundBits_signed"
   ],
   "note": "Unsigned and signed DivRoundBits for every width and shift."
  },
  {
   "property": "C02",
   "status": "proved",
   "theorems": [
    "C02_IsPowerOfTwo",
    "C02_Log2",
    "C02_Log2_panics"
   ],
   "note": "IsPowerOfTwo and Log2 characterised exactly, panics included."
  },
  {
   "property": "C03",
   "status": "proved",
   "theorems": [
    "C03_Sqrt",
    "C03_Sqrt_negative",
    "C03_sqrt_unique"
   ],
   "note": "Sqrt is floor sqrt for all 64-bit words, with panics for negatives."
  },
  {
   "property": "C04",
   "status": "proved",
   "theorems": [
    "C04_ModInverse",
    "C04_ModInverse_unsigned",
    "C04_ModInverse_unsigned_refuted",
    "C04_ModExp",
    "C04_ModExp_negative",
    "C04_ModExp_m1_refuted",
    "C04_ModExp_overflow_refuted"
   ],
   "note": "Signed ModInverse/ModExp proved. REFUTED outside the claim: unsigned ModInverse with a modulus not dividing 2^w, ModExp with m=1,y=0, ModExp with overflowing modulus (theorems *_refuted)."
  },
  {
   "property": "C05",
   "status": "proved",
   "theorems": [
    "C05_DivRound",
    "C05_DivRound_refuted",
    "C05_DivRound_noisy"
   ],
   "note": "Exact below 2^52; refuted beyond (C05_DivRound_refuted); noisy 64-bit version for representable divisors."
  },
  {
   "property": "C06",
   "status": "proved",
   "theorems": [
    "C06_kernel2",
    "C06_kernel1",
    "C06_AddTo",
    "C06_SubTo",
    "C06_MulTo",
    "C06_MulAddTo",
    "C06_MulSubTo",
    "C06_ScalarMulTo",
    "C06_ScalarMulAddTo",
    "C06_ScalarMulSubTo",
    "C06_NegTo",
    "C06_Dot",
    "C06_Fill",
    "C06_Equals",
    "C06_panics",
    "C06_forward_overlap_refuted",
    "C06_empty_refuted"
   ],
   "note": "Flat-memory model of the unrolled kernels; overlap allowed unless the output starts strictly inside an input (C06_forward_overlap_refuted); empty vectors panic (C06_empty_refuted)."
  },
  {
   "property": "C07",
   "status": "proved",
   "theorems": [
    "C07_RotateTo",
    "C07_RotateInPlace",
    "C07_rotated_unique",
    "C07_ReverseInPlace",
    "C07_ReverseTo",
    "C07_BitReverse",
    "C07_bitrev_meaning",
    "C07_bitrev_involutive",
    "C07_BitReverse_diverges_refuted"
   ],
   "note": "Rotation for every int shift, reversal, bit reversal for every power-of-two length; other lengths may diverge (C07_BitReverse_diverges_refuted)."
  },
  {
   "property": "C08",
   "status": "proved",
   "theorems": [
    "C08_roundtrip",
    "C08_roundtrip_back",
    "C08_layout"
   ],
   "note": "Both directions, any float type."
  },
  {
   "property": "C09",
   "status": "proved",
   "theorems": [
    "C09_MonomialMulPolyTo",
    "C09_MonomialMulAddPolyTo",
    "C09_MonomialMulSubPolyTo",
    "C09_InPlace",
    "C09_compose",
    "C09_period"
   ],
   "note": "All four variants for every int d and power-of-two rank; composition and period laws."
  },
  {
   "property": "C10",
   "status": "proved",
   "theorems": [
    "C10_PermutePolyTo",
    "C10_PermuteAddPolyTo",
    "C10_PermuteSubPolyTo",
    "C10_overwrites",
    "C10_even_panics",
    "C10_multiplicative",
    "C10_additive",
    "C10_monomials",
    "C10_compose",
    "C10_inverse"
   ],
   "note": "Every odd d, ranks up to 2^62 (64-bit int product d*i included); even d panics."
  },
  {
   "property": "C11",
   "status": "proved",
   "theorems": [
    "C11_MulPolyTo",
    "C11_MulAddPolyTo",
    "C11_MulSubPolyTo",
    "C11_ShortMul",
    "C11_ShortMulAdd",
    "C11_ShortMulSub",
    "C11_bound",
    "C11_short_bound"
   ],
   "note": "Exact transform assumed (trusted base); signed and unsigned words of any size; 2^48 bound proved for ranks up to 2^32 (2^30 for short products)."
  },
  {
   "property": "C12",
   "status": "proved",
   "theorems": [
    "C12_NewEvaluator_total",
    "C12_NewEvaluator_panics",
    "C12_forward_network",
    "C12_inverse_network",
    "C12_inverse_network_right",
    "C12_FwdFFT",
    "C12_FwdFFTAdd",
    "C12_FwdFFTSub",
    "C12_transform_unique",
    "C12_pointwise",
    "C12_pointwise_acc",
    "C12_InvFFT",
    "C12_InvFFTAdd",
    "C12_InvFFTSub",
    "C12_product",
    "C12_refines_integer_model",
    "C12_real_instance",
    "C12_real_product"
   ],
   "note": "Portable kernels (not the AVX2 assembly) over any exact arithmetic: forward network evaluates the folded polynomial in bit-reversed order, inverse network is a two-sided inverse, pointwise operations are the ring operations, the product through the transforms is the negacyclic product mod 2^w, and the float operations refine the integer operations used by the scheme models; instance with the real numbers at every rank 2^n >= 16 (uses the axioms of the standard library Reals). Rounding of float64 is not modelled."
  },
  {
   "property": "C13",
   "status": "proved",
   "theorems": [
    "C13_Monomial",
    "C13_MonomialSubOne",
    "C13_Monomial_is_forward",
    "C13_Permute",
    "C13_PermuteAdd",
    "C13_PermuteSub",
    "C13_Permute_even_panics"
   ],
   "note": "Every integer d, every rank: monomial, monomial minus one, permutation with assignment, addition and subtraction; even permutations panic. Exact arithmetic, portable kernels."
  },
  {
   "property": "C14",
   "status": "proved",
   "theorems": [
    "C14_digits_balanced",
    "C14_digits_frame",
    "C14_recompose_error",
    "C14_recompose_exact"
   ],
   "note": "Every valid gadget (b*l <= w), every word; error bound Q/(2B^l), exact when b*l = w; old buffer content irrelevant."
  },
  {
   "property": "C15",
   "status": "proved",
   "theorems": [
    "C15_poly_digits",
    "C15_poly_frame",
    "C15_poly_recompose",
    "C15_poly_error",
    "C15_poly_exact"
   ],
   "note": "Coefficientwise agreement, frame, recomposition error and exactness for every polynomial length."
  },
  {
   "property": "C16",
   "status": "proved",
   "theorems": [
    "C16_first_accepted",
    "C16_range",
    "C16_returns",
    "C16_uniform",
    "C16_accept_half"
   ],
   "note": "All integer types (1,2,4,8 bytes, signed and unsigned), every reachable sampler state; the key stream is an oracle."
  },
  {
   "property": "C17",
   "status": "proved",
   "theorems": [
    "C17_history",
    "C17_reproducible",
    "C17_stream_injective",
    "C17_stream_surjective"
   ],
   "note": "Every call history refines the abstract word stream; xor refilling is a bijection of byte streams; results depend only on generated bytes. AES/seed expansion is the oracle."
  },
  {
   "property": "C18",
   "status": "proved",
   "theorems": [
    "C18_binary",
    "C18_bit",
    "C18_blocks",
    "C18_block_shape",
    "C18_block_panic",
    "C18_block_one"
   ],
   "note": "Exact bits, block shape, offsets are successive bounded samples, panics exactly on bad lengths."
  },
  {
   "property": "C19",
   "status": "partial",
   "theorems": [
    "C19_value",
    "C19_monotone",
    "C19_range_partial",
    "C19_tail_partial",
    "C19_range_refuted",
    "C19_center_refuted"
   ],
   "note": "Value, monotonicity, and range for words below the last table entry and centre 0. REFUTED: the largest word leaves the interval (C19_range_refuted); a nonzero centre is counted twice so every sample leaves the tail interval (C19_center_refuted). The exp-based table is an oracle."
  },
  {
   "property": "C20",
   "status": "partial",
   "theorems": [
    "C20_params_small",
    "C20_params_large",
    "C20_params_any",
    "C20_custom_small",
    "C20_custom_large",
    "C20_no_modulus",
    "C20_EncodeGLWE",
    "C20_DecodeGLWE",
    "C20_GLWE_roundtrip",
    "C20_negative_refuted",
    "C20_half_step_refuted"
   ],
   "note": "Proved for uint32 with the full half step, for uint64 minus 2^12+1, for custom scales, for GLWE vectors. REFUTED: negative messages with a modulus not dividing Q (C20_negative_refuted); full half step on 64-bit torus (C20_half_step_refuted)."
  },
  {
   "property": "C21",
   "status": "proved",
   "theorems": [
    "C21_GLWE_phase",
    "C21_GLWE_decrypt_phase",
    "C21_GLWE_decrypt_any",
    "C21_GLWE_overwrites",
    "C21_GLWE_message_small",
    "C21_GLWE_message_large",
    "C21_FFTGLWE",
    "C21_FFTGLWE_decrypt",
    "C21_LWE_phase",
    "C21_LWE_decrypt_phase",
    "C21_LWE_decrypt_any",
    "C21_LWE_overwrites",
    "C21_LWE_message_small",
    "C21_LWE_message_large"
   ],
   "note": "LWE and GLWE, also transformed GLWE; message round trip for power-of-two moduli with the decoding bound of C20. Scheme-level transforms are exact (trusted base)."
  },
  {
   "property": "C22",
   "status": "proved",
   "theorems": [
    "C22_AddGLWE",
    "C22_SubGLWE",
    "C22_NegGLWE",
    "C22_ScalarMulGLWE",
    "C22_ScalarMulAddGLWE",
    "C22_ScalarMulSubGLWE",
    "C22_PolyMulGLWE",
    "C22_PolyMulAddGLWE",
    "C22_PolyMulSubGLWE",
    "C22_FFTPolyMulGLWE",
    "C22_FFTPolyMulAddGLWE",
    "C22_FFTPolyMulSubGLWE",
    "C22_MonomialMulGLWE",
    "C22_MonomialMulAddGLWE",
    "C22_MonomialMulSubGLWE",
    "C22_MonomialMulGLWEInPlace",
    "C22_PermuteGLWE",
    "C22_PermuteAddGLWE",
    "C22_PermuteSubGLWE",
    "C22_PermuteGLWEInPlace",
    "C22_AddPlainGLWE",
    "C22_SubPlainGLWE",
    "C22_AddLWE",
    "C22_SubLWE",
    "C22_NegLWE",
    "C22_ScalarMulLWE",
    "C22_ScalarMulAddLWE",
    "C22_ScalarMulSubLWE",
    "C22_AddPlainLWE",
    "C22_SubPlainLWE"
   ],
   "note": "All LWE and GLWE operations; output may be the same variable as an input wherever the code allows it (monomial/permutation non-in-place versions require disjointness)."
  },
  {
   "property": "C23",
   "status": "proved",
   "theorems": [
    "C23_EncryptGLev",
    "C23_DecryptGLevPoly",
    "C23_DecryptGLev",
    "C23_EncryptGGSW",
    "C23_DecryptGGSW",
    "C23_EncryptFFTGGSW",
    "C23_EncryptFFTGLev",
    "C23_EncryptLev",
    "C23_DecryptLevScalar",
    "C23_DecryptLev",
    "C23_EncryptGSW",
    "C23_DecryptGSW"
   ],
   "note": "Lev, GSW, GLev, GGSW, scalar and polynomial, also transformed encryptions."
  },
  {
   "property": "C24",
   "status": "proved",
   "theorems": [
    "C24_views",
    "C24_AsLWEKey",
    "C24_write_large",
    "C24_write_glwe",
    "C24_write_lwe",
    "C24_copy",
    "C24_independent",
    "C24_unmarshal",
    "C24_generate",
    "C24_fft",
    "C24_fft_recompute"
   ],
   "note": "Slices of one array in an explicit memory; histories of new, generate, copy, assign, copy-from, clear, deserialise, transform and view writes. Views hold in every reachable state, a write through one view is seen in the others, copies are independent, encoded keys read back, generated keys are binary with block shape and a matching transformed key."
  },
  {
   "property": "C25",
   "status": "proved",
   "theorems": [
    "C25_key",
    "C25_extract"
   ],
   "note": "Every rank, index and ciphertext."
  },
  {
   "property": "C26",
   "status": "proved",
   "theorems": [
    "C26_GenLWEKeySwitchKey",
    "C26_GenDefaultKeySwitchKey",
    "C26_KeySwitch",
    "C26_KeySwitch_bound",
    "C26_DefaultKeySwitch",
    "C26_DefaultKeySwitch_bound"
   ],
   "note": "exact error formula and bound for KeySwitchLWETo and DefaultKeySwitchTo; key generation establishes the hypotheses"
  },
  {
   "property": "C27",
   "status": "proved",
   "theorems": [
    "C27_GenGLWEKeySwitchKey",
    "C27_KeySwitch",
    "C27_KeySwitch_bound"
   ],
   "note": "Exact error formula and bound; key generation establishes the hypotheses."
  },
  {
   "property": "C28",
   "status": "proved",
   "theorems": [
    "C28_ExternalProdGLWE",
    "C28_ExternalProdGLWE_addsub",
    "C28_ExternalProdGLWE_bound",
    "C28_ExternalProdGLWE_bound_const",
    "C28_GadgetProdGLWE",
    "C28_ExternalProdFFTGLWE",
    "C28_GadgetProdFFTGLWE",
    "C28_ExternalProdLWE",
    "C28_ExternalProdLWE_addsub",
    "C28_ExternalProdLWE_bound",
    "C28_GadgetProdLWE"
   ],
   "note": "LWE/GSW and GLWE/GGSW, exact error, bounds, accumulating variants."
  },
  {
   "property": "C29",
   "status": "proved",
   "theorems": [
    "C29_CMux",
    "C29_CMux_select",
    "C29_alias_c1_refuted"
   ],
   "note": "Exact error and bound, output may alias ct0. REFUTED for output aliasing ct1 (C29_alias_c1_refuted), which the code does not document."
  },
  {
   "property": "C30",
   "status": "proved",
   "theorems": [
    "C30_range",
    "C30_exact",
    "C30_general",
    "C30_error",
    "C30_ms_err_exact",
    "C30_ms_err_any",
    "C30_half_step_refuted"
   ],
   "note": "Range, general float64 error, exact round-half-up when the product fits 52 bits (32-bit torus, power-of-two tables). Exact rounding on the 64-bit torus is REFUTED (C30_half_step_refuted), which the property does not claim."
  },
  {
   "property": "C31",
   "status": "proved",
   "theorems": [
    "C31_GenLUT",
    "C31_every_position",
    "C31_independent"
   ],
   "note": "Every function, modulus, LUT size and extend factor with modulus*LUTSize < 2^52. When 2*modulus does not divide LUTSize the box is one position smaller."
  },
  {
   "property": "C32",
   "status": "proved",
   "theorems": [
    "C32_block",
    "C32_original",
    "C32_GenBlindRotateKey",
    "C32_keygen"
   ],
   "note": "Original and block versions, explicit noise bound; key generation establishes the hypotheses. Scheme-level transforms are exact (trusted base)."
  },
  {
   "property": "C33",
   "status": "partial",
   "theorems": [
    "C33_position",
    "C33_exact_partial",
    "C33_initial_rotation_refuted",
    "C33_single_block_refuted"
   ],
   "note": "Position theorem with slack 2E-2 for every ciphertext, exact theorem when E divides the switched body. REFUTED in general: the initial rotation exchanges source and destination (C33_initial_rotation_refuted), a single block is processed twice (C33_single_block_refuted)."
  },
  {
   "property": "C34",
   "status": "proved",
   "theorems": [
    "C34_phase",
    "C34_message",
    "C34_keygen"
   ],
   "note": "Phase and message form, both orders, all three algorithms; for tables larger than the rank the margin includes the 2E-2 positions of C33 and at least two blocks are required. Key generation establishes the hypotheses."
  },
  {
   "property": "C35",
   "status": "proved",
   "theorems": [
    "C35_encrypt",
    "C35_decrypt",
    "C35_NOT",
    "C35_gate",
    "C35_program"
   ],
   "note": "NOT keeps the noise; the six gates give the truth table with key-only output noise, both bootstrap orders, any aliasing of registers and any buffer contents; any straight-line program of any length decrypts to the boolean program (C35_program). The bootstrap is the modelled BootstrapLUTTo with the sign table of NewBinaryEvaluator and exact FFT."
  },
  {
   "property": "C36",
   "status": "proved",
   "theorems": [
    "C36_wrap",
    "C36_roundtrip",
    "C36_full",
    "C36_encrypt",
    "C36_decrypt",
    "C36_64_bits_refuted"
   ],
   "note": "C36_roundtrip for 0..63 bits; C36_wrap is the exact value for every length (swrap 64 of x mod 2^n), C36_full gives x back from 64 bits on. REFUTED at exactly this point: for 64 bits or more and negative x the returned int is x, not x mod 2^n (C36_64_bits_refuted)."
  },
  {
   "property": "C37",
   "status": "proved",
   "theorems": [
    "C37_roundtrip",
    "C37_format",
    "C37_injective"
   ],
   "note": "31 types (every WriteTo/ReadFrom of tfhe and mktfhe), 4- and 8-byte words, every well-shaped value and any receiver; also the exact byte format and its injectivity. Empty key-switching keys are excluded (C38_empty_KSK_refuted: WriteTo panics)."
  },
  {
   "property": "C38",
   "status": "partial",
   "theorems": [
    "C38_ByteSize",
    "C38_WriteTo",
    "C38_WriteTo_nil",
    "C38_FFT_header_refuted",
    "C38_empty_KSK_refuted",
    "C38_empty_KSK_panics_refuted"
   ],
   "note": "ByteSize for every type; WriteTo count for every writer behaviour and 26 of 31 types, and for all types on success. REFUTED for the FFT headers: the count on a failing header write forgets earlier bytes (C38_FFT_header_refuted); empty key-switching keys panic (C38_empty_KSK_panics_refuted)."
  },
  {
   "property": "C39",
   "status": "partial",
   "theorems": [
    "C39_truncated",
    "C39_count",
    "C39_count_success",
    "C39_extension",
    "C39_LWESecretKey_refuted",
    "C39_FFT_header_refuted"
   ],
   "note": "Truncation reported for every type and cut; count exact on every input for 27 types, on success for 30. REFUTED: LWESecretKey.ReadFrom returns 8 on success (C39_LWESecretKey_refuted), FFT headers forget earlier bytes on errors (C39_FFT_header_refuted)."
  },
  {
   "property": "C40",
   "status": "proved",
   "theorems": [
    "C40_object",
    "C40_stream"
   ],
   "note": "Any sequence of objects of any of the 31 types."
  },
  {
   "property": "C41",
   "status": "partial",
   "theorems": [
    "C41_Compile_sound",
    "C41_Compile_fields",
    "C41_Compile_complete",
    "C41_Literal_roundtrip",
    "C41_scale_pow2",
    "C41_multi_key",
    "C41_overflow_refuted",
    "C41_NaN_refuted",
    "C41_zero_modulus_refuted",
    "C41_small_rank_refuted",
    "C41_ManyLUT_iff",
    "C41_CircuitBootstrap_sound",
    "C41_FHEW_iff",
    "C41_Sanitization_iff",
    "C41_ManyLUT_count_refuted"
   ],
   "note": "Sound, complete and literal round-trip for literals whose integer products do not overflow. REFUTED without that: GLWERank*PolyRank wraps (C41_overflow_refuted); NaN standard deviations, MessageModulus 0 and PolyRank < 16 are accepted (C41_NaN_refuted, C41_zero_modulus_refuted, C41_small_rank_refuted). The xtfhe literals: exact conditions (C41_ManyLUT_iff, C41_FHEW_iff, C41_Sanitization_iff, C41_CircuitBootstrap_sound); REFUTED: the number of tables is not compared with the rank (C41_ManyLUT_count_refuted)."
  },
  {
   "property": "C42",
   "status": "partial",
   "theorems": [
    "C42_params",
    "C42_mkparams",
    "C42_gadget",
    "C42_accepted",
    "C42_truncated_base_refuted",
    "C42_malformed_panics_refuted"
   ],
   "note": "Round trip for tfhe and mktfhe parameters and gadget parameters; on any byte string, whatever is accepted is the output of Compile on Go values. REFUTED for rejection: bases are truncated mod 2^w (C42_truncated_base_refuted) and malformed bytes panic instead of returning an error (C42_malformed_panics_refuted)."
  },
  {
   "property": "C43",
   "status": "partial",
   "theorems": [
    "C43_Compile_sound",
    "C43_Compile_complete",
    "C43_Literal_roundtrip",
    "C43_Compile_refuted",
    "C43_BaseQ",
    "C43_BaseQ_extremes"
   ],
   "note": "Sound/complete/round-trip/BaseQ laws proved for levels below 2^57. REFUTED without that bound: the 64-bit product Log2(Base)*Level wraps and Compile accepts Base^Level > Q (C43_Compile_refuted)."
  },
  {
   "property": "C44",
   "status": "partial",
   "theorems": [
    "C44_isolated_tfhe",
    "C44_isolated_mktfhe",
    "C44_isolated_xtfhe",
    "C44_copies",
    "C44_Decryptor_refuted",
    "C44_Decryptor_fixed"
   ],
   "note": "REFUTED for mktfhe Decryptor.SafeCopy (shares buf, mktfhe/decryptor.go:117): C44_Decryptor_refuted gives two goroutines and a schedule with a wrong phase. For every other SafeCopy of the library the copy is isolated, and C44_copies: any history of copies, any methods within their footprint, any schedule."
  },
  {
   "property": "C45",
   "status": "proved",
   "theorems": [
    "C45_blind_rotate_key",
    "C45_key_switch_key",
    "C45_workers",
    "C45_fhew_blind_rotate_key"
   ],
   "note": "Worker pools of GenBlindRotateKeyParallel (tfhe and xtfhe FHEW) and GenDefaultKeySwitchKeyParallel: bounded runs, no deadlock, every entry exactly once and a valid encryption, for every schedule and worker count."
  },
  {
   "property": "C46",
   "status": "partial",
   "theorems": [
    "C46_MK_LWE",
    "C46_MK_GLWE",
    "C46_MK_second_refuted",
    "C46_GenPublicKey",
    "C46_GLWE_phase",
    "C46_LWE_phase",
    "C46_noise",
    "C46_LWE_history",
    "C46_GLWE_history",
    "C46_FFT_first",
    "C46_reused_LWE_output_refuted",
    "C46_reused_GLWE_output_refuted",
    "C46_second_FFT_refuted"
   ],
   "note": "tfhe.PublicEncryptor: after any call history, encryption into an output with a zero mask decrypts for every randomness within the bound (2kN+1)e, and so does the first EncryptFFTGLWE. REFUTED otherwise: the mask of a non-empty output is added to, not overwritten (C46_reused_LWE_output_refuted, C46_reused_GLWE_output_refuted), and EncryptFFTGLWE reuses an uncleared buffer (C46_second_FFT_refuted). mktfhe.PublicEncryptor: exact phase for any buffer content (C46_MK_LWE, C46_MK_GLWE); REFUTED from the second call on, the sub ciphertext keeps its mask (C46_MK_second_refuted)."
  },
  {
   "property": "C47",
   "status": "partial",
   "theorems": [
    "C47_LWE_embed",
    "C47_GLWE_embed",
    "C47_LWE_phase",
    "C47_GLWE_phase",
    "C47_LWE_encrypt",
    "C47_GLWE_encrypt",
    "C47_LWE_roundtrip",
    "C47_LWE_ops",
    "C47_GLWE_ops",
    "C47_index_refuted",
    "C47_index"
   ],
   "note": "Embedding, decryption, encryption, round trip and all LWE/GLWE operations at the joint key of any party set. REFUTED for one accepted index: the constructors accept idx = partyCount, whose first encryption panics (C47_index_refuted)."
  },
  {
   "property": "C48",
   "status": "proved",
   "theorems": [
    "C48_KeySwitch"
   ],
   "note": "Any party set, any old output; noise is the number of active parties times the single-key noise."
  },
  {
   "property": "C49",
   "status": "partial",
   "theorems": [
    "C49_hybrid_exact",
    "C49_hybrid_bound",
    "C49_external",
    "C49_Sub_refuted"
   ],
   "note": "Hybrid products exactly and bounded (set, add, subtract), external products (set, add). REFUTED for ExternalProdSubGLWETo, which adds the bodies (C49_Sub_refuted)."
  },
  {
   "property": "C50",
   "status": "proved",
   "theorems": [
    "C50_equal",
    "C50_phase",
    "C50_bootstrap"
   ],
   "note": "BlindRotateParallelTo and BootstrapLUTParallelTo equal their sequential versions under every schedule of single memory accesses, terminate, never race, and have the rotated joint phase."
  },
  {
   "property": "C51",
   "status": "partial",
   "theorems": [
    "C51_keygen",
    "C51_boot_message",
    "C51_gate",
    "C51_program",
    "C51_XOR_refuted",
    "C51_bits_encrypt",
    "C51_bits_decrypt",
    "C51_bits_roundtrip"
   ],
   "note": "Key generation, bootstrapping of any table in both orders, all gates and programs of gates, any party set; bits of integers. REFUTED for the noise margin of single-key gates: XOR and XNOR use the constant Q/8 (C51_XOR_refuted); the theorems carry the smaller margin."
  },
  {
   "property": "C52",
   "status": "partial",
   "theorems": [
    "C52_NewDecryptor",
    "C52_NewDecryptor_panics",
    "C52_AddSecretKey",
    "C52_refuted"
   ],
   "note": "REFUTED (C52_refuted): NewDecryptor allocates len(sk) slots, so index sets not below len(sk) panic, and AddSecretKey cannot add a missing party. Exact characterisation proved."
  },
  {
   "property": "C53",
   "status": "partial",
   "theorems": [
    "C53_GenLUT",
    "C53_ModSwitch",
    "C53_phase",
    "C53_message",
    "C53_modulus_refuted",
    "C53_lut_count_refuted",
    "C53_half_box_refuted"
   ],
   "note": "REFUTED in general: Compile accepts any power-of-two LUTCount, and GenLUT panics or misplaces functions when 2*messageModulus*LUTCount does not divide the rank (C53_modulus_refuted, C53_lut_count_refuted, C53_half_box_refuted). Proved with that divisibility, which every shipped set satisfies (C58_many_lut): generation, modulus switch, one bootstrap serving all functions in both orders, up to decryption."
  },
  {
   "property": "C54",
   "status": "partial",
   "theorems": [
    "C54_GenGaloisKeysTo",
    "C54_GenRelinKey",
    "C54_Permute",
    "C54_Permute_panics",
    "C54_Pack",
    "C54_Mul",
    "C54_buffers",
    "C54_Tensor_refuted",
    "C54_Tensor_always_zero",
    "C54_Relinearize_refuted",
    "C54_Relinearize_ignores"
   ],
   "note": "REFUTED for Tensor and Relinearize called on their own: Tensor returns zeros for every input, Relinearize ignores its argument (both go through the evaluator buffer). Proved: MulTo multiplies messages at the scale with an explicit noise bound, PermuteTo applies the automorphism, PackTo puts the LWE phase in the constant coefficient, key generation gives the keys these need. Transform rounding at tensor size is not modelled."
  },
  {
   "property": "C55",
   "status": "proved",
   "theorems": [
    "C55_GenCircuitBootstrapKey",
    "C55_CircuitBootstrap",
    "C55_ExternalProd",
    "C55_buffers"
   ],
   "note": "CircuitBootstrapTo returns a GGSW encryption of the message with explicit error bounds, for both bootstrap orders, any reused buffers and any level count; keys come from GenCircuitBootstrapKey. Exact transforms at the scheme level."
  },
  {
   "property": "C56",
   "status": "proved",
   "theorems": [
    "C56_autIdxMap",
    "C56_BlindRotate",
    "C56_phase",
    "C56_message",
    "C56_keygen"
   ],
   "note": "The discrete-log table, the automorphism/window loop for every mask, key and window size (exact exponent, explicit noise), bootstrapping in both orders down to the decrypted message, and key generation from the Gaussian key. Exact transforms at the scheme level."
  },
  {
   "property": "C57",
   "status": "proved",
   "theorems": [
    "C57_Sample",
    "C57_ReRandGLWE",
    "C57_ReRandLWE",
    "C57_bound",
    "C57_position",
    "C57_message"
   ],
   "note": "Table sampler, both re-randomisations (exact error and bound), and sanitisation: position, noise bound and decrypted message of SanitizeLUTTo/SanitizeFuncTo for every ciphertext, key, buffer content and bounded sample streams. GLWE rank 1 and unextended tables, as Compile enforces. Not shown: the distribution of the output (circuit privacy). The table construction with float64 exponentials is not modelled."
  },
  {
   "property": "C58",
   "status": "proved",
   "theorems": [
    "C58_many_lut",
    "C58_circuit_bootstrap",
    "C58_fhew",
    "C58_sanitization",
    "C58_bfv",
    "C58_uint32",
    "C58_uint64",
    "C58_multi_key"
   ],
   "note": "All shipped single-key, multi-key and xtfhe sets, decimal constants converted to float64 by the model. The FHEW set takes the outcome of one runtime Log2 comparison as a hypothesis."
  },
  {
   "property": "C59",
   "status": "proved",
   "theorems": [
    "C59_MaxN",
    "C59_MinN",
    "C59_empty",
    "C59_Min_Max"
   ],
   "note": "MinN/MaxN over all slices; panic on empty input modelled"
  },
  {
   "property": "C60",
   "status": "partial",
   "theorems": [
    "C60_CRSPublicKey",
    "C60_UniEncrypt",
    "C60_FFTUniEncrypt",
    "C60_UniDecrypt",
    "C60_roundtrip",
    "C60_poly_refuted"
   ],
   "note": "CRS public keys and uni-encryptions are well formed for every randomness; messages round trip. REFUTED for UniDecryptPolyTo: no reduction modulo the base, so 0 with negative noise gives the base (C60_poly_refuted); correct modulo the base."
  },
  {
   "property": "C61",
   "status": "partial",
   "theorems": [
    "C61_addToUint32",
    "C61_subToUint32",
    "C61_mulToUint32",
    "C61_mulAddToUint32",
    "C61_mulSubToUint32",
    "C61_scalarMulToUint32",
    "C61_scalarMulAddToUint32",
    "C61_scalarMulSubToUint32",
    "C61_addToUint64",
    "C61_subToUint64",
    "C61_mulToUint64",
    "C61_mulAddToUint64",
    "C61_mulSubToUint64",
    "C61_scalarMulToUint64",
    "C61_scalarMulAddToUint64",
    "C61_scalarMulSubToUint64",
    "C61_forward_overlap_refuted"
   ],
   "note": "All sixteen kernels proved instruction by instruction on a model of the AVX2 subset, for every length, position and content. REFUTED for inputs that start before the output in the same allocation (C61_forward_overlap_refuted), as in the Go versions; excluded by no_fwd in the theorems."
  },
  {
   "property": "C62",
   "status": "partial",
   "theorems": [
    "C62_decompose32",
    "C62_decompose64",
    "C62_recompose32",
    "C62_recompose64",
    "C62_level_refuted",
    "C62_short_refuted"
   ],
   "note": "Both kernels proved instruction by instruction for every gadget, content and layout, when len(dcmpOut) is the level and the rank is a multiple of 8 (4 for uint64), which holds for every Poly from NewPoly. REFUTED: for a longer dcmpOut the kernels take len(dcmpOut) as the level and differ from the Go code (C62_level_refuted); other ranks are accessed out of bounds (C62_short_refuted)."
  },
  {
   "property": "C63",
   "status": "partial",
   "theorems": [
    "C63_add",
    "C63_sub",
    "C63_mul",
    "C63_mulAdd",
    "C63_mulSub",
    "C63_neg",
    "C63_floatMul",
    "C63_floatMulAdd",
    "C63_floatMulSub",
    "C63_cmplxMul",
    "C63_cmplxMulAdd",
    "C63_cmplxMulSub",
    "C63_forward_overlap_refuted"
   ],
   "note": "All twelve kernels proved instruction by instruction for every content, layout and length that is a multiple of 8, in exact arithmetic (any commutative ring; rounding of the fused operations is not modelled). REFUTED: an input that starts before the output in the same allocation is read after being overwritten (C63_forward_overlap_refuted)."
  },
  {
   "property": "C64",
   "status": "proved",
   "theorems": [
    "C64_fwdFFT",
    "C64_invFFT",
    "C64_table_lengths",
    "C64_forward_values",
    "C64_roundtrip"
   ],
   "note": "Both kernels proved instruction by instruction for every size 2^k >= 16, every content and every non-overlapping layout, in exact arithmetic (any commutative ring; rounding and fused operations are not modelled). C64_ex_real: the real numbers with the tables of an Evaluator meet every hypothesis."
  },
  {
   "property": "C65",
   "status": "partial",
   "theorems": [
    "C65_fold32",
    "C65_fold64",
    "C65_unfold32",
    "C65_unfold64",
    "C65_torus32",
    "C65_torus64",
    "C65_layout",
    "C65_back32",
    "C65_Go_nearest",
    "C65_Go_agrees",
    "C65_Go_tie_refuted"
   ],
   "note": "All nine kernels proved instruction by instruction on binary64 arithmetic (SpecFloat); composition with the modular reduction gives the nearest integer modulo 2^w for every normal float of exponent above -748. REFUTED: at ties the Go code rounds away from zero, the kernels to even (C65_Go_tie_refuted); away from ties they agree (C65_Go_agrees)."
  },
  {
   "property": "C66",
   "status": "proved",
   "theorems": [
    "C66_binary64",
    "C66_NewEvaluator",
    "C66_MulPolyTo",
    "C66_MulAddPolyTo",
    "C66_MulSubPolyTo",
    "C66_ShortMul",
    "C66_roundtrip",
    "C66_sum_error"
   ],
   "note": "Binary64 arithmetic of SpecFloat, one rounding per operation (Go code without fused multiply-add; the AVX2 kernels are C67). cmplx.Exp is an oracle assumed accurate to 5*2^-52; C66_ex_cexp gives one."
  },
  {
   "property": "C67",
   "status": "proved",
   "theorems": [
    "C67_fwdFFT",
    "C67_invFFT",
    "C67_mul",
    "C67_FwdFFTTo",
    "C67_InvFFTTo",
    "C67_InvFFTAddTo",
    "C67_InvFFTSubTo",
    "C67_modQ",
    "C67_unfold",
    "C67_binary64",
    "C67_MulPolyTo",
    "C67_MulAddPolyTo",
    "C67_MulSubPolyTo",
    "C67_ShortMul",
    "C67_roundtrip"
   ],
   "note": "Kernels instruction by instruction for any floating point operations; rounding on binary64 (SpecFloat) with fused operations rounding once. The kernel sequences of FwdFFTTo, InvFFTTo, InvFFTAddTo and InvFFTSubTo are proved in memory for uint32 and uint64. cmplx.Exp is an oracle assumed accurate to 5*2^-52."
  },
  {
   "property": "C68",
   "status": "proved",
   "theorems": [
    "C68_GadgetProdGLWE",
    "C68_ExternalProdGLWE",
    "C68_ExternalProdGLWE_phase"
   ],
   "note": "On binary64 (SpecFloat), portable and AVX2/FMA kernels; keys are transformed by the same code. cmplx.Exp is an oracle assumed accurate to 5*2^-52 and to return binary64 numbers. C68_ex_ParamsBinary evaluates the bound for two parameter sets, C68_ex_exact has D = 0."
  },
  {
   "property": "C69",
   "status": "proved",
   "theorems": [
    "C69_block",
    "C69_original"
   ],
   "note": "On binary64 (SpecFloat), portable and AVX2/FMA kernels. A worst-case bound: for full parameter sets it is below the modulus for one block (C69_ex_Params) but not for a whole rotation; C69_ex evaluates it for a small one. Assumes cmplx.Exp accurate to 5*2^-52 on the whole circle, that it returns binary64 numbers, and that the in-place inverse transform leaves binary64 numbers in its argument. blindRotateExtendedTo is C72."
  },
  {
   "property": "C70",
   "status": "partial",
   "theorems": [
    "C70_Copy",
    "C70_CopyFrom",
    "C70_types",
    "C70_Clear",
    "C70_UniEncryption_keeps",
    "C70_UniEncryption_refuted",
    "C70_UniEncryption_fixed"
   ],
   "note": "REFUTED: CopyFrom of mktfhe UniEncryption and FFTUniEncryption leaves GadgetParams of the receiver (C70_UniEncryption_refuted; C70_UniEncryption_keeps says exactly what it does). Proved for all other types, and Copy and Clear for all. Objects with overlapping slices (SecretKey) are C24."
  },
  {
   "property": "C71",
   "status": "proved",
   "theorems": [
    "C71_any_size_phase",
    "C71_any_size_message",
    "C71_phase",
    "C71_message"
   ],
   "note": "On binary64, portable and AVX2/FMA kernels, for every table size (C71_any_size_*; the C71_phase and C71_message theorems are the case LUTSize = PolyRank); same assumptions on cmplx.Exp and the same worst-case bound as C69, so the hypotheses hold for small parameters (C71_ex, C71_any_size_ex) and not for a whole rotation of the full sets."
  },
  {
   "property": "C72",
   "status": "proved",
   "theorems": [
    "C72_extended"
   ],
   "note": "On binary64, portable and AVX2/FMA kernels; same assumptions and the same kind of worst-case bound as C69. The shift d is the defect of C33, which this inherits: the rotation is exact if E divides the switched body. At least two blocks, as the code indexes the last block separately."
  },
  {
   "property": "C73",
   "status": "proved",
   "theorems": [
    "C73_linear",
    "C73_float_acc",
    "C73_complex",
    "C73_complex_acc",
    "C73_fft_poly",
    "C73_fft_poly_acc",
    "C73_poly",
    "C73_poly_acc",
    "C73_mk_poly",
    "C73_mk_poly_acc",
    "C73_permute",
    "C73_permute_even",
    "C73_forward",
    "C73_inverse"
   ],
   "note": "Over an exact arithmetic of the transforms, as C12 (the real numbers are an instance, C73_ex); the float constants are integers, as only those have a meaning on words. Rounding of these operations on binary64 is not bounded."
  },
  {
   "property": "C74",
   "status": "partial",
   "theorems": [
    "C74_uniform",
    "C74_symmetric",
    "C74_sample_symmetric",
    "C74_finite_refuted",
    "C74_bounded",
    "C74_sample_bounded",
    "C74_vectors",
    "C74_words",
    "C74_vector_words",
    "C74_tail",
    "C74_panics",
    "C74_layers",
    "C74_monotone",
    "C74_areas"
   ],
   "note": "REFUTED: a sample can be infinite (C74_finite_refuted); C74_bounded, C74_sample_bounded and C74_vectors hold when no two neighbouring words are below 512. math.Log and math.Exp are parameters, one rounding per operation, float-to-int conversion as on amd64; the loops carry fuel. Not stated: that the accepted samples follow the normal density."
  },
  {
   "property": "C75",
   "status": "partial",
   "theorems": [
    "C75_glev_back",
    "C75_ggsw_back",
    "C75_uni_back",
    "C75_key_back",
    "C75_glev_forward",
    "C75_glev_inverse",
    "C75_ggsw_forward",
    "C75_ggsw_inverse",
    "C75_uni_forward",
    "C75_uni_inverse",
    "C75_commute",
    "C75_commute_ggsw",
    "C75_decrypt_poly",
    "C75_decrypt_same",
    "C75_glev_messages",
    "C75_ggsw_messages",
    "C75_uni_decrypt",
    "C75_uni_messages",
    "C75_uni_poly_refuted"
   ],
   "note": "REFUTED: FFTUniDecryptPolyTo can return the base for a zero coefficient (C75_uni_poly_refuted), so polynomials are recovered modulo the base only (C75_uni_decrypt); every other part is proved. Exact transforms, as in ModelPoly.v; uni-encryption messages need a message modulus dividing the base."
  },
  {
   "property": "C76",
   "status": "partial",
   "theorems": [
    "C76_table",
    "C76_entry",
    "C76_tail_lo",
    "C76_tail_hi",
    "C76_returns",
    "C76_interval",
    "C76_constructed",
    "C76_inside",
    "C76_value",
    "C76_monotone",
    "C76_range",
    "C76_word",
    "C76_word_top",
    "C76_sum",
    "C76_zero_refuted",
    "C76_center_refuted"
   ],
   "note": "REFUTED: a centre of 1 or more is counted twice (C76_center_refuted, as C19), and deviation 0 converts NaN to uint64 (C76_zero_refuted); the order, range and meaning of the table are proved for divisors that are positive and finite. math.Exp is a parameter, one rounding per operation; the distance of the table from the exact Gaussian is not bounded."
  }
 ]
}