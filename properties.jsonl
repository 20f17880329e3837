{"id": "C01", "title": "Bit-shift rounding division rounds half up", "statement": "DivRoundBits(x, bits) returns the integer nearest to x/2^bits, ties going up, for every unsigned (and every signed) x that does not overflow when doubled out of range, and never wraps.", "quantifier": "every 32/64-bit word x and every shift amount 0 <= bits < word size", "why_tests_cant": "the word space has 2^64 points per shift amount; the top-bit (x<<1 overflow) cases are exactly those sampling misses", "anchors": ["math/num/num.go:DivRoundBits"]}
{"id": "C02", "title": "Power-of-two test and integer logarithm are exact", "statement": "IsPowerOfTwo(x) answers true exactly for the powers of two, and Log2(x) returns the unique k with 2^k <= x < 2^(k+1) for positive x and panics otherwise.", "quantifier": "every machine integer x", "why_tests_cant": "2^64 inputs; bit tricks fail on isolated corner values (0, the minimum negative integer)", "anchors": ["math/num/num.go:IsPowerOfTwo", "math/num/num.go:Log2"]}
{"id": "C03", "title": "Integer square root is the floor square root", "statement": "Sqrt(x) returns the unique r >= 0 with r^2 <= x < (r+1)^2 for every non-negative int, terminates and never overflows; the number of parallel workers computed from it is at least one for a non-empty workload.", "quantifier": "every non-negative 63-bit int", "why_tests_cant": "2^63 inputs, correctness of the digit-by-digit loop needs an invariant", "anchors": ["math/num/num.go:Sqrt", "tfhe/bootstrap_keygen.go:GenBlindRotateKeyParallel"]}
{"id": "C04", "title": "Modular inverse and modular exponentiation", "statement": "ModInverse(x, m) returns y in [0,m) with x*y = 1 mod m whenever gcd(x,m)=1 and panics otherwise; ModExp(x,y,q) returns x^y mod q, as long as no intermediate value leaves the machine type.", "quantifier": "every signed x, every modulus m >= 2 (inverse); every base, exponent, modulus with q^2 inside the type (exponentiation)", "why_tests_cant": "unbounded inputs; the loops need invariants", "anchors": ["math/num/num.go:ModInverse", "math/num/num.go:ModExp"]}
{"id": "C05", "title": "Floating-point rounding division is exact on its domain", "statement": "DivRound(x, y), computed through float64, returns round-half-away-from-zero of the exact quotient for every pair of integers of magnitude below 2^52; callers that feed it larger words get a result that may be off.", "quantifier": "all integer pairs below 2^52 (exactness); existence of a larger failing pair", "why_tests_cant": "float rounding near ties cannot be sampled exhaustively", "anchors": ["math/num/num.go:DivRound", "tfhe/encoder.go:DecodeLWECustom", "tfhe/bootstrap_lut.go:GenLUTCustomFullTo"]}
{"id": "C06", "title": "Unrolled vector kernels equal the pointwise operation", "statement": "Add/Sub/Mul/ScalarMul vector operations and their accumulate variants give, at every index, the pointwise result modulo 2^w for every vector length (including lengths that are not multiples of the unroll factor) and when the output overlaps an input; no index outside the vectors is touched.", "quantifier": "every vector length and content, output aliased to any input or not", "why_tests_cant": "unbounded lengths times 2^64 contents; the tail loop only runs for lengths not divisible by 8", "anchors": ["math/vec/asm_vec.go:AddTo", "math/vec/asm_vec.go:ScalarMulAddTo", "math/vec/asm_vec.go:MulSubTo", "math/vec/vec.go:NegTo"]}
{"id": "C07", "title": "Rotation, reversal and bit reversal are the intended permutations", "statement": "RotateTo and RotateInPlace both move index i to (i+l) mod n for every integer l, including negative l and |l| >= n; Reverse is the index reversal; BitReverse exchanges index i with its bit-reversed index and is an involution.", "quantifier": "every length, every integer shift, every power-of-two size for bit reversal", "why_tests_cant": "unbounded sizes and shifts; in-place algorithms overwrite their input", "anchors": ["math/vec/vec.go:RotateTo", "math/vec/vec.go:RotateInPlace", "math/vec/vec.go:ReverseInPlace", "math/vec/vec.go:BitReverseInPlace"]}
{"id": "C08", "title": "Packed complex layout round-trips", "statement": "CmplxToFloat4 followed by Float4ToCmplx is the identity on complex vectors whose length is a multiple of four, and conversely.", "quantifier": "every vector of every length divisible by 4", "why_tests_cant": "unbounded lengths", "anchors": ["math/vec/vec.go:CmplxToFloat4To", "math/vec/vec.go:Float4ToCmplxTo"]}
{"id": "C09", "title": "Monomial multiplication is multiplication by X^d in Z_Q[X]/(X^N+1)", "statement": "MonomialMulPoly (fresh, in place, accumulate and subtract variants) multiplies by X^d for every int d, negative or beyond 2N; multiplying by d then d' equals multiplying by d+d'; d and -d are inverse; all variants agree.", "quantifier": "every power-of-two rank N, every polynomial, every integer degree d", "why_tests_cant": "all degrees times all polynomials; sign handling of the wrap is the classical error", "anchors": ["math/poly/poly_ops.go:MonomialMulPolyTo", "math/poly/poly_ops.go:MonomialMulPolyInPlace", "math/poly/poly_ops.go:MonomialMulAddPolyTo", "math/poly/poly_ops.go:MonomialMulSubPolyTo"]}
{"id": "C10", "title": "Permutation is the ring automorphism X -> X^d", "statement": "PermutePoly with odd d substitutes X^d for X: it writes every output coefficient exactly once, is additive and multiplicative, composes (d then e is d*e) and is undone by the inverse of d modulo 2N; the accumulate variants agree; even d panics.", "quantifier": "every power-of-two rank, polynomial, odd integer d", "why_tests_cant": "all odd d and polynomials; automorphism property relates two different inputs", "anchors": ["math/poly/poly_ops.go:PermutePolyTo", "math/poly/poly_ops.go:PermutePolyInPlace", "math/poly/poly_ops.go:PermuteAddPolyTo", "math/poly/poly_ops.go:PermuteSubPolyTo"]}
{"id": "C11", "title": "Split multiplication recombines to the exact negacyclic product modulo Q", "statement": "MulPoly and ShortFFTPolyMul split operands in digits, multiply digit polynomials in the transform domain and recombine by shifts; given that each digit product is transformed back exactly, the result equals the negacyclic product mod 2^w even though digit pairs i+j >= splitCount are skipped; digit products stay below the 2^48 bound for which the transform is designed.", "quantifier": "every rank N, all polynomials, every word size 32/64, all split parameters the code generates", "why_tests_cant": "all polynomials; the skipped partial products are only correct because of wrap-around", "anchors": ["math/poly/poly_mul.go:MulPolyTo", "math/poly/poly_mul.go:MulAddPolyTo", "math/poly/poly_mul.go:MulSubPolyTo", "math/poly/poly_mul.go:ShortFFTPolyMulPolyTo", "math/poly/poly_evaluator.go:splitParameters"]}
{"id": "C12", "title": "The butterfly network computes the negacyclic transform and inverts it", "statement": "With exact arithmetic, the forward transform network evaluates the folded polynomial at the odd 4N-th roots in bit-reversed order, the inverse network undoes it for every power-of-two size, and pointwise multiplication between them is the negacyclic product.", "quantifier": "every power-of-two rank, every polynomial, any commutative ring with a suitable root of unity", "why_tests_cant": "unbounded sizes; the loop-structure (twiddle order) needs induction on the size", "anchors": ["math/poly/asm_fft.go:fwdFFTInPlace", "math/poly/asm_fft.go:invFFTInPlace", "math/poly/poly_evaluator.go:genTwiddleFactors"]}
{"id": "C13", "title": "Transform-domain monomials and permutations agree with the coefficient domain", "statement": "MonomialFwdFFT(d) equals the forward transform of X^d for every d, and PermuteFFTPoly(d) of a transform equals the transform of the permuted polynomial for every odd d.", "quantifier": "every rank, every integer d", "why_tests_cant": "all d and sizes; index formulae in bit-reversed order", "anchors": ["math/poly/fft.go:MonomialFwdFFTTo", "math/poly/fft_ops.go:PermuteFFTPolyTo"]}
{"id": "C14", "title": "Gadget decomposition has balanced digits and bounded recomposition error", "statement": "Decomposing any torus scalar with valid gadget parameters (base 2^b, level l, b*l <= w) gives l digits, each in [-B/2, B/2) (as signed words; the top digit may reach B/2), and recomposing them gives a scalar within Q/(2*B^l) of the input modulo Q; the error is zero when b*l = w.", "quantifier": "every torus word, every valid gadget parameter set", "why_tests_cant": "2^64 inputs per parameter set; carries ripple through all levels", "anchors": ["tfhe/decomposer.go:DecomposeScalarTo", "tfhe/decomposer.go:RecomposeScalar", "tfhe/params.go:GadgetParameters"]}
{"id": "C15", "title": "Polynomial decomposition is coefficient-wise scalar decomposition", "statement": "DecomposePolyTo writes, for each coefficient, the same digits DecomposeScalarTo gives, for every rank and level, and recomposition commutes accordingly.", "quantifier": "every polynomial, rank and gadget parameter set", "why_tests_cant": "all polynomials", "anchors": ["tfhe/asm_decompose.go:decomposePolyTo", "tfhe/decomposer.go:RecomposePolyTo"]}
{"id": "C16", "title": "Bounded sampling is in range and exactly uniform", "statement": "SampleN(N) returns a value in [0,N) and, given uniform words, each value has exactly the same number of accepted words mapping to it; it only rejects, never biases.", "quantifier": "every N >= 1 and every word of the key stream", "why_tests_cant": "a statistical test cannot establish exact uniformity", "anchors": ["math/csprng/uniform_sampler.go:SampleN"]}
{"id": "C17", "title": "The uniform sampler never re-uses random bytes and is reproducible from its seed", "statement": "For every sequence of sampling calls, distinct samples are assembled from disjoint, consecutive byte positions of the generator's output, buffers are refilled exactly when exhausted, and two samplers with the same key stream that receive the same calls return the same values.", "quantifier": "every call history and key stream", "why_tests_cant": "needs an invariant over unbounded call histories", "anchors": ["math/csprng/uniform_sampler.go:Sample", "math/csprng/uniform_sampler.go:SampleVecTo"]}
{"id": "C18", "title": "Binary and block-binary keys have the required shape", "statement": "Binary sampling writes only 0/1; block-binary sampling writes at most a single 1 into each block and zeros elsewhere, overwriting earlier content, and panics when the length is not a multiple of the block size; block size 1 gives a uniform bit per position.", "quantifier": "every length, block size and randomness", "why_tests_cant": "all randomness outcomes", "anchors": ["math/csprng/binary_sampler.go:SampleVecTo", "math/csprng/binary_sampler.go:SampleBlockVecTo"]}
{"id": "C19", "title": "Table-driven Gaussian sampling stays in its tail range", "statement": "The cumulative-table sampler returns a value inside the configured tail interval for every random word and is monotone in the random word.", "quantifier": "every 64-bit random word and every table", "why_tests_cant": "the failing words have probability about 2^-64", "anchors": ["xtfhe/sanitization_sampler.go:CDTSampler"]}
{"id": "C20", "title": "Encoding round-trips and tolerates noise up to half a step", "statement": "Decoding an encoded message plus noise returns the message modulo the message modulus for every noise of magnitude below half the scale (minus the float64 conversion slack on 64-bit torus), for every message including negative ones with power-of-two modulus.", "quantifier": "every message, message modulus, scale and noise value below the bound", "why_tests_cant": "noise values near the rounding boundary are not sampled", "anchors": ["tfhe/encoder.go:EncodeLWECustom", "tfhe/encoder.go:DecodeLWECustom", "tfhe/encoder.go:EncodeGLWECustomTo", "tfhe/encoder.go:DecodeGLWECustomTo"]}
{"id": "C21", "title": "Encryption then decryption leaves exactly the sampled noise", "statement": "For every key, mask, noise and plaintext, the phase of a fresh LWE/GLWE encryption under the same key equals plaintext plus noise modulo Q, so decryption returns the message whenever the noise is below the decoding bound; EncryptTo overwrites the whole output.", "quantifier": "every key, dimension/rank, mask, noise, plaintext", "why_tests_cant": "all keys and masks", "anchors": ["tfhe/lwe_enc.go:EncryptLWEBody", "tfhe/lwe_enc.go:DecryptLWEPhase", "tfhe/glwe_enc.go:EncryptGLWEBody", "tfhe/glwe_enc.go:DecryptGLWEPhaseTo"]}
{"id": "C22", "title": "Linear homomorphic operations act on phases exactly", "statement": "Adding, subtracting, negating, scaling ciphertexts, adding plaintexts, multiplying GLWE ciphertexts by polynomials and monomials, and permuting them, changes the phase by exactly the corresponding operation modulo Q, also with the output aliasing an input.", "quantifier": "every ciphertext, key, scalar, polynomial, degree", "why_tests_cant": "all ciphertexts", "anchors": ["tfhe/lwe_ops.go", "tfhe/glwe_ops.go"]}
{"id": "C23", "title": "Leveled and GSW encryptions decrypt to their message", "statement": "DecryptLev/DecryptGSW/DecryptGLev/DecryptGGSW of an encryption of m (|m| below the decoding range) return m modulo the gadget base for every key and every noise below half the smallest gadget step.", "quantifier": "every key, message, noise below bound, gadget parameters", "why_tests_cant": "all keys and noises", "anchors": ["tfhe/lwe_enc.go:EncryptLevScalarTo", "tfhe/lwe_enc.go:EncryptGSWScalarTo", "tfhe/glwe_enc.go:EncryptGLevTo", "tfhe/glwe_enc.go:EncryptGGSWPolyTo"]}
{"id": "C24", "title": "The LWE key is a view of the GLWE key", "statement": "In a secret key the large LWE key lists the GLWE key coefficients in order, the small LWE key is its prefix, copies and unmarshalled keys keep this relation, and writing through one view is visible in the others.", "quantifier": "every key and parameter set, every copy/unmarshal history", "why_tests_cant": "aliasing over histories", "anchors": ["tfhe/encryptor_key.go:NewSecretKey", "tfhe/encryptor_key.go:Copy", "tfhe/glwe.go:AsLWEKeyTo"]}
{"id": "C25", "title": "Sample extraction returns the selected coefficient", "statement": "Extracting index idx from a GLWE ciphertext gives an LWE ciphertext whose phase under the flattened key is coefficient idx of the GLWE phase.", "quantifier": "every ciphertext, key, rank, index", "why_tests_cant": "all indices and ciphertexts", "anchors": ["tfhe/glwe.go:AsLWECiphertextTo", "tfhe/glwe.go:AsLWEKeyTo"]}
{"id": "C26", "title": "LWE key switching preserves the phase up to the stated noise", "statement": "Key switching an LWE ciphertext gives, under the output key, the phase under the input key plus an error that is exactly the gadget rounding error times key plus digits times key-switch-key noise, hence bounded by the stated amount.", "quantifier": "every input ciphertext, keys, key-switch noise, gadget", "why_tests_cant": "all keys/ciphertexts/noises", "anchors": ["tfhe/keyswitch.go:KeySwitchLWETo", "tfhe/keyswitch_keygen.go", "tfhe/bootstrap.go:DefaultKeySwitchTo"]}
{"id": "C27", "title": "GLWE key switching preserves the phase up to the stated noise", "statement": "Same as for LWE, over polynomials (with exact polynomial products).", "quantifier": "every ciphertext, keys, noise, gadget", "why_tests_cant": "all keys/ciphertexts/noises", "anchors": ["tfhe/keyswitch.go:KeySwitchGLWETo"]}
{"id": "C28", "title": "External product multiplies phases up to the stated noise", "statement": "The external product of a GGSW encryption of m and a GLWE ciphertext has phase m times the input phase plus an error given exactly by gadget rounding and GGSW noise; the accumulate/subtract variants add/subtract exactly that ciphertext.", "quantifier": "every GGSW/GLWE ciphertext, key, gadget", "why_tests_cant": "all ciphertexts", "anchors": ["tfhe/product.go:ExternalProdGLWETo", "tfhe/product.go:GadgetProdGLWETo", "tfhe/product.go:ExternalProdLWETo"]}
{"id": "C29", "title": "CMux selects the encrypted choice", "statement": "CMux(c, ct0, ct1) has the phase of ct0 when c encrypts 0 and of ct1 when c encrypts 1, up to external-product noise, including when the output aliases ct0.", "quantifier": "all ciphertexts, keys", "why_tests_cant": "all ciphertexts and aliasing patterns", "anchors": ["tfhe/product.go:CMuxTo"]}
{"id": "C30", "title": "Modulus switching rounds to the nearest table position", "statement": "ModSwitch(x) lies in [0, 2*LUTSize) and differs from x*2*LUTSize/Q by at most 1/2 plus float64 slack modulo 2*LUTSize; for 32-bit torus and power-of-two table size it is exactly round-half-up.", "quantifier": "every torus word, every LUT size the parameters allow", "why_tests_cant": "2^64 inputs, float boundary cases", "anchors": ["tfhe/bootstrap.go:ModSwitch", "tfhe/evaluator.go:NewEvaluator"]}
{"id": "C31", "title": "Generated look-up tables hold f at every position within tolerance", "statement": "GenLUT assigns every table position, and for each message m the positions within the box of half-width LUTSize/(2*modulus) around m's encoding (negacyclically extended) hold the encoding of f(m); the result does not depend on what the scratch buffer held before.", "quantifier": "every function f, modulus, LUT size, extend factor, prior buffer", "why_tests_cant": "all functions and moduli; boundary positions", "anchors": ["tfhe/bootstrap_lut.go:GenLUTCustomFullTo"]}
{"id": "C32", "title": "Blind rotation rotates by the encrypted phase", "statement": "For every ciphertext and bootstrapping key, the output of original and block blind rotation has phase X^(-sum) * LUT plus a bounded error, where sum is the modulus-switched phase of the input under the (block-)binary key.", "quantifier": "every ciphertext, key, noise, dimension, block size", "why_tests_cant": "inductive claim over the LWE dimension and all keys", "anchors": ["tfhe/bootstrap.go:blindRotateOriginalTo", "tfhe/bootstrap.go:blindRotateBlockTo"]}
{"id": "C33", "title": "Extended blind rotation rotates the large table by the encrypted phase", "statement": "With a LUT larger than the polynomial rank, extended blind rotation returns a GLWE ciphertext whose phase is the first component of Y^(-sum) times the interleaved table.", "quantifier": "every ciphertext, key, extend factor", "why_tests_cant": "off-by-at-most-2E rotations stay invisible in message-level tests", "anchors": ["tfhe/bootstrap.go:blindRotateExtendedTo"]}
{"id": "C34", "title": "Programmable bootstrapping evaluates f on every message", "statement": "Bootstrapping an LWE encryption of m with noise below the explicit bound, using a LUT generated from f, returns an encryption that decrypts to f(m), in both bootstrap orders.", "quantifier": "every message, function, key, noise below bound, block size, order", "why_tests_cant": "all messages, keys and noises jointly", "anchors": ["tfhe/bootstrap.go:BootstrapLUTTo", "tfhe/bootstrap.go:BootstrapFunc"]}
{"id": "C35", "title": "Boolean gates compute their truth tables", "statement": "For inputs whose noise is below the gate bound, NOT, AND, NAND, OR, NOR, XOR, XNOR on encrypted booleans decrypt to the corresponding truth table; chains of gates keep working because output noise does not depend on input noise.", "quantifier": "both bits, every key and noise below bound, unbounded circuits", "why_tests_cant": "circuits of unbounded depth, all noises", "anchors": ["tfhe/binary_evaluator.go", "tfhe/binary_encoder.go"]}
{"id": "C36", "title": "Bit vectors encrypt and decrypt least-significant-bit first", "statement": "DecryptLWEBits(EncryptLWEBits(x, n)) returns x modulo 2^n for every int x and bit length n.", "quantifier": "every x, n, key, noise below bound", "why_tests_cant": "all lengths", "anchors": ["tfhe/binary_encryptor.go:EncryptLWEBitsTo", "tfhe/binary_encryptor.go:DecryptLWEBits"]}
{"id": "C37", "title": "Serialisation round-trips", "statement": "For every serialisable type, reading what WriteTo/MarshalBinary produced restores an equal value, whatever the receiver held before.", "quantifier": "every value of every serialisable type, all dimensions", "why_tests_cant": "all shapes, including those whose byte length straddles the 8192-byte buffer", "anchors": ["tfhe/lwe_marshal.go", "tfhe/glwe_marshal.go", "tfhe/fft_glwe_marshal.go", "tfhe/encryptor_key_marshal.go", "tfhe/bootstrap_key_marshal.go", "tfhe/keyswitch_key_marshal.go", "tfhe/params.go", "mktfhe/lwe_marshal.go"]}
{"id": "C38", "title": "ByteSize and WriteTo counts equal the bytes written", "statement": "ByteSize() equals the length of MarshalBinary's result and WriteTo's returned count equals the number of bytes accepted by the writer, including when the writer fails.", "quantifier": "every value, every writer behaviour (failing after any number of bytes)", "why_tests_cant": "fault points at every byte", "anchors": ["tfhe/lwe_marshal.go", "tfhe/glwe_marshal.go", "tfhe/fft_glwe_marshal.go"]}
{"id": "C39", "title": "Truncated input is reported, and the count equals the bytes consumed", "statement": "ReadFrom on any strict prefix of a valid encoding returns an error, never a success; on every input the returned count equals the bytes consumed from the reader.", "quantifier": "every value and every truncation point", "why_tests_cant": "every crash/truncation point", "anchors": ["tfhe/lwe_marshal.go:LWESecretKey.ReadFrom", "tfhe/fft_glwe_marshal.go"]}
{"id": "C40", "title": "Encodings are self-delimiting", "statement": "Several objects written one after another to a stream are read back one after another: reading consumes exactly the bytes written for the object, leaving the rest.", "quantifier": "every sequence of objects", "why_tests_cant": "unbounded sequences", "anchors": ["tfhe/lwe_marshal.go", "tfhe/encryptor_key_marshal.go", "tfhe/bootstrap_key_marshal.go"]}
{"id": "C41", "title": "Accepted parameters satisfy the invariants the algorithms need", "statement": "ParametersLiteral.Compile either panics or returns parameters that satisfy all structural invariants (divisibility, positivity, power-of-two rank, scale, LUT extension); Literal() of the result compiles to the same parameters.", "quantifier": "every literal", "why_tests_cant": "combinatorial space of literals", "anchors": ["tfhe/params.go:Compile", "tfhe/params.go:Literal"]}
{"id": "C42", "title": "Parameter serialisation restores the same parameters", "statement": "Reading serialised parameters yields the same compiled parameters; malformed bytes are rejected.", "quantifier": "every parameter set, every byte string", "why_tests_cant": "all byte strings", "anchors": ["tfhe/params.go:WriteTo", "tfhe/params.go:ReadFrom"]}
{"id": "C43", "title": "Gadget powers are the exact powers of two", "statement": "For valid gadget parameters BaseQ(i)=Q/Base^(i+1) without overflow for each level, FirstBaseQ/LastBaseQ are the extremes, and LogBaseQ are their logarithms.", "quantifier": "every valid gadget parameter set and level", "why_tests_cant": "all parameter sets", "anchors": ["tfhe/params.go:BaseQ", "tfhe/params.go:GadgetParametersLiteral.Compile"]}
{"id": "C44", "title": "Safe copies do not interfere", "statement": "Two objects obtained by SafeCopy can be used from different goroutines under every interleaving of their memory operations, with the same results as running alone.", "quantifier": "every interleaving, every operation sequence", "why_tests_cant": "schedules cannot be enumerated by tests", "anchors": ["tfhe/evaluator.go:SafeCopy", "tfhe/encryptor.go:SafeCopy", "math/poly/poly_evaluator.go:SafeCopy", "mktfhe/decryptor.go:SafeCopy"]}
{"id": "C45", "title": "Parallel key generation completes under every schedule", "statement": "GenEvaluationKeyParallel/GenBlindRotateKeyParallel of tfhe and GenBlindRotateKeyParallel of xtfhe's FHEW: for every number of CPUs and every scheduling, it terminates without deadlock, every entry of the key is generated exactly once, each entry a valid encryption of the same key bit (FHEW: of X to the key word) as in the sequential version.", "quantifier": "every schedule, worker count, dimension", "why_tests_cant": "unbounded schedules", "anchors": ["tfhe/bootstrap_keygen.go:GenBlindRotateKeyParallel", "tfhe/bootstrap_keygen.go:GenDefaultKeySwitchKeyParallel", "xtfhe/fhew_bootstrap_keygen.go:GenBlindRotateKeyParallel"]}
{"id": "C46", "title": "Public-key encryption decrypts, whatever the output held before", "statement": "Public-key encryption of m decrypts to m under the secret key for every randomness with noise below the bound, for each call in any call history, and also when writing into a non-empty output.", "quantifier": "every key, randomness, call history, prior output", "why_tests_cant": "call histories: the first call works, later ones may not", "anchors": ["tfhe/lwe_enc_public.go:EncryptLWEBody", "tfhe/glwe_enc_public.go:EncryptGLWEBody", "tfhe/fft_glwe_enc_public.go", "mktfhe/encryptor_public.go"]}
{"id": "C47", "title": "Multi-key ciphertexts decrypt under the joint key", "statement": "A ciphertext of one party embedded in a multi-party ciphertext has, under the concatenated keys of all parties, the same phase; homomorphic operations act on joint phases exactly.", "quantifier": "every party count, index, key, ciphertext", "why_tests_cant": "all party sets", "anchors": ["mktfhe/lwe.go:CopyFromSubCiphertext", "mktfhe/decryptor.go:DecryptLWEPlaintext", "mktfhe/decryptor.go:DecryptGLWEPhaseTo", "mktfhe/glwe.go"]}
{"id": "C48", "title": "Multi-key key switching preserves the joint phase", "statement": "DefaultKeySwitch of a multi-key LWE ciphertext preserves the joint phase up to per-party key-switching noise.", "quantifier": "every set of parties, keys, noise", "why_tests_cant": "all party sets", "anchors": ["mktfhe/bootstrap.go:DefaultKeySwitchTo"]}
{"id": "C49", "title": "Hybrid and external products multiply joint phases", "statement": "The multi-key external product of a uni-encryption by any party with a multi-key GLWE ciphertext multiplies the joint phase by the encrypted polynomial up to an explicit error; the Add variant adds and the Sub variant subtracts that product.", "quantifier": "every party, uni-encryption, ciphertext", "why_tests_cant": "all ciphertexts", "anchors": ["mktfhe/product.go:HybridProdGLWETo", "mktfhe/product.go:ExternalProdGLWETo", "mktfhe/product.go:ExternalProdSubGLWETo"]}
{"id": "C50", "title": "Parallel multi-key blind rotation equals sequential", "statement": "BlindRotateParallelTo returns the same ciphertext as BlindRotateTo under every schedule and its result has the rotated joint phase.", "quantifier": "every schedule, party set, ciphertext", "why_tests_cant": "schedules", "anchors": ["mktfhe/bootstrap.go:BlindRotateTo", "mktfhe/bootstrap.go:BlindRotateParallelTo"]}
{"id": "C51", "title": "Multi-key bootstrapping and gates are correct", "statement": "Multi-key bootstrapping evaluates f on the jointly encrypted message and gates compute their truth tables, for every subset of parties, under explicit noise bounds.", "quantifier": "every party set, message, noise below bound", "why_tests_cant": "all party sets/noises", "anchors": ["mktfhe/bootstrap.go:BootstrapLUTTo", "mktfhe/binary_evaluator.go"]}
{"id": "C52", "title": "A decryptor accepts the secret keys of any parties", "statement": "NewDecryptor given keys of any non-empty set of party indices below the party count yields a decryptor that can use them; AddSecretKey can add the others.", "quantifier": "every index set", "why_tests_cant": "index-set dependent", "anchors": ["mktfhe/decryptor.go:NewDecryptor", "mktfhe/decryptor.go:AddSecretKey"]}
{"id": "C53", "title": "Many-LUT bootstrapping evaluates all functions at once", "statement": "ManyLUT generation assigns each position the right function value without writing outside the table, and one rotation serves all functions.", "quantifier": "every function list, moduli, parameter set accepted by Compile", "why_tests_cant": "all parameter sets", "anchors": ["xtfhe/manylut_bootstrap.go:GenLUTCustomFullTo", "xtfhe/manylut_bootstrap.go:ModSwitch", "xtfhe/manylut_params.go:Compile"]}
{"id": "C54", "title": "BFV multiplication, relinearisation, permutation and packing act on plaintexts", "statement": "Tensor+relinearise gives a ciphertext whose phase is the scaled product of phases up to noise; PermuteTo applies the automorphism; PackTo places LWE plaintexts at their coefficients.", "quantifier": "every ciphertext and key", "why_tests_cant": "all ciphertexts", "anchors": ["xtfhe/bfv_evaluator.go:TensorTo", "xtfhe/bfv_evaluator.go:RelinearizeTo", "xtfhe/bfv_evaluator.go:MulTo", "xtfhe/bfv_evaluator.go:PermuteTo", "xtfhe/bfv_evaluator.go:PackTo"]}
{"id": "C55", "title": "Circuit bootstrapping outputs a valid GGSW ciphertext", "statement": "The output of circuit bootstrapping is a GGSW encryption of the input message (rows of the right gadget scale and key multiples) up to noise.", "quantifier": "every ciphertext and key", "why_tests_cant": "all ciphertexts", "anchors": ["xtfhe/circuit_bootstrap.go:CircuitBootstrapTo", "xtfhe/circuit_bootstrap_key.go"]}
{"id": "C56", "title": "FHEW-style blind rotation visits every mask element with the right exponent", "statement": "The automorphism-based blind rotation accumulates exactly X^(phase) for every mask of odd elements, with the window logic.", "quantifier": "every mask and key", "why_tests_cant": "2^n masks", "anchors": ["xtfhe/fhew_bootstrap.go:BlindRotateTo", "xtfhe/fhew_evaluator.go"]}
{"id": "C57", "title": "Re-randomisation and sanitisation preserve the message", "statement": "ReRand adds an encryption of zero, and sanitisation evaluates f, leaving the decrypted message unchanged within noise bound.", "quantifier": "every ciphertext, key", "why_tests_cant": "all ciphertexts", "anchors": ["xtfhe/sanitization.go:ReRandGLWETo", "xtfhe/sanitization.go:SanitizeLUTTo"]}
{"id": "C58", "title": "Every shipped parameter set compiles", "statement": "All predefined parameter literals pass every check of Compile, and their gadget parameters fit the torus.", "quantifier": "every literal shipped", "why_tests_cant": "finite: decided completely here, including every derived quantity", "anchors": ["tfhe/params_list.go", "mktfhe/params_list.go"]}
{"id": "C59", "title": "Extrema of slices", "statement": "MaxN and MinN return the greatest and least element of a non-empty slice (an element of it) and 0 for the empty one; Max and Min return the greater and lesser argument.", "quantifier": "every slice of integers, every length", "why_tests_cant": "all slices", "anchors": ["math/num/num.go:MaxN", "math/num/num.go:MinN", "math/num/num.go:Max", "math/num/num.go:Min"]}
{"id": "C60", "title": "Uni-encryptions are well formed and decrypt", "statement": "CRS public keys and uni-encryptions made from a common reference string have the algebraic form the products rely on, and UniDecrypt recovers the encrypted polynomial and messages when the noise is below half the first gadget step.", "quantifier": "every key, CRS, randomness, message", "why_tests_cant": "all messages, randomness and noises", "anchors": ["mktfhe/glwe_enc.go:UniEncryptPolyTo", "mktfhe/glwe_enc.go:UniDecryptPolyTo", "mktfhe/bootstrap_keygen.go:GenCRSPublicKey", "mktfhe/bootstrap_keygen.go:GenRelinKey"]}
{"id": "C61", "title": "The AVX2 integer vector kernels compute the vector operations", "statement": "Each of the sixteen AVX2 kernels of math/vec (add, sub, mul, mul-add, mul-sub, scalar variants, 32 and 64 bit) stops without an access outside its slices, writes the elementwise result modulo 2^w to every element of vOut, and changes no other memory, including for lengths that are not a multiple of the vector width, empty vectors, and every overlap in which no input starts before the output.", "quantifier": "every length, slice position, content, overlap, initial register content", "why_tests_cant": "all lengths, contents and overlaps; memory safety of hand-vectorised code", "anchors": ["math/vec/asm_vec_amd64.s", "math/vec/asm_vec_amd64.go", "math/vec/asm_vec_stub_amd64.go"]}
{"id": "C62", "title": "The AVX2 decomposition kernels equal the Go decomposition", "statement": "decomposePolyToUint32AVX2 and decomposePolyToUint64AVX2 stop without an access outside their slices, store in dcmpOut[j][i] digit j of coefficient i exactly as the Go code does, and change no other memory; hence the stored digits are balanced and recompose to the input within half the last gadget step.", "quantifier": "every gadget, level count, rank that is a multiple of the vector width, content, slice positions", "why_tests_cant": "all contents, gadgets and memory layouts; memory safety", "anchors": ["tfhe/asm_decompose_amd64.s", "tfhe/asm_decompose_amd64.go", "tfhe/asm_decompose_stub_amd64.go"]}
{"id": "C63", "title": "The AVX2 kernels on Fourier coefficients equal the Go loops", "statement": "The twelve kernels of asm_vec_cmplx_amd64.s (add, sub, neg, multiplication by a float, by a complex number and pointwise, with their add and sub forms) stop without an access outside their slices, leave in vOut exactly what the Go loops compute in exact arithmetic, and change no other memory.", "quantifier": "every ring of scalars, content, length that is a multiple of 8, slice position, overlap in which no input starts before the output in the same allocation", "why_tests_cant": "all contents, lengths and memory layouts; memory safety; lane shuffles", "anchors": ["math/poly/asm_vec_cmplx_amd64.s", "math/poly/asm_vec_cmplx_amd64.go", "math/poly/asm_vec_cmplx.go"]}
{"id": "C64", "title": "The AVX2 transforms equal the Go transforms", "statement": "fwdFFTInPlaceAVX2 and invFFTInPlaceAVX2 stop without an access outside their slices, leave in coeffs exactly what the Go functions fwdFFTInPlace and invFFTInPlace compute in exact arithmetic, and change no other memory. The tables of an Evaluator have exactly the number of factors they read; with these tables the forward kernel evaluates the folded polynomial at the odd powers of the root, and the inverse kernel run after it restores the coefficients.", "quantifier": "every ring of scalars, every N = 2^k >= 16, contents of coefficients and table, slice positions that do not overlap", "why_tests_cant": "all sizes and contents; index arithmetic of nested loops with several lane layouts; memory safety", "anchors": ["math/poly/asm_fft_amd64.s", "math/poly/asm_fft_amd64.go", "math/poly/asm_fft.go", "math/poly/poly_evaluator.go"]}
{"id": "C65", "title": "The AVX2 conversions between words and float64 are correct on binary64", "statement": "foldPolyToUint32/64AVX2 store, in the interleaved order, the correctly rounded float64 of every signed coefficient, as the Go code does. floatModQInPlaceAVX2 followed by an unfold kernel stores (adds, subtracts) the nearest integer of every float modulo 2^32 or 2^64, ties to even. The kernels stop without an access outside their slices and change no other memory. The layouts are inverse, 32-bit coefficients survive the way to float64 and back, and the Go code computes the same values.", "quantifier": "every length that is a multiple of 8, every coefficient, every float64 that is zero or at least 2^-748 in absolute value (unfold kernels alone: every float64), slices in different allocations at any position", "why_tests_cant": "2^64 floats; exponent and mantissa arithmetic on bit patterns; ties", "anchors": ["math/poly/asm_fold_amd64.s", "math/poly/asm_fold_amd64.go", "math/poly/asm_fold.go", "math/poly/fft.go"]}
{"id": "C66", "title": "Rounding of the float64 transforms: split multiplication is exact", "statement": "Each binary64 operation has relative error at most 2^-53. With these operations MulPolyTo, MulAddPolyTo, MulSubPolyTo (split into digits, transformed, multiplied, accumulated, transformed back, rounded and recombined) and the three short products return exactly the negacyclic product modulo 2^w, and transforming 32-bit words forth and back is the identity. For a sum of n products accumulated on transforms, as in gadget and external products, every coefficient before reduction is within (3 logN + n) 29 2^-53 n N sqrt(N/2) B B' of the exact one.", "quantifier": "every N = 2^logN with 16 <= N <= 32768, every word size up to 64, signed and unsigned, every pair of polynomials; every complex exponential within 5*2^-52 of the exact one; sums of up to 10^6 products of polynomials with coefficients up to 2^64", "why_tests_cant": "worst-case rounding errors do not show up on random inputs; inputs are N 64-bit words", "anchors": ["math/poly/poly_mul.go", "math/poly/fft.go", "math/poly/asm_fft.go", "math/poly/asm_vec_cmplx.go", "math/poly/poly_evaluator.go"]}
{"id": "C67", "title": "The AVX2 and FMA path of the transforms: exact split multiplication", "statement": "For every meaning of the floating point operations the AVX2 FFT, inverse FFT and complex product kernels end without fault and leave the result of the fused butterflies and products of the model, operation by operation. FwdFFTTo on uint32 and uint64 (fold kernel, then FFT kernel) and InvFFTTo, InvFFTAddTo, InvFFTSubTo (inverse FFT kernel, reduction kernel, unfold kernel) leave the model's transforms in memory and change nothing else. On binary64 the fused operations round once. With these transforms MulPolyTo, MulAddPolyTo, MulSubPolyTo and the three short products return exactly the negacyclic product modulo 2^w, and transforming 32-bit words forth and back is the identity.", "quantifier": "every memory content and layout without overlap, every N = 2^k >= 16 for the kernels; every N = 2^logN with 16 <= N <= 32768, every word size up to 64, signed and unsigned, every pair of polynomials; every complex exponential within 5*2^-52 of the exact one", "why_tests_cant": "worst-case rounding errors do not show up on random inputs, fused operations round differently from the portable code that tests compare with", "anchors": ["math/poly/asm_fft_amd64.s", "math/poly/asm_fft_amd64.go", "math/poly/asm_vec_cmplx_amd64.s", "math/poly/asm_fold_amd64.s", "math/poly/asm_fold_amd64.go", "math/poly/poly_mul.go", "math/poly/fft.go"]}
{"id": "C68", "title": "Gadget and external products on binary64 transforms", "statement": "The gadget products and external products of GLWE ciphertexts (plain, adding, subtracting) computed on complex128 transforms, by the portable loops or by the AVX2 and FMA kernels, return k+1 polynomials of words whose every coefficient equals that of the exact product modulo 2^w up to an integer D, for any D+1 above (3 logN + n) 29 2^-53 n N sqrt(N/2) 2^(w-1) 2^(b-1) + 1/2, n the number of products summed and b the bits of a gadget digit. With D = 0 the float code is exact. The phase of an external product is that of C28 up to D (1 + k N).", "quantifier": "every key and ciphertext, every content of the buffers, every N = 2^logN with 16 <= N <= 32768, every word size up to 64, every GLWE rank and gadget with at most 10^6 products in the sum, portable and AVX2 path; every complex exponential within 5*2^-52 of the exact one that returns binary64 numbers", "why_tests_cant": "a worst case of rounding errors over all keys cannot be sampled; large coefficients lose low bits only for some inputs", "anchors": ["tfhe/product.go", "tfhe/fft_glwe_ops.go", "tfhe/fft_glwe_conv.go", "math/poly/fft.go", "math/poly/asm_fold.go"]}
{"id": "C69", "title": "Blind rotation on binary64 transforms", "statement": "The block and the original blind rotation, computed on complex128 transforms with the monomial table and in-place inverse transforms, by the portable loops or by the AVX2 and FMA kernels, return a GLWE ciphertext of words whose phase is the look-up table rotated by the switched phase of the input, up to the noise of C32 plus D (1 + k N) per block, for any D+1 above (3 logN + 1 + c + bs) 29 2^-53 bs c N^2 2^(w-1) 2^(b-1) + 1/2, c = (k+1) * level, bs the block size and b the bits of a gadget digit.", "quantifier": "every bootstrapping key that encrypts a block binary LWE key, every ciphertext, look-up table and modulus switch, every content of the buffers, every N = 2^logN with 16 <= N <= 32768, every word size up to 64, every GLWE rank, gadget and block size with c + bs at most 10^6, portable and AVX2 path; every complex exponential within 5*2^-52 of the exact one that returns binary64 numbers", "why_tests_cant": "rounding errors, stale buffers reused across blocks and a wrong table entry show only for some keys, ciphertexts and positions; a worst case over all of them cannot be sampled", "anchors": ["tfhe/bootstrap.go", "tfhe/product.go", "tfhe/fft_glwe_ops.go", "math/poly/fft.go"]}
{"id": "C70", "title": "Copy, CopyFrom and Clear of ciphertexts and keys", "statement": "Copy of a ciphertext or key returns an object with the same value (words and gadget parameters at every level) in newly allocated arrays: no existing array changes, and no later write through the copy is visible in the original or the other way round. CopyFrom between two separate objects of the same shape gives the receiver the value of the argument, inside its own arrays, and leaves everything else alone. Clear sets all words to zero, keeps shape and gadget parameters and touches no other array.", "quantifier": "every ciphertext and key type made of nested slices (LWE, Lev, GSW, GLWE, GLev, GGSW, their transforms, public keys, key switching keys, blind rotation keys, look-up tables, uni-encryptions), every heap, value and shape", "why_tests_cant": "a missed field or a shared inner slice is only visible when the two objects differ in that field or one of them is written later", "anchors": ["tfhe/lwe.go", "tfhe/glwe.go", "tfhe/fft_glwe.go", "tfhe/keyswitch_key.go", "tfhe/bootstrap_key.go", "tfhe/bootstrap_lut.go", "mktfhe/glwe.go", "mktfhe/fft_glwe.go", "mktfhe/lwe.go", "math/poly/poly.go"]}
{"id": "C71", "title": "Programmable bootstrapping on binary64 transforms", "statement": "BootstrapLUTTo with a look-up table of E N entries, its blind rotation (extended if E > 1, on at least two blocks) computed on complex128 transforms by the portable loops or by the AVX2 and FMA kernels, returns an LWE ciphertext of f m: its phase is within the noise of C34 plus D (1 + k N) per block of the encoded f m, and with the table of GenLookUpTable it decrypts to f m, in both orders of key switch and blind rotation, as long as the input noise stays inside the box of m (2E-2 positions less for E > 1, see C33) and the output noise below half the scale.", "quantifier": "every bootstrapping and key switching key with bounded errors, every message, function and ciphertext of it within the margin, every power-of-two message modulus, every content of the buffers and outputs, every N = 2^logN with 16 <= N <= 32768, every word size up to 64, GLWE rank, gadget and block size (blocks of one included) with c + bs (c + 2 bs if E > 1) at most 10^6, portable and AVX2 path; every complex exponential within 5*2^-52 of the exact one that returns binary64 numbers", "why_tests_cant": "a bootstrap that loses precision only for rare combinations of key, mask and position passes any sample; the worst case over all keys and ciphertexts is out of reach of runs", "anchors": ["tfhe/bootstrap.go", "tfhe/keyswitch.go", "tfhe/bootstrap_lut.go", "math/poly/fft.go"]}
{"id": "C72", "title": "Extended blind rotation on binary64 transforms", "statement": "blindRotateExtendedTo, computed on complex128 transforms with the monomial table, subtractions on transforms and in-place inverse transforms, by the portable loops or by the AVX2 and FMA kernels, returns a GLWE ciphertext of words; coefficient t of its phase is entry E t + (switched phase of the input) + d of the negacyclic table of E N entries, |d| <= 2E-2 and d = 0 if E divides the switched body, up to the noise of C33 plus D (1 + k N) per block, for any D+1 above (3 logN + 1 + c + 2 bs) 29 2^-53 2 bs c N^2 2^(w-1) 2^(b-1) + 1/2, c = (k+1) * level, bs the block size and b the bits of a gadget digit.", "quantifier": "every bootstrapping key that encrypts a block binary LWE key of at least two blocks, every ciphertext, table and modulus switch to [0, 2 E N], every content of the buffers, every E > 0, every N = 2^logN with 16 <= N <= 32768, every word size up to 64, every GLWE rank, gadget and block size with c + 2 bs at most 10^6, portable and AVX2 path; every complex exponential within 5*2^-52 of the exact one that returns binary64 numbers", "why_tests_cant": "the E accumulators are permuted, rotated and subtracted in place, and which of three cases applies depends on the switched coefficient; rounding errors and stale buffers show only for some keys, ciphertexts and positions", "anchors": ["tfhe/bootstrap.go", "tfhe/product.go", "tfhe/fft_glwe_ops.go", "math/poly/fft.go"]}
{"id": "C73", "title": "Arithmetic on transformed GLWE ciphertexts", "statement": "On ciphertexts held as k+1 transforms, the operations of tfhe/fft_glwe_ops.go and mktfhe/fft_glwe_ops.go act on the phase as named: sum, difference, negation, product with an integer constant, product with a complex constant a+bi (which multiplies the phase by a + b X^(N/2)), product with a transformed polynomial and with a polynomial of words, each also accumulating into or subtracting from the output; a permutation by odd d gives, under the permuted key, the permuted phase, in a new vector, in place, added or subtracted, and even d panics. The forward transform keeps the phase modulo 2^w and the inverse transform returns a ciphertext of words with that phase.", "quantifier": "every exact arithmetic of the transforms, every rank N = 2^n >= 16 (below 2^63 for permutations), every GLWE rank or number of parties k, every key, ciphertexts, constants, polynomials, exponents and buffer contents", "why_tests_cant": "no test calls these operations except through external products; a complex constant has an integer meaning only because all evaluation points are 1 modulo 4, which no sample of values shows", "anchors": ["tfhe/fft_glwe_ops.go:9-220", "mktfhe/fft_glwe_ops.go:9-207", "tfhe/fft_glwe_conv.go:61-85", "math/poly/fft_ops.go:141-239"]}
{"id": "C74", "title": "Gaussian sampler: exact uniforms, symmetric and bounded samples", "statement": "uniformFloat returns exactly the top 23 bits of its word over 2^23. Inverting the lowest bit of every word negates the result of normFloat and of Sample and takes the same number of words, so the distribution is symmetric. Every sample is finite; normFloat is at most 8.2 and a rounded sample at most 8.3 sd + 1 in absolute value, also in vectors and when added or subtracted. Sample panics exactly if sd < 0. The ziggurat tables are consistent: points accepted without a test lie under the next layer, widths rise and heights fall, and all layers have the same area up to 1.2e-11.", "quantifier": "every stream of uint32 words, every number of rounds, every math.Exp, every math.Log with Log 0 = -Inf and values in [-16, 0] on [2^-23, 1), every standard deviation up to 2^59, every word size up to 64, signed or not; every layer of the tables", "why_tests_cant": "the infinite sample needs two zero uniforms in the tail (about 2^-57 per sample), and statistical tests of the distribution cannot show exact symmetry or a hard bound", "anchors": ["math/csprng/gaussian_sampler.go:33-81", "math/csprng/gaussian_sampler.go:87-142", "math/csprng/gaussian_sampler.go:180-290"]}
{"id": "C75", "title": "Transformed GLev, GGSW and uni-encryptions: conversion and decryption", "statement": "Converting a GLev or GGSW ciphertext, a uni-encryption or a key to transformed form and back returns the same words; both conversions keep the encrypted polynomial and the noise, and the inverse one produces words. EncryptFFTGLev and EncryptFFTGGSW give exactly the transforms of what EncryptGLev and EncryptGGSW give with the same random words. DecryptFFTGLevPoly returns the encrypted polynomial modulo the gadget base when the noise of the first level is small enough, and on any ciphertext the same as DecryptGLevPoly before transforming. Integer messages encrypted by EncryptFFTGLevTo, EncryptFFTGGSWTo and FFTUniEncryptTo decrypt to themselves modulo the message modulus, absent ones to 0; FFTUniDecryptPoly returns the polynomial in [0, base).", "quantifier": "every word size, rank, GLWE rank, gadget, key, ciphertext, message vector of any length, random words, noises within the stated bound, and contents of all output and scratch buffers", "why_tests_cant": "the tests decrypt three fixed small messages per kind; the inverse conversions and the polynomial decryptors are not called, and the fault of FFTUniDecryptPoly shows only for coefficients near 0 with negative noise", "anchors": ["tfhe/fft_glwe_enc.go:56-177", "tfhe/fft_glwe_conv.go:30-141", "mktfhe/fft_glwe_enc.go:10-92", "mktfhe/fft_glwe_conv.go:28-118"]}
{"id": "C76", "title": "Cumulative table of the sanitization sampler on floats", "statement": "The table NewCDTSampler builds in float64 is nondecreasing, all its entries are 64-bit words, it has one entry per integer of the tail interval, and entry i is the word of the rounded sum of the first i+1 densities. Every conversion to uint64 is in range: a sum below 1 becomes its exact 64-bit truncation, any other the largest word. So the binary search of Sample returns offset plus the number of entries not above the random word, grows with the word, and stays in the table for words below the last entry. The tail interval ends at the floor and ceiling of centre -+ 12 deviations; for centres and deviations up to 2^46 it is not empty, the constructor returns, and with a centre in [0, 1) the samples below the last entry lie in it.", "quantifier": "every float64 centre whose floor is an int64, every deviation for which 2 sd sd and sqrt(2 pi) sd are positive and finite, every math.Exp that is zero or positive on all but NaN, every random word", "why_tests_cant": "monotonicity depends on the rounding of every addition, for every centre and deviation; sort.Search silently returns a wrong index on a table that is not sorted", "anchors": ["xtfhe/sanitization_sampler.go:33-62", "xtfhe/sanitization_sampler.go:75-83"]}
