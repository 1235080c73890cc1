{"id": "C01", "title": "Non-systematic FNT blocks: any k fragments recover the data", "statement": "Encode k equal-length data blocks with a non-systematic Fermat-field Reed-Solomon code (k data, m>=1 parities, word size 1 or 2 bytes). Erase any set of output fragments such that at least k of the k+m remain, keep the special-value records of the remaining ones. decode_blocks_vertical then returns true and every wanted data buffer holds exactly the bytes that were encoded.", "quantifier": "every k>=1, m>=1 with k+m and 2k at most 2^(8w); every packet size; every block length that is a multiple of the word size; every byte content; every erasure pattern with >= k survivors; every previous content of the output and scratch buffers", "why_tests_cant": "The number of erasure patterns is binomial in k+m and the data space is 256^(length*k); tests sample a few random patterns with random data and rarely hit the out-of-range symbol 2^(8w).", "anchors": ["src/fec_base.h: encode_blocks_vertical, decode_blocks_vertical, init_context_dec, decode_prepare, decode_apply", "src/fec_context.h: DecodeContext", "src/fec_rs_fnt.h: RsFnt", "src/fft_2n.h: Radix2"]}
{"id": "C02", "title": "Systematic FNT blocks: any k fragments recover the data", "statement": "Same as C01 for the systematic code: the k data blocks are stored as they are, m parity blocks are produced, and from any k of the k+m blocks decode_blocks_vertical rewrites every wanted data buffer with the original bytes.", "quantifier": "every k>=1, m>=1 within the field, packet size, block length multiple of the word size, byte content, erasure pattern with >= k survivors", "why_tests_cant": "Same combinatorial explosion as C01; systematic mode adds a different code path (interpolation in the encoder, an extra transform in the decoder).", "anchors": ["src/fec_rs_fnt.h: encode, decode_data", "src/fec_base.h: decode, decode_blocks_vertical"]}
{"id": "C03", "title": "Vertical streams round trip", "statement": "Encoding streams with encode_streams_vertical and decoding any k of the resulting streams with decode_streams_vertical writes back exactly the original streams, whatever the packet size and whether or not the stream length is a multiple of the packet size.", "quantifier": "all equal-length streams (length multiple of the word size), all packet sizes, all erasure patterns with >= k survivors", "why_tests_cant": "Stream length, packet size and erasure pattern interact (partial last packet, zero fill, empty stream); tests use one or two lengths.", "anchors": ["src/fec_base.h: encode_streams_vertical, decode_streams_vertical, read_pkt, write_pkt"]}
{"id": "C04", "title": "Horizontal streams round trip", "statement": "Encoding streams word by word with encode_streams_horizontal (non-systematic FNT) and decoding any k of the outputs with decode_streams_horizontal returns the original streams.", "quantifier": "all equal-length streams (length multiple of the word size) and all erasure patterns with >= k survivors", "why_tests_cant": "All data contents, lengths and patterns; the special symbol occurs with probability 1/65537 per symbol for 2-byte words.", "anchors": ["src/fec_base.h: encode_streams_horizontal, decode_streams_horizontal, decode, decode_prepare, decode_apply, readw, writew"]}
{"id": "C05", "title": "Too few fragments are refused and nothing is written", "statement": "If fewer than k fragments are available decode_blocks_vertical / decode_streams_* return false and no output buffer or stream is modified; if at least k are available they return true.", "quantifier": "every presence pattern, every buffer content", "why_tests_cant": "A test checks a few patterns; the claim is an exact equivalence over 2^(k+m) patterns.", "anchors": ["src/fec_base.h: decode_blocks_vertical, decode_streams_vertical, decode_streams_horizontal"]}
{"id": "C06", "title": "Systematic encoding is a codeword that contains the data verbatim", "statement": "For the systematic code the transform run by the encoder reproduces the data symbols unchanged at positions 0..k-1, and the parities are the values at the next m powers of the root of the unique polynomial of degree < k through the data.", "quantifier": "all k, m in range, all symbols", "why_tests_cant": "Universal over data; a test can only compare finitely many vectors.", "anchors": ["src/fec_rs_fnt.h: encode, decode_data, init_others"]}
{"id": "C07", "title": "Special values are recorded exactly and restored exactly", "statement": "During encoding the record of output fragment i contains location o exactly when the symbol at word offset o of that fragment is 2^(8w), in increasing order of location and each once; the byte buffers carry 0 at these places; decoding with the record restores the symbol at every packet, also when a packet boundary falls between two records.", "quantifier": "all symbol values, offsets, packet sizes, numbers of packets, fragments", "why_tests_cant": "The special value is rare in random data and packet boundaries multiply the cases.", "anchors": ["src/fec_rs_fnt.h: encode_post_process", "src/fec_base.h: decode_prepare", "src/property.h: Properties::in_range, is_marked"]}
{"id": "C08", "title": "Record header round trip", "statement": "fnt_serialize followed by fnt_deserialize on the same words returns the same locations in the same order whenever the records fit and locations are below 2^32; serialisation returns -1 without writing when they do not fit; deserialisation returns -1 without adding anything when the magic or the count is wrong.", "quantifier": "all lists of locations, all header capacities, all headers", "why_tests_cant": "All header contents and sizes, including the exactly-full one.", "anchors": ["src/property.h: fnt_serialize, fnt_deserialize"]}
{"id": "C09", "title": "Records text round trip", "statement": "Writing a record list with operator<< and reading it with operator>> gives back the same list of (location, marker) pairs.", "quantifier": "every list of pairs of 64-bit locations and 32-bit markers", "why_tests_cant": "All numbers and list lengths.", "anchors": ["src/property.cpp: operator>>, operator<<"]}
{"id": "C10", "title": "A hostile header never causes an out-of-bounds read", "statement": "fnt_deserialize reads only words inside the n_dwords it was given, for every content of these words.", "quantifier": "every header content and capacity", "why_tests_cant": "The bad case needs one of two count values in 2^32 (addition wraps).", "anchors": ["src/property.h: fnt_deserialize"]}
{"id": "C11", "title": "Serialisation stays inside the header and defines all of it", "statement": "fnt_serialize writes only inside the n_dwords it was given and every word of the header is defined afterwards (a function of the records only).", "quantifier": "every record list and capacity", "why_tests_cant": "The bad case is the exactly-full header, and a stale last word.", "anchors": ["src/property.h: fnt_serialize"]}
{"id": "C12", "title": "C API encode / erase / decode round trip", "statement": "quadiron_fnt32_encode, then loss of any fragments leaving at least n_data, then quadiron_fnt32_decode returns 0 and the payloads of the data buffers are the original ones, for systematic and non-systematic codes, whenever encode returned 0.", "quantifier": "word size 2, every n_data, n_parities, block size multiple of 2, content, erasure pattern with >= n_data survivors", "why_tests_cant": "Space of patterns and contents; in-place encoding over the data buffers in the non-systematic mode.", "anchors": ["src/quadiron_c.cpp: quadiron_fnt32_encode, quadiron_fnt32_decode", "src/quadiron_c.h"]}
{"id": "C13", "title": "C API reconstruct regenerates the lost fragment", "statement": "quadiron_fnt32_reconstruct called with a missing fragment index and at least n_data survivors returns 0 and the destination buffer holds the payload and header words that encoding had put there; no other buffer is modified.", "quantifier": "every destination index, erasure pattern, content", "why_tests_cant": "Patterns x destinations x contents.", "anchors": ["src/quadiron_c.cpp: quadiron_fnt32_reconstruct"]}
{"id": "C14", "title": "C API calls stay inside their arrays", "statement": "For every n_data, n_parities accepted by the constructor, encode, decode and reconstruct index only inside the vectors they allocate.", "quantifier": "every n_data, n_parities, both code types, every call", "why_tests_cant": "An out-of-bounds std::vector index usually goes unnoticed by a functional test; needs n_parities < n_data in systematic mode.", "anchors": ["src/quadiron_c.cpp: quadiron_fnt32_decode (reset metadata loop), quadiron_fnt32_reconstruct (wanted_idxs_vec)"]}
{"id": "C15", "title": "C API with 1-byte words on a SIMD build", "statement": "A coder created by quadiron_fnt32_new with word_size 1 recovers the data from any n_data fragments, also on builds with SIMD.", "quantifier": "every content, every n_data, n_parities, SIMD enabled", "why_tests_cant": "The C tests only use word size 2; the 32-bit SIMD kernels are tied to 65537.", "anchors": ["src/quadiron_c.cpp: quadiron_fnt32_new", "src/simd_fnt.h: card, mod_add, mod_mul", "src/fft_2n.cpp", "src/gf_ring.cpp"]}
{"id": "C16", "title": "Radix-2 transform is the DFT", "statement": "Radix2::fft of a vector of length at most the FFT length n returns at index j the sum over i of x_i * w^(i*j), with w the n-th root used by the object, including when the zero-padding shortcut is taken, whatever the output vector contained before.", "quantifier": "all n power of two dividing p-1, all data lengths, input lengths, inputs, previous outputs", "why_tests_cant": "All vectors over the field and all lengths up to 65536.", "anchors": ["src/fft_2n.h: Radix2::fft, init_bitrev, reverse_bitwise"]}
{"id": "C17", "title": "Inverse transform", "statement": "Radix2::ifft(fft(x)) = x and fft(ifft(y)) = y for full-length vectors; fft_inv is the DFT with the inverse root.", "quantifier": "all n power of two dividing p-1, all vectors", "why_tests_cant": "All vectors and lengths.", "anchors": ["src/fft_2n.h: Radix2::fft_inv, ifft, bit_rev_permute", "src/fft_base.h"]}
{"id": "C18", "title": "Packet transforms equal symbol-wise transforms", "statement": "Radix2::fft / fft_inv / ifft on Buffers give, for each symbol position of the packet, what the Vector version gives on the symbols of that position; this holds with two layers processed at a time, with an odd number of layers, for short inputs (fft_inv skips the zero half), and does not depend on what the output buffers contained.", "quantifier": "all packet sizes, lengths, inputs, previous output contents", "why_tests_cant": "Odd and even numbers of layers, non-power-of-two input lengths, stale memory.", "anchors": ["src/fft_2n.h: fft(Buffers), fft_inv(Buffers), butterfly_ct_two_layers_step_slow, butterfly_gs_step_simple_slow"]}
{"id": "C19", "title": "Bit reversal", "statement": "reverse_bitwise maps [0,n) one-to-one to itself, is its own inverse, and permuting by swaps twice restores the vector.", "quantifier": "all n = 2^b, all indices", "why_tests_cant": "All sizes.", "anchors": ["src/fft_2n.h: reverse_bitwise, init_bitrev, bit_rev_permute"]}
{"id": "C20", "title": "Prime field operations are arithmetic modulo p", "statement": "For operands below p, add, sub, neg, mul, div, exp and inv return the residue modulo p of the mathematical result, below p, with no machine wrap-around for the types and moduli the codes use.", "quantifier": "all primes p <= 2^(w-1), all operands below p, all exponents", "why_tests_cant": "65537^2 operand pairs for one modulus only; the general statement is for all p and w.", "anchors": ["src/gf_ring.h: add, sub, neg, mul, div, inv_bezout, exp_quick, exp_naive", "src/gf_prime.h: inv_exp"]}
{"id": "C21", "title": "Extended Euclid", "statement": "extended_gcd(a,b) returns g = gcd(a,b) with Bezout coefficients u,v: a*u+b*v = g, quotients satisfying the documented identities, with every intermediate value bounded by max(a,b) (no overflow of the signed double-width type), and terminates.", "quantifier": "all non-negative a, b not both zero", "why_tests_cant": "All pairs; the bounds are a loop invariant.", "anchors": ["src/arith.h: extended_gcd"]}
{"id": "C22", "title": "Chinese remainder", "statement": "chinese_remainder returns the unique x in [0, prod n_i) with x = a_i mod n_i for pairwise coprime moduli.", "quantifier": "all lists of pairwise coprime positive moduli and residues", "why_tests_cant": "All lists.", "anchors": ["src/arith.h: chinese_remainder"]}
{"id": "C23", "title": "Primality and factorisation", "statement": "is_prime(n) answers exactly whether n is prime for n >= 2; factor_prime(n) returns strictly increasing primes with positive exponents whose product is n; get_prime_factors, factor_distinct_prime, get_coprime_factors, get_proper_divisors and get_all_divisors agree with it.", "quantifier": "all n >= 1 of the machine type", "why_tests_cant": "All integers of the type.", "anchors": ["src/arith.h: is_prime, factor_prime, factor_distinct_prime, get_prime_factors, get_coprime_factors, get_proper_divisors, get_all_divisors"]}
{"id": "C24", "title": "Primitive roots, orders and n-th roots", "statement": "For a prime field the root chosen at construction generates all non-zero elements; get_order(x) is the multiplicative order of x; get_nth_root(n) for n dividing p-1 has order exactly n.", "quantifier": "all primes p, all elements, all divisors n", "why_tests_cant": "All fields.", "anchors": ["src/gf_ring.h: find_primitive_root, is_primitive_root, get_order, do_step_get_order, get_nth_root, check_order_naive"]}
{"id": "C25", "title": "Code length functions", "statement": "get_code_len_high_compo over the factors of an order returns a divisor of the order that is at least n; over a power of two it is the smallest power of two >= n; get_code_len returns a divisor >= n.", "quantifier": "all orders and all 2 <= n <= order", "why_tests_cant": "All orders and n; the documented minimality of get_code_len fails for some.", "anchors": ["src/arith.h: get_code_len_high_compo, get_code_len"]}
{"id": "C26", "title": "Integer helpers", "statement": "sqrt is the floor square root, log2 the floor logarithm, ceil2 the least power of two >= n, gcd the greatest common divisor, exp the power modulo 2^w, exp_mod the modular power when the modulus fits half the word, jacobi the Jacobi symbol.", "quantifier": "all inputs of the machine type", "why_tests_cant": "All integers of the type.", "anchors": ["src/arith.h: sqrt, log2, exp2, ceil2, is_power_of_2, gcd, exp, exp_mod, jacobi"]}
{"id": "C27", "title": "Packing bytes to words and back", "statement": "pack then unpack returns the original bytes; unpack then pack returns the symbols reduced modulo 2^(8w); sizes are preserved.", "quantifier": "all buffers, word sizes 1,2,4,8,16", "why_tests_cant": "All byte contents.", "anchors": ["src/vec_cast.h: pack, unpack"]}
{"id": "C28", "title": "Results do not depend on the packet size", "statement": "The blocks and the record lists produced by encoding, and the blocks produced by decoding, are the same for every packet size >= 1.", "quantifier": "all pairs of packet sizes, all data", "why_tests_cant": "All sizes and data.", "anchors": ["src/fec_base.h: encode_blocks_vertical, decode_blocks_vertical, pkt_size"]}
{"id": "C29", "title": "Only wanted outputs are written", "statement": "Block encoding and decoding modify only the buffers marked wanted and leave every byte beyond the last full word of the block untouched.", "quantifier": "all wanted patterns, all buffers", "why_tests_cant": "All patterns and contents.", "anchors": ["src/fec_base.h: encode_blocks_vertical, decode_blocks_vertical"]}
{"id": "C30", "title": "SIMD lane arithmetic equals field arithmetic", "statement": "On 16-bit lanes with q=257 and on 32-bit lanes with q=65537 the vector add, sub, neg and general multiply give the residue modulo q for all reduced operands; the fast multiply does so unless both operands are q-1; the butterfly kernels, which choose among three cases by the coefficient, equal the scalar butterflies for every coefficient and operand.", "quantifier": "all lane values below q, all coefficients below q", "why_tests_cant": "65537^3 triples of (coefficient, x, y).", "anchors": ["src/simd_fnt.h: mod_add, mod_sub, mod_neg, mod_mul, mod_mul_safe", "src/simd_radix2_fft.h: butterfly_ct, butterfly_gs, butterfly_simple_gs, get_case"]}
{"id": "C31", "title": "SIMD record detection equals the scalar one", "statement": "The vectorised encode_post_process records the same locations in the same order as the scalar loop, for every packet size.", "quantifier": "all packet sizes, all symbols of the field", "why_tests_cant": "Packet sizes around vector multiples, symbol positions.", "anchors": ["src/simd_radix2_fft.h: encode_post_process", "src/simd_fnt.h: add_props", "src/fec_vectorisation.cpp", "src/fec_rs_fnt.h"]}
{"id": "C32", "title": "Binary extension field arithmetic", "statement": "For GF(2^n) table (log) multiplication, split-table multiplication, division and inversion agree with polynomial arithmetic modulo the field polynomial over GF(2); every non-zero element has an inverse and inv computes it.", "quantifier": "n = 4, 8, 16 by tables, n = 32, 64, 128 by split tables, all operands", "why_tests_cant": "All operand pairs for 32- to 128-bit fields.", "anchors": ["src/gf_bin_ext.h: setup_tables, _mul_log, _mul_split, setup_split_tables, _inv_ext_gcd, div, inv"]}
{"id": "C33", "title": "NF4 lanes", "statement": "NF4 packs several 16-bit symbols into one word: unpack(pack(x, flags)) is the identity on the represented symbols, flags mark exactly the lanes equal to 65536, and add/sub/mul/inv/exp act on each lane as the field of 65537 elements, with no carry between lanes.", "quantifier": "all lane contents, 1 to 4 lanes", "why_tests_cant": "65537^(2*lanes) operand pairs.", "anchors": ["src/gf_nf4.h: pack, unpack, add, sub, mul, div, inv, exp, replicate, expand16, expand32"]}
{"id": "C34", "title": "Matrix inversion", "statement": "Matrix::inv returns a matrix B with A*B = B*A = I when A is invertible and throws otherwise.", "quantifier": "all square matrices over all fields", "why_tests_cant": "All sizes and entries.", "anchors": ["src/vec_matrix.h: inv, reduced_row_echelon_form, swap_rows, mul_row, add_rows"]}
{"id": "C35", "title": "Vandermonde matrix code: any k of n", "statement": "The systematic code over GF(2^n) built from the transformed Vandermonde matrix recovers the data from any k of the k+m fragments.", "quantifier": "all k, m with k+m <= 2^n, all data, all patterns", "why_tests_cant": "Every k x k sub-matrix must be invertible.", "anchors": ["src/vec_matrix.h: vandermonde, vandermonde_suitable_for_ec", "src/fec_rs_gf2n.h"]}
{"id": "C36", "title": "Cauchy matrix code: any k of n", "statement": "The systematic code over GF(2^n) built from the optimised Cauchy matrix recovers the data from any k of the k+m fragments.", "quantifier": "all k, m with k+m <= 2^n, all data, all patterns", "why_tests_cant": "Every square sub-matrix of the parity matrix must be invertible; the in-place optimisation breaks the Cauchy structure for rare index sets.", "anchors": ["src/vec_matrix.h: cauchy", "src/fec_rs_gf2n.h"]}
{"id": "C37", "title": "Naive, size-2, single and mixed-radix transforms are the DFT", "statement": "Naive, Size2, Single and CooleyTukey transforms return the DFT for their root, the inverse ones return the inverse DFT, for every length that divides the order of the multiplicative group.", "quantifier": "all lengths, all inputs", "why_tests_cant": "All factorizations of the length.", "anchors": ["src/fft_naive.h", "src/fft_2.h", "src/fft_single.h", "src/fft_ct.h"]}
{"id": "C38", "title": "Good-Thomas transform is the DFT", "statement": "The Good-Thomas transform over coprime factors returns the DFT, and its inverse the inverse DFT.", "quantifier": "all lengths with the coprime factorisation used, all inputs", "why_tests_cant": "All factorizations.", "anchors": ["src/fft_gt.h"]}
{"id": "C39", "title": "Additive FFT and Taylor expansion", "statement": "taylor_expand followed by inv_taylor_expand is the identity; the additive FFT evaluates the polynomial at every point of the subspace spanned by the basis and its inverse interpolates.", "quantifier": "all sizes m, all inputs over GF(2^n)", "why_tests_cant": "All polynomials.", "anchors": ["src/fft_add.h"]}
{"id": "C40", "title": "Polynomial helper operations", "statement": "Multiplying by (x+c) repeatedly from 1 gives the product of the factors; eval is Horner evaluation; derivative is the formal derivative; truncated mul is multiplication modulo x^n.", "quantifier": "all polynomials, all points", "why_tests_cant": "All degrees and coefficients.", "anchors": ["src/vec_poly.h: mul_to_x_plus_coef, eval, derivative, mul"]}
{"id": "C41", "title": "NF4 code: any k fragments recover the data", "statement": "The NF4 Reed-Solomon code recovers the data from any k fragments with the recorded out-of-range flags.", "quantifier": "all k, m, data, patterns", "why_tests_cant": "Patterns and contents.", "anchors": ["src/fec_rs_nf4.h", "src/gf_nf4.h"]}
{"id": "C42", "title": "Prime-field FFT code with 4-byte words", "statement": "RsGfpFft recovers the data from any k fragments.", "quantifier": "all k, m in range, data, patterns", "why_tests_cant": "Patterns and contents; large symbols.", "anchors": ["src/fec_rs_gfp_fft.h"]}
{"id": "C43", "title": "GF(2^n) multiplicative FFT code", "statement": "RsGf2nFft recovers the data from any k fragments.", "quantifier": "all k, m in range, data, patterns", "why_tests_cant": "Patterns and contents.", "anchors": ["src/fec_rs_gf2n_fft.h", "src/fec_base.h: decode_apply"]}
{"id": "C44", "title": "GF(2^n) additive FFT code", "statement": "RsGf2nFftAdd recovers the data from any k fragments, also when the evaluation point 0 is among them.", "quantifier": "all k, m in range, data, patterns", "why_tests_cant": "Patterns and contents.", "anchors": ["src/fec_rs_gf2n_fft_add.h", "src/fft_add.h"]}
{"id": "C45", "title": "Operation counters", "statement": "fft_op_counter and ifft_op_counter count exactly the butterflies executed by the transforms.", "quantifier": "all lengths and input lengths", "why_tests_cant": "All sizes.", "anchors": ["src/fft_2n.h: fft_op_counter, ifft_op_counter"]}
{"id": "C46", "title": "Vector views", "statement": "Slice, ZeroExtended and View return the elements of the base vector they describe (offset, step modulo the base length, zero after the end); copy pads with zeros.", "quantifier": "all offsets, steps, lengths", "why_tests_cant": "All index arithmetic.", "anchors": ["src/vec_slice.h", "src/vec_view.h", "src/vec_zero_ext.h", "src/vec_vector.h: copy"]}
{"id": "C47", "title": "Buffers views", "statement": "Buffers built by slicing, zero-extension, concatenation or shuffling expose exactly the described buffers, and every index below get_n() refers to an existing buffer.", "quantifier": "all sizes and maps", "why_tests_cant": "All sizes and maps; the shrinking shuffle indexes an empty vector.", "anchors": ["src/vec_buffers.h"]}
{"id": "C48", "title": "Context reuse", "statement": "Decoding the packets of a long fragment one after the other with one decoding context gives for every packet the result a fresh context would give: scratch buffers and record cursors carry nothing that changes later results.", "quantifier": "all sequences of packets and records", "why_tests_cant": "History dependence: all sequences.", "anchors": ["src/fec_context.h", "src/fec_base.h: decode_prepare, decode_apply"]}
{"id": "C49", "title": "Block and stream interfaces agree", "statement": "encode_blocks_vertical on blocks and encode_streams_vertical on streams with the same bytes produce the same bytes and the same records; likewise for decoding.", "quantifier": "all data with length a multiple of the word size", "why_tests_cant": "All data and lengths.", "anchors": ["src/fec_base.h: encode_blocks_vertical, encode_streams_vertical"]}
{"id": "C50", "title": "Vertical streams keep every byte also for odd lengths", "statement": "With 2-byte words, streams whose length is odd are also recovered by decoding any k fragments.", "quantifier": "all odd lengths", "why_tests_cant": "A test with even lengths never sees the truncated last word.", "anchors": ["src/fec_base.h: encode_streams_vertical, decode_streams_vertical"]}
{"id": "C51", "title": "Solovay-Strassen test", "statement": "For odd n with n*n representable, a round accepts exactly the bases a with a^((n-1)/2) = (a/n) modulo n; an odd prime is never rejected whatever the generator returns; for an odd composite n at least half of the units are rejected by a round; the whole test rejects iff one of the 100 bases is rejected.", "quantifier": "all odd n with n^2 <= 2^w, all widths, all generators", "why_tests_cant": "All moduli and all random generators.", "anchors": ["src/arith.h: solovay_strassen1, solovay_strassen, jacobi"]}
{"id": "C52", "title": "Prime fields with 128-bit elements", "statement": "The operations mul and inv of gf::Prime<__uint128_t> are those of the integers modulo p, and the inverse transform over it inverts the transform.", "quantifier": "all primes p < 2^127, all elements", "why_tests_cant": "The unit tests skip reciprocals for __uint128_t; all primes and elements.", "anchors": ["src/big_int.h: UInt256, Int256", "src/gf_ring.h: mul, inv_bezout", "src/arith.h: extended_gcd"]}
{"id": "C53", "title": "Large transforms over the integers modulo any m", "statement": "fft::Large computes the discrete Fourier transform modulo m (m need not be prime); with a principal root and m odd ifft undoes fft, products of transforms give cyclic convolutions, and hence products of numbers given by digits.", "quantifier": "all types of 16, 32 and 64 bits, all m that fit, all sizes 2^l, all roots, all vectors of words, any contents of the unset table entries", "why_tests_cant": "One modulus, one pair of numbers and random vectors are tested.", "anchors": ["src/fft_large.h: Large, _get_p, _pre_compute_consts, _fft, ifft"]}
{"id": "C54", "title": "Horizontal streams with the other codes", "statement": "For RsGfpFft, RsGf2nFft, RsGf2nFftAdd, RsGf2n and RsNf4: decode_streams_horizontal gives back the full words of the streams given to encode_streams_horizontal, from any k fragments and their records (in any order), appends only to the wanted streams, and returns false without writing anything when fewer than k fragments are there.", "quantifier": "all k, m and types in the domains of C35, C36, C41, C42, C43 and C44 (for Cauchy matrices the erasure patterns of C36; for RsNf4 words of 2, 4 and 8 bytes), all stream lengths and contents, all erasure patterns, any previous contents of the outputs, of the records and of the working memory", "why_tests_cant": "Tests use random streams of a few sizes; values out of range, which need records that go through several words, appear with probability 1/257 or 1/65537.", "anchors": ["src/fec_base.h:409-460 encode_streams_horizontal", "src/fec_base.h:560-680 decode_streams_horizontal", "src/fec_context.h:64-107"]}
{"id": "C55", "title": "Blocks and streams by packets, with the other codes", "statement": "For the codes other than RsFnt: decode_blocks_vertical and decode_streams_vertical give back the data given to encode_blocks_vertical and encode_streams_vertical from any k fragments and their records (in any order), write only the wanted outputs, and return false without changing anything when fewer than k fragments are there.", "quantifier": "all k, m, word sizes, types, packet sizes of the encoder and of the decoder, builds (none, SSE4.1, AVX2), lengths and contents, erasure patterns, and any previous contents of the outputs, of the buffers and of the context", "why_tests_cant": "Tests run these functions on RsFnt and RsNf4 with random data and one packet size; the value 65536 appears with probability 1/65537, and the functions are never called on the codes whose encode on Buffers is missing.", "anchors": ["src/fec_base.h:138-142", "src/fec_base.h:463-542 encode_streams_vertical", "src/fec_base.h:898-1048 decode_streams_vertical", "src/fec_base.h:1066-1151 encode_blocks_vertical", "src/fec_base.h:1177-1321 decode_blocks_vertical", "src/fec_rs_nf4.h:255-330", "src/vec_cast.h:70-163"]}
{"id": "C56", "title": "Allocator of aligned memory", "statement": "AlignedAllocator gives arrays aligned for the instruction set, inside of the memory obtained from operator new and apart from one another; writing in an array does not change another one nor the hidden offset of any; deallocate gives exactly the block of the array back to operator delete; allocate throws bad_alloc exactly when the size overflows or operator new fails; no assertion fails and no memory outside of the blocks is read or written.", "quantifier": "all instruction sets, element sizes and counts, all sequences of allocations, deallocations (in any order) and writes, all addresses given by operator new, all contents of the memory", "why_tests_cant": "The offset byte depends on the address given by the system: tests only see addresses aligned to 16 bytes, and a wrong offset may free a block of the same size class without any visible effect.", "anchors": ["src/simd/allocator.h:51-61 addr_is_aligned", "src/simd/allocator.h:80-114 allocate", "src/simd/allocator.h:116-132 deallocate", "src/simd/allocator.h:134-138 max_size"]}
{"id": "C57", "title": "Vector and Buffers free what they allocate, once", "statement": "A program that constructs, copies, moves, assigns, swaps and destroys vectors, and constructs, clones, slices, concatenates, shuffles, separates, swaps and destroys Buffers never frees a block twice nor reads one that was freed, and when its objects are destroyed, in any order, every block they allocated is free and none of the program's own blocks is.", "quantifier": "all programs (sequences of operations), all numbers of buffers and vectors, all orders of destruction", "why_tests_cant": "Leaks and double frees are invisible to assertions on contents; the combinations of slices, extensions and shuffles of shared buffers are unbounded.", "anchors": ["src/vec_vector.h:103-210", "src/vec_vector.h:269-276 set_mem", "src/vec_buffers.h:146-341 constructors and destructor", "src/vec_buffers.h:374-383 set", "src/vec_buffers.h:427-479"]}
{"id": "C58", "title": "Printing of 128-bit integers", "statement": "operator<< for __uint128_t and __int128_t writes exactly the decimal numeral of the number (with a minus sign for negative numbers, without leading zeros), never leaves its array of 128 characters, and sets the bad bit exactly when the stream does not take all the characters.", "quantifier": "all 128-bit integers, signed and unsigned, all streams (text already written, room left, format)", "why_tests_cant": "2^128 values; the extreme ones matter (the most negative number has no opposite), and streams with limited room are never tried.", "anchors": ["src/misc.cpp:35-54", "src/misc.cpp:56-79"]}
{"id": "C59", "title": "hex_dump", "statement": "hex_dump appends to the stream the bytes in lines of 32, each as two hexadecimal digits and a space, with the printable characters aligned at the end of each line if asked; it reads only the given bytes, never leaves its array of 33 characters, prints only strings that end in it, and leaves the flags and the fill character of the stream as they were; nothing happens for the null pointer.", "quantifier": "all sizes and contents, all previous contents of the array, all formats of the stream", "why_tests_cant": "The line counter is reset from the size before it is decremented: whether the last line is right depends on the size modulo 32; formats other than the default are never tried.", "anchors": ["src/misc.cpp:87-133 hex_dump"]}
{"id": "C60", "title": "Operations on packets and buffers of packets", "statement": "The packet functions of the rings (mul_coef_to_buf, add_two_bufs, sub_two_bufs, neg, hadamard_mul) and the buffer functions (mul_vec_to_vecp, add_vecp_to_vecp, sub_vecp_to_vecp, neg) compute the operation of the field on every element, write every packet they must and no other, whether or not the build uses the SIMD specialisations.", "quantifier": "all fields, all builds (no SIMD, SSE, AVX), all numbers and lengths of packets, all contents and coefficients", "why_tests_cant": "The branch taken depends on the coefficient, the lanes and the tail on the length, and the specialisations on the type only, not on the field: the tests run one build, few lengths and the fields that fit.", "anchors": ["src/gf_ring.h:363-451", "src/gf_ring.h:825-848", "src/gf_ring.cpp:38-118", "src/gf_base.h:78"]}
{"id": "C61", "title": "Random elements", "statement": "rand of a ring of q elements returns a non-zero element of the ring, every non-zero element can be returned, each by exactly one draw of the underlying uniform distribution (so that all are equally likely); NF4::rand returns exactly the words whose n numbers are non-zero elements of GF(65537), unpacked_rand can return every word of n 16-bit numbers, and Vector::rand fills every entry so.", "quantifier": "all types (8 to 128 bits), all numbers q of elements, all draws, all n", "why_tests_cant": "A test sees a few draws and checks at most that they are below the cardinal; that some elements cannot be drawn, or that others rarely come out of range, needs the bounds of the distributions for all q.", "anchors": ["src/gf_ring.h:151-175", "src/gf_ring.h:538-553", "src/gf_nf4.h:334-349", "src/vec_vector.h:463-469"]}
{"id": "C62", "title": "Powers of a root kept in a file", "statement": "compute_omegas_cached gives the powers 1, w, ..., w^(n-1) of the root whether they are computed or read back from the file written by an earlier call, for any sequence of calls, and never writes outside of the vector.", "quantifier": "all prime fields, all sequences of calls (vectors, lengths, roots), all other files in the directory", "why_tests_cant": "The function is never tested; the behaviour depends on the files left by all the earlier calls, also of other programs and other fields.", "anchors": ["src/gf_ring.h:502-537"]}
{"id": "C63", "title": "File driver: repair restores the set of files", "statement": "With each of its codes (rs-fnt, rs-fnt-sys, rs-gfp-fft, rs-nf4, rs-gf2n-fft, rs-gf2n-fft-add, rs-gf2n-v, rs-gf2n-c) the command line driver writes, from k data files, one fragment file and one record file per output; after any of these files have been removed, a run with -r puts every file of the set back with its former contents as long as at least k fragments (or all the data files) are left, reports failure otherwise, and no run changes any other file.", "quantifier": "all word sizes, k, m, file contents, file name prefixes, subsets of files removed, packet sizes of either run, other files in the directory", "why_tests_cant": "The test script removes a few chosen files of one set; which combination of lost data, fragment and record files goes through which branch, and that names never collide, needs all subsets and all counts of digits.", "anchors": ["test/ec_driver.cpp:77-286", "test/ec_driver.cpp:319-484"]}
{"id": "C64", "title": "Test chunks of the benchmark", "statement": "The generator of the benchmark returns 32-bit words (the rotation of a xorshift of its state) and, seeded with srandom, passes through all 2^64 states before it repeats; check_chunk accepts every chunk written by gen_chunk, stays inside the chunk, and rejects a chunk in which up to four consecutive bytes were changed.", "quantifier": "all states and seeds, all chunk sizes, all chunks, all changes of at most four consecutive bytes", "why_tests_cant": "The period is 2^64 and the number of corrupted chunks is astronomic; a benchmark run that finds no difference says nothing about which differences its checksum can see.", "anchors": ["benchmark/prng.h:38-127"]}
{"id": "C65", "title": "Fragments do not depend on the object that writes them", "statement": "Objects of one code with the same k, m and word size write the same fragments and the same records for the same data, whatever the type of their elements, the build (scalar or SIMD) and the contents of the memory they allocate; what any of them writes is decoded by any other. The file driver repairs with one object what it wrote with another.", "quantifier": "all pairs of objects (types wide enough, builds, initial memory), all data, all erasures that leave k fragments", "why_tests_cant": "The tests encode and decode with the same object in one process; a point, a root or a matrix that depended on the width of the type or on uninitialised memory would cancel out there and lose the data when another build reads the fragments.", "anchors": ["src/fec_base.h:298-316", "src/fec_rs_gf2n_fft.h:45-143", "src/fec_rs_gf2n_fft_add.h:46-243", "src/fec_rs_gf2n.h:48-165", "src/fec_rs_gfp_fft.h:74-237", "src/fec_rs_nf4.h:47-339", "src/gf_ring.h:625-660", "src/gf_ring.h:799-821"]}
{"id": "C66", "title": "The benchmark measures correct coding", "statement": "With parameters that it accepts, the benchmark rounds the chunk size up to the least multiple of the packet size, makes the code, and its three scenarios (encoding, decoding, both) end: every decoding from k random fragments repairs exactly the data chunks, the comparison and the checksums agree, all samples are counted. A decoder that changes up to four consecutive bytes of a chunk is reported as failed. The integer type chosen by default is the smallest of four bytes or more that the code is accepted with.", "quantifier": "all codes, k, m, chunk sizes, seeds, numbers of samples, initial contents of the chunks and of the memory of the objects, all sequences of shuffles", "why_tests_cant": "The benchmark is itself run for a few parameters with one seed; a scenario that loops for ever, or a size that is accepted and not repaired, shows only for the parameters nobody has tried.", "anchors": ["benchmark/benchmark.cpp:276-369", "benchmark/benchmark.cpp:395-540", "benchmark/benchmark.cpp:573-636", "benchmark/benchmark.cpp:696-731", "benchmark/benchmark.cpp:798-807", "benchmark/benchmark.h:264-275", "benchmark/iostreambuf.h:37-83"]}
{"id": "C67", "title": "The statistics of the benchmark", "statement": "After any sequence of values the statistics hold their number, their sum and the sum of their squares, and the number of which the deviation takes the square root is not negative.", "quantifier": "all sequences of 64-bit values", "why_tests_cant": "The squares of the durations of a usual run fit 64 bits; a long one wraps, and the deviation it prints is not a number.", "anchors": ["benchmark/stats.h:38-69"]}
{"id": "C68", "title": "The command line of the driver", "statement": "When every option of the driver is known, every name of a code is known and every number is an int, and -e, -w, -n, -m and -p are given with one of -c, -r and -u, the driver runs the code named by the last -e with the last values of -w, -n, -m and -p, repairs exactly when -r is given, and instantiates the code with a type of integers that is right for its word size; it runs nothing otherwise. A number is read as its decimal value, with white space and a sign before it. The number of fragments is limited to the size of the field when words have less than 4 bytes.", "quantifier": "all lists of options returned by getopt, all numbers, all codes and word sizes; the wrong acceptances hold for all word sizes of the stated ranges", "why_tests_cant": "The scripts use a few fixed command lines; the order of the options, repeated options, the limits and the sizes that no type has are not tried.", "anchors": ["test/ec_driver.cpp:38-42", "test/ec_driver.cpp:482-503", "test/ec_driver.cpp:505-683"]}
{"id": "C69", "title": "The threads of the benchmark do not interfere", "statement": "The benchmark starts a number of threads that share one set of parameters, of which they write the code and the size of the integer type. In every execution of any number of threads each thread should run the code that was asked for (or, by default, every code once), on the type of integers that belongs to it, print its results under the name of that code, and end.", "quantifier": "all interleavings of the accesses of any number of threads, all codes, word sizes and sizes of types", "why_tests_cant": "The order of the accesses of threads cannot be chosen in a test, and the wrong orders are rare.", "anchors": ["benchmark/benchmark.cpp:36-65", "benchmark/benchmark.cpp:542-570", "benchmark/benchmark.cpp:668-736", "benchmark/benchmark.cpp:813-817", "benchmark/benchmark.h:236-275"]}
{"id": "C70", "title": "Arithmetic on whole vectors, through slices and views", "statement": "Adding a vector to another (whole, at a place, or a part), multiplying the elements of two vectors, taking opposites, multiplying by a scalar or by the powers of an element, writing zeros and comparing act on the elements of the vector, whatever its class (vector, slice, view, zero-extended vector), each element once; no other element of the memory changes; sizes that do not match stop the program.", "quantifier": "all memories, rings, vectors of all classes, places, lengths and overlaps", "why_tests_cant": "The functions use the memory in place of the elements for some classes, and the result depends on the overlap of the vectors; tests use plain vectors.", "anchors": ["src/vec_vector.h:231-235", "src/vec_vector.h:278-369", "src/vec_vector.h:420-439", "src/vec_view.h:73-130", "src/vec_zero_ext.h:67-86"]}
{"id": "C71", "title": "Command line of the benchmark", "statement": "The benchmark runs with the numbers, the code and the scenario of its options: of an option given twice the last counts, an option that is not given has its default, a name or number that is not known ends the program before a thread is started. Numbers that make no sense (negative sizes and counts, sums that are not an int, numbers followed by letters) are refused, and a code is measured in the same way alone and with the others.", "quantifier": "all lists of options and arguments", "why_tests_cant": "There are infinitely many lists of options; the benchmark has no tests, and it returns 0 whatever happens.", "anchors": ["benchmark/benchmark.cpp:36-65", "benchmark/benchmark.cpp:276-319", "benchmark/benchmark.cpp:738-822", "benchmark/benchmark.h:121-177"]}
{"id": "C72", "title": "Operations on whole buffers", "statement": "Filling with zeros, filling one buffer, copying one buffer or all of them, exchanging two and comparing act on the contents of the buffers at the indices given and on no others; the soundness of the buffers is kept, a copy leaves its source as it was, and two sets of buffers are equal if and only if their numbers, sizes and contents are.", "quantifier": "all heaps, sets of buffers, indices and contents, including indices that share a buffer", "why_tests_cant": "The tests copy and compare a few freshly allocated buffers; slices share buffers with their source, and the padding of a slice is one buffer at many indices.", "anchors": ["src/vec_buffers.h:361-372", "src/vec_buffers.h:410-425", "src/vec_buffers.h:454-478"]}
{"id": "C73", "title": "What is printed of vectors, polynomials, matrices and buffers", "statement": "The text that dump prints has one line for a vector or a polynomial, one for each row of a matrix and one for each buffer; the numbers that can be read in a line are the elements, in order, after the index for a buffer and each with its exponent for a polynomial. Nothing is read outside of the object.", "quantifier": "all objects of all sizes, vectors of all classes, elements of up to 128 bits", "why_tests_cant": "The functions print to the standard output, which the tests do not look at, and are called for debugging only; the case of empty buffers is not tried.", "anchors": ["src/vec_vector.h:471-478", "src/vec_poly.h:243-253", "src/vec_matrix.h:432-455", "src/vec_buffers.h:480-493"]}
