{
 "claims": [
  {
   "property": "C01",
   "status": "proved",
   "theorems": [
    "C01_constructor",
    "C01_roundtrip"
   ],
   "note": "Word size 1 with 16/32/64/128-bit symbols, word size 2 with 32/64/128-bit symbols; builds without SIMD, and builds with 128- and 256-bit SIMD when uint16_t goes with 257 and uint32_t with 65537 (see C15); lost fragments replaced by anything; records in any order."
  },
  {
   "property": "C02",
   "status": "proved",
   "theorems": [
    "C01_constructor",
    "C02_roundtrip"
   ],
   "note": "Same setting as C01."
  },
  {
   "property": "C03",
   "status": "partial",
   "theorems": [
    "C03_nonsystematic",
    "C03_systematic_partial",
    "C03_all_present",
    "C03_refuted"
   ],
   "note": "Proved in full for non-systematic codes and, for systematic codes, whenever a data stream is missing. With all the data streams of a systematic code present the function returns true without writing anything (C03_all_present), so the full statement is false (C03_refuted)."
  },
  {
   "property": "C04",
   "status": "proved",
   "theorems": [
    "C04_roundtrip",
    "C04_any_length",
    "C04_same_as_vertical",
    "C04_decoding_as_vertical",
    "C04_systematic_overrun"
   ],
   "note": "Non-systematic codes, as the property says. For systematic codes the encoder writes past its vector (C04_systematic_overrun)."
  },
  {
   "property": "C05",
   "status": "partial",
   "theorems": [
    "C05_too_few",
    "C05_streams_too_few",
    "C05_horizontal_too_few",
    "C05_enough",
    "C05_horizontal_enough_partial",
    "C05_horizontal_systematic",
    "C05_horizontal_systematic_refuted"
   ],
   "note": "Blocks, vertical and horizontal streams. False for horizontal streams of systematic codes with a missing data stream: the call reads a record behind the table if and only if a fragment in use has a number of m or more (C05_horizontal_systematic), always if m <= k (C05_horizontal_systematic_refuted)."
  },
  {
   "property": "C06",
   "status": "proved",
   "theorems": [
    "C06_systematic"
   ],
   "note": ""
  },
  {
   "property": "C07",
   "status": "proved",
   "theorems": [
    "C07_recorded",
    "C07_restored",
    "C01_roundtrip",
    "C02_roundtrip"
   ],
   "note": ""
  },
  {
   "property": "C08",
   "status": "partial",
   "theorems": [
    "C08_roundtrip",
    "C08_same",
    "C08_layout",
    "C08_no_room",
    "C08_refused_partial",
    "C08_refuted",
    "C08_statement_false",
    "C08_location_refuted"
   ],
   "note": "Round trip proved whenever one word is to spare. The full statement is false: records that fill the header exactly are undefined behaviour (std::fill with first > last), and two counts wrap (C10)."
  },
  {
   "property": "C09",
   "status": "proved",
   "theorems": [
    "C09_text_roundtrip"
   ],
   "note": ""
  },
  {
   "property": "C10",
   "status": "partial",
   "theorems": [
    "C10_bounds_partial",
    "C10_read",
    "C10_refuted"
   ],
   "note": "The statement is false: a header with the magic and count 2^32-2 or 2^32-1 is read out of bounds; C10_bounds_partial shows these are the only ones."
  },
  {
   "property": "C11",
   "status": "partial",
   "theorems": [
    "C11_bounds_partial",
    "C11_defined_partial",
    "C11_refuted"
   ],
   "note": "The statement is false: undefined exactly when the records fill the header, and the last word is never written; both exact conditions are proved."
  },
  {
   "property": "C12",
   "status": "partial",
   "theorems": [
    "C12_constructor",
    "C12_encoded",
    "C12_roundtrip_partial",
    "C12_too_few",
    "C14_decode_overrun"
   ],
   "note": "32-bit symbols; words of 1 and 2 bytes without SIMD, words of 2 bytes with SIMD (see C15), blocks up to ws*2^32 bytes; systematic codes with at least as many parities as data (with fewer, decoding overruns an array: C14_decode_overrun)."
  },
  {
   "property": "C13",
   "status": "partial",
   "theorems": [
    "C13_reconstruct_partial",
    "C14_reconstruct_overrun"
   ],
   "note": "Every destination, missing or not. The last word of the header is never written, neither by encode nor by reconstruct. Systematic codes with at least as many parities as data (see C14_reconstruct_overrun)."
  },
  {
   "property": "C14",
   "status": "partial",
   "theorems": [
    "C12_encoded",
    "C12_roundtrip_partial",
    "C12_too_few",
    "C13_reconstruct_partial",
    "C14_encode_overrun",
    "C14_decode_overrun",
    "C14_reconstruct_overrun",
    "C14_encode_refuted",
    "C14_decode_refuted",
    "C14_reconstruct_refuted"
   ],
   "note": "The statement is false. In bounds: C12, C13. Out of bounds: decoding with a systematic code with fewer parities than data (always), reconstruction of missing data with such codes (always), encoding when the first header that overflows does so by exactly one word."
  },
  {
   "property": "C15",
   "status": "partial",
   "theorems": [
    "C15_refuted",
    "C12_roundtrip_partial"
   ],
   "note": "The statement is false: with SIMD the 32-bit kernels compute modulo 65537 whatever the field, and decoding returns 0 with wrong data. Without SIMD, and with SIMD for 2-byte words, C12_roundtrip_partial holds."
  },
  {
   "property": "C16",
   "status": "partial",
   "theorems": [
    "C16_object_exists",
    "C16_fft_partial",
    "C16_range",
    "C16_exact",
    "C16_fft_refuted",
    "C16_outside_refuted"
   ],
   "note": "False as stated. C16_exact: for inputs of a given length the transform stays inside its vectors and is the DFT for every input and old output exactly when max(data length, input length) is a power of two (all callers of the library pass such lengths). C16_range: the accesses are inside exactly when the FFT length divided by that maximum, rounded down, is a power of two; otherwise memory outside the vector is accessed in a build without assertions."
  },
  {
   "property": "C17",
   "status": "proved",
   "theorems": [
    "C17_fft_inv",
    "C17_roundtrip"
   ],
   "note": ""
  },
  {
   "property": "C18",
   "status": "partial",
   "theorems": [
    "C18_fft_partial",
    "C18_stale_refuted",
    "C18_fft_inv",
    "C18_ifft"
   ],
   "note": "fft_inv and ifft for all lengths. fft needs max(data length, input length) to be a power of two; C18_stale_refuted: for every other pair of lengths with accesses in range, some old contents of the output change the result."
  },
  {
   "property": "C19",
   "status": "proved",
   "theorems": [
    "C19_reverse_bits",
    "C19_permute"
   ],
   "note": "Lengths up to 2^31. The first turn of the loop shifts by an out-of-range amount in C++ when the value shifted is 0: modelled as 0."
  },
  {
   "property": "C20",
   "status": "proved",
   "theorems": [
    "C20_add",
    "C20_sub",
    "C20_neg",
    "C20_mul",
    "C20_exp",
    "C20_inv",
    "C20_div",
    "C20_fermat_primes",
    "C20_add_wide_refuted",
    "C20_inv_zero"
   ],
   "note": "The refutation shows that the bound 2p <= 2^w is needed."
  },
  {
   "property": "C21",
   "status": "proved",
   "theorems": [
    "C21_extended_gcd",
    "C21_extended_gcd_bounds"
   ],
   "note": ""
  },
  {
   "property": "C22",
   "status": "partial",
   "theorems": [
    "C22_chinese_remainder",
    "C22_machine_partial",
    "C22_exact",
    "C22_overflow_refuted"
   ],
   "note": "C22_chinese_remainder is over unbounded integers. With the checked machine arithmetic of types of 16, 32 and 64 bits the result is right for all reduced residues if and only if the product of the moduli is at most 2^w (C22_exact); C22_overflow_refuted is a case beyond. For the 128-bit type the function does not compile: Int256 (big_int.h) has neither *= nor +=."
  },
  {
   "property": "C23",
   "status": "proved",
   "theorems": [
    "C23_is_prime",
    "C23_factor_prime",
    "C23_get_prime_factors",
    "C23_factor_distinct_prime",
    "C23_get_coprime_factors",
    "C23_get_proper_divisors",
    "C23_get_all_divisors",
    "C23_is_prime_small_refuted",
    "C23_get_all_divisors_nodup_refuted"
   ],
   "note": ""
  },
  {
   "property": "C24",
   "status": "proved",
   "theorems": [
    "C24_primitive_root",
    "C24_get_order",
    "C24_get_nth_root",
    "C24_check_order_naive_refuted"
   ],
   "note": ""
  },
  {
   "property": "C25",
   "status": "proved",
   "theorems": [
    "C25_get_code_len_high_compo",
    "C25_get_code_len_high_compo_none",
    "C25_code_len_fermat",
    "C25_get_code_len",
    "C25_get_code_len_smallest_refuted",
    "C25_high_compo_one_refuted"
   ],
   "note": "n >= 2 for the high-composite function."
  },
  {
   "property": "C26",
   "status": "proved",
   "theorems": [
    "C26_sqrt",
    "C26_exp",
    "C26_exp_mod",
    "C26_exp_mod_wide_refuted",
    "C26_is_power_of_2",
    "C26_log2",
    "C26_ceil2",
    "C26_gcd",
    "C26_odd_moduli",
    "C26_jacobi",
    "C26_jacobi_domain"
   ],
   "note": "The Jacobi symbol is specified by Legendre symbols over a list of odd primes; every positive odd modulus has such a list."
  },
  {
   "property": "C27",
   "status": "proved",
   "theorems": [
    "C27_pack_unpack",
    "C27_unpack_pack"
   ],
   "note": "Little-endian host."
  },
  {
   "property": "C28",
   "status": "proved",
   "theorems": [
    "C28_encoding",
    "C28_decoding",
    "C28_decoding_any"
   ],
   "note": ""
  },
  {
   "property": "C29",
   "status": "proved",
   "theorems": [
    "C29_encoding",
    "C29_decoding"
   ],
   "note": ""
  },
  {
   "property": "C30",
   "status": "proved",
   "theorems": [
    "C30_lanes",
    "C30_fast_mul",
    "C30_butterflies",
    "C30_packets",
    "C30_sums",
    "C30_fft",
    "C30_fft_inv"
   ],
   "note": "Registers as bytes, 128 and 256 bits; also the transforms built from the kernels, packets of every size. The multiplication of a packet by a coefficient requires a coefficient below q-1 (it uses the fast product); all callers satisfy it."
  },
  {
   "property": "C31",
   "status": "proved",
   "theorems": [
    "C31_records",
    "C31_same_as_scalar"
   ],
   "note": ""
  },
  {
   "property": "C32",
   "status": "partial",
   "theorems": [
    "C32_moduli",
    "C32_elements",
    "C32_construct",
    "C32_add",
    "C32_mul",
    "C32_div",
    "C32_inv",
    "C32_exp",
    "C32_log",
    "C32_field",
    "C32_primitive_root",
    "C32_div_zero",
    "C32_restricted_refuted",
    "C32_full_type_refuted"
   ],
   "note": "Proved for every supported pair (type of 8 to 128 bits, n = 1, 2, 3, 4, 8, 16, 32, 64, 128, and n < width for the fields with logarithm tables): construction succeeds, the operations are those of polynomials modulo the irreducible field polynomial, discrete logarithms, generator. The pairs left out, 8-bit elements in an 8-bit type and 16-bit elements in a 16-bit type, are false whatever the new arrays hold (C32_full_type_refuted). Division by zero and inv(0) do not fail: C32_div_zero."
  },
  {
   "property": "C33",
   "status": "proved",
   "theorems": [
    "C33_word",
    "C33_add",
    "C33_sub",
    "C33_mul",
    "C33_neg",
    "C33_exp",
    "C33_inv",
    "C33_div",
    "C33_log",
    "C33_replicate",
    "C33_hadamard",
    "C33_pack",
    "C33_unpack",
    "C33_marks",
    "C33_marks_bit",
    "C33_unpack_pack",
    "C33_pack_unpack",
    "C33_check",
    "C33_check_refuted"
   ],
   "note": "Any number of elements for the generic functions, 1 to 4 for the 128-bit specialisations with SSE and AVX2 registers. Besides: check() accepts words that are not made of elements when there is more than one of them (C33_check_refuted)"
  },
  {
   "property": "C34",
   "status": "proved",
   "theorems": [
    "C34_bin",
    "C34_prime"
   ],
   "note": "over the fields of 2^n elements of gf_bin_ext.h and the prime fields; squares of every size; the model keeps the two passes of reduced_row_echelon_form as the code has them"
  },
  {
   "property": "C35",
   "status": "proved",
   "theorems": [
    "C35_code",
    "C35_encoding",
    "C35_fragments"
   ],
   "note": "word level (encode, decode_add_data, decode_add_parities, decode_build, decode of fec_rs_gf2n.h); the buffers around are those of C12, C13 and C48"
  },
  {
   "property": "C36",
   "status": "partial",
   "theorems": [
    "C36_partial",
    "C36_undecodable",
    "C36_decodable",
    "C36_sound",
    "C36_refuted"
   ],
   "note": "The statement fails: with 4 data and 3 parities a loss of data 0, 1 and 3 cannot be decoded from the other four fragments.  Exactly characterised: decoding throws if data 0 is lost, parity 0 is in use and the exclusive or of the numbers of the parities in use and of m + j for the other lost data j is 1, and gives the data back for all the other patterns."
  },
  {
   "property": "C37",
   "status": "partial",
   "theorems": [
    "C37_naive_prime_partial",
    "C37_naive_buffers_prime_partial",
    "C37_cooley_tukey_prime_partial",
    "C37_naive_bin_partial",
    "C37_naive_buffers_bin_partial",
    "C37_cooley_tukey_bin_partial",
    "C37_size2",
    "C37_single",
    "C37_naive_refuted",
    "C37_cooley_tukey_refuted",
    "C37_length_one_refuted",
    "C37_index_refuted",
    "C37_naive_buffers_refuted",
    "C37_cooley_tukey_buffers_refuted"
   ],
   "note": "Proved over the prime fields and the fields of 2^n elements for every length above 1 whose matrices of powers have indices that fit an int, for vectors, nested views included, that lie anywhere. False of the code: length 1 and prime factors from 46342 on (overflow), CooleyTukey with the length as index of the first factor as fec_rs_gfp_fft.h passes it, transforms of buffers by CooleyTukey (none is done) and the inverse transform of buffers by Naive over fields of 2^n elements (multiplication by 0 when the inverse of n is even). Buffers: builds without SIMD, and with SSE or AVX for the field that the specialisations compute in (257 in 16 bits, 65537 in 32 bits) or the types that have none; see C60 for the others"
  },
  {
   "property": "C38",
   "status": "partial",
   "theorems": [
    "C38_prime_partial",
    "C38_bin_partial",
    "C38_refuted"
   ],
   "note": "Proved over both families of fields for every length above 1 for which no index overflows (n n1 < 2^31, n n2 <= 2^w, powers of primes up to 46341). False beyond: C38_refuted"
  },
  {
   "property": "C39",
   "status": "partial",
   "theorems": [
    "C39_taylor_partial",
    "C39_additive",
    "C39_default",
    "C39_taylor_refuted",
    "C39_large_refuted"
   ],
   "note": "Proved over every supported GF(2^n): the transform for every independent basis and for the default basis of every dimension up to n, both inverses; the Taylor expansions for every t above 1, the way back when the length of the expansion is a multiple of t. False of the code: other lengths (C39_taylor_refuted), and dimensions above n, which the constructor accepts (C39_large_refuted)"
  },
  {
   "property": "C40",
   "status": "proved",
   "theorems": [
    "C40_product",
    "C40_mul_to_x_plus_coef",
    "C40_eval",
    "C40_derivative",
    "C40_mul",
    "C40_neg",
    "C40_mul_degree_refuted"
   ],
   "note": "Over every presented field. The truncated product leaves the degree member and the coefficients above deg_out unchanged, so that the product cannot be evaluated afterwards (C40_mul_degree_refuted)."
  },
  {
   "property": "C41",
   "status": "partial",
   "theorems": [
    "C41_rs_nf4_partial",
    "C41_odd_refuted",
    "C41_long_data_refuted"
   ],
   "note": "Vectors; words of 2 to 8 bytes (1 to 4 numbers of 16 bits), generic functions for T of 32, 64 and 128 bits and the 128-bit specialisations with SSE and AVX2 registers, all k, m with k + m and 2 k up to 65536, all erasure patterns, any words encoded and decoded in order with the recorded flags, any content of the scratch memory. False of the code: the last byte of words of 3, 5 and 7 bytes is dropped (C41_odd_refuted); more than 32768 data fragments are refused (C41_long_data_refuted)."
  },
  {
   "property": "C42",
   "status": "partial",
   "theorems": [
    "C42_rs_gfp_fft_partial",
    "C42_word3_refuted",
    "C42_long_data_refuted",
    "C42_simd_refuted"
   ],
   "note": "Vectors; words of 1, 2 and 4 bytes, types of 16, 32 and 64 bits that hold the field (over __uint128_t the field is wrong: C52), builds without SIMD, with SSE and with AVX, all erasure patterns, any words encoded and decoded in order with the records of out-of-range values, any content of the scratch memory; all k, m that the group allows for 1 and 2 bytes; for 4 bytes k up to 4096 and k + m up to 23994368 (beyond, the only length, 2^32 + 24576, does not fit the sizes of the transforms). False for words of 3 bytes (C42_word3_refuted), for more than 4096 data with words of 4 bytes (C42_long_data_refuted), and for words of 1 byte in uint32_t in a build with SIMD as soon as the vectors fill a register (C42_simd_refuted: k = 2 with SSE, k = 3 with AVX)."
  },
  {
   "property": "C43",
   "status": "partial",
   "theorems": [
    "C43_rs_gf2n_fft_partial",
    "C43_domain",
    "C43_refuted"
   ],
   "note": "Vectors; GF(2^8), GF(2^16), GF(2^32), GF(2^64), GF(2^128), all widths of T that hold them, all k, m for which the constructor succeeds (C43_domain is an equivalence), all erasure patterns, all data, any content of the scratch memory. False for the other k, m: over GF(2^32) and above the lengths beyond the product of the small prime factors of the order overflow an int (C43_refuted)."
  },
  {
   "property": "C44",
   "status": "partial",
   "theorems": [
    "C44_rs_gf2n_fft_add",
    "C44_context_refuted"
   ],
   "note": "Proved for every supported GF(2^(8 word_size)), k and m with k + m up to the size of the field and 2 k below it, words of k symbols and sets of k fragments, for a context used any number of times. Vectors (encode, init_context_dec, decode_apply). False of the code when 2 k reaches the size of the field (C44_context_refuted)"
  },
  {
   "property": "C45",
   "status": "proved",
   "theorems": [
    "C45_fft",
    "C45_fft_inv",
    "C45_fft_inv_vec",
    "C45_fft_inv_vec_refuted"
   ],
   "note": "The transforms are run on symbols that carry a tally; the sum of the tallies equals the counters, with closed forms for the number of butterflies.  The inverse transform of vectors shorter than n executes as many butterflies as counted, but not the cheap ones that the counter assumes (C45_fft_inv_vec_refuted): the counter describes the packet version."
  },
  {
   "property": "C46",
   "status": "partial",
   "theorems": [
    "C46_slice",
    "C46_set_map",
    "C46_view",
    "C46_zero_extended",
    "C46_view_write",
    "C46_copy",
    "C46_swap",
    "C46_fill",
    "C46_slice_of_view_refuted",
    "C46_copy_slice_refuted",
    "C46_swap_view_refuted",
    "C46_zero_extended_write_refuted",
    "C46_copy_offset_refuted"
   ],
   "note": "Reads, writes, copies, swaps and fills of vectors, slices, views and zero-extended vectors, for all lengths, offsets and maps. False of the code and refuted with witnesses: slices of views, copies between slices, swap through a view, writes to a zero-extended vector, copies with an offset."
  },
  {
   "property": "C47",
   "status": "partial",
   "theorems": [
    "C47_full",
    "C47_clone",
    "C47_slice",
    "C47_concat",
    "C47_shuffle",
    "C47_even_odd",
    "C47_shuffle_shrink_undefined",
    "C47_shuffle_shrink_refuted",
    "C47_shuffle_empty_refuted",
    "C47_slice_after_end",
    "C47_clone_mem_len_refuted",
    "C47_odd_undefined"
   ],
   "note": "Allocation, clones, slices, zero extension, concatenation, extending shuffles and the separation of even and odd indices, for all sizes and maps. False of the code: every shrinking shuffle with a non-empty map indexes an empty std::vector, also on the example of its comment; slices that begin after the end; the memory length of a full clone."
  },
  {
   "property": "C48",
   "status": "proved",
   "theorems": [
    "C48_reuse",
    "C07_restored"
   ],
   "note": "Symbols: any valid values. Cursors: C07_restored."
  },
  {
   "property": "C49",
   "status": "partial",
   "theorems": [
    "C49_encoding",
    "C49_decoding_partial",
    "C03_all_present"
   ],
   "note": "Decoding: any fragments, also not from an encoder. With all the data streams of a systematic code present the stream function writes nothing (C03_all_present), so the statement is false there."
  },
  {
   "property": "C50",
   "status": "partial",
   "theorems": [
    "C50_partial",
    "C50_refuted"
   ],
   "note": "The statement is false: two different inputs of odd length have the same fragments 0 and 2. C50_partial: all full words are recovered for any length."
  },
  {
   "property": "C51",
   "status": "proved",
   "theorems": [
    "C51_round",
    "C51_prime",
    "C51_composite",
    "C51_rejects",
    "C51_nonunits_refuted",
    "C51_two_refuted",
    "C51_wide_refuted"
   ],
   "note": "Bases that are not units may pass for a composite number, the prime 2 raises an exception, and for n^2 > 2^w the products wrap (refuted witnesses)."
  },
  {
   "property": "C52",
   "status": "partial",
   "theorems": [
    "C52_mul_partial",
    "C52_mul_refuted",
    "C52_inv_partial",
    "C52_inv_refuted",
    "C52_transform_refuted"
   ],
   "note": "The statement is false. Products are right for p <= 2^64 and wrap for wider primes; inv is exactly described: right when the inverse is below p/2, wrong otherwise; the inverse transform is wrong (witness)."
  },
  {
   "property": "C53",
   "status": "proved",
   "theorems": [
    "C53_fft",
    "C53_round_trip",
    "C53_convolution",
    "C53_product"
   ],
   "note": "Over gf::Prime<T> with T of 16, 32 or 64 bits and any modulus m >= 2 (odd for the inverse); the versions for Buffers are empty in the code."
  },
  {
   "property": "C54",
   "status": "proved",
   "theorems": [
    "C54_rs_gfp_fft",
    "C54_rs_gf2n_fft",
    "C54_rs_gf2n_fft_add",
    "C54_rs_gf2n",
    "C54_rs_nf4"
   ],
   "note": "In the domains of the claims about words (C35, C36, C41, C42, C43, C44), outside of which they are refuted or not covered; for Cauchy matrices all the erasure patterns but those that C36_undecodable shows to fail; RsNf4 with words of 2, 4 and 8 bytes (6 fails an assertion of readw)."
  },
  {
   "property": "C55",
   "status": "partial",
   "theorems": [
    "C55_nf4_partial",
    "C55_other_codes_refuted",
    "C55_word_size_refuted"
   ],
   "note": "Proved for RsNf4 with words of 2, 4 and 8 bytes, the domain of C41.  False for RsGf2n, RsGf2nFft, RsGf2nFftAdd and RsGfpFft, which inherit the empty encode on Buffers (with any decoder), and for RsNf4 with words of 3, 5, 6 and 7 bytes, which vec::pack ignores."
  },
  {
   "property": "C56",
   "status": "proved",
   "theorems": [
    "C56_allocator",
    "C56_aligned",
    "C56_refused"
   ],
   "note": "Memory as a function from 64-bit addresses to bytes and a list of blocks; operator new is any function that gives new blocks that end below 2^64 or fails."
  },
  {
   "property": "C57",
   "status": "partial",
   "theorems": [
    "C57_ownership_partial",
    "C57_assign_refuted",
    "C57_set_full_refuted",
    "C57_set_wrap_refuted",
    "C57_copy_moved_refuted"
   ],
   "note": "Proved for all the operations but four, which are refuted: the assignment that the compiler writes for Buffers (double free), set on fully allocated Buffers (leak, and a block of another owner freed), set on Buffers made from a vector of pointers (frees a block it does not own), and the copy of a vector that was moved from (read through the null pointer).  Calls that fail an assertion (C47) are outside."
  },
  {
   "property": "C58",
   "status": "partial",
   "theorems": [
    "C58_unsigned",
    "C58_signed_partial",
    "C58_smallest_refuted",
    "C58_numeral_unique"
   ],
   "note": "Proved for all the unsigned numbers and all the signed ones but -2^127, whose negation overflows (C58_smallest_refuted)."
  },
  {
   "property": "C59",
   "status": "partial",
   "theorems": [
    "C59_hex_dump_partial",
    "C59_cut_unique",
    "C59_null",
    "C59_left_refuted",
    "C59_showbase_refuted"
   ],
   "note": "Proved for streams without limit of room whose flags are not left or showbase, with which the dump is wrong (C59_left_refuted, C59_showbase_refuted).  isprint in the C locale."
  },
  {
   "property": "C60",
   "status": "partial",
   "theorems": [
    "C60_prime_partial",
    "C60_bin_partial",
    "C60_minus_one_refuted",
    "C60_simd_prime_refuted",
    "C60_simd_bin_refuted",
    "C60_card_zero_refuted"
   ],
   "note": "All numbers and lengths of packets, contents, builds without SIMD and, with SSE or AVX, the types without specialisation and the fields 257 in 16 bits and 65537 in 32 bits; every coefficient for prime fields, every one but 2^n - 1 for fields of 2^n elements. False of the code otherwise: mul_vec_to_vecp takes the coefficient 2^n - 1 for -1 and copies the packet (C60_minus_one_refuted); with SIMD the functions in 16 and 32 bits compute modulo 257 and 65537 whatever the field (C60_simd_prime_refuted, C60_simd_bin_refuted); over GF(2^32) in uint32_t the tail divides by zero (C60_card_zero_refuted)."
  },
  {
   "property": "C61",
   "status": "partial",
   "theorems": [
    "C61_ring_partial",
    "C61_unreachable_refuted",
    "C61_unreachable_128_refuted",
    "C61_outside_refuted",
    "C61_short_refuted",
    "C61_vector_partial",
    "C61_vector_all",
    "C61_nf4",
    "C61_nf4_unpacked"
   ],
   "note": "Proved for rings of at most 2^64 elements in all types (but 2^w elements in a type of 8 or 16 bits, where 0 is drawn: C61_short_refuted), for NF4 and for vectors. False above 2^64 elements in __uint128_t: the element 2^64 is never drawn, and numbers outside of the ring are drawn exactly when q / 2^64 <= q mod 2^64, for instance for 2^64 + 13. The distribution itself is that of the standard library."
  },
  {
   "property": "C62",
   "status": "partial",
   "theorems": [
    "C62_session_partial",
    "C62_orders",
    "C62_length_refuted",
    "C62_field_refuted"
   ],
   "note": "Prime fields in one type; any sequence of calls in one field in which each root always comes with the same length, in particular its order; opening, reading and writing files succeeds. False otherwise: the name of the file has the root only, so another length fails (C62_length_refuted) and another field gets the powers of the first (C62_field_refuted: 4 modulo 11 and 31). Over __uint128_t the function does not compile (no operator>>)."
  },
  {
   "property": "C63",
   "status": "partial",
   "theorems": [
    "C63_repair",
    "C63_rs_gf2n_fft",
    "C63_rs_gf2n_fft_add",
    "C63_rs_gf2n",
    "C63_rs_gfp_fft",
    "C63_rs_nf4",
    "C65_rs_gf2n_fft",
    "C65_rs_gf2n_fft_add",
    "C65_rs_gf2n",
    "C65_rs_gfp_fft",
    "C65_rs_nf4",
    "C65_rs_fnt_files",
    "C63_too_few_refuted",
    "C63_records_refuted"
   ],
   "note": "All the codes of the driver, for the parameters of C54 (C40 for rs-fnt); data files of one length that is a multiple of the word size, reading and writing files succeeds, every remaining fragment has its record file; the two runs may use objects of different types and initial memory (C65 theorems). For rs-gf2n-c the erasures that C36 excludes are excluded. False with too few fragments: the run reports nothing and empties all the files (C63_too_few_refuted for rs-fnt, files_emptied in the theorems of the other codes); a lost record file gives wrong data silently (C63_records_refuted)."
  },
  {
   "property": "C64",
   "status": "partial",
   "theorems": [
    "C64_output",
    "C64_period",
    "C64_srandom",
    "C64_chunk",
    "C64_detect_partial",
    "C64_detect_small_partial",
    "C64_detect_refuted",
    "C64_small_refuted",
    "C64_empty_refuted",
    "C64_default_refuted"
   ],
   "note": "Words, period, chunks: all states. Changes are seen if they do not cross the end of the checksum (or in chunks of 2 and 3 bytes if one byte is changed); C64_detect_refuted: four bytes across it are not always seen. C64_small_refuted: below four bytes an equal change of all bytes is not seen; size 0 is written and read outside of the chunk (C64_empty_refuted); without srandom the default generator is constantly 0 (C64_default_refuted)."
  },
  {
   "property": "C65",
   "status": "proved",
   "theorems": [
    "C65_rs_gf2n_fft",
    "C65_rs_gf2n_fft_add",
    "C65_rs_gf2n",
    "C65_rs_gfp_fft",
    "C65_rs_nf4",
    "C65_rs_fnt",
    "C65_rs_fnt_streams",
    "C65_rs_fnt_files"
   ],
   "note": "All codes, for the parameters of C54 (C01 for rs-fnt). For rs-gf2n-c the erasures that C36 excludes are excluded from decoding. Objects of rs-gfp-fft: the builds for which C54 holds (gfp_build_ok); of rs-fnt: fnt_build, any packet sizes. As in C03, a systematic rs-fnt decoder that has all the data streams writes nothing."
  },
  {
   "property": "C66",
   "status": "partial",
   "theorems": [
    "C66_rs_fnt",
    "C66_rs_nf4",
    "C66_rs_gf2n_fft",
    "C66_rs_gf2n_fft_add",
    "C66_rs_gf2n",
    "C66_rs_gfp_fft",
    "C66_chunk_size",
    "C66_default_type",
    "C66_accepted_repair",
    "C66_detects",
    "C66_accepted_fnt_partial",
    "C66_word_size_refuted",
    "C66_tail_refuted",
    "C66_accepted_fnt_refuted",
    "C66_empty_refuted",
    "C66_no_parity_refuted",
    "C66_all_refuted"
   ],
   "note": "The three scenarios with all the codes (rs-fnt on packets, rs-nf4 on packets and words, the other ones on words), for chunk sizes that are positive multiples of the word size; a scenario that runs out of shuffles of the list given is waiting for the next one (BMore). For rs-gf2n-c the erasures that C36 excludes are excluded. A wrong repair of up to four consecutive bytes of a chunk is always reported (C66_detects). Missing because false of the code: words of three bytes are accepted and no code can be made (C66_word_size_refuted), packet size 0 lets chunk sizes through that are not multiples of the word size (C66_tail_refuted), too many data for rs-fnt (C66_accepted_fnt_refuted), chunks of size 0 (C66_empty_refuted), no parity with a systematic code (C66_no_parity_refuted), the type of integers with -e all (C66_all_refuted)."
  },
  {
   "property": "C67",
   "status": "partial",
   "theorems": [
    "C67_stats",
    "C67_deviation_refuted"
   ],
   "note": "Number, sum and sum of squares modulo 2^64; the number under the square root is not negative while nothing wraps, and negative for a single value 2^32 (C67_deviation_refuted). The floating-point operations are not modelled."
  },
  {
   "property": "C68",
   "status": "partial",
   "theorems": [
    "C68_numbers",
    "C68_run",
    "C68_only",
    "C68_rs_gf2n",
    "C68_rs_gf2n_fft",
    "C68_rs_gf2n_fft_add",
    "C68_rs_gfp_fft",
    "C68_rs_nf4",
    "C68_rs_fnt",
    "C68_silent_refuted",
    "C68_negative_refuted",
    "C68_word_refuted",
    "C68_fnt_limit_refuted"
   ],
   "note": "The options are read as stated and the type fits the code; C68_rs_* compose this with C63, from the options (without -t) to the files given back, for every code of the driver. Not true as such: sizes of more than 16 bytes end silently with status 0, a negative size is an undefined shift, sizes such as 3 bytes are run with rs-gf2n though there is no such field, and the check for rs-fnt allows 257 fragments of one byte. getopt itself is not modelled."
  },
  {
   "property": "C69",
   "status": "partial",
   "theorems": [
    "C69_ends",
    "C69_one_partial",
    "C69_alone",
    "C69_no_race",
    "C69_race_refuted",
    "C69_race_all_refuted",
    "C69_all_refuted",
    "C69_name_refuted"
   ],
   "note": "Proved for one code with any number of threads and every schedule, and for all the codes in a single thread, with sequentially consistent accesses. With one code and the size of the type given (-t) there is no data race; without -t any two threads race for sizeof_T (writing the same value). With all the codes and two threads or more, the default, the statement is false: threads race for fec_type, a thread may run one code only and end, and results may be printed under the name of another code."
  },
  {
   "property": "C70",
   "status": "partial",
   "theorems": [
    "C70_add",
    "C70_add_part",
    "C70_overlap",
    "C70_add_sizes",
    "C70_hadamard",
    "C70_neg",
    "C70_beta",
    "C70_beta_mod",
    "C70_scalar",
    "C70_scalar_exact",
    "C70_zero",
    "C70_distinct",
    "C70_equal",
    "C70_overlap_refuted",
    "C70_view_refuted",
    "C70_repeat_refuted",
    "C70_zero_extended_refuted"
   ],
   "note": "Proved for vectors and slices (destination first in memory, or no overlap; C70_overlap gives the result of the other overlaps, C70_scalar_exact that of a scalar on views that come back to a place); products by a scalar and zeros also for views, of views too, whose elements are different cells (zeros: any cells); equality for all classes. False otherwise: add, add_mutual, hadamard_mul, neg and mul_beta use the memory of a view in place of its elements, mul_scalar multiplies repeated places several times, zero_fill and mul_scalar of a zero-extended vector clear what follows it, and an overlapping addition adds what it has just written. hadamard_mul is the loop of gf_ring.h; the SIMD form is in C30."
  },
  {
   "property": "C71",
   "status": "partial",
   "theorems": [
    "C71_run",
    "C71_ends",
    "C71_accepted",
    "C71_rs_fnt",
    "C71_rs_nf4",
    "C71_rs_gf2n",
    "C71_rs_gf2n_fft",
    "C71_rs_gf2n_fft_add",
    "C71_rs_gfp_fft",
    "C71_threads_refuted",
    "C71_chunk_refuted",
    "C71_unit_refuted",
    "C71_overflow_refuted",
    "C71_packets_refuted"
   ],
   "note": "Proved: the last option counts, the defaults, the ends on unknown options, that the checks of a code asked for alone with sizes that it has are passed, and then (C71_rs_fnt, C71_rs_nf4, C71_rs_gf2n, C71_rs_gf2n_fft, C71_rs_gf2n_fft_add, C71_rs_gfp_fft, with C66) that the three scenarios end well with the type and the chunks that the checks give. With SIMD rs-fnt needs words of 2 bytes (C15), and rs-gfp-fft too but for one or two data chunks. False: negative numbers are converted to unsigned ones (2^32 - 1 threads, a chunk size of 0), letters after a number are dropped, k + m may overflow, and with all the codes rs-fnt and rs-nf4 are not run on packets. getopt is not modelled."
  },
  {
   "property": "C72",
   "status": "partial",
   "theorems": [
    "C72_zero",
    "C72_fill",
    "C72_copy_one",
    "C72_copy_down",
    "C72_copy",
    "C72_equal",
    "C72_swap",
    "C72_shared_refuted",
    "C72_copy_overlap_refuted"
   ],
   "note": "Proved for all sound buffers: zeros and equality without a condition; a fill or a copy of one buffer changes no other buffer, and no other index if no two indices have the same buffer; a copy of all the buffers if those of the destination are different from each other and none is in the source at a later index (C72_copy_down; the source is kept if it has no buffer in common: C72_copy). False otherwise: the padding of a slice is one buffer at several indices, and a copy to an overlapping slice further on reads what it has just written."
  },
  {
   "property": "C73",
   "status": "partial",
   "theorems": [
    "C73_vector",
    "C73_poly",
    "C73_matrix",
    "C73_row",
    "C73_buffers",
    "C73_empty_refuted",
    "C73_bytes_refuted"
   ],
   "note": "Proved for elements printed as numbers (types of 16 bits and more), with the initial flags of std::cout. False for buffers of size 0, of which elements that do not exist are read (C73_empty_refuted, for all such buffers), and for bytes, which are printed as characters."
  }
 ]
}
