# Formal model of QuadIron: design

Source under study: `/repo` (scality/quadiron, C++), read as text only; never built or run here.
Prover: Coq/Rocq 8.16.1, with mathcomp (ssreflect, algebra) used in proofs only.
Properties: `properties.jsonl` (C01..). Claims and theorem names: `MANIFEST.json`. Mutation log: `seeded/LOG.jsonl`.

## Layout

* `rocq/theories/Model/*.v`: the model. Total, computable Gallina functions over `N`, `Z`, `nat`, `list`,
  `option`; no proofs. Every definition cites the file and lines of `/repo` it models.
* `rocq/theories/Spec/*.v`: small specifications that do not use the model's helpers (mathcomp sums, polynomials,
  `N.modulo`, `list` facts).
* `rocq/theories/Proof/*.v`: lemmas.
* `rocq/theories/Thm/*.v`: the final theorems, one file per group, each followed by a concrete instance that meets
  the hypotheses and by `Print Assumptions`.

## Modelling decisions

* **Field elements** are `N`. Machine width is explicit where it can matter: `RingModN<T>` operations wrap modulo
  `2^w` exactly where the C++ type does, and theorems state the bound under which no wrap occurs.
* **Templates** on `gf::Field<T>` become Gallina functions that take a record of field operations. Correctness is
  proved for every record that is a faithful presentation of a field (a map `phi` into a mathcomp `fieldType` that
  commutes with the operations on valid elements), then instantiated with the modelled prime field, so the theorems on
  codes are about the modelled C++ arithmetic and not about an abstract field.
* **Vectors** are lists. **Buffers** are lists of packets (lists of symbols). The FFT layers are written once over a
  symbol type with its own add/sub/scale, so that the `Vector` and the `Buffers` versions share one butterfly.
* **Stale memory**: every function that writes into an existing buffer takes the old contents as an argument, and
  theorems hold for all old contents of the right length.
* **Undefined behaviour** (out-of-range vector index, reading outside a header) is a distinct outcome (`None`) in
  the functions where it is reachable.
* **Loops** are structural recursions or folds over index ranges; loops whose bound is not syntactic use fuel, and the
  theorems exclude exhaustion of the fuel.
* **Refuted properties**: when the faithful model falsifies a property the theorem is named `..._refuted` and exhibits
  a witness; the part that holds is proved under the extra hypothesis it needs and named `..._partial`.

## Trusted base

* The Coq 8.16.1 kernel (and `coqchk`, run by `vcheck`).
* Axioms: `Print Assumptions` answers "Closed under the global context" for **every** theorem named in
  `MANIFEST.json` (the command is at the end of each file of `Thm/`). No axiom is declared, no standard-library axiom is
  used. `coqchk -o` lists 38 constants of mathcomp (`finset.SetDef.finset`, `bigop.BigOp.bigop`, `perm.PermDef.perm`, ...)
  and of `Coq.ssr.ssrunder`: these are the fields of modules sealed by a signature inside those libraries, which have a
  body in the library; they are not assumptions of the theorems.
* The reading of C++ as Gallina, file by file as listed below.

### Modelled

| Source | Model | Notes |
|--------|-------|-------|
| arith.h (all functions) | Arith.v | width `w` of the unsigned type explicit; wraps where the C++ wraps |
| gf_base.h, gf_ring.h, gf_prime.h | Ring.v, Radix2.v | `RingModN`/`Prime` operations, roots, orders, code lengths, packet operations; types of 16, 32 and 64 bits, whose double-size types are twice as wide |
| big_int.h; gf_ring.h 238-271 and arith.h 274-317 for `__uint128_t` | BigInt.v | `UInt256` and `Int256` keep 128 bits; comparisons with negative numbers are false |
| fft_base.h, fft_2n.h | Fft2n.v, Radix2.v, Counters.v | class `Radix2`: vectors and buffers, counters |
| simd.h, simd_128.h, simd_256.h, simd_fnt.h, simd_ring.h, simd_radix2_fft.h, fft_2n.cpp, gf_ring.cpp, fec_vectorisation.cpp | Simd.v | registers are lists of bytes; see below |
| vec_poly.h | Poly.v | |
| vec_cast.h | Bytes.v | `pack`, `unpack` |
| property.h, property.cpp | Props.v, Header.v | records, binary and text headers |
| fec_base.h, fec_context.h, fec_rs_fnt.h | Fnt.v, Blocks.v, Streams.v, Horizontal.v | block, vertical-stream and horizontal-stream functions, for `RsFnt` |
| quadiron_c.cpp | CApi.v | all functions; memory as numbered buffers |
| vec_vector.h, vec_slice.h, vec_view.h, vec_zero_ext.h (reads, writes, copies, maps) | Views.v | one shared memory |
| vec_buffers.h | Buffers.v | heap of buffers, contents; the ownership is in Owner.v |
| vec_vector.h 103-210, 269-276; vec_buffers.h 146-341, 374-383, 427-479 | Owner.v | who allocates and frees which block; the contents are in Views.v and Buffers.v; programs are lists of events on numbered objects |
| misc.cpp | Misc.v | streams: text, room, state, flags, fill character and width, as the C++ standard says for characters, strings and unsigned numbers |
| simd/allocator.h; `ALIGNMENT` of simd/definitions.h | Alloc.v | 64-bit addresses, bytes, blocks of `operator new`, whose answers are a parameter |
| gf_bin_ext.h | Gf2n.v | all operations, tables included; `None` is a failed assertion, an index out of range or a loop leaving `mask`; `std::vector`/array contents before initialisation are a parameter `junk`; random numbers and printing are not modelled |
| vec_matrix.h; fec_rs_gf2n.h; fec_base.h 583-620, 638-660 (choice of fragments) | Matrix.v | row-major memory, contents before initialisation a parameter `junk`; the exception of `inv` and failed assertions are outcomes; cardinal checks of the constructor are the hypothesis k+m <= 2^n; the buffers that feed words to encode and decode are not in this model; printing is in Dump.v |
| fft_naive.h; fft_2.h; fft_single.h; fft_ct.h; fft_gt.h; fft_base.h 63-73, 104-109 | MixedFft.v | vectors and views of Views.v in one memory, the working vectors of the objects included; overflow of the `int` indices is an outcome; wrap of `T` in Good-Thomas; the Radix2 inner transform of Good-Thomas is not modelled (the factors are sorted, so no inner length is a power of 2: `tail_not_pow2`); buffers are lists of packets, in builds without SIMD, with SSE and with AVX (Packets.v); printing and operation counters are not in this model |
| fft_add.h; vec_vector.h 294-418 | Additive.v | whole; a vector is its list of elements; slices of the Taylor expansions are (place, length) in one list; the scratch members g0, g1, u, v, mem are new vectors of unknown contents in every call; lengths and the `int` ids of compute_subspace are unbounded |
| fec_rs_gf2n_fft_add.h; fec_context.h 64-107, 232-268 for it | AddCode.v | vectors: constructor, encode, context, decode_apply; a vector is its list of elements; the reference made from the null pointer `fft_2k` (line 158) is kept by the context as a null pointer, which it tests before use; packet versions (buffers) are not modelled |
| fec_rs_gf2n_fft.h; fec_rs_gfp_fft.h; fec_base.h 682-753, 758-793, 831-878 and fec_context.h 64-107, 232-274 for them | FftCodes.v | builds without SIMD, with SSE, with AVX (hadamard_mul of prime fields, gf_ring.cpp 106-118); vectors: constructor, encode, marks of out-of-range values, context, decode; the vectors of a code do not overlap: each transform runs on a memory made of its own cells, the output and the input, all of unknown contents before; lengths of 2^31 and more are refused; packet versions (buffers) are not modelled |
| gf_nf4.h; gf_nf4.cpp; simd_nf4.h; fec_rs_nf4.h; fec_base.h 740-753, 831-878 and fec_context.h 64-107, 232-274 for them | Nf4.v | words of 32, 64 or 128 bits holding n elements of GF(65537); the generic functions and the specialisations for 128-bit words with registers of 128 or 256 bits (upper halves of the loaded registers: any contents); the scratch arrays `reserve`d by the constructor are taken to have n elements; random numbers are not modelled; the code on vectors here, on buffers in VCodes.v |
| fft_large.h; vec_vector.h 283-287; fft_base.h 95-111 | Large.v | class `Large` over `gf::Prime<T>`, T of 16, 32 and 64 bits, any modulus; vectors of exactly n entries; the functions on Buffers have empty bodies |
| fec_base.h 318-460, 560-680; fec_context.h 64-107 | HCodes.v | horizontal streams for RsGfpFft, RsGf2nFft, RsGf2nFftAdd, RsGf2n, RsNf4: the two functions over a record of what they use of a code, and one record per code; the private memory of the transforms may change between calls |
| fec_base.h 138-142, 463-542, 898-1048, 1066-1151, 1177-1321; fec_rs_nf4.h 255-330; vec_cast.h 70-163 | VCodes.v | blocks and streams by packets for the codes other than RsFnt: the four functions over records of what they use of a code; encode and decode on Buffers of RsNf4; the empty encode of the base class. Decoding is that of codes that are not systematic; the SIMD transforms are those of Simd.v |
| gf_ring.h 363-451, 825-848; gf_ring.cpp 38-118 | Packets.v | packet and buffer functions of the rings, for the three builds; packets are lists of `len` elements; a failed assertion and the division by a zero `_card` in mul_coef_to_buf are outcomes; BinExtension overrides hadamard_mul with the plain loop |
| gf_ring.h 151-175, 538-553; gf_nf4.h 334-349; vec_vector.h 463-469 | Rand.v | what the distributions draw is an argument; bounds as the conversions of C++ make them |
| gf_ring.h 502-537 | Cached.v | files are names and texts; opening, reading and writing succeed; `operator>>` for unsigned types as the standard says, base 10 |
| fft_2n.h 269-306 | FftIndex.v | the indices read and written by Radix2::fft (Vector), and the transform with an access outside the vectors as an outcome |
| arith.h 275-366 | CrtMachine.v | extended_gcd and chinese_remainder in machine arithmetic: every signed operation checked against the double-width type (overflow is the outcome Ub), for T of 16, 32 and 64 bits |
| test/ec_driver.cpp 77-286, 319-484 | Driver.v | the file driver with all its codes: rs-fnt and rs-fnt-sys on packets, the other ones word by word (`run_fec`); files are names and texts as in Cached.v, opening, reading and writing succeed; data files are read when they are opened; options (DriverMain.v), statistics and messages left out; the record of a fragment in the text form of Props.v |
| benchmark/prng.h 38-127 | Prng.v | the generator of the benchmark and its chunks; a chunk is a list of bytes, its first word little endian; an access outside of it is Ub |
| benchmark/benchmark.cpp, benchmark.h, iostreambuf.h, stats.h | Bench.v | parameters (check_params, the list of codes of `-e all`), the three scenarios with the codes of Streams.v, HCodes.v and VCodes.v as encoders and decoders, random_shuffle as a given list of functions, the chunk streams, the integer part of the statistics; clock, messages, destructors, options, threads and doubles left out |
| `test/ec_driver.cpp:38-42, 482-683` main, check | `Model/DriverMain.v` | the options as getopt returns them, std::stoi, the checks, the choice of the code and of the type; getopt, the messages and `count_digits` of n_data - 1 (in `Driver.v`) are left out |
| benchmark/benchmark.cpp 36-65, 542-570, 668-736, 813-817; benchmark.h 236-275 | BenchThreads.v | the accesses of the threads to the shared `fec_type` and `sizeof_T`, one access per step, sequentially consistent, any schedule; a benchmark itself is one step (Bench.v); the texts printed by two threads at once are not modelled, nor the allocator, `random()` and the clock that threads share |
| `src/vec_vector.h:231-235, 278-369, 420-439` | `Model/VecOps.v` | add, add_mutual, hadamard_mul (the loop of gf_ring.h:825-830), neg, mul_beta, mul_scalar, zero_fill, operator== on the memory and classes of `Views.v`; to_poly (does not compile when used: `Poly` has no `clear`) is left out, sort is in `Blocks.v` |
| `benchmark/benchmark.cpp:738-822`, `benchmark.h:121-177` main, Params_t | `Model/BenchMain.v` | the options as getopt returns them, stoi, the conversions to the types of the fields, the start of the threads and the checks of one thread; getopt and what is printed are left out |
| `src/vec_buffers.h:361-372, 421-425, 454-478` | `Model/BufOps.v` | zero_fill, fill, copy of one buffer, operator==, swap on the heap of `Buffers.v`; a copy of a buffer to itself is taken to change nothing; copy of all the buffers is `buf_copy` of `Buffers.v` |
| `src/vec_vector.h:471-478`, `vec_poly.h:243-253`, `vec_matrix.h:432-455`, `vec_buffers.h:480-493` dump, dump_row | `Model/Dump.v` | the characters sent to std::cout with its initial flags; numbers of 128 bits are printed as the others (by C58); dump of `DecodeContext`, which calls these, is left out |
<!-- more -->

### Not modelled

* Timing and statistics counters, `dump`, `to_string`, logging, the random number engine (Rand.v has what is done with its numbers), `hw_timer`, `build_info`.
* I/O errors when writing to streams; allocation failure outside of Alloc.v; C++ exceptions other than as a distinct result.
* For `__uint128_t`: jacobi of negative numbers and the codes over prime fields (the field itself is wrong, C52). chinese_remainder does not compile for it (`Int256` has neither `*=` nor `+=`).
* Alignment faults and strict aliasing. SIMD loads and stores assume the alignment that the allocator provides (C56).
* Little-endian byte order is assumed wherever memory is reinterpreted (x86 and ARM64).
* The Intel intrinsics used by the kernels (`add`, `sub`, `min`, `cmpeq`, `cmpgt`, `mul`, shifts, `and`, `blendv`, `testz`,
  `movemask`) have the meaning of the Intel manual as written in Model/Simd.v.
* Compiler behaviour on undefined behaviour: where the model reaches it, the result is `Ub`/`None` and no more is said.

### Simplifications

* Sizes and indices (`size_t`, `int` loop counters) are natural numbers: overflow of 64-bit sizes is not modelled, nor
  of `int` counters, except where a property is about it (serialisation counts, `1 << n`).
* Objects are records; destructors and the ownership of memory are modelled for `Vector` and `Buffers` only (Owner.v), shared and
  unique pointers are not. Buffers that the code
  shares between objects are the same list value, and functions return the changed buffers.
* An out-of-range write is ignored and an out-of-range read gives zero (`set`, `get` of Common.v) in functions for
  which the theorems' hypotheses keep all the indices in range; the C interface and the headers have explicit `Ub`.
* Virtual methods are fields of records (`gfops`, `kernels`, the last members of `fnt`).

## Findings

Theorems named `..._refuted` (or `..._overrun`) exhibit wrong behaviour of the code as modelled:

* C03: systematic stream decoding with all data fragments present.
* C04: systematic horizontal decoding reads outside its vectors.
* C08, C10, C11: headers: counts and sizes that overflow, records that leave the buffer.
* C14: the C interface indexes outside its arrays when there are fewer parities than data fragments.
* C15: with 1-byte words the C interface runs the 32-bit kernels of the field 65537 on the field of 257 elements.
* C20: addition wraps when the cardinal does not leave one bit free. C24: `check_order_naive`.
* C45: the counter of inverse transforms does not describe the vector version. C50: streams of odd length.
* C40: `Polynomial::mul` leaves the stored degree too small when a coefficient is overwritten.
* C46: slices of views, copies between slices, `swap` through a view, writes through a zero extension.
* C47: shuffles of `Buffers` to at most as many buffers index an empty vector; slices that begin after the end; `mem_len` of clones.
* C32: with `n` = width of the type and tables of logarithms (n = 8 in 8 bits, n = 16 in 16 bits) `setup_tables` uses the cardinal 2^n-1 as a bit mask and the truncated polynomial: products are wrong (`C32_full_type_refuted`: the loop that fills the tables stays at one element, which is its own square). `div(a, 0)` and `inv(0)` return the largest number of the type (n <= 16) or run below the array `mask` (n >= 32).
* C36: `cauchy` divides columns by row 0, then rows by column 0, in place, so each division but the first of a column or row divides by 1 and only row 0 and column 0 become ones. The result is not a Cauchy matrix up to scaling: with 4 data and 3 parities (in 16 and in 256 elements) losing data 0, 1, 3 leaves a singular matrix and decoding throws though four fragments remain. Exactly: decoding throws when data 0 is lost, parity 0 is in use and the exclusive or of the numbers of the parities in use and of m + j for the other lost data j is 1 (`C36_undecodable`), and gives the data otherwise (`C36_partial`).
* `C37_length_one_refuted`: a Cooley-Tukey transform of length 1 reads the first prime factor of 1, which has none.
* `C37_index_refuted`: RsGfpFft passes the length as the index of the first factor of its second Cooley-Tukey transform (fec_rs_gfp_fft.h:137-138); the index is out of range for every length.
* `C37_naive_refuted`, `C37_cooley_tukey_refuted`, `C38_refuted`: `i * j` of compute_W (fft_naive.h:99-107) overflows an `int` from length 46342 on.
* `C37_naive_buffers_refuted`: over a field of 2^n elements `inv_n_mod_p` is the inverse modulo 2, which is 0 for instance for length 3 in GF(16), and the inverse transform of buffers by Naive multiplies by it in all cases.
* `C37_cooley_tukey_buffers_refuted`: CooleyTukey and GoodThomas do not redefine the transforms of buffers of the base class, which do nothing.
* `C39_taylor_refuted`: inv_taylor_expand (fft_add.h:645-673) groups the elements from the end of the vector, taylor_expand from its start; they agree only when `t` divides the length.
* `C39_large_refuted`: Additive accepts a dimension above n over GF(2^n); its default basis is then dependent, a basis element of an inner transform is 0, and ifft does not invert fft.
* `C44_context_refuted`: the decoding context of RsGf2nFftAdd computes `get_code_len_high_compo(2k)` (fec_context.h:88), of no use to that code, which asserts `2k <= card - 1`: codes with k of half the field or more, which the constructor accepts, cannot decode.
* `C43_refuted`, `C43_domain`: RsGf2nFft over GF(2^32), GF(2^64) and GF(2^128) is built only for lengths up to the product of the prime factors 3, 5, 17, 257, 641 of the order; beyond, a prime factor of the length is above 46341 and compute_W overflows an `int`.
* `C42_long_data_refuted`: RsGfpFft with 4-byte words cannot be built with more than 4096 data fragments: the length of `fft_2k` is then not a power of two and CooleyTukey gets the length as index of its first factor (fec_rs_gfp_fft.h:137-138).
* `C41_odd_refuted`: RsNf4 accepts words of 3, 5 and 7 bytes, but packs `word_size / 2` numbers of two bytes: the last byte of a word is dropped, different data have the same fragments.
* `C41_long_data_refuted`: RsNf4 throws with more than 32768 data fragments, whatever the word size (the second transform would need a length above the order of the group; with several numbers per word its length is found in the wrong group, 65536 in all the lanes, and Radix2 refuses it).
* `C42_simd_refuted`: in a build with SIMD, RsGfpFft over `uint32_t` with words of one byte works in GF(257), but `hadamard_mul` of the vectors (gf_ring.cpp:106-118) multiplies modulo 65537 in the registers whatever the field; the data decoded are wrong as soon as the vectors of the second transform fill a register (2 data with SSE, 3 with AVX).
* `C42_word3_refuted`: RsGfpFft accepts a word size of 3 bytes (`word_size < 4`), for which 2^24 + 1 is not a prime; the root found, 2, is a quadratic residue and the constructor always throws.
* `C52_*`: over `__uint128_t` the Bezout coefficient is unsigned (`Int256`, big_int.h), so `inv` of a prime field is wrong for every element whose inverse is above p / 2, and inverse transforms are wrong; products wrap for primes above 2^64.
* `C51_*`: solovay_strassen throws for 2, rejects the prime 65537 in 32 bits (the products wrap), and accepts 9 with bases that are not units.
* `C55_other_codes_refuted`: encode_blocks_vertical and encode_streams_vertical accept RsGf2n, RsGf2nFft, RsGf2nFftAdd and RsGfpFft, whose encode on Buffers is the empty function of the base class (fec_base.h:138-142): the fragments are what the memory held. `C55_word_size_refuted`: RsNf4 with words of 3, 5, 6 and 7 bytes encodes nothing, since vec::pack does nothing for these sizes.
* `C57_assign_refuted`: `Buffers` declares a destructor but no copy assignment: after `a = b` both free the same buffers, and those of `a` are lost. `C57_set_full_refuted`, `C57_set_wrap_refuted`: `set` frees the old buffer when the object does not own its buffers, and loses it when it does (vec_buffers.h:374-383: the test is the wrong way round). `C57_copy_moved_refuted`: a vector that was moved from keeps its length and is copied from the null pointer.
* `C58_smallest_refuted`: printing the most negative `__int128_t` negates it, which overflows. `C59_left_refuted`, `C59_showbase_refuted`: hex_dump sets the base, width and fill of the stream but not the adjustment nor `showbase`: after `std::left` the bytes 1 and 16 both print as "10".
* `C60_minus_one_refuted`: mul_vec_to_vecp (gf_ring.h:374-401) takes the coefficient `card - 1` for -1; over a field of 2^n elements, n >= 2, it is not, and the packet is copied instead of multiplied. `C60_simd_prime_refuted`, `C60_simd_bin_refuted`: in a build with SIMD the packet functions in 16 and 32 bits compute modulo 257 and 65537 whatever the field. `C60_card_zero_refuted`: the `_card` of GF(2^32) in `uint32_t` wraps to 0 and the tail of mul_coef_to_buf divides by it.
* `C61_unreachable_refuted`, `C61_outside_refuted`: rand of `RingModN<__uint128_t>` with more than 2^64 elements draws the lower half between 1 and 2^64 - 1 and the upper half between 0 and `card - 2^64` truncated to 64 bits: the element 2^64 is never drawn, and for instance with card = 2^64 + 13 most of the numbers drawn are not elements. `C61_short_refuted`: with 2^16 elements in `uint16_t` the bound is -1 converted to 2^64 - 1, and 0 is drawn.
* `C62_length_refuted`, `C62_field_refuted`: the file of compute_omegas_cached is named after the root only: with another length the call leaves its vector or fails an assertion, in another field it silently gives the powers of the first field.
* `C16_exact`, `C16_fft_refuted`, `C16_outside_refuted`, `C18_stale_refuted`: Radix2::fft takes `len / max(input_len, data_len)` rounded down as the length of its groups. When that maximum is no power of two, either part of the output is never written and its old contents are taken for further inputs (length 8, data length 3), or the groups do not fit and the butterflies leave the vector (length 16, data length 3). The codes of the library always pass powers of two.
* C22: chinese_remainder is right for all reduced residues exactly when the product of the moduli is at most 2^w; beyond, the
  signed sums overflow (CrtMachineThm.v).
* C05: decode_streams_horizontal of a systematic code looks up the record of parity q under k + q in a table of m records: it
  reads behind the table exactly when a fragment in use has a number of m or more, always if m <= k (HSysThm.v).
* C12, C13: systematic codes with fewer parities than data overrun an array (C14), so both hold only for the others.
* `C63_too_few_refuted`: the driver does not look at the answer of the decoder; run with -r, no data file and fewer than k fragments it
  reports success and leaves all the data and fragment files empty, destroying the fragments that were left. `C63_records_refuted`: a
  fragment whose record file is lost is taken as one without records and silently gives wrong data.
* `C64_detect_refuted`: the checksum of a chunk stands in front of its data, so that a change of four bytes across the end of the checksum can
  go unseen (found for 5 bytes). `C64_empty_refuted`: gen_chunk and check_chunk access `buffer[0]` of a chunk of size 0.
  `C64_default_refuted`: `PRNG()` without srandom has increment 0 and is constantly 0.
* `C66_tail_refuted`: with packet size 0 the benchmark accepts a chunk size that is not a multiple of the word size; the last bytes are not
  coded and its check fails. `C66_accepted_fnt_refuted`: 200 data and 1 parity with words of one byte pass the checks of rs-fnt, and
  the code cannot be made. `C66_empty_refuted`: chunk size 0 is accepted, and byte 0 of the chunks written. `C66_no_parity_refuted`:
  with m = 0 a systematic code looks for a shuffle with a lost data chunk for ever. `C66_all_refuted`: with `-e all` and words of
  four bytes the type chosen for the first code is kept, and rs-nf4 and rs-gfp-fft are refused that run alone.
  `C66_word_size_refuted`: words of three bytes are accepted for rs-gf2n-v, for which there is no field.
* `C67_deviation_refuted`: the sum of squares wraps at 2^64, after which the deviation is the square root of a negative number.
- C68: the check of the driver compares with one element too many for rs-fnt (`-w 1 -n 100 -m 157` is accepted and the constructor fails, `C68_fnt_limit_refuted`); a word size above 16 (rs-gf2n, rs-nf4 from 9, rs-gfp-fft from 16) does nothing and returns 0 (`C68_silent_refuted`); a negative word size shifts by a negative number of bits (`C68_negative_refuted`); sizes that are not powers of two are run with rs-gf2n and stop in the constructor of the field (`C68_word_refuted`).
- C69: the threads of the benchmark share `Params_t` without a lock. With `-e all` (the default, with 4 threads) `run_benchmark` uses the shared `fec_type` as its loop variable: a thread that starts late runs one code only (`C69_all_refuted`), results are printed under the name of another code (`C69_name_refuted`), and there is a data race from the start (`C69_race_all_refuted`). With one code the only race is for `sizeof_T`, and only without `-t` (`C69_race_refuted`, `C69_no_race`).
- C70: on a `View`, `add`, `add_mutual`, `hadamard_mul`, `neg` and `mul_beta` change the first elements of the memory behind the view and not the elements of the view (`C70_view_refuted`); `mul_scalar` on a view that comes back to a place multiplies it several times (`C70_repeat_refuted`); `zero_fill` and `mul_scalar` on a `ZeroExtended` vector write zeros after the end of its vector (`C70_zero_extended_refuted`). The library itself only uses these operations on plain vectors and slices, and `mul_scalar` on outputs of transforms.
- C71: the options of the benchmark are converted without a check: `-g -1` starts 4294967295 threads and `-n -1` as many samples (`C71_threads_refuted`), `-c -1` is accepted and gives empty chunks (`C71_chunk_refuted`), `-c 64k` is 64 bytes (`C71_unit_refuted`), `-k 2147483647 -m 1` overflows (`C71_overflow_refuted`). Without `-e`, or with `-e all`, `operation_on_packet` is false for all the codes, so that rs-fnt and rs-nf4 are measured without packets (`C71_packets_refuted`).
- C72: the padding of a slice of buffers past the end is a single buffer of zeros, so that a `fill` of one padding index changes the others (`C72_shared_refuted`); `copy` to a slice further on of the same buffers reads what it has just written (`C72_copy_overlap_refuted`).
- C73: `Buffers::dump` compares an index with `size - 1`, which is 2^64 - 1 for buffers of size 0: the elements after the end are read until the program fails (`C73_empty_refuted`). For `Buffers<uint8_t>` the elements are printed as characters, ends of lines included (`C73_bytes_refuted`).
<!-- more findings -->

## Plan per property

| Id | Modelled | Proof idea |
|----|----------|------------|
| C01 | encode/decode_blocks_vertical (non-systematic), DecodeContext, Radix2 on buffers | Lagrange interpolation as in fec_base.h:682-731, over any field presentation; then per symbol, per packet |
| C02 | same, systematic branches | decode_data on ids 0..k-1 interpolates; then as C01 plus one transform |
| C03 | encode/decode_streams_vertical as byte-list transducers | reduce to the packet step of C01/C02 |
| C04 | encode/decode_streams_horizontal, Vector encode/decode | Vector version of the interpolation theorem |
| C05 | fragment selection loops | induction on the index range; count of available fragments |
| C06 | decode_data + fft | interpolation at ids 0..k-1, evaluation back |
| C07 | encode_post_process, decode_prepare cursor loop | invariant: cursor = number of records below the packet offset |
| C08 | fnt_serialize/fnt_deserialize on word lists | list induction |
| C09 | operator<< / operator>> on character lists | decimal print/parse round trip |
| C10 | fnt_deserialize with explicit out-of-bounds outcome | refuted by a count of 2^32-1; positive part when count + 2 < 2^32 |
| C11 | fnt_serialize with explicit out-of-bounds outcome | refuted by the exactly-full header; positive part otherwise |
| C12 | C API encode/decode over byte buffers | C01/C02 + C08 |
| C13 | C API reconstruct | C12 + determinism of encoding |
| C14 | vector sizes and indices used by the C API | refuted for n_parities < n_data; proved for n_parities >= n_data |
| C15 | RsFnt<uint32_t> with p = 257 on the 32-bit SIMD lanes | refuted by evaluation of the model |
| C16 | Radix2::fft(Vector) | layer invariant: blocks hold DFTs of strided subsequences; exact lengths for which it holds |
| C17 | fft_inv, ifft, bit_rev_permute | Gentleman-Sande invariant; orthogonality of roots |
| C18 | Buffers versions | two-layer step = two single layers; symbol-wise homomorphism |
| C19 | reverse_bitwise, swaps | binary digits; involution |
| C20 | RingModN/Prime operations with wrap | lia / N.mod lemmas |
| C21 | extended_gcd | loop invariant with sign alternation |
| C22 | chinese_remainder | Bezout |
| C23 | is_prime, factor_prime, ... | trial division invariant |
| C24 | find_primitive_root, get_order, get_nth_root | cyclicity of the multiplicative group (mathcomp) |
| C25 | get_code_len_high_compo, get_code_len | induction on the factor list |
| C26 | sqrt, log2, ceil2, gcd, exp, exp_mod, jacobi | loop invariants; the Jacobi symbol by Gauss's lemma, Eisenstein's lattice count, quadratic reciprocity (Recip, LegP, JacP) |
| C27 | pack/unpack | little-endian digits |
| C28 | blocks functions | both sides equal the packet-free symbol-wise specification |
| C29 | blocks functions on byte buffers | frame property of the packet loop |
| C30 | one SIMD lane on 16/32 bits | lia on min/wrap |
| C31 | vectorised encode_post_process | list of lanes |
| C32 | BinExtension | carry-less arithmetic on N vs polynomials over F_2 |
| C33 | NF4 words as lanes, generic and SIMD | words are digits in base 2^32 (Spec/Nf4.v); lanes of registers as for C30 |
| C34 | reduced_row_echelon_form, inv | Gauss-Jordan invariant |
| C36 | cauchy | refuted by a witness index set over GF(256) |
| C37 | Naive, Size2, Single, CooleyTukey | DFT index splitting |
| C38 | GoodThomas | CRT index map |
| C39 | Additive | linearised polynomials |
| C40 | Poly | mathcomp polynomials |
| C41-C44 | other codes | same interpolation theorem with their fields |
| C43 | code over GF(2^n), multiplicative | transforms as relations between values (tfm_ok), interpolation as C01; code lengths with small prime factors (Smooth); lower bounds for the prime factors of Fermat numbers (FermatDiv) |
| C41 | code over NF4 | the code over words is lane by lane the code over GF(65537) proved for C01: relational parametricity of the transforms (Param.v) with coefficients equal in all lanes (Nf4Sim.v, Nf4Code.v), the same root and lengths (Nf4New.v); sessions as C42 |
| C42 | code over prime fields | as C43 with Radix2 or CooleyTukey; primality of 4294991873 by Pocklington (BigPrime); sessions of encoding and decoding with records, by induction on the words |
| C45 | counters | counting the same loops |
| C46, C47 | views | list facts |
| C44 | additive code | interpolation with one zero point (InterpZ): A S + n_z A / X; the series is rebuilt from any state of the polynomial S of the context |
| C39 | additive transform | expansions as polynomial identities in characteristic 2 ((X^t+X)^(2^k) = X^(t 2^k) + X^(2^k)); Gray sequence invariant; induction on the dimension, x^2+x has kernel {0, 1}; powers of a generator are independent by counting |
| C37, C38 | mixed-radix transforms | a transform is specified by the cells it reads and writes (Spec/Mixed.v); decimation in time (`dft_split`), remainders (`dft_crt`), induction on the factors; unique factorisation; inputs shorter than the length are zero-extended |
| C34 | Gauss-Jordan | left multiplication by invertible matrices, staircase invariant, then unit pivots or a zero row |
| C35 | Vandermonde code | column operations keep columns polynomials of size <= k; interpolation |
| C36 | Cauchy code | kernel of the sub-matrix, a rational function with too many zeros; with both the row and the column of ones, partial fractions of the quotient of two products: its residues are the kernel when the sums of the roots differ by 1; witness by computation |
| C32 | binary fields | quotient ring F2[X]/(m) as a finite field (QuotF); Rabin's test checked by computation; order of X by the prime factors of 2^n-1; tables by loop invariants; Euclid by degrees |
| C48 | context cursors and scratch | results independent of scratch contents |
| C49 | blocks and streams | both equal one specification |
| C50 | streams with odd length | refuted by a witness |
| C53 | fft::Large | the tables are bit operations; row i holds transforms of length 2^i in bit-reversed order; principal roots modulo odd numbers: a sum of powers is a product of 1 + z^(2^i) |
| C54 | horizontal streams, other codes | loops over streams against loops over words, for any code; then words: codes without records one at a time, codes with records as the sessions of C41 and C42 (records are appended at increasing offsets, so sorting what is received gives them back, and decoding reads only those of the fragments in use) |
| C55 | blocks and streams by packets, other codes | loops over packets for any code whose columns can be decoded; RsNf4 on Buffers is the fields GF(65537) lane by lane, so the words of the session C41; false for the codes that inherit the empty encode on Buffers and for words that vec::pack ignores: the fragments do not depend on the data |
| C56 | AlignedAllocator, operator new and delete | invariant: each array is in its own block, after its offset byte |
| C57 | constructors, assignments and destructors of Vector and Buffers | invariant: the blocks in use are those of the program and those that living objects have to free, each once |
| C58 | operator<< of misc.cpp | induction on the digits; the numeral is unique |
| C59 | hex_dump | invariant: the array holds the shown characters of the current line; the counter is what is missing in the line or more than what is left |
| C60 | packet and buffer functions of the rings | the registers of Simd.v lane by lane and the tail; loops over the packets, each written once |
| C61 | random elements | bounds of the distributions; words are digits in base 2^32 |
| C62 | powers kept in a file | the numerals read back are those written; invariant: every file of the session has the powers of its root |
| C52 | `__uint128_t` fields | the loop of extended_gcd modulo 2^128; the last quotient is at least 2, so that a Bezout coefficient is at most half |
| C51 | solovay_strassen | Euler's criterion; a unit that fails the congruence by the Chinese remainder theorem or a repeated prime; multiplication by it maps accepted units injectively to rejected ones (SolovayP) |
| C63 | file driver | the names differ by type, number or ending; the decoder sees exactly the files left; coding the restored data again writes the same files, as what an encoder computes does not depend on its memory (the transforms are values of polynomials, and an element has one representation) |
| C64 | chunks of the benchmark | the checksum is linear and each of its steps is injective, four bytes fill exactly its register; (a^n - 1) / (a - 1) has as many factors 2 as n when a = 1 modulo 4 |
| C65 | objects of one code are interchangeable | elements are numbers and the operations of two objects of one field agree on them (Proof/AgreeN, Proof/Agree), so both find the same generator, length and points; a codeword is the list of the values of the data polynomial; words of NF4 elements are read back alike by both builds (InterNf4Thm) |
| C66 | the benchmark's scenarios repair the data | one step of encoding and one of decoding from a property of the code that all of them have (`coder_back` of Proof/BenchP, from C03, C54, C55); the state between two steps: fragments of the data, a permutation of the ids; induction on the samples |
| C67 | statistics | induction on the values; n times the sum of squares is at least the square of the sum, from 2xy <= x^2 + y^2 |
| C68 | command line of the driver | the loop is a fold per variable (`upd`), of which only the last matching option counts; case analysis on the code and the word size; `C68_rs_*` (Thm/DriverRunThm.v) give the type found to the theorems of C63, from the options to the files |
| C69 | threads of the benchmark | an invariant per thread and place, kept by every step of every thread (`sched_inv`); a weight that every step lowers; schedules as witnesses |
| C70 | arithmetic on whole vectors | induction on the cells, the destination being before what remains to be read; a function `cell` from elements to places, through which get and set act |
| C71 | command line of the benchmark | induction on the options with `chosen`, a relation for the last option that gives a value; the checks by C66; composed with the runs of C66 in `Thm/BenchRunThm.v` and `Thm/BenchRunCodesThm.v` |
| C72 | operations on whole buffers | one lemma for loops of writes at pointers (`writes_spec`), either all different or with the same full contents; induction on the loops of the comparison |
| C73 | dumps | the text is read back by `lines` and `numbers`, which know nothing of the formats; lemmas for parts that end or begin with a character that is not a digit |
