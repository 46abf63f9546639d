{"id": "C01", "title": "Four-item stack macros move exactly the named words", "statement": "Executing the script emitted by OP_4PICK / OP_4ROLL / OP_4DUP / OP_4SWAP / OP_4DROP / OP_4TOALTSTACK / OP_4FROMALTSTACK, u32_pick(n), u32_roll(n), u32_dup, u32_drop, u32_toaltstack, u32_fromaltstack on any stack that is deep enough copies / moves exactly the 4-element word that the doc comment names, preserves the order of its four bytes, and leaves every other element of the main and alt stack unchanged.", "quantifier": "all stack contents, all depths below the word, all word positions n, all alt stacks", "why_tests_cant": "tests run a handful of fixed words and positions; the claim is about every depth and every untouched element", "anchors": ["scripts/src/pseudo.rs: OP_4PICK, OP_4ROLL, OP_4DUP, OP_4SWAP, OP_4DROP, OP_4TOALTSTACK, OP_4FROMALTSTACK", "scripts/src/u32/u32_std.rs: u32_pick, u32_roll, u32_dup, u32_drop, u32_toaltstack, u32_fromaltstack"]}
{"id": "C02", "title": "OP_NDUP / push_to_stack produce the promised number of copies", "statement": "For every n, the script OP_NDUP(n) applied to a stack with top x leaves exactly n additional copies of x; push_to_stack(e, n) leaves exactly n copies of e on top of the old stack. op_2k_mul(k) multiplies the top by 2^k whenever every intermediate value fits the 4-byte operand range.", "quantifier": "all n, k, all x and all stacks", "why_tests_cant": "unbounded family of generated scripts indexed by n", "anchors": ["scripts/src/pseudo.rs: OP_NDUP, push_to_stack, op_2k_mul, OP_2MUL, OP_4MUL, OP_16MUL, OP_256MUL"]}
{"id": "C03", "title": "u32_add is addition modulo 2^32", "statement": "For all 32-bit words and any two distinct word positions a, b in the stack, u32_add(a,b) leaves the sum modulo 2^32 on top and removes the word at b only (the word at a is kept); u32_add_drop removes both operands; everything else on both stacks is untouched. Equal positions are rejected (panic) at script generation.", "quantifier": "all pairs of 32-bit words, all positions, all stacks", "why_tests_cant": "2^64 operand pairs and unboundedly many stack layouts", "anchors": ["scripts/src/u32/u32_add.rs: u8_add_carry, u8_add, u32_add, u32_add_drop", "scripts/src/u32/u32_zip.rs: u32_zip, u32_copy_zip"]}
{"id": "C04", "title": "u32_xor is bitwise exclusive or", "statement": "With the xor table pushed by u8_push_xor_table below n data words, u32_xor(a,b,n+1) leaves the bitwise XOR of the two named words on top, removes the word at b, keeps the word at a and the 256 table entries intact; u8_drop_xor_table removes exactly what u8_push_xor_table pushed.", "quantifier": "all pairs of 32-bit words, all distinct positions, all stacks", "why_tests_cant": "2^64 operand pairs; correctness of a 256-entry lookup table and of the index arithmetic for every table distance", "anchors": ["scripts/src/u32/u32_xor.rs: u8_xor, u32_xor, u8_push_xor_table, u8_drop_xor_table"]}
{"id": "C05", "title": "u32_rrot rotates right", "statement": "u32_rrot(n) panics at generation exactly for n >= 32. For every n < 32 and every 32-bit word, executing u32_rrot(n) replaces the word on top by its right rotation by n bits, leaving the rest of main and alt stack as they were. The special-cased scripts for 7 and 23 leave the same stacks as the generic construction would; for whole-byte rotations the generic construction does not exist (it would panic), so their special cases are necessary.", "quantifier": "all n in 0..32, all 32-bit words, all stacks", "why_tests_cant": "2^37 cases", "anchors": ["scripts/src/u32/u32_rrot.rs: u32_rrot, u32_rrot7, u32_rrot8, u32_rrot16, u8_extract_hbit, byte_reorder, specific_optimize"]}
{"id": "C06", "title": "u32 comparison scripts decide equality", "statement": "u32_equalverify succeeds iff the two top words are equal and removes both; u32_equal / u32_notequal replace the two top words by 1 or 0 according to equality; alt stack restored.", "quantifier": "all pairs of words, all stacks", "why_tests_cant": "quantifies over all word pairs and over the surrounding stack", "anchors": ["scripts/src/u32/u32_std.rs: u32_equalverify, u32_equal, u32_notequal"]}
{"id": "C07", "title": "u32_compress packs four bytes into a script number", "statement": "For every word w, u32_push(w) u32_compress leaves one script number: w if w < 2^31, and -(w - 2^31) otherwise (sign-magnitude). Two different words are packed to different numbers except for the single pair 0 and 0x80000000, which both become 0 (finding: the packing is not injective).", "quantifier": "all 32-bit words and pairs of words", "why_tests_cant": "injectivity over 2^32 words is not testable; the single exception is found only by proof", "anchors": ["scripts/src/u32/u32_std.rs: u32_push, u32_compress"]}
{"id": "C08", "title": "On-chain word to field-element conversion agrees with the native one", "statement": "For every hash word w other than 0x80000000 the script u32_compress; u32_to_u31 leaves w mod p, the same value BabyBear::from_pf returns natively. For w = 0x80000000 the script leaves 0 while the native code returns 0x7ffffff (finding: the on-chain Fiat-Shamir sample diverges).", "quantifier": "all 32-bit words", "why_tests_cant": "the unique failing word has probability 2^-32 under random testing", "anchors": ["scripts/src/lib.rs: u31_lib::u32_to_u31", "scripts/src/u32/u32_std.rs: u32_compress", "basic/src/challenger/chan_field.rs: ChallengeField::from_pf"]}
{"id": "C09", "title": "Winternitz: every honest signature is accepted and reveals the signed message", "statement": "For every secret key and every 32-bit value, running the signature script followed by the check script with the matching public key succeeds and leaves on the stack exactly the four message bytes (high byte deepest); everything below and the alt stack are unchanged. The witness of BitCommitmentU32::signature (zero digits as empty strings) is accepted too. The raw witness of Winternitz::sign is accepted exactly when none of the ten signed digits is 0 (finding).", "quantifier": "all secret keys, all 2^32 messages, all hash functions, all surrounding stacks", "why_tests_cant": "needs all messages and all keys; hash function arbitrary", "anchors": ["scripts/src/bit_comm/winternitz.rs: Winternitz::sign, sign_script, checksig_verify, digit_signature, generate_public_key, to_digits, checksum", "scripts/src/bit_comm/bit_comm_u32.rs: signature"]}
{"id": "C10", "title": "Winternitz: acceptance means each digit is backed by a chain to the public key and the checksum matches", "statement": "The check script accepts a stack exactly when it starts with ten (digit, preimage) pairs such that, for some 32-bit message v, each digit element is a script number whose minimum with 15 is the corresponding message or checksum digit of v, and hashing the preimage (15 - digit) times gives the corresponding public key; it then leaves exactly v's bytes in place of the pairs. A digit 15 may be replaced by any larger number without being noticed (finding).", "quantifier": "all witnesses (any byte strings), all public keys, all hash functions", "why_tests_cant": "adversarial witnesses cannot be enumerated", "anchors": ["scripts/src/bit_comm/winternitz.rs: checksig_verify"]}
{"id": "C11", "title": "Winternitz: no message can be turned into another one by hashing forward", "statement": "For any two different 32-bit messages v and w, at least one of the ten message+checksum digits of w is strictly smaller than that of v, so the signature of v never contains enough preimages to sign w by only hashing forward. Consequently, for a hash function whose chains do not meet, every witness accepted by the check script whose preimages are obtained from the hashes in v's signature by further hashing reveals exactly v.", "quantifier": "all pairs of distinct messages; all accepted witnesses derived from a published signature; all hash functions with disjoint chains", "why_tests_cant": "2^63 pairs", "anchors": ["scripts/src/bit_comm/winternitz.rs: checksum, to_digits, sign"]}
{"id": "C12", "title": "Bit commitments accept exactly the committed value", "statement": "For a commitment to a 32-bit value v, recover_message_euqal_to_commit_message accepts a stack exactly when v < 2^31 and the stack carries a valid signature of v under the commitment's key (or, for v = 0, of 0x80000000). In particular the honest witness is accepted for v < 2^31 and rejected for v >= 2^31 (finding). check_and_recover on a vector of commitments accepts exactly one valid signature per word and leaves the compressed words with the first on top; commit_u32_as_4bytes_script accepts exactly the committed word.", "quantifier": "all values, all keys, all stacks, all hash functions, vectors of any length", "why_tests_cant": "ranges over all values and all adversarial witnesses", "anchors": ["scripts/src/bit_comm/bit_comm_u32.rs: recover_message_euqal_to_commit_message, recover_message_at_stack, checksig_verify_script", "scripts/src/bit_comm/bit_comm.rs: recover_message_euqal_to_commit_message"]}
{"id": "C13", "title": "Script BLAKE3 equals the BLAKE3 specification on one block", "statement": "For every 64-byte message block given as 16 words on the stack, executing blake3() leaves exactly the eight output words of the BLAKE3 compression function for a single-chunk root block of 64 bytes, with the stack below unchanged.", "quantifier": "all 2^512 message blocks, all stacks below", "why_tests_cant": "infeasible input space; generated script contains tens of thousands of opcodes with data-dependent table lookups", "anchors": ["scripts/src/hashes/blake3.rs: blake3, G, round, permute, compress, initial_state, ptr, ptr_extract, ptr_insert"]}
{"id": "C14", "title": "Variable-length script BLAKE3 equals the specification", "statement": "For every message length 1..512, blake3_var_length(n) leaves the eight words of BLAKE3 of the n-byte message (padding, block flags and chaining included) with the stack below unchanged; lengths above 512 are refused; blake3_160 leaves the first five words of BLAKE3 of its 40-byte message. Length 0 is accepted but wrong: the script consumes 64 unrelated stack elements (or fails on a short stack).", "quantifier": "all supported lengths n and all n-byte messages", "why_tests_cant": "a family of scripts times an infeasible input space", "anchors": ["scripts/src/hashes/blake3.rs: blake3_var_length, blake3_160"]}
{"id": "C15", "title": "Bit decomposition scripts are exact", "statement": "value_to_bits_format(k) turns every number below 2^k into its k bits (high bit on top); a number of 2^k or more is not rejected but silently read as 2^k - 1 (finding). compress_bits / decompress are inverse to it; index_to_reverse_index(k) replaces every index below 2^k by its k-bit reversal; extracting the top n of 32 bits yields x >> (32-n) for nonnegative x. value_to_bits_format_special (which nothing calls) leaves the positions of the set bits and 33 for the others, but does not drop the rest of the value: one element more than its comment says stays below them.", "quantifier": "all bit lengths in range, all values", "why_tests_cant": "unbounded family of scripts and values", "anchors": ["script_expr/src/script_helper.rs: value_to_bits_format, value_to_32_bits_format, compress_bits, compress_custom_bits, decompress, reverse_bits_len_script, index_to_reverse_index", "script_expr/src/script_gen.rs: op_extract_high_bits", "script_expr/src/script_helper.rs:234-269"]}
{"id": "C16", "title": "index_to_rou computes the root-of-unity power on chain", "statement": "For every subgroup size 2^s (s <= 27) and every index below 2^s, index_to_rou(s) replaces the index by two_adic_generator(s)^index (embedded in the extension field when the target is the extension); in both fields every other index (a negative number or 2^s and more) makes the script fail.", "quantifier": "all s, all indices, both fields", "why_tests_cant": "2^27 indices per subgroup and 28 subgroup sizes", "anchors": ["script_expr/src/script_helper.rs: index_to_rou, push_two_adic_generator_table"]}
{"id": "C17", "title": "u31 field scripts implement BabyBear arithmetic", "statement": "For canonical operands (0 <= a,b < p) the add / sub / double / mul / square scripts leave the canonical result of the field operation, no opcode fails (so no operand ever exceeds the 4-byte range), and the alt stack is restored; u31_to_bits leaves the 31 bits, least significant on top.", "quantifier": "all pairs of canonical operands, all stacks", "why_tests_cant": "2^62 operand pairs", "anchors": ["scripts/src/u31/mod.rs: u31_add, u31_sub, u31_mul, u31_double, u31_to_bits", "scripts/src/lib.rs: u31_lib"]}
{"id": "C18", "title": "Prover and verifier transcripts stay in lockstep", "statement": "Two challengers created fresh and driven with the same sequence of observe / sample / sample_bits / check_witness calls return the same values; grinding leaves the prover's challenger in exactly the state the verifier reaches by checking the found witness, and the returned witness passes the check.", "quantifier": "all operation histories, all permutations, all grinding difficulties", "why_tests_cant": "ranges over every history of calls", "anchors": ["basic/src/challenger/mod.rs: BfChallenger::observe, sample, sample_bits, grind, check_witness, duplexing"]}
{"id": "C19", "title": "Transcript binding up to hash collision", "statement": "If two histories with the same sequence of call kinds reach the same sponge state with the same pending words (for instance none), then either every observed value is the same in both, or the recorded permutation inputs contain two different 64-byte messages with the same hash (a collision can be extracted).", "quantifier": "all pairs of histories of equal shape, all hash functions", "why_tests_cant": "a hash-collision reduction over unbounded histories", "anchors": ["basic/src/challenger/mod.rs: duplexing, observe, Blake3Permutation::permute_mut"]}
{"id": "C20", "title": "Observations shorter than a block are zero-padded ambiguously", "statement": "At a block boundary, observing k words (1 <= k <= 8) and sampling returns the same challenge, and the same answers ever after, as observing those words followed by zero words up to the block boundary and sampling: absorbed length is not bound (finding: x and x||0 collide in the transcript).", "quantifier": "all fresh-after-duplex states, all k < 8, all numbers of zero words with total at most 8", "why_tests_cant": "a universally quantified collision statement", "anchors": ["basic/src/challenger/mod.rs: duplexing, sample"]}
{"id": "C21", "title": "sample_bits never uses the top bit of the requested range", "statement": "For 1 <= bits <= 32, every value returned by sample_bits(bits) is at most (p-1) >> (32-bits), hence below 2^(bits-1): the upper half of the query domain is never sampled. A bits-bit proof-of-work check passes exactly when the sampled canonical value is below 2^(32-bits), which for bits >= 5 holds for exactly three intervals of 2^(32-bits) hash words: the check costs less than bits-1 bits of work (finding).", "quantifier": "all challenger states, all bit counts 1..32, all permutations", "why_tests_cant": "statistical bias is invisible in unit tests; it is a statement about every state", "anchors": ["basic/src/challenger/mod.rs: sample_bits, check_witness"]}
{"id": "C22", "title": "Grinding search space is 4096 witnesses", "statement": "grind(bits) returns only witnesses below 4096 and fails (panics) whenever no witness below 4096 works although the witness type has 2^32 values (finding: mod_p is 1 << 12, not 1 << 32).", "quantifier": "all states, all bit counts", "why_tests_cant": "depends on absence of a witness in the first 4096, which tests with small difficulty never see", "anchors": ["basic/src/challenger/chan_field.rs: PermutationField::mod_p", "basic/src/challenger/mod.rs: grind"]}
{"id": "C23", "title": "Script-side challenger agrees with the native challenger between observations", "statement": "For every history of observations, samples, bit samples and witness checks in which every sample is the first since the last observation (and no sampled word is 0x80000000), building the script-side challenger succeeds and each answer expression evaluates, in every environment, to the native BLAKE3 challenger's answer. Comparing the answers with values in a script manager accepts the native values and rejects one wrong value. Two samples without an observation in between differ: the native challenger returns the remaining words of the last hash, the script-side one hashes again (finding).", "quantifier": "all histories of observe / sample / sample_bits / check_witness, base and extension field", "why_tests_cant": "needs all histories; existing tests always observe between samples", "anchors": ["script_expr/src/challenger_expr.rs: BfChallengerExpr::observe, sample, sample_bits, duplexing", "basic/src/challenger/mod.rs: sample"]}
{"id": "C24", "title": "Byte and word views of commitments round-trip", "statement": "u256_to_u32 and u32_to_u256 are mutually inverse; from_u64 and from_le_bytes are mutually inverse little-endian encodings of 32-bit values; the bytes a script leaves for a 32-bit word (top of stack first) are that encoding.", "quantifier": "all 256-bit values", "why_tests_cant": "2^256 values", "anchors": ["basic/src/challenger/chan_field.rs: u256_to_u32, u32_to_u256, from_u64"]}
{"id": "C25", "title": "Tap tree keeps leaf indices stable", "statement": "For every list of 2^k scripts and every outcome of the hash-ordering of siblings, the tree built from them returns the i-th added script for get_tapleaf(i), for every i < 2^k; the recorded index table is a permutation. Leaf counts that are not powers of two are refused.", "quantifier": "all leaf lists of length 2^k, all hash functions (sibling orders)", "why_tests_cant": "sibling order depends on hash values; tests see a few orders only", "anchors": ["basic/src/tcs/builder.rs: TreeBuilder::add_leaf, build_tree, reverse_idx_dict", "basic/src/tcs/complete_taptree.rs: get_tapleaf, index_map"]}
{"id": "C26", "title": "Combining two trees concatenates their leaf index spaces", "statement": "For all trees a, b and both sibling orders, leaf i of a.combine(b) is leaf i of a when i < |a| and leaf i-|a| of b otherwise; the leaf count is the sum; combining any sequence of trees keeps this.", "quantifier": "all pairs (and sequences) of trees of any depth and both sibling orders", "why_tests_cant": "unbounded tree shapes and hash orders", "anchors": ["basic/src/tcs/complete_taptree.rs: combine, combine_other_script, new_with_scripts"]}
{"id": "C27", "title": "Every leaf of a built or combined tree has a valid Merkle path to the root", "statement": "For every tree obtained by building and combining, and every leaf, hashing the leaf up along its stored branch yields the tree's root; verify_inclusion accepts it whenever the tree has more than one leaf. For a one-leaf tree verify_inclusion panics (finding).", "quantifier": "all trees, all leaves, all hash functions with symmetric (sorted) node combination", "why_tests_cant": "all shapes and depths", "anchors": ["basic/src/tcs/complete_taptree.rs: verify_inclusion, combine", "basic/src/tcs/builder.rs: build_tree"]}
{"id": "C28", "title": "verify_inclusion_by_index looks at a different leaf than asked", "statement": "verify_inclusion_by_index(i) maps the index through the permutation twice, so it checks leaf perm(i) instead of leaf i; since every leaf of the tree verifies, its answer is still true for every i < n, but it does not establish inclusion of leaf i (finding).", "quantifier": "all trees and indices", "why_tests_cant": "the double mapping is invisible because the verdict is the same for all leaves", "anchors": ["basic/src/tcs/complete_taptree.rs: verify_inclusion_by_index, index_map, get_tapleaf"]}
{"id": "C29", "title": "Merkle binding up to hash collision", "statement": "Any leaf that verify_inclusion accepts for the root of a built or combined tree is one of that tree's own leaves (same script, same branch), or an input hashed while climbing from that leaf differs from, but has the same tagged hash as, an input hashed while climbing from one of the tree's leaves: the colliding pair is read off the two leaves. Two accepted leaves with the same branch are the same leaf, or the inputs hashed for the two collide in this way.", "quantifier": "all roots, leaves, paths, hash functions", "why_tests_cant": "cryptographic reduction", "anchors": ["basic/src/tcs/complete_taptree.rs: verify_inclusion", "basic/src/tcs/mod.rs: verify_proof"]}
{"id": "C30", "title": "Committed rows are the rows of the input matrices", "statement": "For every list of matrices with power-of-two heights, leaf q of the commitment opens to the concatenation, in order of decreasing height (stable), of row q >> (log max height - log height) of each matrix. open_batch returns exactly those rows, in input order, when the matrices are listed tallest first; otherwise it panics whenever the two orders give different values (finding).", "quantifier": "all matrix lists with power-of-two heights, all query indices", "why_tests_cant": "unbounded number and sizes of matrices", "anchors": ["basic/src/tcs/mod.rs: padding_matrix, commit_polys, open", "basic/src/mmcs/taptree_mmcs.rs: open_batch"]}
{"id": "C31", "title": "MMCS openings verify, but are not tied to the queried index", "statement": "What open_batch produces is always accepted by verify_batch (completeness). verify_batch accepts the opening of any leaf of the committed tree for any query: its verdict does not depend on the query index (finding).", "quantifier": "all committed data, all pairs of indices", "why_tests_cant": "about adversarial substitution of leaves", "anchors": ["basic/src/mmcs/taptree_mmcs.rs: open_batch, verify_batch", "basic/src/tcs/mod.rs: verify, verify_proof"]}
{"id": "C32", "title": "fold_even_odd computes p_even + beta * p_odd", "statement": "For every two-adic field, every size 2^k >= 2 within its two-adicity and every polynomial given by its evaluations in bit-reversed order over the subgroup of size 2^k, fold_even_odd returns the evaluations (bit-reversed, subgroup of size 2^(k-1)) of p_even(x) + beta p_odd(x), where p_even and p_odd have the even and odd coefficients. Every vector of that length is such a list of evaluations, and fold_even_odd panics exactly on all other lengths.", "quantifier": "all k, all evaluation vectors, all beta", "why_tests_cant": "unbounded sizes", "anchors": ["fri/src/fold_even_odd.rs: fold_even_odd"]}
{"id": "C33", "title": "Verifier row fold equals prover matrix fold", "statement": "For all heights 2^k, rows i < 2^k, beta and two-column matrices, fold_row(i, k, beta, row i) equals entry i of fold_matrix(beta, matrix); it is the value at beta of the line through (x, e0) and (-x, e1); a row whose length is not 2 panics.", "quantifier": "all heights, indices, challenges, rows", "why_tests_cant": "unbounded heights", "anchors": ["fri/src/two_adic_pcs.rs: fold_row, fold_matrix"]}
{"id": "C34", "title": "Script fold equals native fold", "statement": "fold_row_with_expr built for either position of the queried point in its pair evaluates to what fold_row gives for the pair in the right order, and the check it adds leaves 1 for the honest hint. For any other nonzero hint point the check is judged false; for hint point 0 building panics.", "quantifier": "all field elements of the base and the extension field, all pairs of heights up to 2^27, both positions, all managers the fold is built in, all gadget scripts", "why_tests_cant": "all field elements", "anchors": ["fri/src/two_adic_pcs.rs: fold_row_with_expr, fold_row"]}
{"id": "C35", "title": "FRI completeness", "statement": "For every list of codewords of strictly decreasing power-of-two lengths, all longer than the blowup, whatever proof bf_prove returns passes verification (shape, proof of work, every query) in debug and release builds and leaves the two challengers in step; on codewords of the proper degree bf_prove does not panic. Finding: an input whose length is exactly the blowup (a matrix of height one) is added in by the prover and never by the verifier, so honest proofs are rejected with FinalPolyMismatch.", "quantifier": "all two-adic fields, commitment schemes and challengers satisfying their contracts (and the tap tree scheme with BfChallenger in particular), all inputs, configurations and query indices", "why_tests_cant": "unbounded sizes and all randomness", "anchors": ["fri/src/prover.rs: bf_prove, bf_commit_phase, bf_answer_query", "fri/src/verifier.rs: verify_challenges, verify_query"]}
{"id": "C36", "title": "FRI verifier ignores the largest-height input opening", "statement": "The result of verify_challenges does not depend on the reduced opening at the maximal height: replacing it by any other field element, or leaving it out, never changes the result (finding: the first-layer consistency check is skipped).", "quantifier": "all proofs, challenges, openings; all replacement values", "why_tests_cant": "tests only feed honest proofs; the claim is about every malicious one", "anchors": ["fri/src/verifier.rs: verify_query, verify_challenges"]}
{"id": "C37", "title": "FRI verifier accepts truncated query proofs", "statement": "In a release build a query proof with an empty list of commit-phase openings folds to 0, so a proof made of such queries is accepted whenever its final polynomial is 0 and its input openings verify, whatever the commitments and challenges are. In general only the first min(log_max_height, #commits, #openings, #betas) layers are looked at, and surplus openings are never read (finding).", "quantifier": "all commitments, challenges, query indices", "why_tests_cant": "adversarial proofs", "anchors": ["fri/src/verifier.rs: verify_query"]}
{"id": "C38", "title": "FRI shape and proof-of-work checks", "statement": "If the number of query proofs differs from the configured number, or the proof-of-work witness fails, verification returns an error and no query is examined; otherwise exactly num_queries indices are drawn, each below 2^log_max_height.", "quantifier": "all proofs and configurations", "why_tests_cant": "all malformed proofs", "anchors": ["fri/src/verifier.rs: verify_shape_and_sample_challenges", "fri/src/script_verifier.rs: bf_sample_challenges"]}
{"id": "C39", "title": "Prover and verifier agree on reduced openings", "statement": "For every batch of committed matrices (any contents, heights, widths, opening points off the evaluation coset) and alpha, the prover's open reduces each height to the vector whose entry j is the sum of alpha^i (p_i(x_j) - y_i)/(x_j - z_i) over all columns and points of the matrices of that height, in the order of the batches, the power of alpha continuing across matrices of the same height and starting at one for each height; and the verifier's open_input, given the rows of a query, computes exactly the entries of these vectors that belong to the queried index (whatever values are claimed, it computes the same sum).", "quantifier": "all batches, heights, widths, points, alpha, query indices", "why_tests_cant": "unbounded batch shapes", "anchors": ["fri/src/two_adic_pcs.rs 260-420: open", "fri/src/two_adic_pcs.rs 455-530: verify", "fri/src/two_adic_pcs.rs 678-720: compute_inverse_denominators"]}
{"id": "C40", "title": "Symbolic degree bounds the real degree", "statement": "For every constraint expression and all trace polynomials of degree < n = 2^k, substituting them (with the selectors as polynomials) yields a polynomial of degree at most degree_multiple * (n-1) plus one per multiplicatively nested is_transition factor. The degree estimate is exact as a count: it is the largest number of trace cells and row selectors multiplied together in a constraint (public values, constants and is_transition count nothing), and get_log_quotient_degree is the least a with degree <= 2^a + 1. If the trace satisfies the AIR row by row, every constraint uses selectors as plain multiplicative factors and has fewer nested is_transition factors than max(2, max constraint degree), then the folded constraints are (X^n - 1) times a polynomial that fits into 2^get_log_quotient_degree chunks of n coefficients. Finding: without the bound on nested is_transition factors this fails (an AIR is exhibited whose satisfied constraints need more chunks than get_log_quotient_degree gives).", "quantifier": "all constraint expressions, all trace polynomials, all n = 2^k, all alpha", "why_tests_cant": "structural induction over all AIRs", "anchors": ["uni-stark/src/symbolic_expression.rs: degree_multiple", "uni-stark/src/symbolic_builder.rs: get_max_constraint_degree, get_log_quotient_degree"]}
{"id": "C41", "title": "Constraint folding is the Horner combination on every path", "statement": "Prover folder, verifier folder and script constraint builder all reduce the emitted constraint list c_0..c_{k-1} to sum c_i alpha^(k-1-i), except that the script accumulator panics on an empty list; a list with a nonzero entry folds to zero for at most k-1 values of alpha.", "quantifier": "all constraint lists, all alpha", "why_tests_cant": "all lists and all field elements", "anchors": ["uni-stark/src/folder.rs: assert_zero", "script_expr/src/script_builder.rs: get_accmulator_expr, assert_zero"]}
{"id": "C42", "title": "ZerofierOnCoset evaluates X^n - 1 on the coset", "statement": "ZerofierOnCoset::new succeeds iff no coset point lies in H; eval(i) equals (shift * w^i)^n - 1 for every i (also beyond the table length), eval_inverse(i) its inverse, lagrange_basis_unnormalized(j)_i equals Z_H(x_i)/(x_i - h^j).", "quantifier": "all log sizes, shifts, indices", "why_tests_cant": "unbounded indices and sizes", "anchors": ["uni-stark/src/zerofier_coset.rs: eval, eval_inverse, lagrange_basis_unnormalized"]}
{"id": "C43", "title": "Quotient recombination", "statement": "The verifier's quotient value computed from chunk openings equals the quotient polynomial at zeta for every chunk count 2^m and every polynomial split over the chunk cosets.", "quantifier": "all chunk counts, chunk polynomials, zeta outside the cosets", "why_tests_cant": "unbounded chunk counts", "anchors": ["uni-stark/src/verifier.rs: verify (zps, quotient)"]}
{"id": "C44", "title": "The quotient expression works for one chunk only", "statement": "compute_quotient_expr panics for every AIR with two or more quotient chunks, whatever the other arguments (finding: sub_ext/mul_ext are called on Dsl<Challenge> and assert U32_SIZE == 1). For one chunk of 4 values, the manager with its check embedded is accepted exactly when the denominator hint is 1 and the given result is the quotient the native verifier computes from the chunk.", "quantifier": "all zeta expressions, degrees, generators, chunk values, hints, results, chunk counts >= 2 for the panic; all gadget scripts meeting their contract", "why_tests_cant": "the only AIR run through generate_script_verifier has one chunk", "anchors": ["uni-stark/src/scripts/bf_unistark.rs: compute_quotient_expr", "uni-stark/src/scripts/utils.rs: get_table"]}
{"id": "C45", "title": "Challenges do not depend on public values or the degree", "statement": "verify on one proof with two public-value vectors (giving the same chunk count) either has the same result, or draws the same challenges, performs the same PCS verification, and differs only in the final out-of-domain comparison: one is accepted, the other OodEvaluationMismatch. In release builds degree_bits is only read modulo 64 (findings: public values and degree are not bound in the transcript).", "quantifier": "all proofs, AIRs, pairs of public value vectors", "why_tests_cant": "statement about two runs", "anchors": ["uni-stark/src/verifier.rs: verify", "uni-stark/src/prover.rs: prove"]}
{"id": "C46", "title": "Verifier returns Ok only if shape, opening and out-of-domain checks all hold", "statement": "uni-stark verify returns Ok iff the opened values have the right shape, the PCS accepts, zeta is outside the trace domain and the folded constraints times the inverse zerofier equal the recombined quotient. As long as degree_bits + log_quotient_degree fits the field's two-adicity, InvalidProofShape is returned exactly for the wrong shapes, before anything else; beyond that the verifier panics (finding: no error for an oversized degree_bits).", "quantifier": "all proofs and public values", "why_tests_cant": "all malformed proofs", "anchors": ["uni-stark/src/verifier.rs: verify"]}
{"id": "C47", "title": "Row-by-row constraint checker visits every row with the right successor and selectors", "statement": "check_constraints succeeds iff every constraint vanishes at every row with next row (i+1) mod height and selectors first/last/transition equal to 0/1, set exactly at rows 0, h-1 and all but h-1. Finding: because the prover and verifier use unnormalised selector polynomials, an AIR that uses a selector non-multiplicatively can pass the row check without the folded constraints being divisible by the zerofier.", "quantifier": "all heights, traces, constraint systems", "why_tests_cant": "all traces", "anchors": ["uni-stark/src/check_constraints.rs: check_constraints"]}
{"id": "C48", "title": "Optimised script generation preserves meaning", "statement": "Let an expression's identifiers be unique, its inputs be present on the stack (a moved input used at one place), and its shared nodes have one output. Then generation with common-subexpression caching and generation without it both succeed, both leave the tracked alt stack as they found it, and on every stack content the two scripts either both fail or both leave the same stacks: the value of the expression (each opcode read as the field or integer operation of its name) on top of the inputs that were not moved. Caching alone is also correct when multi-output nodes are shared, provided nothing below them is shared or moved.", "quantifier": "all DAGs, all sharing patterns, all input values, all stacks below, all implementations of the external field gadgets that compute the operation of their name", "why_tests_cant": "unbounded DAGs", "anchors": ["script_expr/src/lib.rs: simulate_express, express_to_script", "script_expr/src/opcode.rs"]}
{"id": "C49", "title": "Caching breaks when multi-output nodes are shared", "statement": "There is an expression, built with the public functions, whose hash node is referenced twice and contains a shared constant, for which generation without caching succeeds and generation with caching panics: the counting pass counts the constant's uses once, generation expands the hash node twice and requests the cached constant after it was consumed (finding).", "quantifier": "existence; contrasted with the all-DAG property above", "why_tests_cant": "needs a sharing pattern not present in tests", "anchors": ["script_expr/src/lib.rs: simulate_express, express_to_script"]}
{"id": "C50", "title": "Embedded hint checks are combined by parity, not conjunction", "statement": "A manager filled by any sequence of building, input, hint, execution and check calls is accepted by run exactly when the value of its expression together with the words of the unused inputs is a single nonzero word. After embed_hint_verify over boolean base-field results it is accepted exactly when every input is used and an even number of the execution and check results is 0: all true is accepted, exactly one false is rejected, two false checks cancel and are accepted (finding). A failing extension-field check always rejects.", "quantifier": "all sessions with a manager, all lists of checks, all values, all gadget scripts meeting their contract", "why_tests_cant": "all tests have an even number of (silently) failing checks or none", "anchors": ["script_expr/src/input_manager.rs: set_exec_dsl, add_hint_verify, embed_hint_verify, simulate_input, run", "uni-stark/src/script_verifier.rs: generate_script_verifier"]}
{"id": "C51", "title": "Query-index consistency checks of the script verifier fail for honest proofs and cancel in pairs", "statement": "For every transcript (trace, quotient and FRI commitments, witness) with new challengers, generating the challenge checks of the script verifier succeeds exactly when the number of query proofs is the configured one and the native proof-of-work check passes. The query indices used are the native ones, drawn two per hash from words 3 and 7, while the script computes each from word 7 of a further hash. If no sampled word is 0x80000000 and the trace has at least two rows, the script of the checks succeeds exactly when the number of differing indices is even: an honest transcript with one query can be rejected, and one with two queries is accepted though both indices differ (finding). A trace with one row is always rejected.", "quantifier": "all commitments and witnesses, all numbers of queries, FRI rounds and proof-of-work bits (1..31), all input counters", "why_tests_cant": "two bugs cancelling each other make the tests green", "anchors": ["fri/src/script_verifier.rs: bf_sample_challenges", "script_expr/src/challenger_expr.rs: sample_bits", "script_expr/src/input_manager.rs: embed_hint_verify"]}
{"id": "C52", "title": "Distinct value counting", "statement": "Registering any sequence of values with get_or_set never panics and get_value_num is the number of distinct values; set_value_bitcomm panics exactly for values already registered. For a list of managers set_value_count counts the distinct words of their inputs; hints are not counted.", "quantifier": "all sequences", "why_tests_cant": "all sequences", "anchors": ["script_expr/src/value_manager.rs: ValueCounter", "script_expr/src/input_manager.rs: set_value_count"]}
{"id": "C53", "title": "Manager cursor", "statement": "After any calls next_manager appends a fresh manager, returns it, and makes current the manager after the previous cursor; that is the returned one exactly when the cursor was on the last manager, hence always when neither add_manager nor move_current_index was called. Inputs go to the current manager only. After move_current_index to another than the last manager, or after add_manager, next_manager makes a different manager current than the one it returns (finding). current_manager returns the manager at the cursor; it panics, as inputs do, exactly when no cursor is set.", "quantifier": "all sequences of clear, add_manager, next_manager, move_current_index and input calls", "why_tests_cant": "all sequences", "anchors": ["script_expr/src/input_manager.rs: ManagerAssign::next_manager, current_manager, move_current_index"]}
{"id": "C54", "title": "Extension-field add / sub / double / equality scripts act coefficientwise", "statement": "For two degree-4 extension elements given as four canonical coefficients each, u31ext_add, u31ext_sub and u31ext_double leave the coefficientwise sum, difference (deeper operand minus top operand) and double modulo p in the same coefficient order; u31ext_equalverify removes both operands iff all four coefficients agree and fails otherwise; the alt stack is restored.", "quantifier": "all canonical coefficients, all stacks", "why_tests_cant": "2^248 operand pairs and all surrounding stacks", "anchors": ["scripts/src/u31_ext/mod.rs: u31ext_add, u31ext_sub, u31ext_double, u31ext_equalverify"]}
{"id": "C55", "title": "sub_group enumerates the two-adic subgroup", "statement": "For every s <= 27, sub_group(s) returns exactly 2^s pairwise different elements, the i-th being generator^i; the generator has order exactly 2^s; the second half of the list is the negated first half.", "quantifier": "all s <= 27, all indices", "why_tests_cant": "groups of up to 2^27 elements; pairwise distinctness is a statement about the exact multiplicative order", "anchors": ["basic/src/field/mod.rs: BfField::group_genreator, BfField::sub_group"]}
{"id": "C56", "title": "check_equal_x_or_neg_x_script compares byte by byte", "statement": "check_equal_x_or_neg_x_script for commitments to x and y accepts a word w exactly when each of the four bytes of w equals the corresponding byte of exactly one of x and y. Hence words that are neither x nor -x pass (mixtures), and x itself is rejected whenever x and y share a byte, e.g. x = 1, y = p - 1 (findings).", "quantifier": "all 32-bit x, y, w, all surrounding stacks", "why_tests_cant": "the accepted set is a product of four byte sets over 2^96 triples; the failing cases are the ones no test picks", "anchors": ["scripts/src/bit_comm/bit_comm_u32.rs: check_equal_x_or_neg_x_script, commit_u32_as_4bytes"]}
{"id": "C57", "title": "Challenges form a hash chain over 32-byte blocks", "statement": "With the Blake3 permutation, the challenger never panics (for bit counts up to 32) and answers exactly as the following chain: a 32-byte value, initially zero, is replaced by the hash of the zero-padded block of words observed since, followed by the previous value; a challenge takes the unused 4-byte words of the current value from the last to the first, reduced modulo p, hashing again (with an empty block) when they run out or when words are pending.", "quantifier": "all histories of observe / sample / sample_bits / check_witness, base and extension field, all hash functions with 32-byte output", "why_tests_cant": "Histories are unbounded and the interleaving of observations and samples decides when the sponge is permuted; tests only cover a handful of interleavings with one hash.", "anchors": ["basic/src/challenger/mod.rs: Blake3Permutation::permute_mut, duplexing, observe, sample, sample_bits, check_witness"]}
{"id": "C58", "title": "Recorded transcript replays", "statement": "After any history, permutation_output_records are the images of permutation_input_records, the sponge state is the image of the last recorded input, and sample_output holds the reductions of the words in sample_input (as many as the field has coefficients). After grind, grind_bits and grind_output hold the difficulty and the last sampled value, which is below 2^(32-bits).", "quantifier": "all histories, all permutations, all widths, both challenge fields", "why_tests_cant": "The records feed the script-side transcript check for every proof; a test compares a few recorded values only.", "anchors": ["basic/src/challenger/mod.rs: duplexing, record_sample, sample, grind"]}
{"id": "C59", "title": "A digest check passes exactly for the right digest", "statement": "blake3() followed by push_bytes_hex(d) and blake3_hash_equalverify() runs to the end, removing message and digest, exactly when the 32 bytes d are BLAKE3 of the 64-byte message; any other d makes it fail. Same for blake3_160 with the first 20 digest bytes of the 40-byte message.", "quantifier": "all messages, all digests, all stacks below", "why_tests_cant": "the rejecting direction ranges over 2^256 digests and all messages; byte order and word order mistakes can cancel on symmetric test data", "anchors": ["scripts/src/hashes/blake3.rs: push_bytes_hex, blake3_hash_equalverify, blake3_160_hash_equalverify, blake3, blake3_160"]}
{"id": "C60", "title": "Accepted MMCS openings are committed rows", "statement": "If verify_batch accepts an opening made with the committed bit commitments, the opened values start with the rows of the leaf whose index the proof carries, unless an input hashed for the opened leaf collides with an input hashed for one of the leaves of the committed tree.", "quantifier": "all batches, openings, proofs, roots, hash functions", "why_tests_cant": "soundness against arbitrary openings and proofs", "anchors": ["basic/src/mmcs/taptree_mmcs.rs: verify_batch", "basic/src/tcs/mod.rs: verify, generate_witness, generate_script"]}
{"id": "C61", "title": "Surplus opened values are not checked", "statement": "verify_batch looks only at the first (committed width) values of the flattened opening: the boundaries between opened rows and any value after them do not influence the verdict, so an opening with never-committed values is accepted (finding).", "quantifier": "all openings, proofs, roots", "why_tests_cant": "adversarial openings", "anchors": ["basic/src/mmcs/taptree_mmcs.rs: verify_batch", "basic/src/tcs/mod.rs: generate_witness, set_commited_value"]}
{"id": "C62", "title": "What an accepted FRI proof guarantees", "statement": "verify_challenges returns Ok exactly when for every query the input openings verify and, in every layer it looks at, one row of two values is opened and verifies against the layer's commitment, the value at the queried position equals the fold of the previous layer plus the reduced opening of that height (from the second layer on), and the last fold equals the final polynomial (and, in debug builds, the remaining index is below the blowup). In particular no layer is tied to the query index other than through the parity of the position in the row.", "quantifier": "all proofs, challenges, configurations, commitment schemes", "why_tests_cant": "characterises the verdict on every malformed or malicious proof", "anchors": ["fri/src/verifier.rs: verify_challenges, verify_query"]}
{"id": "C63", "title": "TwoAdicFriPcs completeness", "statement": "For every list of batches of matrices on power-of-two cosets (each batch tallest first, every matrix with at least two rows) and opening points outside the committed coset, commit and open return (given a total challenger), the opened values are the values at the points of the unique interpolants of the columns, and verify started on a transcript in the same state accepts the proof and ends in the same transcript state as the prover.", "quantifier": "all batches, domains, points, configurations with log_blowup >= 1, transcripts; all commitment schemes and challengers satisfying their contracts, and the tap tree scheme with BfChallenger over BabyBear and its quartic extension", "why_tests_cant": "unbounded numbers, heights and widths of matrices, all challenges", "anchors": ["fri/src/two_adic_pcs.rs 220-420: commit, open", "fri/src/two_adic_pcs.rs 421-535: verify"]}
{"id": "C64", "title": "get_evaluations_on_domain", "statement": "For every committed matrix and every size up to its committed height, get_evaluations_on_domain on the coset with shift F::generator() returns the evaluations of the committed polynomials on that coset in natural order; any other shift panics.", "quantifier": "all commitments, indices and domains", "why_tests_cant": "unbounded sizes; bit-reversed layout is only exercised on one size by tests", "anchors": ["fri/src/two_adic_pcs.rs 247-258: get_evaluations_on_domain"]}
{"id": "C65", "title": "PCS verification never returns an error", "statement": "TwoAdicFriPcs::verify has a Result type but never returns Err: for every input it returns Ok or panics (finding: a malformed or false proof crashes the verifier); it returns Ok exactly when the FRI shape check and all FRI queries succeed.", "quantifier": "all claims, proofs and transcripts", "why_tests_cant": "universal over malicious proofs", "anchors": ["fri/src/two_adic_pcs.rs 421-535: verify"]}
{"id": "C66", "title": "Claimed values of the tallest matrices are not checked", "statement": "The result of TwoAdicFriPcs::verify does not depend on the values claimed for matrices of maximal height (log_n + log_blowup = number of commit phase commitments + log_blowup): changing them arbitrarily never changes the result. Hence after an honest run every other value is accepted in place of the opened ones (finding: the polynomial commitment is not binding, because the first FRI layer is not compared with the reduced opening).", "quantifier": "all claims, proofs, transcripts and replacement values", "why_tests_cant": "tests only verify honest claims; the statement is about every false claim", "anchors": ["fri/src/two_adic_pcs.rs 421-535: verify", "fri/src/verifier.rs: verify_query"]}
{"id": "C67", "title": "STARK completeness", "statement": "If a trace passes check_constraints, the AIR uses selectors as plain factors, and the prover's run produces a proof (with an opening point zeta outside the cosets used), then verify with a synchronised challenger returns Ok and leaves the challenger synchronised. With a challenger that never gets stuck the prover does produce a proof. Also instantiated for BabyBear with the degree-4 extension, tap-tree commitments and the challenger of the code.", "quantifier": "all AIRs, traces of all heights 2^k, widths, public values, challenger states, FRI configurations in range", "why_tests_cant": "tests run one AIR and one trace; the statement is for all of them", "anchors": ["uni-stark/src/prover.rs: prove, quotient_values", "uni-stark/src/verifier.rs: verify"]}
{"id": "C68", "title": "Every statement has an accepted proof", "statement": "For every AIR, every public-value vector and every pair of opened trace rows of the right width there is a proof with these opened rows that verify accepts (whenever the opening point is outside the cosets); any accepted proof for one AIR can be turned into an accepted proof for any other AIR with the same chunk count by changing the opened values only. Finding: uni-stark verify is not sound, because fri/src/verifier.rs 144 compares reduced openings only below the largest height.", "quantifier": "all AIRs, public values, opened rows", "why_tests_cant": "tests only verify honest proofs or one corrupted value", "anchors": ["fri/src/verifier.rs 134-160: verify_query", "uni-stark/src/verifier.rs: verify"]}
{"id": "C69", "title": "Every bit commitment index is handed out once", "statement": "Committing matrices allocates bit commitments with consecutive indices from the running counter, returns the counter advanced by the number allocated, and the commitments used by all leaves of successive commits are pairwise distinct.", "quantifier": "all matrices, query counts, counters", "why_tests_cant": "one reused one-time key breaks the scheme; tests look at single leaves", "anchors": ["basic/src/tcs/mod.rs 284-330: commit_poly_with_query_times", "basic/src/tcs/mod.rs: CommitedData, BCManager"]}
{"id": "C70", "title": "Expression identifiers are unique", "statement": "After any sequence of calls to the expression-building functions, two nodes reachable from any of the returned handles that have the same identifier are the same node, so the cache keyed by identifier never confuses two nodes.", "quantifier": "all call sequences, all counter start values", "why_tests_cant": "the identifier comes from a global counter and is used as a cache key; confusion would need a particular sequence of constructor calls", "anchors": ["script_expr/src/alias.rs: get_opid and every constructor of Dsl", "script_expr/src/input_manager.rs: assign_input_opcode"]}
{"id": "C71", "title": "Rebinding commitments to new values", "statement": "change_value on a 32-bit commitment and new_with_commits for a multi-word commitment keep the keys and public keys and set value and digits exactly as a commitment made from the same keys for the new value; new_with_commits panics exactly on a different number of words. Scripts of a rebound commitment recover the new value.", "quantifier": "all keys, all old and new values", "why_tests_cant": "needs all values and keys; no test rebinds and runs the scripts", "anchors": ["scripts/src/bit_comm/bit_comm.rs: new_with_commits", "scripts/src/bit_comm/bit_comm_u32.rs: change_value"]}
{"id": "C72", "title": "Query scripts and the native query verifier", "statement": "bf_verify_challenges makes one manager per query, which with its checks embedded is accepted exactly when the chain of foldings of the query (reduced openings and carried values at the queried point, committed values at the other) ends in the final value. If the native verify_query gets through the query, the first layer's row has the reduced opening at the queried point and every reduced opening is taken, this is the native verdict; if the rows of all layers are consistent with the carried values, a folded query is one the native verifier folds to the same value. Otherwise they differ (findings): a query whose committed rows disagree with the folded values is accepted by the script while the native verifier panics; a query accepted natively is rejected by the script when the first layer disagrees, when a reduced opening is left over, or when log_blowup is 0.", "quantifier": "all commitment schemes, proofs, challenges, indices below 2^log_max_height up to 27, reduced openings built by any closure meeting its contract, both fields, all gadget scripts meeting their contract", "why_tests_cant": "tests run honest proofs only, where all of these agree", "anchors": ["fri/src/script_verifier.rs: bf_verify_challenges, bf_verify_query", "fri/src/verifier.rs: verify_query", "fri/src/two_adic_pcs.rs: fold_row_with_expr"]}
{"id": "C73", "title": "Selector expressions have the native values, except z_h", "statement": "Whenever the native selectors_at_point does not panic, selectors_at_point_expr does not panic and its is_first_row, is_last_row and is_transition expressions have the native values for every shift, point and size. The z_h expression is the unshifted point to the power 2 XOR log_n and not the vanishing polynomial (finding).", "quantifier": "all shifts, points of the extension, log sizes", "why_tests_cant": "tests use the result of one domain and never look at z_h", "anchors": ["script_expr/src/lagrange.rs: selectors_at_point_expr"]}
{"id": "C74", "title": "Reduced openings in the query scripts", "statement": "The closure of TwoAdicFriPcs::generate_verify_expr builds, for every list of rounds, every input proof, every query index and every challenge alpha, one expression per height whose script value is the reduced opening the native verify computes for that height, in the same descending order; an error of verify_batch is returned as the same error and where the native code panics no script is built. The script manager of a query then accepts exactly the value the native verifier folds the query to (first layer consistent, no reduced opening left over). What the scripts do not give: the value put in for 1/(x-z) is an input no check constrains, so for a nonzero numerator and challenges that are not the opposite of their points, every final value can be reached by choosing it.", "quantifier": "all rounds, matrices, points, opened values, proofs, commitments, query indices, alpha, identifiers, managers, commitment schemes satisfying no further assumption; all final values", "why_tests_cant": "tests build the scripts for one honest proof, where the inverse is right; neither agreement on all proofs nor the freedom of the inverse shows there", "anchors": ["fri/src/two_adic_pcs.rs:552-677", "fri/src/script_verifier.rs:20-140"]}
{"id": "C75", "title": "The constraint script accepts exactly the native accumulator", "statement": "For every Air::eval (any sequence of local, next, public, selector, constant, +, -, *, negation, assert_zero and assert_eq steps), opened rows, public values and challenges: when the native verifier's folder computes an accumulator and there is at least one constraint, generating and running the constraint script does not panic and the interpreter accepts it exactly when it was built with that accumulator; the native accumulator is the Horner folding of the assertions in order. Where the native folder panics the script generation panics. With no constraint at all the native accumulator is zero while the script generation panics (finding). The same holds for a builder made with ScriptConstraintBuilder::new from the values of the selectors, whatever these are.", "quantifier": "all tables, rows, public values, points, alpha, sizes, accumulators, identifiers, gadget scripts meeting their contract; total stack size below 2^31", "why_tests_cant": "tests run two tables with honest openings and only look at success; neither wrong accumulators nor arbitrary tables are covered", "anchors": ["script_expr/src/script_builder.rs: ScriptConstraintBuilder", "uni-stark/src/script_verifier.rs:235-300", "uni-stark/src/folder.rs: VerifierConstraintFolder"]}
{"id": "C76", "title": "Verdict of generate_script_verifier against the native verifier", "statement": "For every proof the native uni-stark verifier accepts (one quotient chunk, an AIR with a constraint, first layers containing the reduced openings, no sample word equal to 0x80000000), generate_script_verifier with fresh challengers returns Ok exactly when an even number of the query indices sampled by the script differs from the native ones, and panics otherwise. So native acceptance does not imply script acceptance (witness with one query). Whenever it returns Ok, the native verifier has the same transcript and its verdict is that of its query checks alone; every query, at the index the native verifier samples, folds to the final value of the proof, and if moreover the rows of all layers contain the values carried along, the native verifier accepts; the number of differing indices is even. The only errors it returns are InvalidProofShape and OodEvaluationMismatch. With two or more quotient chunks, with a one-row trace, or for an AIR without constraints it never returns Ok.", "quantifier": "all AIRs (any sequence of builder steps), proofs, commitment schemes, numbers of queries, layers and columns, public values, starting identifiers, gadget scripts meeting their contract; total stack size below 2^31", "why_tests_cant": "tests run two honest proofs with a fixed number of queries and only look at success; the dependence on the parity of differing indices, and the inputs never accepted, do not show", "anchors": ["uni-stark/src/script_verifier.rs:25-306", "fri/src/two_adic_pcs.rs:554-675", "uni-stark/src/verifier.rs"]}
{"id": "C77", "title": "Stack room needed by the BLAKE3 scripts", "statement": "blake3_var_length(n), run on an interpreter with at most L elements on both stacks together, leaves the digest and the rest of the stacks unchanged when L is at least 64*ceil(n/64)+328 plus the number of other elements, and fails when L is smaller. So with the limit of 1000 every supported length works beside at most 160 other elements, and length 512 fails beside 161. blake3 (64 bytes) and blake3_160 (40 bytes) need exactly 392 plus the other elements. The limited interpreter never produces a result the unlimited one does not.", "quantifier": "all lengths 1..512, messages, other stack contents, limits, hash opcodes", "why_tests_cant": "tests hash a few messages on an otherwise empty stack", "anchors": ["scripts/src/hashes/blake3.rs", "scripts/src/lib.rs:97-164"]}
{"id": "C78", "title": "Row width that can be verified within the stack limit", "statement": "An opening returned by open_batch, verified on an interpreter limited to L elements, is accepted exactly when 20*(1+w)+17 <= L, where w is the number of 32-bit words of the opened rows (width times words per element). With the limit of 1000: accepted up to 48 words, rejected above, although commit and open_batch succeed (witness with 49 columns). Acceptance under a limit implies acceptance without.", "quantifier": "all batches of matrices, heights, widths, queries, indices, field encodings, hash functions, limits", "why_tests_cant": "tests commit narrow matrices only; the bound is a statement about every width", "anchors": ["basic/src/mmcs/taptree_mmcs.rs:78-101", "basic/src/tcs/mod.rs:140-144, 417-427", "scripts/src/bit_comm/winternitz.rs", "scripts/src/lib.rs:97-164"]}
{"id": "C79", "title": "Generator table and x^n - 1 in script", "statement": "get_generator(g, n) of uni-stark/src/scripts/utils.rs panics exactly for n = 0, or for g = 0 with n >= 2. For nonzero g and an index k < 2n-1 on the stack its script consumes the index and leaves g^(k+1-n), which is entry 2n-2-k of get_table(g, n), everything else unchanged. An index of 2n-1 or more is not rejected: the script copies an element of the caller's stack below the table. The script needs room for exactly 2n field elements beside the other elements, so with the limit of 1000 an extension table of 125 chunks is the largest. value_exp_n_minus_one(log_n) replaces x by x^(2^log_n) - 1, in both fields.", "quantifier": "all generators, chunk numbers, indices below 2^28, stacks, limits, exponents, elements; multiplication scripts of the extension meeting their contract", "why_tests_cant": "tests run a few indices and sizes with the expected index range only", "anchors": ["uni-stark/src/scripts/utils.rs:9-94"]}
{"id": "C80", "title": "run_dsl and assert_dsl decide equality with the value of the expression", "statement": "For every expression a client can build without input variables, whose nodes with several outputs are not shared and whose declared size is that of the field: run_dsl(expr, v) reports success exactly when the value of the expression is v (limb by limb), assert_dsl panics exactly when it is not, and an expression containing a failing check never succeeds. An expression of another declared size makes both panic during generation, whatever its value. Negation, doubling, squaring, powers, sums, differences and products cannot be built on a constant whose number of words is not 0, 1 or 4: they panic.", "quantifier": "all histories of calls of the expression API, all expressions in them, all values of both fields, counter values, gadget scripts meeting their contract", "why_tests_cant": "the whole test suite of the expression language relies on assert_dsl; a test using it cannot show that it never passes for a wrong value", "anchors": ["script_expr/src/lib.rs:196-212", "script_expr/src/alias.rs:387-389"]}
{"id": "C81", "title": "Secret keys of bit commitments", "statement": "BitCommitment::new calls the generator once per 32-bit word, in order; for any generator the words are kept and the honest witness is accepted and recovers them. The locking script depends on the keys only. With ConstantSecretGen the commitment binds nothing: the script made for one value accepts the witness made for any other value of the same length and recovers that one, and when the other value consists of words already revealed its witness consists of signatures already revealed (e.g. a permuted extension element), so no key is needed.", "quantifier": "all generators and states, values of any number of words, stacks, hash functions", "why_tests_cant": "tests commit and recover one honest value; exchangeability is a statement about all pairs of values", "anchors": ["scripts/src/bit_comm/secret_generator.rs:6-18", "scripts/src/bit_comm/bit_comm.rs:28-60, 126-153"]}
{"id": "C82", "title": "AIR variables as input variables", "statement": "The conversion of a symbolic AIR variable into an input variable of the expression language keeps the cells of the main trace apart and panics for public values and challenges. It does not keep main, preprocessed and permutation traces apart, and the variable it gives is never one the constraint script builder registers (row and column are exchanged, the size is missing), so generating a script from it panics.", "quantifier": "all entries, offsets, indices other than the row number reserved for public values, trace widths, public values", "why_tests_cant": "the conversion has no test that looks a converted variable up", "anchors": ["uni-stark/src/expr_helper.rs:46-90", "script_expr/src/script_builder.rs:45-127"]}
{"id": "C83", "title": "Field computations through the expression language", "statement": "A computation written with the operators of Dsl (constants, inputs, +, -, * within a field and between base and extension, operations with constants, neg, double, square, powers of two, sum, product), in which any intermediate result may be used any number of times, has the value of the same computation in the field: run_dsl and assert_dsl accept exactly the native value and panic for an element of the other field; with the inputs on the stack, one script generated for all input values leaves the native value on top and everything else as it was.", "quantifier": "all programs of any length, inputs, values, previously built expressions, stacks", "why_tests_cant": "tests evaluate one operator at a time on a few values; sharing, mixing of the fields and the order of operands matter in compositions of any length", "anchors": ["script_expr/src/alias.rs:98-110, 180-208, 299-381, 592-831", "script_expr/src/lib.rs:196-212"]}
{"id": "C84", "title": "Winternitz key reuse", "statement": "When several messages are signed with one key, the further messages whose check script can be satisfied by hashing forward from the published hashes are exactly those each of whose ten digits is at least the corresponding digit of one of the signed messages. One signature covers its own message only; the signatures of 15 and 240 already cover every word whose hexadecimal digits add up to 9..15. With ConstantSecretGen, which uses one key for all words of a value, a revealed value therefore lets anybody satisfy the script with any vector of covered words (finding).", "quantifier": "all keys, sets of signed messages, target messages, hash functions (for the converse: with disjoint chains), stacks", "why_tests_cant": "needs all messages and all derivations from published signatures", "anchors": ["scripts/src/bit_comm/winternitz.rs:88-125, 128-238, 270-286", "scripts/src/bit_comm/secret_generator.rs:6-18"]}
{"id": "C85", "title": "Multi-query openings of a commitment verify together, and the joint verdict is that of the first bad query", "statement": "For any batch of matrices with power-of-two heights committed for nq > 0 queries, open_with_query_times never panics on nq in-range indices, returns for every query the rows of the queried leaf (tallest matrix first) with a proof carrying that index, and verify_with_query_times accepts what it returns; open_with_one_query returns exactly the entry of its query. verify_with_query_times accepts if and only if every one of the first query_times entries verifies on its own; otherwise its outcome (rejection or panic) is that of the first entry that does not, and entries beyond query_times never matter. Accepted values start with the committed rows, query by query, unless for some query an input hashed for its leaf collides with one hashed for a leaf of its tree. get_max_height is the number of rows of a tallest committed matrix and panics exactly when there is no tree, no matrix, or a matrix of width zero. commit_vec commits leaf q to element q alone. With zero queries everything is accepted, while opening panics.", "quantifier": "all batches, heights, numbers of queries, index vectors, roots, proofs and opened values, all hash functions and all bit commitments meeting the contract", "why_tests_cant": "Tests open a handful of fixed matrices with a few queries; they cannot show that every batch and every index vector opens and verifies, nor that no list of proofs with a bad entry is accepted.", "anchors": ["basic/src/tcs/mod.rs:302-326", "basic/src/tcs/mod.rs:405-414", "basic/src/tcs/mod.rs:435-455", "basic/src/mmcs/bf_mmcs.rs:25-67", "basic/src/mmcs/taptree_mmcs.rs:103-122"]}
{"id": "C86", "title": "The Fibonacci AIR, end to end", "statement": "generate_trace_rows panics exactly for lengths that are not powers of two and otherwise fills row i with entries i and i+1 of the Fibonacci sequence starting at (a, b). A two-column trace with 2^k rows passes the constraints of FibonacciAir with public values (a, b, x) if and only if it is that sequence and x is entry 2^k. The AIR needs one quotient chunk. For every k >= 1, a and b the trace is proved and the proof is accepted, unless zeta is a bad point. On accepted proofs generate_script_verifier accepts or panics depending on the parity of differing query indices. Finding: for every x, also a wrong one, there is a proof that the native verifier accepts.", "quantifier": "all starting values, all power-of-two lengths, all traces, all public values, all commitment schemes and challengers meeting the contracts", "why_tests_cant": "The repository tests one start (0, 1) with eight rows and never a wrong trace or output.", "anchors": ["uni-stark/tests/fib_air.rs:19-77", "uni-stark/tests/fib_air.rs:115-192", "uni-stark/src/prover.rs", "uni-stark/src/verifier.rs"]}
{"id": "C87", "title": "Wide AIRs cannot be verified by script within the stack limit", "statement": "The script of an input manager pushes every word of every input and hint before it computes anything, so with a limit of L stack elements (1000 on chain) a manager with more than L words is never accepted. The manager of a FRI query holds exactly five words for each opened column and point (the opened value and minus the claimed one), four for each point of each matrix, twelve for each folding layer and four for the final value; the constraint script pushes eight words for each trace column and four for each public value. Hence whatever generate_script_verifier accepts on an interpreter with limit L it accepts without a limit, and then 8 * width + 4 * public values <= L and, if a query opens a row of the trace at full width, 10 * width + 12 <= L. Finding: with L = 1000 no AIR of 99 or more columns can be verified by the generated scripts when the queries open its rows (126 columns: never).", "quantifier": "all limits, managers, AIRs, proofs, public values, commitment schemes, hash functions and gadget scripts", "why_tests_cant": "The test AIRs have two columns, and the local runs do not enforce the limit of the chain.", "anchors": ["script_expr/src/input_manager.rs:194-266", "fri/src/script_verifier.rs", "fri/src/two_adic_pcs.rs:552-677", "uni-stark/src/script_verifier.rs:232-297"]}
{"id": "C88", "title": "Scripts that fit in the stack limit behave as if there were none", "statement": "For an expression whose nodes have unique identifiers (every expression of a session) the generated script, run on an interpreter that keeps at most L elements on its two stacks, gives the verdict of an unlimited interpreter whenever the words of the inputs, the values waiting while operands are computed (need), the sizes of the single-output nodes referenced more than once (each kept at most once on the alternative stack, whatever the number of references) and the scratch space K of the most demanding opcode add up to at most L. The same holds for a list of managers with embedded checks, for the constraint script (eight words for each column, four for each public value) and for generate_script_verifier as a whole. Raising the limit never turns an accepted manager into a refused one, and for every proof some limit is enough.", "quantifier": "all expressions, sessions, managers, limits, AIRs, proofs, commitment schemes, hash functions and gadget scripts (K: a bound on the heights of the single opcodes, which a static analysis of the gadget scripts establishes)", "why_tests_cant": "Tests run a few scripts without the limit; whether caching on the alternative stack or deep expressions overflow depends on the shape of every expression.", "anchors": ["script_expr/src/lib.rs:86-161", "script_expr/src/input_manager.rs:194-266", "uni-stark/src/script_verifier.rs:232-297"]}
{"id": "C89", "title": "An opening is accepted only with the committed keys, index and values", "statement": "A proof object carries its own bit commitments, and verify_batch signs the claimed index and values with them. With the Winternitz commitments of the code, verify_batch accepts such an object, whatever leaf, keys, index and values it was put together from, exactly when (unless an input hashed for its leaf collides with one hashed for a leaf of the tree) its leaf is a leaf q of the committed tree, it has as many commitments as the tree has columns, the public keys of its commitments are the committed ones word by word, the index is q as a 32-bit word (2^31 also passes for leaf 0, finding), and the values start with the rows of leaf q. The secrets themselves are compared only through the public keys.", "quantifier": "all batches of matrices, all proof objects whose commitments have as many words as the values, all values, all HASH160 functions that never return the single byte 0, all tagged hashes", "why_tests_cant": "Tests verify proofs produced by open_batch; they do not try proofs with foreign keys, surplus commitments or mixed leaves.", "anchors": ["basic/src/tcs/mod.rs:100-198", "basic/src/tcs/mod.rs:417-427", "basic/src/mmcs/taptree_mmcs.rs:78-101"]}
{"id": "C90", "title": "Scripts do not depend on identifiers, counters or thread schedules", "statement": "Node identifiers come from a process-wide counter behind a mutex. A client that builds expressions, starts threads that build further expressions from its handles, joins them and goes on, gets in every schedule handles in which two nodes with the same identifier are the same node. A thread makes the expressions it would make alone, up to identifiers, panics only if it would panic alone, and finishes once it has had enough turns; generating a script from any of its expressions gives exactly the script, stacks and variables (or the panic) it would give alone. In particular the same program gives the same scripts, hence the same taproot address, whatever value the counter had when it started.", "quantifier": "all call sequences, all numbers of threads, all interleavings of the identifier allocations, all nestings of forks and joins, all counter values, with and without caching, all gadget scripts, trackers and input maps", "why_tests_cant": "The tests run in parallel with a shared counter, but each run exercises one interleaving; the caching keys on the identifiers.", "anchors": ["script_expr/src/alias.rs:20-28", "script_expr/src/alias.rs:43-57", "script_expr/src/alias.rs:112-166", "script_expr/src/lib.rs:67-161"]}
{"id": "C91", "title": "Scripts as bytes: what is hashed is what is run", "statement": "Reading the bytes of a script built with script!{} (opcodes, push_int of 64-bit integers, push_slice of at most 520 bytes) gives back its opcodes up to the way a push is written, with and without the minimal-push rule; so running the bytes under the limit of 520 bytes per element is running the script, and two scripts with the same bytes behave the same on every stack. The byte string hashed for a leaf (version, length, script) determines the script. An opening whose leaf is an arbitrary byte string - possibly with opcodes outside the model, OP_SUCCESS, or malformed pushes - is accepted by verify_batch only if the bytes are those of a committed leaf, with the committed public keys, index and values, or an input hashed for it collides with one hashed for a leaf of the tree. Conversely such an opening is accepted.", "quantifier": "all scripts with such pushes, all witnesses, all behaviours of the opcodes outside the model, all matrices, all proof objects with arbitrary leaf bytes, branches, commitments, indices and values, all tagged hash functions, every 20-byte hash160", "why_tests_cant": "Tests run scripts the library itself serialised and hashes it computed itself; a byte string that parses differently from what was committed, or an OP_SUCCESS leaf, is never presented.", "anchors": ["scripts/src/lib.rs:76-82", "scripts/src/lib.rs:126-164", "basic/src/tcs/builder.rs:23-28", "basic/src/tcs/complete_taptree.rs:67-75", "basic/src/mmcs/taptree_mmcs.rs:78-101", "basic/src/tcs/mod.rs:417-427"]}
{"id": "C92", "title": "Size in bytes of the leaf scripts", "statement": "The script of leaf q of a commitment to matrices takes exactly 831 bytes plus the push of the constant (1 to 5 bytes) for the index and for every 32-bit word of the rows of that leaf, plus one byte; so between 832 and 836 bytes per word. A leaf with 4808 words or more (counting the index) is larger than a block, one with at most 4784 is not.", "quantifier": "all batches of matrices of up to 2^30 rows, all leaves, base and extension field, all secrets, all keys, every 20-byte hash160", "why_tests_cant": "The tests print script sizes for a few matrices and do not compare them with a limit.", "anchors": ["basic/src/tcs/mod.rs:200-230", "scripts/src/bit_comm/winternitz.rs:170-264", "scripts/src/bit_comm/bit_comm.rs:80-85", "scripts/src/lib.rs:76-82"]}
{"id": "C93", "title": "Folding a word that is no codeword, and words of different lengths that cancel", "statement": "Folding with a challenge halves the degree bound of a word, and a word that is not of low degree becomes one for at most one challenge. So if the prover's first (longest) input is not of low degree while the shorter ones are, and the prover still succeeds, then one of the challenges it sampled is the single bad one of the layer it was used on. Likewise, if a verifier's check passed at every position of committed layers of halving lengths, with a first layer that is not of low degree, some challenge is the single bad one of its layer; one passing query says exactly that the layers agree with their folds along its path. Finding: shorter inputs are added in with no random factor, so for every configuration there are two inputs of lengths 2^(k+1) and 2^k, neither of low degree, for which the prover succeeds and the verifier accepts whatever the challenges are.", "quantifier": "all words, lengths, blowups, challenges, number of layers, commitment schemes and challengers meeting their contracts, any two-adic field", "why_tests_cant": "the claim is about every challenge of a 31-bit field and every word; tests only run the honest prover on codewords with one seed, so neither the single bad challenge nor the pair of inputs that cancel can show up", "anchors": ["fri/src/fold_even_odd.rs", "fri/src/prover.rs:84-141", "fri/src/verifier.rs:100-165"]}
{"id": "C94", "title": "A trace that violates a constraint passes the out-of-domain check for few challenges", "statement": "Take a trace of 2^k rows that check_constraints refuses, and a proof whose opened values are the true values of the trace polynomials and of some quotient-chunk polynomials of fewer than 2^k+1 coefficients. However the chunks are chosen once alpha is known, verify's check accepts at fewer than (2^a + 1) * 2^k points zeta, unless alpha is one of fewer values than the AIR has constraints (a = log of the quotient degree). So with true openings the out-of-domain check does reject a false statement for all but those challenges; there are such unlucky challenges, and (C68) what is missing is that the openings need not be true.", "quantifier": "all AIRs with first-row/last-row/transition selectors, traces, public values, quotient chunks, alpha, zeta, any extension of a two-adic field", "why_tests_cant": "the bound is about every quotient a cheating prover may commit to and every challenge of the extension field; tests run the honest prover with one seed, or one flipped value", "anchors": ["uni-stark/src/verifier.rs:19-161", "uni-stark/src/check_constraints.rs:11-38", "uni-stark/src/folder.rs", "uni-stark/src/symbolic_builder.rs"]}
{"id": "C95", "title": "The reduced openings are of low degree exactly when the claimed values are right", "statement": "Look at the reduced openings that verify computes for one height over all query positions, for matrices of any contents. If they spell out a low-degree word for as many batching challenges alpha as there are claimed values at this height, then for every claimed value y of a column at z there is a polynomial of at most 2^log_n + 1 coefficients that runs through all committed values of the column and has value y at z; for a column that is a low-degree extension, y is the value of its polynomial at z. Conversely, if that holds for all claims the word is of low degree for every alpha. So a wrong claim is hidden by fewer alphas than there are claims. Finding: the bound allows one coefficient more than a matrix of 2^log_n rows needs, and such a commitment, opened truthfully, passes for every alpha.", "quantifier": "all committed matrices, batches, heights, points, claimed values, batching challenges, Mmcs, any extension of a two-adic field", "why_tests_cant": "the claim is about every committed word and every value of alpha in the extension field; tests run the honest prover on honest extensions with one seed", "anchors": ["fri/src/two_adic_pcs.rs:421-550", "fri/src/two_adic_pcs.rs:260-420", "fri/src/verifier.rs:60-98"]}
{"id": "C96", "title": "How many query positions notice an inconsistent layer, and how many lists of queries a false FRI proof survives", "statement": "Take a FRI proof whose layers are committed words w, w1, … of halving length 2^k, with openings that read those words. `verify_challenges` accepts exactly if, for every query position in the list, the folding path from that position meets the next layer at every step and the final value at the last. An entry at which a layer differs from the fold of the layer before (plus the input joined there) is noticed by every one of the 2^(j+1) query positions that pass through it (j the number of the layer), so n broken entries of layer j are noticed by n*2^(j+1) distinct positions. If m distinct positions notice, at most (2^k - m)^n lists of n query positions are accepted. In particular, if the first layer is not a codeword, the other inputs are, and no folding challenge is the single unlucky one of its layer (C93), then at most (2^k - 2)^n of the 2^(k*n) lists are accepted, whatever the later layers and the final value are. The bound is attained: a word that differs from a codeword in one entry, with honest zero layers after it, is accepted by (2^k - 2)^n distinct lists, whatever the challenges are, so the number of queries protects only against words that are far from codewords.", "quantifier": "all words, heights, challenges, numbers of layers, inputs joining at lower heights, final values, numbers of queries and lists of query positions, over any field with the two-adic interface and any commitment scheme whose openings read the words", "why_tests_cant": "a count over all query lists and all words: a test samples one proof and one list of positions, and a proof that is one entry away from valid passes almost every such test", "anchors": ["fri/src/verifier.rs:60-165", "fri/src/fold_even_odd.rs:15-52"]}
{"id": "C97", "title": "If the first FRI layer is the word of the reduced openings, an accepted STARK proof means that the committed trace satisfies the AIR", "statement": "Commit any matrix as the trace, of low degree or not. Suppose that for as many alphas as the AIR has constraints (and at least one) some quotient matrices (any contents) can be committed such that for (2^a+1)(2^k+1) points zeta outside the committed domain some opened values can be claimed that survive as many FRI batching challenges as there are claimed values. Surviving means: there are FRI layers, the first one being the word of the reduced openings, and folding challenges none of which is the single unlucky one of its layer (C93), such that `verify` returns Ok for more than (2^K-2)^n lists of n query positions, with proofs whose openings read the committed words. Then the columns of the committed trace are values of polynomials of at most 2^k+1 coefficients, and the trace of their values on the trace domain passes check_constraints with the public values. The same for the commitment scheme alone: claimed values that survive that many batching challenges are values of low-degree polynomials through the committed columns. The hypothesis about the first layer is the check that `verify` leaves out (C68); with it, and with openings that are bound to the commitments, the verifier's checks suffice.", "quantifier": "all AIRs with first-row/last-row/transition selectors, public values, committed matrices, quotient commitments, claimed values, FRI layers, challenges, query lists, numbers of queries, all heights, blowups of at least 2, any extension of a two-adic field, any Mmcs and challenger", "why_tests_cant": "soundness quantifies over all dishonest provers and counts the challenges for which they succeed; a test runs one prover with one challenger", "anchors": ["uni-stark/src/verifier.rs:19-161", "fri/src/two_adic_pcs.rs:421-534", "fri/src/verifier.rs:20-165", "uni-stark/src/check_constraints.rs:11-38"]}
{"id": "C98", "title": "The equivocation script neither accepts evidence of equivocation nor needs it", "statement": "equivocation(pub_key) is meant to let anyone prove that the owner of a Winternitz key revealed two valid signatures of different messages. For all keys it accepts exactly the witnesses that consist of one true element: so it refuses every witness that carries two valid signatures of different messages under the key, and accepts witnesses that carry none (refuted claim). Evidence exists as soon as two messages are signed with one key (the two witnesses one after the other), and it is exactly what two runs of checksig_verify accept, so the script can be written.", "quantifier": "all hash functions, public keys, witnesses and pairs of 32-bit messages", "why_tests_cant": "the claim is about every witness someone may publish; the function has no test, and an accepting run shows nothing about what other witnesses do", "anchors": ["scripts/src/bit_comm/winternitz.rs:299-304", "scripts/src/bit_comm/winternitz.rs:170-264"]}
{"id": "C99", "title": "convert_digits_to_u32 makes a leaf script spendable by anyone", "statement": "convert_digits_to_u32::<BITS, NUM>() uses OP_LSHIFT, which is one of the OP_SUCCESS opcodes of BIP 342. For NUM >= 2, a tapscript that contains it, after any instructions and before any bytes, is accepted with every witness: all checks of that script, signature checks included, are void. For NUM <= 1 it only moves the top element to the altstack. Even with an OP_LSHIFT as its comment describes, the value it leaves is not the number with the given digits (refuted), since the digit is used as the distance.", "quantifier": "all digit sizes and numbers of digits, all scripts around it, all witnesses, any meaning of the opcodes outside the model", "why_tests_cant": "a test that expects success passes because of OP_SUCCESS; that every witness is accepted, whatever is checked before, is a statement about all scripts and witnesses", "anchors": ["scripts/src/u31/mod.rs:109-129", "scripts/src/lib.rs:97-164"]}
{"id": "C100", "title": "Which leaves get_leaf_index_by_query_index names", "statement": "get_leaf_index_by_query_index(q) = (p, i, s): i is the leaf the prover opens for q in the first FRI layer, p the one it opens in the second layer, s is different from i, and i and s are exactly the positions j with j >> 1 = p. Read as pair and position of q in the first layer, as the verifier computes them, they are right only for q < 2 (pair) and q = 0 (position).", "quantifier": "all query indices", "why_tests_cant": "the function has no caller and no test; the statement is about every index", "anchors": ["fri/src/proof.rs:35-40", "fri/src/prover.rs:83", "fri/src/verifier.rs:125-127"]}
