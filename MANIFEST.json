{
 "claims": [
  {
   "property": "C01",
   "status": "proved",
   "theorems": [
    "C01_reconstruction",
    "C01_reconstruction_P25519",
    "C01_sharing_shape"
   ],
   "note": ""
  },
  {
   "property": "C02",
   "status": "proved",
   "theorems": [
    "C02_parity_check",
    "C02_sharings_pass",
    "C02_number_of_checks",
    "C02_matrix_exists"
   ],
   "note": "For every basis of the left kernel that NTL's kernel may return (external); one always exists."
  },
  {
   "property": "C03",
   "status": "proved",
   "theorems": [
    "C03_secrecy",
    "C03_secrecy_unique"
   ],
   "note": ""
  },
  {
   "property": "C04",
   "status": "proved",
   "theorems": [
    "C04_merge_coefficients"
   ],
   "note": "Any order among equal keys of the priority queue. Also characterises which indexes are present (the largest one is kept even if its coefficient cancels)."
  },
  {
   "property": "C05",
   "status": "partial",
   "theorems": [
    "C05_merge_rhs_refuted",
    "C05_merge_rhs_partial"
   ],
   "note": "Violated by the code: a constraint with no terms is skipped together with its right-hand side. Proved when every constraint has a term or right-hand side 0."
  },
  {
   "property": "C06",
   "status": "proved",
   "theorems": [
    "C06_merge_complete",
    "C06_merge_sound"
   ],
   "note": "Soundness as a bound (< number of constraints) on the number of bad challenges."
  },
  {
   "property": "C07",
   "status": "proved",
   "theorems": [
    "C07_quad_merge"
   ],
   "note": ""
  },
  {
   "property": "C08",
   "status": "partial",
   "theorems": [
    "C08_quad_add_refuted",
    "C08_quad_add_partial"
   ],
   "note": "Violated by the code: undefined iterator dereference for some disjoint sets. The partial theorem characterises all outcomes exactly."
  },
  {
   "property": "C09",
   "status": "proved",
   "theorems": [
    "C09_addTerm_history",
    "C09_addTerm_order",
    "C09_addIdx_history"
   ],
   "note": ""
  },
  {
   "property": "C10",
   "status": "proved",
   "theorems": [
    "C10_innerProduct",
    "C10_innerProduct_symmetric"
   ],
   "note": ""
  },
  {
   "property": "C100",
   "status": "proved",
   "theorems": [
    "C100_decryption",
    "C100_encryption",
    "C100_keygen",
    "C100_smallness",
    "C100_unique",
    "C100_own",
    "C100_steps",
    "C100_proofs",
    "C100_accepted",
    "C100_complete"
   ],
   "note": "A statement about the existence of one choice of the randomness per run, hence equal distributions for the uniform parts (commitment randomness, blinding values); the mask of the smallness proof is not uniform over the scalars: see C99. That the second prover's secrets fit (all_fit, sml_fits) is a condition on the challenges of the run; C100_own: the first prover's do."
  },
  {
   "property": "C101",
   "status": "partial",
   "theorems": [
    "C101_operations",
    "C101_partial",
    "C101_key",
    "C101_refuted"
   ],
   "note": "Violated by the code: strobe128_meta_ad begins with the flags C|A of KEY instead of M|A, so that every challenge differs from Merlin's (C101_refuted: the library's test vector d5a219... is what the published definition gives on Keccak-f, the code gives e419...). C101_partial: for every history this operation is the only difference. C101_key: labels and keys are no longer separated, every label absorbed is also a key."
  },
  {
   "property": "C102",
   "status": "partial",
   "theorems": [
    "C102_partial",
    "C102_forgery",
    "C102_refuted"
   ],
   "note": "Violated by the code: verifyLinear and verifyQuadratic take the commitment from the proof (pf.C), and nothing compares it with linCom and quadCom, which are computed and never read. C102_forgery: for every state, with any witness or none, the library's own provers run on the zero vector and on (eq,0,..), (1,0,..) with made-up commitments give accepted proofs; they use the public data only. C102_refuted: a state with a violated constraint. C102_partial: the proofs of main itself are for the right commitments."
  },
  {
   "property": "C103",
   "status": "proved",
   "theorems": [
    "C103_permutation",
    "C103_history",
    "C103_window",
    "C103_byte"
   ],
   "note": "Changes that reach over more than one block can collide for an unlucky one-to-one function (C103_example_window: the identity); that they do not for Keccak-f is a cryptographic assumption and not claimed. PRF output and zeroing of the squeezed bytes is why the challenges have to be compared too."
  },
  {
   "property": "C104",
   "status": "proved",
   "theorems": [
    "C104_reconstruct",
    "C104_checked",
    "C104_proved",
    "C104_rounds",
    "C104_system",
    "C104_default"
   ],
   "note": "The protocol is built in ReshareSpec from newSharing, getSecret and lagrangeCoeffs; the code itself has no loop over rounds. That members deal a sharing of what they combined is what the constraints of proveReShare say (C50). All members have to use the same dealers: C104_same_dealers is a run where they do not."
  },
  {
   "property": "C105",
   "status": "proved",
   "theorems": [
    "C105_secrecy",
    "C105_sharp"
   ],
   "note": "A bijection of the runs, hence equal distributions for uniform coefficients. About the shares only: ciphertexts and proofs are not part of the view (see C97, C100 for the proofs; hiding of the encryption is a computational assumption and not claimed)."
  },
  {
   "property": "C106",
   "status": "proved",
   "theorems": [
    "C106_linear",
    "C106_quadratic",
    "C106_norm",
    "C106_linear_prover",
    "C106_quadratic_prover",
    "C106_norm_prover",
    "C106_binding",
    "C106_binding_quadratic",
    "C106_binding_norm",
    "C106_interface",
    "C106_calls",
    "C106_keccak",
    "C106_main",
    "C106_main_undefined"
   ],
   "note": "Histories are written down from the proof alone (FsSpec). Binding is up to collisions: equal inputs to the permutation. For linear statements with indexes of 2^31 and more see C59_refuted. That the challenge of the norm proof comes before the commitment is visible in norm_history; what it costs is C21."
  },
  {
   "property": "C107",
   "status": "proved",
   "theorems": [
    "C107_rounds",
    "C107_history",
    "C107_binding",
    "C107_main"
   ],
   "note": "Binding is up to collisions: equal inputs to the permutation. The commitment of the first secret key (Sk1) and that of the aggregation's witness are not among the 25: see C72 and C102."
  },
  {
   "property": "C108",
   "status": "proved",
   "theorems": [
    "C108_factors",
    "C108_binding",
    "C108_witnesses",
    "C108_apart",
    "C108_vector",
    "C108_vector_calls"
   ],
   "note": "Up to collisions: equal inputs to the permutation. A pair of vectors counts as one vector of twice the length (C108_numbered)."
  },
  {
   "property": "C109",
   "status": "proved",
   "theorems": [
    "C109_separate",
    "C109_separate_matrix",
    "C109_in_place",
    "C109_in_place_throws",
    "C109_lost",
    "C109_lost_ring"
   ],
   "note": "No code in the repository multiplies in place: all calls go through operators that make a new result."
  },
  {
   "property": "C11",
   "status": "proved",
   "theorems": [
    "C11_split"
   ],
   "note": ""
  },
  {
   "property": "C110",
   "status": "proved",
   "theorems": [
    "C110_ternary",
    "C110_ternary_ring",
    "C110_bounded",
    "C110_zeroOne",
    "C110_vector"
   ],
   "note": "The random bytes themselves (randombytes_buf, NTL's RandomBits) are inputs of the model; that they are uniform is not claimed. For ZeroOneScalar on a target that is not zero see C64_refuted. The NTL-based ZeroOneScalar and ZeroOneElement (regevEnc.hpp 152-183) are in C113."
  },
  {
   "property": "C111",
   "status": "proved",
   "theorems": [
    "C111_stoi",
    "C111_parties",
    "C111_default",
    "C111_throws",
    "C111_range"
   ],
   "note": "std::stoi is the standard's (strtol in base 10, the \"C\" locale); its model is part of the trusted base."
  },
  {
   "property": "C112",
   "status": "partial",
   "theorems": [
    "C112_start",
    "C112_after",
    "C112_fails",
    "C112_ready_throws",
    "C112_early",
    "C112_refuted"
   ],
   "note": "Violated by the code in two states (C112_refuted): if other code has called sodium_init before, it returns 1, which init takes for a failure and throws; and a Point that another file's static initialiser constructs earlier holds 32 zero bytes, which encode no element of the group. Neither happens in this program (the only such object, FF in bulletproof.cpp 42, exists in DEBUGGING builds). Everything else is proved."
  },
  {
   "property": "C113",
   "status": "partial",
   "theorems": [
    "C113_partial",
    "C113_scalar_partial",
    "C113_count_partial",
    "C113_unsigned",
    "C113_refuted"
   ],
   "note": "The difference of the bits is computed as a size_t. If NTL's conv takes that word as a long the statement is proved (C113_partial, C113_scalar_partial, C113_count_partial); if it takes it as unsigned, -1 comes out as 2^64-1 (C113_unsigned) and the statement is violated (C113_refuted). Which overload is chosen depends on the version of NTL, which is not part of the repository. No code uses the two samplers."
  },
  {
   "property": "C12",
   "status": "proved",
   "theorems": [
    "C12_makeAlmostDisjoint",
    "C12_makeAlmostDisjoint_back",
    "C12_two_scalars",
    "C12_large_index_refuted"
   ],
   "note": "For indexes below 2^31-1, as stated; C12_large_index_refuted shows that the range restriction is needed."
  },
  {
   "property": "C13",
   "status": "proved",
   "theorems": [
    "C13_checkConstraint"
   ],
   "note": ""
  },
  {
   "property": "C14",
   "status": "proved",
   "theorems": [
    "C14_next2power"
   ],
   "note": ""
  },
  {
   "property": "C15",
   "status": "proved",
   "theorems": [
    "C15_fold_equals_expansion",
    "C15_expansion_entries",
    "C15_old_version"
   ],
   "note": ""
  },
  {
   "property": "C16",
   "status": "proved",
   "theorems": [
    "C16_verify_commit",
    "C16_verify_commit2",
    "C16_homomorphic",
    "C16_two_generators"
   ],
   "note": ""
  },
  {
   "property": "C17",
   "status": "partial",
   "theorems": [
    "C17_labels_refuted",
    "C17_labels_partial",
    "C17_labels_int"
   ],
   "note": "Violated by the code as stated: indexes that agree modulo 2^32 get the same label. C17_labels_partial gives injectivity for indexes in the int range."
  },
  {
   "property": "C18",
   "status": "proved",
   "theorems": [
    "C18_linear_complete",
    "C18_linear_complete_offsets"
   ],
   "note": ""
  },
  {
   "property": "C19",
   "status": "proved",
   "theorems": [
    "C19_quadratic_complete",
    "C19_quadratic_complete_offsets"
   ],
   "note": ""
  },
  {
   "property": "C20",
   "status": "proved",
   "theorems": [
    "C20_norm_complete"
   ],
   "note": ""
  },
  {
   "property": "C21",
   "status": "partial",
   "theorems": [
    "C21_norm_forgery",
    "C21_norm_refuted",
    "C21_norm_partial"
   ],
   "note": "Violated by the code: the challenge x is drawn before the vectors are committed, so vectors may depend on it. C21_norm_partial covers vectors that are fixed before x."
  },
  {
   "property": "C22",
   "status": "proved",
   "theorems": [
    "C22_linear_extractor",
    "C22_linear_extractor_one"
   ],
   "note": ""
  },
  {
   "property": "C23",
   "status": "partial",
   "theorems": [
    "C23_quadratic_forgery",
    "C23_quadratic_refuted",
    "C23_quadratic_partial"
   ],
   "note": "Violated by the code when the length is not a power of two: C23_quadratic_forgery gives a cheating prover for every such length. C23_quadratic_partial is special soundness for lengths 2^k."
  },
  {
   "property": "C24",
   "status": "proved",
   "theorems": [
    "C24_wrong_shape",
    "C24_memory_safe",
    "C24_honest_shape"
   ],
   "note": ""
  },
  {
   "property": "C25",
   "status": "partial",
   "theorems": [
    "C25_flatten_linear",
    "C25_flatten_quadratic",
    "C25_empty_witness_reads_out_of_range",
    "C25_empty_witness_refuted"
   ],
   "note": "The validation clauses are proved exactly; the clause that proving never reads outside the witness is violated by the code for an empty witness."
  },
  {
   "property": "C26",
   "status": "partial",
   "theorems": [
    "C26_partial",
    "C26_uninitialised",
    "C26_refuted"
   ],
   "note": "Violated by the code: the tag is read as a whitespace-delimited word and runs into the bytes of C, the counts run into the next point. C26_partial says exactly for which proofs the round trip works (C must start with a white-space byte, there must be rounds, no digit after the counts). C26_uninitialised: without any white-space byte an uninitialised size is used."
  },
  {
   "property": "C27",
   "status": "proved",
   "theorems": [
    "C27_scalar_roundtrip",
    "C27_element_roundtrip",
    "C27_all_bytes_written",
    "C27_bytesPerScalar_P25519"
   ],
   "note": ""
  },
  {
   "property": "C28",
   "status": "proved",
   "theorems": [
    "C28_roundtrip",
    "C28_homomorphic",
    "C28_from_curve",
    "C28_bigint",
    "C28_bigint_outside"
   ],
   "note": ""
  },
  {
   "property": "C29",
   "status": "proved",
   "theorems": [
    "C29_two_digits",
    "C29_mod_p",
    "C29_zero_radix"
   ],
   "note": ""
  },
  {
   "property": "C30",
   "status": "partial",
   "theorems": [
    "C30_balanced_partial",
    "C30_unique",
    "C30_refuted",
    "C30_norm_scalars",
    "C30_norm_elements",
    "C30_linf"
   ],
   "note": "Violated by the code when the modulus changes during the process (function-static half); proved for a process with one modulus."
  },
  {
   "property": "C31",
   "status": "proved",
   "theorems": [
    "C31_decode",
    "C31_bytes_read",
    "C31_no_more_read",
    "C31_decodeE",
    "C31_entryE"
   ],
   "note": "Every entry is the value of its own two bits (byte_entry); with fewer than n*ceil(m/4) bytes the read is undefined, and further bytes do not matter. The same for matrices of ring elements and for operator()(i,j)."
  },
  {
   "property": "C32",
   "status": "proved",
   "theorems": [
    "C32_leftVec",
    "C32_rightVec",
    "C32_leftMat",
    "C32_rightMat",
    "C32_leftVecE",
    "C32_rightVecE",
    "C32_leftMatE",
    "C32_rightMatE",
    "C32_mismatch"
   ],
   "note": "All eight products equal the textbook sums, for every dimension; result and argument are distinct objects (no aliasing modelled)."
  },
  {
   "property": "C33",
   "status": "proved",
   "theorems": [
    "C33_leftVec",
    "C33_rightVec",
    "C33_leftMat",
    "C33_rightMat",
    "C33_uninitialised"
   ],
   "note": "Over every modulus and every ell > 0, in F[X]/(X^ell+1)."
  },
  {
   "property": "C34",
   "status": "partial",
   "theorems": [
    "C34_refuted",
    "C34_R2_refuted",
    "C34_partial",
    "C34_E_partial",
    "C34_multiple_of_four_partial"
   ],
   "note": "Violated by the code: the buffer has ceil(nm/4) bytes but n*ceil(m/4) are read. Exact safety condition proved: n*((4 - m mod 4) mod 4) < 4. The 128 x enn matrix of proveEncryption is out of bounds whenever 4 does not divide enn."
  },
  {
   "property": "C35",
   "status": "proved",
   "theorems": [
    "C35_two_squares",
    "C35_throws_iff",
    "C35_any_root"
   ],
   "note": "Given Euler's criterion for NTL::Jacobi. The failure value occurs only for primes p = 1 mod 8, p >= 281."
  },
  {
   "property": "C36",
   "status": "proved",
   "theorems": [
    "C36_correct",
    "C36_negative_throws"
   ],
   "note": ""
  },
  {
   "property": "C37",
   "status": "partial",
   "theorems": [
    "C37_refuted",
    "C37_infinitely_many_failures",
    "C37_success_partial"
   ],
   "note": "Violated by the code: decompose4(71*4^k) reports failure (line 214 takes the root of the wrong number). C37_success_partial gives success whenever a candidate of the search is a suitable prime."
  },
  {
   "property": "C38",
   "status": "proved",
   "theorems": [
    "C38_pad_scalars",
    "C38_pad_elements",
    "C38_silent_failure"
   ],
   "note": "With the proviso of the statement (decomposition succeeds); C38_silent_failure shows what happens otherwise."
  },
  {
   "property": "C39",
   "status": "proved",
   "theorems": [
    "C39_decrypt",
    "C39_system",
    "C39_default"
   ],
   "note": "For every random source, every run of the modelled constructor / key generation / registration / encryption that succeeds decrypts correctly under the stated inequality; C39_default instantiates k=2944, sigma 97/116, ell=2, P25519. Floating-point parameter search (setParams) not modelled. Requires n < 2^31, k < 2^27 and sigma < 2^30 (int arithmetic)."
  },
  {
   "property": "C40",
   "status": "proved",
   "theorems": [
    "C40_decode",
    "C40_default"
   ],
   "note": "General ell and the ell=2, P25519 instance."
  },
  {
   "property": "C41",
   "status": "proved",
   "theorems": [
    "C41_keygen",
    "C41_encrypt",
    "C41_keygen_trials",
    "C41_encrypt_trials"
   ],
   "note": "Attempts: 51 and 51 in key generation; 51, 25 and 25 in encryption (nTrials is incremented twice per round there)."
  },
  {
   "property": "C42",
   "status": "proved",
   "theorems": [
    "C42_history",
    "C42_failed_call"
   ],
   "note": "Histories as folds of addPK from a freshly constructed key."
  },
  {
   "property": "C43",
   "status": "partial",
   "theorems": [
    "C43_refuted",
    "C43_partial",
    "C43_units_partial"
   ],
   "note": "Violated by the code: P = 1 mod 4, so X^2+1 splits and the ring has zero divisors. The partial theorems characterise them."
  },
  {
   "property": "C44",
   "status": "proved",
   "theorems": [
    "C44_layout",
    "C44_succeeds",
    "C44_generators",
    "C44_next_proofs"
   ],
   "note": "The struct members are a function of the variable name; C44_succeeds says exactly when setIndexes stays in the int range."
  },
  {
   "property": "C45",
   "status": "proved",
   "theorems": [
    "C45_expand",
    "C45_make",
    "C45_holds_iff",
    "C45_make_holds_iff",
    "C45_total"
   ],
   "note": ""
  },
  {
   "property": "C46",
   "status": "partial",
   "theorems": [
    "C46_elements",
    "C46_elements_two",
    "C46_scalars_partial",
    "C46_refuted"
   ],
   "note": "Violated by the code for the scalar version with fromIdx > 0: xes is indexed from fromIdx instead of 0 (out of bounds). Proved for the element versions, and for scalars with fromIdx = 0."
  },
  {
   "property": "C47",
   "status": "proved",
   "theorems": [
    "C47_meaning",
    "C47_linear",
    "C47_norms",
    "C47_state"
   ],
   "note": "For every transcript oracle that delivers bytes, every ell, dimensions and bounds; NTL's Jacobi and ProbPrime as oracles with their documented guarantees. The hypothesis on the run is that it returns (it throws when a norm exceeds its bound)."
  },
  {
   "property": "C48",
   "status": "partial",
   "theorems": [
    "C48_meaning",
    "C48_linear",
    "C48_norms",
    "C48_state",
    "C48_prepare",
    "C48_refuted"
   ],
   "note": "Proved when the block of linear constraints for r is empty, which prepareForNextProof establishes (C48_prepare). Violated by the code for a reused object: lCnstr3 is not emptied, so a second proof on the same object adds its terms to the old ones (C48_refuted)."
  },
  {
   "property": "C49",
   "status": "proved",
   "theorems": [
    "C49_meaning",
    "C49_linear",
    "C49_norms",
    "C49_state"
   ],
   "note": "As C47."
  },
  {
   "property": "C50",
   "status": "proved",
   "theorems": [
    "C50_valid",
    "C50_witness",
    "C50_state",
    "C50_succeeds"
   ],
   "note": "For every basis of the left kernel that NTL may return."
  },
  {
   "property": "C51",
   "status": "proved",
   "theorems": [
    "C51_meaning",
    "C51_honest",
    "C51_reply"
   ],
   "note": "Masking vectors and commitment randomness of the trials are arbitrary."
  },
  {
   "property": "C52",
   "status": "proved",
   "theorems": [
    "C52_preserves",
    "C52_disjoint",
    "C52_succeeds",
    "C52_set_up"
   ],
   "note": "For every constraint system with disjoint norm constraints, every order of the priority queue that respects the indexes, every transcript oracle. C52_succeeds: no assertion fails after the five steps unless the challenge for the norms is 0."
  },
  {
   "property": "C53",
   "status": "partial",
   "theorems": [
    "C53_repeated",
    "C53_forgery",
    "C53_refuted",
    "C53_partial"
   ],
   "note": "Violated by the code: quadHs.size()-1 is evaluated before the push, so w gets the H generator of the last norm-constrained variable, in every proof. C53_forgery: a prover can have both verifications succeed whether or not the constraints hold. C53_partial: no other generator is repeated."
  },
  {
   "property": "C54",
   "status": "proved",
   "theorems": [
    "C54_chain"
   ],
   "note": "Any number of proofs by the honest prover, starting from the commitment in main.cpp."
  },
  {
   "property": "C55",
   "status": "partial",
   "theorems": [
    "C55_refuted",
    "C55_second_draw",
    "C55_history_partial",
    "C55_rng_partial",
    "C55_keccak_partial"
   ],
   "note": "Violated by the code: every second merlin_rng_random_bytes fails an assertion. All histories of appends and challenges, and rng use with one draw, are proved safe."
  },
  {
   "property": "C56",
   "status": "proved",
   "theorems": [
    "C56_absorb",
    "C56_ad",
    "C56_key",
    "C56_squeeze"
   ],
   "note": "For every state, including the failing runs."
  },
  {
   "property": "C57",
   "status": "proved",
   "theorems": [
    "C57_framing",
    "C57_from",
    "C57_keccak"
   ],
   "note": "For every permutation on 200 bytes; the log is a ghost field of the model with the states given to the permutation. The number of bytes of the final challenge is determined modulo 2^32 only (the code encodes 4 bytes)."
  },
  {
   "property": "C58",
   "status": "partial",
   "theorems": [
    "C58_refuted",
    "C58_exact"
   ],
   "note": "Violated by the code: intFromBytes accumulates in an int. C58_exact gives the exact set of numbers that survive."
  },
  {
   "property": "C59",
   "status": "partial",
   "theorems": [
    "C59_refuted",
    "C59_lin_partial",
    "C59_quad"
   ],
   "note": "Violated by the code for linear constraints: the index goes through an int. Proved for indexes below 2^31, and for quadratic constraints with all 64-bit indexes, for lists of constraints under one label."
  },
  {
   "property": "C60",
   "status": "proved",
   "theorems": [
    "C60_unchanged",
    "C60_same_challenges"
   ],
   "note": "The rng state is a copy in the model as in the code (memcpy)."
  },
  {
   "property": "C61",
   "status": "proved",
   "theorems": [
    "C61_arithmetic",
    "C61_division",
    "C61_equality",
    "C61_innerProduct",
    "C61_unreduced_strings_differ"
   ],
   "note": "libsodium's scalar functions are specified (reduced result modulo P). Strings read from a stream may be unreduced; C61_unreduced_strings_differ shows the proviso is needed."
  },
  {
   "property": "C62",
   "status": "partial",
   "theorems": [
    "C62_setInteger_partial",
    "C62_refuted"
   ],
   "note": "Violated by the code for LONG_MIN (signed overflow); proved for every other long."
  },
  {
   "property": "C63",
   "status": "partial",
   "theorems": [
    "C63_mod_partial",
    "C63_zero_divisor",
    "C63_refuted"
   ],
   "note": "Violated by the code at the ends of both documented ranges; C63_mod_partial gives the exact behaviour for all reduced inputs."
  },
  {
   "property": "C64",
   "status": "partial",
   "theorems": [
    "C64_bounded_throws",
    "C64_bounded_range",
    "C64_bounded_onto",
    "C64_zeroOne_partial",
    "C64_refuted"
   ],
   "note": "The BoundedSizeScalar part is proved. The ZeroOneScalar part is violated by the code when the target is not zero beforehand."
  },
  {
   "property": "C65",
   "status": "proved",
   "theorems": [
    "C65_points",
    "C65_base",
    "C65_unreduced_throws"
   ],
   "note": ""
  },
  {
   "property": "C66",
   "status": "partial",
   "theorems": [
    "C66_addEVec",
    "C66_addSVec",
    "C66_addRange_partial",
    "C66_refuted"
   ],
   "note": "Map builders proved; addRange2Set is violated by the code when the range leaves int."
  },
  {
   "property": "C67",
   "status": "proved",
   "theorems": [
    "C67_modulus_prime",
    "C67_inverses"
   ],
   "note": "Pocklington certificate chain checked by the kernel."
  },
  {
   "property": "C68",
   "status": "proved",
   "theorems": [
    "C68_no_false_negatives"
   ],
   "note": ""
  },
  {
   "property": "C69",
   "status": "partial",
   "theorems": [
    "C69_decryption",
    "C69_encryption",
    "C69_keygen",
    "C69_adaptive_decryption",
    "C69_adaptive_encryption",
    "C69_adaptive_encryption_first",
    "C69_adaptive_keygen",
    "C69_refuted"
   ],
   "note": "Violated by the code: no step absorbs its ciphertext or public key. For equal witnesses all commitments and the transcript are the same for any two statements, and after the challenge is known the statement can be moved along a line of the ring without any change of the proof state. C69_refuted: the full proof is accepted for a ciphertext whose noise would be far above the bound."
  },
  {
   "property": "C70",
   "status": "proved",
   "theorems": [
    "C70_steps",
    "C70_accept",
    "C70_complete",
    "C70_chain"
   ],
   "note": "With the proviso of the statement, and when no four-squares search fails; a proof may also throw when a challenge is 0. C70_unlucky shows that the proviso is needed."
  },
  {
   "property": "C71",
   "status": "proved",
   "theorems": [
    "C71_threshold",
    "C71_accepts"
   ],
   "note": "Also: the threshold is the largest such multiple (n <= 2(t+ell)); the constructor aborts for n <= 2*ell."
  },
  {
   "property": "C72",
   "status": "partial",
   "theorems": [
    "C72_partial",
    "C72_binding",
    "C72_rounds",
    "C72_forgery",
    "C72_refuted"
   ],
   "note": "Violated by the code: the commitment to the old key (main.cpp 151) is never put into the transcript in the first (and only) round that main runs. C72_forgery: a prover can choose it after the challenges of the aggregation, and then any set of linear constraints is accepted, true or not; C72_refuted: a violated constraint that does not even mention the key. C72_partial, C72_binding: all 25 other commitments are in the transcript, each once. C72_rounds: after one round with the same transcript the key of the next one is in it."
  },
  {
   "property": "C73",
   "status": "proved",
   "theorems": [
    "C73_divCeil",
    "C73_ceilDiv",
    "C73_log2roundUp",
    "C73_ceilDiv_negative"
   ],
   "note": ""
  },
  {
   "property": "C74",
   "status": "partial",
   "theorems": [
    "C74_refuted",
    "C74_leak"
   ],
   "note": "Violated by the code: internalEncrypt does not compare nPks with enn. C74_leak: for every such history the plaintexts of unregistered slots decrypt under the zero key."
  },
  {
   "property": "C75",
   "status": "proved",
   "theorems": [
    "C75_keccakf"
   ],
   "note": "Bit-level specification following FIPS 202."
  },
  {
   "property": "C76",
   "status": "partial",
   "theorems": [
    "C76_partial",
    "C76_first",
    "C76_forgery",
    "C76_refuted"
   ],
   "note": "Violated by the code for the first variable: uVec starts with u^0 = 1, the same monomial as the norm equation, so a different value on G_0 makes up for any violation of the first norm constraint (C76_first, for all challenges at once). C76_forgery: a prover who adds a multiple of G_0 to the commitment of the decryption noise has both verifications succeed. C76_partial: the claim for all other variables. Independent of the repeated generator of C53."
  },
  {
   "property": "C77",
   "status": "proved",
   "theorems": [
    "C77_residual",
    "C77_linear",
    "C77_norm",
    "C77_mentioned"
   ],
   "note": "About openings, i.e. below the knowledge extraction of C20; the disagreement of the values on G and H is the subject of C76."
  },
  {
   "property": "C78",
   "status": "partial",
   "theorems": [
    "C78_partial",
    "C78_unreduced",
    "C78_refuted"
   ],
   "note": "Violated by the code: any 32 bytes are accepted. C78_unreduced: every value can also be read in a form that operator== tells apart from the reduced one. C78_partial: what was written is read back."
  },
  {
   "property": "C79",
   "status": "partial",
   "theorems": [
    "C79_uniform",
    "C79_partial",
    "C79_right_partial",
    "C79_refuted"
   ],
   "note": "Violated by the code: the columns of ring elements give a factor 1/2 per column only, i.e. 2^-64 with LINYDIM/ell = 64 columns. C79_partial proves that (number of columns a multiple of 4, as in the code; C79_right_partial for the matrix on the other side). C79_refuted: with all coefficients (P+1)/2 the fraction is exactly 2^-columns."
  },
  {
   "property": "C80",
   "status": "partial",
   "theorems": [
    "C80_partial",
    "C80_refuted"
   ],
   "note": "Violated by the code: the ring has zero divisors (C43). C80_partial: at most (m-1)*P of the P^2 challenges. C80_refuted: attained for m = 2."
  },
  {
   "property": "C81",
   "status": "proved",
   "theorems": [
    "C81_integers",
    "C81_needed"
   ],
   "note": "C81_needed is the remark in brackets."
  },
  {
   "property": "C82",
   "status": "proved",
   "theorems": [
    "C82_decryption",
    "C82_encryption",
    "C82_keygen",
    "C82_smallness",
    "C82_few_left",
    "C82_few_right"
   ],
   "note": "For dimensions that are multiples of 4, as with the constants of the code. The library defines no verify functions for the steps; the constraints are those recorded by the proving functions."
  },
  {
   "property": "C83",
   "status": "proved",
   "theorems": [
    "C83_decryption",
    "C83_encryption",
    "C83_keygen"
   ],
   "note": "About assignments, i.e. below knowledge extraction and aggregation (C76, C77)."
  },
  {
   "property": "C84",
   "status": "proved",
   "theorems": [
    "C84_decryption",
    "C84_encryption",
    "C84_keygen",
    "C84_smallness",
    "C84_digits",
    "C84_steps",
    "C84_complete",
    "C84_overrun"
   ],
   "note": "C84_overrun is the last sentence; C89 applies it to the parameters that setParams computes."
  },
  {
   "property": "C85",
   "status": "partial",
   "theorems": [
    "C85_partial",
    "C85_wrong",
    "C85_code",
    "C85_loose",
    "C85_params",
    "C85_refuted"
   ],
   "note": "Violated by the code: the bound B_dNoise on the norm (at least 31*2^125) is larger than what can be decoded (Delta/2 = 2^125). C85_refuted: two accepted runs for one ciphertext and key, with plaintexts a and a+1. C85_wrong/C85_code: with the code's modulus and dimensions the decryption step for a+1 returns, with all constraints satisfied, whenever at most 225 of 256 digits in one row of the challenge are non-zero. C85_partial: holds if the bound is small enough for decoding (4*(loBound+radix*hiBound) < Delta); C85_loose: which it is for no number of parties; C85_params: the hypothesis on B_dNoise of C85_code is met for 32, 128, 256, 512, 1024, 2048 and 4096 parties."
  },
  {
   "property": "C86",
   "status": "proved",
   "theorems": [
    "C86_params"
   ],
   "note": "The floating-point results are assumed to be right up to rounding (fpu_ok in ParamsSpec)."
  },
  {
   "property": "C87",
   "status": "proved",
   "theorems": [
    "C87_bounds"
   ],
   "note": "As C86."
  },
  {
   "property": "C88",
   "status": "partial",
   "theorems": [
    "C88_partial",
    "C88_all",
    "C88_refuted"
   ],
   "note": "Violated by the code: line 77 adds half the natural logarithm of tt where the comment (and the condition) has log2. C88_refuted, C88_all: 2048 parties. C88_partial: it holds if nn*sqrt(tt) <= sqrt(7)*2^lognSqrtT, and up to 344 parties."
  },
  {
   "property": "C89",
   "status": "partial",
   "theorems": [
    "C89_partial",
    "C89_refuted"
   ],
   "note": "Violated by the code: for 512 parties, the default of main, k = 2982, and proveEncryption always reads outside of a buffer. C89_partial: k is ceil(75*(145+lognSqrtT)/4), a multiple of four for four of 16 residues of lognSqrtT (e.g. 256 parties)."
  },
  {
   "property": "C90",
   "status": "proved",
   "theorems": [
    "C90_run",
    "C90_decryption",
    "C90_main"
   ],
   "note": "C90_main: the constants of the code; the dimension is a multiple of four iff lognSqrtT is 6, 9, 12 or 15 modulo 16 (C89). C90_run, C90_decryption: any parameters that leave room for decryption."
  },
  {
   "property": "C91",
   "status": "partial",
   "theorems": [
    "C91_run",
    "C91_partial",
    "C91_refuted"
   ],
   "note": "Violated by the code: C91_refuted: with 512 parties, the default, every run throws or reads outside of a buffer. C91_partial: the same whenever the number of parties or the dimension is not a multiple of four; C90 is the positive part."
  },
  {
   "property": "C92",
   "status": "proved",
   "theorems": [
    "C92_steps",
    "C92_aggregate",
    "C92_code"
   ],
   "note": "C92_steps: values that meet all recorded constraints. C92_aggregate: values on the generators G and H that meet only the two aggregated equations. C92_code: the constants of the code. The lucky challenges (lucky_round, lucky_aggregation) are the exact conditions on the challenges; how few there are is C76, C77, C79, C80. For the first variable under a norm constraint, lucky_aggregation is not rare (C76_refuted). That accepted proofs come from such values: C22, C23 for each of the two proofs; the rewinding argument that joins them is not modelled. C92_aggregate is for openings of the two proofs with the same w; different ones are C93, where the first linear constraint is lost."
  },
  {
   "property": "C93",
   "status": "partial",
   "theorems": [
    "C93_residual",
    "C93_partial",
    "C93_forgery",
    "C93_refuted"
   ],
   "note": "Violated by the code: the powers of the aggregation challenge start with 1, so that the difference of the two values of w makes up for a violation of the first linear constraint (row 0 of the decryption equation). A prover who adds the violation times the generator of w to the commitment of the masks, and subtracts it from w in the quadratic proof, is accepted whatever the challenges are (C93_forgery; a false state is accepted: C93_refuted). C93_partial: all other constraints are enforced. Unlike C72 this does not rely on commitments missing from the transcript, unlike C76 it concerns a linear constraint."
  },
  {
   "property": "C94",
   "status": "partial",
   "theorems": [
    "C94_crs",
    "C94_key_partial",
    "C94_refuted",
    "C94_stale",
    "C94_stale_refuted",
    "C94_equality_refuted"
   ],
   "note": "Violated by the code: the dimensions are not hashed into Bhash, so that ten keys of one element and five of two elements have the same fingerprint (C94_refuted, for every hash); adding a key leaves the old fingerprint in place, and before setKeyHash it is not initialised (C94_stale_refuted); operator== only compares tags (C94_equality_refuted). True: Ahash binds tag, dimension and CRS (C94_crs), Bhash binds B for a given number of columns right after setKeyHash (C94_key_partial); both up to an explicit collision on the two encodings."
  },
  {
   "property": "C95",
   "status": "proved",
   "theorems": [
    "C95_crs",
    "C95_rng",
    "C95_returns",
    "C95_long_tag"
   ],
   "note": "For every generator and hash. That libsodium's crypto_generichash_init rejects keys of more than 64 bytes is part of the model; the code ignores its return value."
  },
  {
   "property": "C96",
   "status": "partial",
   "theorems": [
    "C96_length",
    "C96_forgery",
    "C96_refuted"
   ],
   "note": "Violated by the code: the flattened quadratic statement has 10*(JLDIM+4)+1 variables for every configuration (C96_length), an odd number, so that the unsound padded round of C23 is always there. Whatever constraints its state violates, a prover who runs the honest linear proof and the cheating quadratic prover of C23 is accepted by both verifications if no challenge is zero (C96_forgery; a violated state that is accepted: C96_refuted). Missing from the claim is therefore all of it; C92, C77 and C76 say what would hold if the quadratic proof were replaced by a sound one."
  },
  {
   "property": "C97",
   "status": "proved",
   "theorems": [
    "C97_commit",
    "C97_linear",
    "C97_linear_unique",
    "C97_linear_simulator",
    "C97_quadratic",
    "C97_quadratic_unique",
    "C97_quadratic_simulator",
    "C97_indistinguishable"
   ],
   "note": "Perfect hiding, for uniform blinding values and non-zero challenges; a challenge 0 in the last step of the quadratic proof would reveal the folded witness (the code does not check for it). The hypothesis generates base holds in a group of prime order."
  },
  {
   "property": "C98",
   "status": "proved",
   "theorems": [
    "C98_decryption",
    "C98_encryption",
    "C98_keygen",
    "C98_reshare",
    "C98_smallness",
    "C98_steps",
    "C98_proofs"
   ],
   "note": "Equality of the statements is Leibniz equality of layout, constraints, reply and transcript state. Whether a step throws does depend on the secrets (C84)."
  },
  {
   "property": "C99",
   "status": "partial",
   "theorems": [
    "C99_reply_partial",
    "C99_accepted",
    "C99_clean",
    "C99_refuted",
    "C99_loss",
    "C99_parameters"
   ],
   "note": "Violated by the code: the sign bit makes zero twice as likely (C99_refuted). Proved: each reply comes from exactly 2^a draws, a the number of coefficients in which it equals u; the numbers of accepted draws and of accepted draws with a = 0 are the same for all u, and all but a fraction 128/(B+1) of the accepted draws have a = 0 (C99_loss). Counts are for a fixed matrix R; that R is independent of y given the commitment is not modelled. C99_parameters assumes besides fpu_ok that multDbl(128.0/129.0, y) is at most y*128/129 (the double is below 128/129 and to_ZZ rounds down)."
  }
 ]
}
