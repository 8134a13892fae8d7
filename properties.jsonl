{"id": "C01", "title": "Shamir reconstruction is exact", "statement": "For a sharing produced by newSharing(s), calling getSecret with the shares listed in the order of any reconstruction set of at least t of the evaluation points returns exactly s, whatever polynomial was drawn.", "quantifier": "all prime moduli, all thresholds t>=1, all evaluation sets of ints that are pairwise distinct and non-zero modulo P, all secrets, all random coefficients, all reconstruction subsets of size >= t", "why_tests_cant": "A test samples a few polynomials and subsets of a 253-bit field; the claim is for every polynomial and every subset.", "anchors": ["include/shamir.hpp: SharingParams", "src/tools/shamir.cpp: newSharing, lagrangeCoeffs, getSecret"]}
{"id": "C02", "title": "Parity-check matrix characterises valid sharings", "statement": "H*x = 0 holds for a vector x of length n+1 if and only if x is the list of evaluations at (0, i_1, ..., i_n) of some polynomial of degree < t; in particular every output of newSharing passes.", "quantifier": "all primes, all t between 1 and n+1, all evaluation sets distinct and non-zero mod P, all vectors x, every basis the linear-algebra library may return for the kernel", "why_tests_cant": "The 'only if' half speaks about all invalid vectors, of which there are about P^(n+1).", "anchors": ["include/shamir.hpp: SharingParams::H (lines 42-46)", "src/tools/shamir.cpp: computeKernel"]}
{"id": "C03", "title": "Threshold secrecy of Shamir sharing", "statement": "Any t-1 shares are consistent with every secret: for every choice of at most t-1 evaluation points, every list of share values at these points and every candidate secret there is a choice of the random coefficients for which newSharing of that secret produces exactly those shares; when exactly t-1 points are fixed the choice is unique.", "quantifier": "all primes, thresholds, point subsets of size <= t-1, share values, candidate secrets", "why_tests_cant": "A statement about the distribution over P^(t-1) random strings cannot be sampled.", "anchors": ["src/tools/shamir.cpp: newSharing"]}
{"id": "C04", "title": "Linear merge computes the coefficient-wise linear combination", "statement": "LinConstraint::merge(constrs, coeffs) yields a constraint whose coefficient at every variable index is the sum over the inputs of coeff_i times the coefficient in constraint i, with each variable occurring at most once and in increasing order; it throws exactly when the two lists differ in length.", "quantifier": "all lists of constraints (any overlap pattern of the sparse indexes), all coefficient lists", "why_tests_cant": "The multi-way merge with a priority queue has unboundedly many interleavings of index sets.", "anchors": ["include/constraints.hpp: LinConstraint", "src/dlproofs/constraints.cpp: LinConstraint::merge"]}
{"id": "C05", "title": "Merging keeps every right-hand side", "statement": "The merged linear constraint has right-hand side sum_i coeff_i * b_i; hence an unsatisfiable input constraint is not silently lost.", "quantifier": "all lists of constraints and coefficients", "why_tests_cant": "Universal over constraint lists; the failing case needs a constraint with no terms.", "anchors": ["src/dlproofs/constraints.cpp: LinConstraint::merge (lines 86-99)"]}
{"id": "C06", "title": "Random linear combination is complete and sound for a fixed witness", "statement": "If a witness satisfies all k linear constraints then it satisfies their merge for every coefficient vector; if it violates at least one (all constraints having at least one term) then at most k-1 challenge values r make it satisfy the merge with coefficients 1, r, ..., r^(k-1).", "quantifier": "all primes, constraint lists, witnesses, challenges", "why_tests_cant": "Soundness is a counting statement over all P challenges.", "anchors": ["src/dlproofs/constraints.cpp: LinConstraint::merge", "src/regev/regevProofs.cpp: aggregateVerifier1", "src/regev/regevProofs-utils.cpp: powerVector"]}
{"id": "C07", "title": "Merging norm constraints", "statement": "QuadConstraint::merge of constraints with pairwise disjoint index sets is satisfied by the witness scaled by coeff_i on the indexes of constraint i whenever each constraint i is satisfied by the unscaled witness; the merged index set is the union and the right-hand side is sum coeff_i^2 * b_i.", "quantifier": "all lists of disjoint norm constraints, all scaling coefficients, all witnesses", "why_tests_cant": "Universal over index layouts and witnesses.", "anchors": ["src/dlproofs/constraints.cpp: QuadConstraint::merge"]}
{"id": "C08", "title": "Adding two quadratic constraints is safe and reports overlap", "statement": "q += other either throws (when the index sets intersect) or produces the union of index sets and the sum of right-hand sides, and never performs an undefined memory access.", "quantifier": "all pairs of quadratic constraints", "why_tests_cant": "The undefined access only occurs for particular interleavings of the two ordered sets.", "anchors": ["src/dlproofs/constraints.cpp: QuadConstraint::operator+= (lines 258-280)"]}
{"id": "C09", "title": "addIdx and addTerm have set/accumulator semantics", "statement": "Over any history of calls, a QuadConstraint built with addIdx contains exactly the indexes added, a duplicate throws and changes nothing; a LinConstraint built with addTerm maps every index to the sum of all coefficients added for it, independent of the order of the calls.", "quantifier": "all finite sequences of addIdx/addTerm calls", "why_tests_cant": "Histories are unbounded.", "anchors": ["include/constraints.hpp: QuadConstraint::addIdx (141-147)", "src/dlproofs/constraints.cpp: addTerm (251-255)"]}
{"id": "C10", "title": "Inner product of sparse vectors", "statement": "innerProduct of two index->scalar maps equals the sum over the indexes present in both of the product of the two entries, and is symmetric.", "quantifier": "all pairs of finite maps", "why_tests_cant": "Two-pointer walk over arbitrary interleavings of keys.", "anchors": ["src/dlproofs/constraints.cpp: innerProduct (54-67)"]}
{"id": "C11", "title": "Splitting a sparse vector", "statement": "splitPtxtVec splits a map into the entries whose index is in the given set and those whose index is not; no entry is lost, duplicated or altered, and the returned number is one more than the largest index occurring in the map or the set (1 when both are empty).", "quantifier": "all maps and index sets", "why_tests_cant": "All interleavings of two ordered containers.", "anchors": ["src/dlproofs/constraints.cpp: splitPtxtVec (191-226)"]}
{"id": "C12", "title": "makeAlmostDisjoint preserves satisfiability", "statement": "After makeAlmostDisjoint the linear and quadratic constraints share exactly one variable index, which is fresh; for every witness the old pair of constraints is satisfied if and only if the transformed pair is satisfied by the witness changed as documented (y_i - s*a_i on the shared variables, the fresh variable set to minus the inner product on the removed ones, its second component set to s), up to the single equation combined with s.", "quantifier": "all linear/quadratic constraint pairs with indexes below 2^31-1, all scalars s, all witnesses", "why_tests_cant": "Universal over sparse layouts and witnesses.", "anchors": ["src/dlproofs/constraints.cpp: makeAlmostDisjoint (232-249), setDifference (171-186)", "include/constraints.hpp: largestKey (165-170)"]}
{"id": "C13", "title": "checkConstraint decides constraint satisfaction", "statement": "checkConstraint returns true if and only if the witness has exactly the indexes of the constraint and the (bi)linear equation holds; the loose versions return true iff the equation holds over the constraint's indexes and every index with a non-zero coefficient is present in the witness.", "quantifier": "all constraints and witnesses", "why_tests_cant": "An 'iff' over all witnesses.", "anchors": ["src/dlproofs/constraints.cpp: checkConstraint, checkConstraintLoose (319-387)"]}
{"id": "C14", "title": "next2power and log2roundUp", "statement": "For 1 <= n <= 2^63 next2power(n) is the least power of two that is >= n and log2roundUp(n) is its exponent; for n > 2^63 next2power wraps to 0.", "quantifier": "all 64-bit unsigned n", "why_tests_cant": "2^64 inputs.", "anchors": ["include/pedersen.hpp: next2power, log2roundUp (75-89)"]}
{"id": "C15", "title": "Subset-product expansion equals generator folding", "statement": "Multi-exponentiation with the subset-product expansion of the challenge list gives the same point as folding the generators challenge by challenge in the order the prover folds them, for every vector length including non-powers of two; the first vector entry is the initial scalar.", "quantifier": "all lengths n>=1, all generators in any Z_P-module, all challenges", "why_tests_cant": "Recursion over an arbitrary, non-power-of-two length.", "anchors": ["src/dlproofs/naive.cpp: foldGenerators, subsetProdRecurse, subsetProduct, expSubsetProduct, expSubsetProduct2"]}
{"id": "C16", "title": "Pedersen commitments are correct and homomorphic", "statement": "verifyCom(commit(x,r),x,r) is always true; commitments to xs and ys add up to a commitment to xs+ys with the summed randomness; the two-generator version agrees with the one-generator version on pairwise added generators.", "quantifier": "all vectors, randomness, generators", "why_tests_cant": "Universal over group elements.", "anchors": ["include/pedersen.hpp: commit, verifyCom, commit2, verifyCom2", "src/dlproofs/naive.cpp: multiExp"]}
{"id": "C17", "title": "Generator labels never collide", "statement": "The strings hashed to derive generator (tag,kind,index) are pairwise different for different triples, so no two variables share a generator.", "quantifier": "all tags, both kinds, all indexes an API user may pass (size_t)", "why_tests_cant": "Unbounded strings and 64-bit indexes.", "anchors": ["include/pedersen.hpp: PedersenContext::getG/getH (135-148)", "src/dlproofs/bulletproof.cpp: FlatLinStmt, FlatQuadStmt"]}
{"id": "C18", "title": "Linear proofs are complete", "statement": "For every constraint and every witness satisfying it, the proof output by proveLinear is accepted by verifyLinear run on the same statement (with and without public witness offsets), for every vector length, all prover randomness and every value of the Fiat-Shamir challenges other than 0 (a zero challenge raises an exception).", "quantifier": "all n>=1, all constraints/witnesses/offsets, all randomness, all challenge functions", "why_tests_cant": "Universal over lengths and 253-bit scalars.", "anchors": ["include/bulletproof.hpp: proveLinear, verifyLinear", "src/dlproofs/bulletproof.cpp: proveLinear (127-182), verifyLinear (188-251)"]}
{"id": "C19", "title": "Quadratic proofs are complete", "statement": "For every pair of vectors with <u,v>=b the proof output by proveQuadratic is accepted by verifyQuadratic on the same statement (with and without offsets), for all lengths, randomness and non-zero challenges.", "quantifier": "all n>=1, all vectors/offsets, all randomness, all challenge functions", "why_tests_cant": "Universal over lengths and scalars.", "anchors": ["include/bulletproof.hpp: proveQuadratic, verifyQuadratic", "src/dlproofs/bulletproof.cpp: proveQuadratic (274-336), verifyQuadratic (342-395)"]}
{"id": "C20", "title": "Norm proofs are complete", "statement": "The proof of |v|^2 produced by proveNormSquared is accepted by verifyNormSquared and the returned norm is the true squared norm.", "quantifier": "all vectors, randomness, challenge functions", "why_tests_cant": "Universal over vectors and challenges.", "anchors": ["src/dlproofs/bulletproof.cpp: proveNormSquared, verifyNormSquared (404-465)"]}
{"id": "C21", "title": "Norm proofs bind the committed vector", "statement": "If verifyNormSquared accepts a proof then the vector committed on the G generators (minus the challenge offset) equals the vector committed on the H generators (plus the offset), so that the proven inner product is a squared norm.", "quantifier": "all accepting proofs, including those by a prover who knows the challenge before choosing the vectors", "why_tests_cant": "Quantifies over cheating provers.", "anchors": ["src/dlproofs/bulletproof.cpp: proveNormSquared (404-439), verifyNormSquared (440-465)"]}
{"id": "C22", "title": "Linear proofs are special sound", "statement": "There is an explicit extractor which, from accepting transcript trees for two values of the generator F (derived after C), with 3 distinct challenges per folding round and 2 in the last step, outputs either an opening of the commitment satisfying the linear constraint or a non-trivial discrete-log relation between the public generators.", "quantifier": "all lengths, all statements, all accepting trees", "why_tests_cant": "Quantifies over all provers.", "anchors": ["src/dlproofs/bulletproof.cpp: verifyLinear (188-251)"]}
{"id": "C23", "title": "Quadratic proofs are special sound", "statement": "There is an explicit extractor which, from a tree of accepting transcripts of verifyQuadratic with enough distinct challenges per round, outputs either vectors u,v opening the commitment with <u,v>=b or a non-trivial relation between the public generators.", "quantifier": "all lengths, all statements, all accepting trees", "why_tests_cant": "Quantifies over all provers.", "anchors": ["src/dlproofs/bulletproof.cpp: verifyQuadratic (342-395)"]}
{"id": "C24", "title": "Verifiers reject proofs of the wrong shape", "statement": "verifyLinear/verifyQuadratic throw whenever the number of L (or R) points differs from ceil(log2 n), before reading any of them; honest proofs always have exactly that many; the verifier never reads outside its inputs.", "quantifier": "all n>=1, all proof objects", "why_tests_cant": "Universal over malformed proofs.", "anchors": ["src/dlproofs/bulletproof.cpp: verifyLinear (196-206), verifyQuadratic (348-358)"]}
{"id": "C25", "title": "Statement flattening validates its inputs", "statement": "Building a flattened statement throws exactly when the constraint is empty or longer than 2^20, or the witness is non-empty and its index set differs from the constraint's; otherwise generators, coefficients and witness are listed in increasing index order, and proving never reads outside the witness.", "quantifier": "all constraints and witness maps", "why_tests_cant": "Universal over sparse layouts.", "anchors": ["src/dlproofs/bulletproof.cpp: FlatLinStmt (47-82), FlatQuadStmt (86-117)", "include/bulletproof.hpp: proveLinear (86-107)"]}
{"id": "C26", "title": "Proof serialisation round-trips", "statement": "Writing a linear or quadratic proof transcript to a stream and reading it back yields the same transcript.", "quantifier": "all transcripts", "why_tests_cant": "Depends on byte values of random group elements.", "anchors": ["src/dlproofs/bulletproof.cpp: operator<< / operator>> (469-525)"]}
{"id": "C27", "title": "Scalar and ring-element byte encodings round-trip", "statement": "scalarFromBytes(scalarBytes(s)) = s and elementFromBytes(elementBytes(e)) = e with a buffer of bytesPerScalar (times the degree) bytes; all buffer bytes are written.", "quantifier": "all scalars and ring elements", "why_tests_cant": "P^2 elements.", "anchors": ["include/algebra.hpp: scalarBytes, elementBytes, scalarFromBytes, elementFromBytes (107-145)"]}
{"id": "C28", "title": "Conversion between the two scalar types", "statement": "Converting a field scalar to a curve scalar and back is the identity and respects +,-,*; converting a non-negative integer below P gives its residue. (Negative or too large integers do not.)", "quantifier": "all scalars, all integers", "why_tests_cant": "2^253 values.", "anchors": ["include/utils.hpp: conv (57-65)", "include/algebra.hpp: bigIntBytes"]}
{"id": "C29", "title": "Two-digit decomposition is exact and small", "statement": "breakTwoDigits returns lo,hi with lo + radix*hi = v (each v taken as a balanced integer), -radix/2 < lo <= radix/2 and |hi| <= |v|/radix + 1/2 .. as integers, hence also modulo P.", "quantifier": "all vectors of scalars, all radices >= 2 (below P/2)", "why_tests_cant": "All 253-bit values.", "anchors": ["src/regev/regevProofs-utils.cpp: breakTwoDigits (75-101)"]}
{"id": "C30", "title": "Balanced representatives and norms", "statement": "balanced(s) is the unique integer congruent to s modulo P in (-P/2,P/2]; normSquared of a vector is the sum of the squares of the balanced representatives; the l-infinity norm is their maximal absolute value.", "quantifier": "all scalars/vectors and all moduli in use, over the life of the process", "why_tests_cant": "All values, and a dependence on call history (cached modulus).", "anchors": ["include/algebra.hpp: balanced (220-226)", "src/regev/regevProofs-utils.cpp: normSquaredBI, normSquared, lInftyNorm (32-71)"]}
{"id": "C31", "title": "Challenge-byte decoding of ternary matrices", "statement": "setFromBytes sets every matrix entry to the value encoded by its two bits (00,11 -> 0, 01 -> 1, 10 -> -1), so all entries are in {-1,0,1}, each entry is decoded from its own two bits, and exactly n*ceil(m/4) bytes are read.", "quantifier": "all dimensions n,m and all byte buffers", "why_tests_cant": "All byte strings.", "anchors": ["src/algebra/ternaryMatrix.cpp: TernaryMatrix::setFromBytes (45-60)", "include/ternaryMatrix.hpp: TrenaryRow"]}
{"id": "C32", "title": "Ternary matrix products agree with ordinary matrix products", "statement": "leftVecMult, rightVecMult, leftMatMult and rightMatMult over scalars and over ring elements equal the textbook v*M, M*v, A*M, M*A; a dimension mismatch throws.", "quantifier": "all dimensions, ternary matrices, scalar vectors/matrices", "why_tests_cant": "Universal over matrices.", "anchors": ["src/algebra/ternaryMatrix.cpp: leftVecMult, rightVecMult, leftMatMult, rightMatMult (63-149)"]}
{"id": "C33", "title": "Ternary ring-element matrices multiply as matrices over the ring", "statement": "Multiplying by a TernaryEMatrix (Horner evaluation in X) equals multiplying by the matrix of ring elements sum_k M_k[i][j] X^k modulo X^ell+1.", "quantifier": "all dimensions, matrices, vectors of ring elements", "why_tests_cant": "Universal over matrices.", "anchors": ["src/algebra/ternaryMatrix.cpp: TernaryEMatrix (158-259)"]}
{"id": "C34", "title": "Deriving challenge matrices reads only initialised memory", "statement": "newTernaryMatrix(n,m) and newTernaryEMatrix(n,m) read only bytes of the buffer they filled with transcript challenges.", "quantifier": "all dimensions n,m", "why_tests_cant": "The over-read shows up only for column counts that are not a multiple of 4.", "anchors": ["include/regevProofs.hpp: newTernaryMatrix, newTernaryEMatrix (110-131)", "src/algebra/ternaryMatrix.cpp: setFromBytes"]}
{"id": "C35", "title": "Two-square decomposition of primes", "statement": "For every prime p = 1 mod 4 for which a square root of -1 is found, decomposeProbablePrime returns (x,y) with x^2+y^2=p and y non-zero (a square root is always found when p = 5 mod 8); it throws exactly when p is not 1 mod 4.", "quantifier": "all primes p = 1 mod 4 (and all p for which the computed b satisfies b^2=-1 mod p)", "why_tests_cant": "Infinitely many primes.", "anchors": ["src/algebra/foursquares.cpp: iunit, iunit_small, decomposeProbablePrime (76-138)"]}
{"id": "C36", "title": "Four-square decomposition is correct when it succeeds", "statement": "Whenever decompose4(n) returns something else than the failure value, the four returned integers are non-negative and their squares sum to n, provided the primality test only accepts primes; no exception can be raised.", "quantifier": "all n >= 0, every sound primality test", "why_tests_cant": "Infinitely many n.", "anchors": ["src/algebra/foursquares.cpp: decompose4 (163-278), sortScaled, exceptions table"]}
{"id": "C37", "title": "Four-square decomposition always succeeds", "statement": "decompose4(n) never returns the failure value for n >= 0 (every natural number is a sum of four squares).", "quantifier": "all n >= 0", "why_tests_cant": "Counterexamples are rare (first ones above the range of the unit test loop for specific residue classes).", "anchors": ["src/algebra/foursquares.cpp: decompose4 lines 204-216"]}
{"id": "C38", "title": "Padding to an exact norm", "statement": "pad2exactNorm returns four scalars such that the squared norm of the vector plus that of the padding equals bound^2 exactly (as integers, provided the decomposition succeeds), and it throws when the vector's norm exceeds the bound.", "quantifier": "all vectors and bounds", "why_tests_cant": "All vectors; relies on the four-square search.", "anchors": ["src/regev/regevProofs-utils.cpp: pad2exactNorm (319-353)"]}
{"id": "C39", "title": "Decryption inverts encryption for all randomness", "statement": "For all secret keys, key noise, encryption randomness and noise within the size bounds enforced by the rejection loops of key generation and encryption, decryption with key i of the ciphertext returns exactly the i-th plaintext, whenever the parameters satisfy an explicit inequality; the default parameter set (k=2944, sigma 97/116) satisfies it.", "quantifier": "all plaintexts, keys and randomness accepted by the samplers; all parameters satisfying the inequality", "why_tests_cant": "The worst case over randomness is never hit by sampling.", "anchors": ["src/regev/regevEnc.cpp: internalKeyGen, internalEncrypt, internalDecrypt, decodePtxt (160-344)"]}
{"id": "C40", "title": "Plaintext decoding recovers plaintext and noise exactly", "statement": "decodePtxt applied to -(g*x + e) returns x and the decoding noise e for all x in Z_P whenever -Delta/2 <= e_1 < Delta/2 and e_1 - e_0*Delta is in (-P/2,P/2].", "quantifier": "all x, all noise in the stated range", "why_tests_cant": "All 253-bit values.", "anchors": ["src/regev/regevEnc.cpp: decodePtxt (304-344), initPdeltaG"]}
{"id": "C41", "title": "Samplers respect their documented bounds", "statement": "Key generation only returns secret keys and noise within the norm bounds, encryption only returns randomness within its bounds, in at most 51 (keygen) resp. the coded number of trials, after which an exception is raised; the returned public key and ciphertext equal the stated algebraic expression of the returned secrets.", "quantifier": "all outcomes of the random source", "why_tests_cant": "Quantifies over all random tapes.", "anchors": ["src/regev/regevEnc.cpp: internalKeyGen (160-198), internalEncrypt (201-266)"]}
{"id": "C42", "title": "Public keys are registered in order and never overwritten", "statement": "Over every history of addPK calls the global key holds the successfully added keys in call order, returns consecutive indexes 0,1,..., and throws without any change when full or when the key has the wrong length.", "quantifier": "all finite sequences of addPK calls", "why_tests_cant": "Unbounded histories.", "anchors": ["src/regev/regevEnc.cpp: GlobalKey::addPK (143-157), GlobalKey ctor (95-128)"]}
{"id": "C43", "title": "The plaintext ring is a field", "statement": "The ring GF(P^ell) of ring elements in which ciphertexts and challenges live has no zero divisors.", "quantifier": "all pairs of ring elements", "why_tests_cant": "Zero divisors have density about 2/P.", "anchors": ["include/algebra.hpp: Element", "src/regev/regevEnc.cpp: initPdeltaG (42-70)"]}
{"id": "C44", "title": "Variable index layout is disjoint", "statement": "The index ranges assigned to the proof variables are pairwise disjoint, contiguous from 0, the auxiliary variable is the last one, all vectors under norm constraints come first, and the ranges stay disjoint over any number of proofs (prepareForNextProof).", "quantifier": "all key parameters, all numbers of successive proofs", "why_tests_cant": "All parameters and unbounded histories.", "anchors": ["src/regev/regevProofs-utils.cpp: VerifierData::setIndexes (189-230)", "include/regevProofs.hpp: prepareForNextProof (226-243)"]}
{"id": "C45", "title": "Constraint expansion represents ring multiplication", "statement": "The ell scalar constraints produced by makeConstraints/expandConstraints for a vector of ring-element coefficients hold for a scalar witness if and only if the inner product over the ring Z_P[X]/(X^ell+1) equals the right-hand side.", "quantifier": "all degrees ell, all coefficient vectors, all witnesses", "why_tests_cant": "Universal over ring elements.", "anchors": ["src/regev/regevProofs-utils.cpp: expandConstraints, makeConstraints, setEqsTo (363-402)"]}
{"id": "C46", "title": "Committing to a slice commits to exactly that slice", "statement": "commit(v, genIdx, Gs, r, from, to) for scalar and for element vectors is the Pedersen commitment with the generators starting at genIdx to the coefficients of v[from..to), throws when there are not enough generators, and accesses no memory outside its arguments.", "quantifier": "all vectors, slices, generator lists", "why_tests_cant": "All slice positions.", "anchors": ["src/regev/regevProofs-utils.cpp: commit, commit2 (251-315)"]}
{"id": "C47", "title": "Proof of decryption: honest constraints hold", "statement": "The linear constraints set up by proveDecryption say exactly that the committed digits are the challenge-compression of the decryption noise of the committed key and plaintext. For every correct decryption they hold for the recorded witness, and so do the norm constraints unless the four-squares search reported failure. Commitments open to the recorded witness and nothing else in the state changes.", "quantifier": "all keys, ciphertexts, plaintexts, noise, challenges", "why_tests_cant": "Universal over keys and challenges.", "anchors": ["src/regev/regevProofs.cpp: proveDecryption (39-171)"]}
{"id": "C48", "title": "Proof of encryption: honest constraints hold", "statement": "The constraints set up by proveEncryption say exactly that the committed digits are the challenge-compressions of the two encryption noises and of the encryption randomness. For every honest encryption they hold for the recorded witness (norm constraints: unless the four-squares search reported failure), also when the prover object is reused.", "quantifier": "all keys, randomness, challenges", "why_tests_cant": "Universal over keys and challenges; history of calls.", "anchors": ["src/regev/regevProofs.cpp: proveEncryption (175-436)"]}
{"id": "C49", "title": "Proof of key generation: honest constraints hold", "statement": "The constraints set up by proveKeyGen say exactly that the committed digits are the challenge-compressions of the key noise and of the secret key. For every honest key pair they hold for the recorded witness (norm constraints: unless the four-squares search reported failure).", "quantifier": "all keys, noise, challenges", "why_tests_cant": "Universal over keys and challenges.", "anchors": ["src/regev/regevProofs.cpp: proveKeyGen (441-599)"]}
{"id": "C50", "title": "Proof of re-sharing: constraints characterise correct re-sharing", "statement": "The re-share constraints hold for (pt1,pt2) if and only if pt2 is a valid sharing whose secret equals the combination of pt1 with the given Lagrange coefficients.", "quantifier": "all parameters, Lagrange coefficients, plaintext vectors", "why_tests_cant": "Iff over all plaintext vectors.", "anchors": ["src/regev/regevProofs.cpp: proveReShare (603-660)"]}
{"id": "C51", "title": "Proof of smallness: honest constraints hold", "statement": "The constraints set up by proveSmallness say exactly that the masked reply is the compression of all compressed vectors plus the mask. They hold for the recorded witness after any sequence of the earlier steps, and the reply stays within the bound.", "quantifier": "all witness vectors, challenges", "why_tests_cant": "Universal over witnesses and challenges.", "anchors": ["src/regev/regevProofs.cpp: proveSmallness (667-767)"]}
{"id": "C52", "title": "Aggregation preserves satisfaction", "statement": "If all linear constraints and all norm constraints hold for the recorded witness, then after aggregation the single linear and the single quadratic constraint hold for the aggregated witness, for every value of the aggregation challenges (non-zero powers).", "quantifier": "all constraint systems with disjoint norm constraints, all witnesses, all challenges", "why_tests_cant": "Universal over constraint systems.", "anchors": ["src/regev/regevProofs.cpp: aggregateVerifier1, aggregateProver, aggregateVerifier2 (769-1083)"]}
{"id": "C53", "title": "Flattened verifier statement uses one distinct generator per variable", "statement": "The generator lists built by flattenLinVer and flattenQuadVer contain the generator of each variable of the constraint, with no generator used for two variables, so the aggregated quadratic proof binds the norm-constrained variables.", "quantifier": "all constraint systems", "why_tests_cant": "A cheating prover would exploit a repeated generator; no test exercises cheating.", "anchors": ["src/regev/regevProofs.cpp: flattenLinVer, flattenQuadVer (1085-1111)"]}
{"id": "C54", "title": "Chained proofs keep commitment and witness in sync", "statement": "Over any number of proofs chained with prepareForNextProof the commitment to the current secret key opens to the current key with the current randomness under the generators of the current index.", "quantifier": "all numbers of epochs, all keys", "why_tests_cant": "Unbounded histories.", "anchors": ["include/regevProofs.hpp: VerifierData::prepareForNextProof, ProverData (226-282)", "src/main.cpp"]}
{"id": "C55", "title": "Transcript sponge stays within bounds and never aborts", "statement": "Over every sequence of transcript API calls (append, challenge, rng build/finalise/draw) the sponge position stays below the rate, all state accesses are inside the 200-byte state, and no assertion can fail.", "quantifier": "all call sequences, all labels and messages", "why_tests_cant": "Unbounded histories and lengths.", "anchors": ["src/libmerlin/merlin.c: strobe128_*, merlin_* (98-294)"]}
{"id": "C56", "title": "Absorbing is independent of chunking", "statement": "Appending data in one call or in several pieces (with the continuation flag) leaves the transcript in the same state; squeezing likewise.", "quantifier": "all data, all splits", "why_tests_cant": "All splits around the block boundary.", "anchors": ["src/libmerlin/merlin.c: absorb, squeeze, meta_ad (107-180)"]}
{"id": "C57", "title": "Transcript framing is injective", "statement": "Two different sequences of (label, message) appended to a transcript never feed the same sequence of blocks into the permutation.", "quantifier": "all sequences of appended messages", "why_tests_cant": "Unbounded pairs of histories.", "anchors": ["src/libmerlin/merlin.c: begin_op, meta_ad, ad, merlin_transcript_commit_bytes"]}
{"id": "C58", "title": "Integer encoding in transcripts", "statement": "bytesFromInt followed by intFromBytes is the identity on every 64-bit number.", "quantifier": "all 64-bit numbers", "why_tests_cant": "2^64 values; fails only above 2^31.", "anchors": ["include/merlin.hpp: bytesFromInt, intFromBytes (48-60)"]}
{"id": "C59", "title": "Constraints are bound by the transcript", "statement": "processConstraint feeds different byte strings for different constraints.", "quantifier": "all pairs of constraints", "why_tests_cant": "Pairs of constraints with 64-bit indexes.", "anchors": ["include/merlin.hpp: processConstraint (94-122)"]}
{"id": "C60", "title": "Drawing blinding factors does not disturb the transcript", "statement": "newBlindingFactors leaves the transcript unchanged, so a prover that draws blinding factors and a verifier that does not stay in the same state and derive the same challenges.", "quantifier": "all transcript states, all secrets, all random tapes", "why_tests_cant": "All states.", "anchors": ["include/merlin.hpp: newBlindingFactors (146-187)"]}
{"id": "C61", "title": "Curve scalar arithmetic is canonical field arithmetic", "statement": "Scalar operations produce the reduced 32-byte representation of the field operation, so byte equality decides equality of values on everything produced by the API; division by zero throws.", "quantifier": "all scalars", "why_tests_cant": "2^253 values.", "anchors": ["include/scalar25519.hpp: Scalar (46-144)"]}
{"id": "C62", "title": "setInteger maps signed integers to residues", "statement": "setInteger(n) is the canonical residue of n modulo P for every long n.", "quantifier": "all 64-bit signed n", "why_tests_cant": "2^64 values; the extreme value overflows.", "anchors": ["include/scalar25519.hpp: setInteger (129-143)"]}
{"id": "C63", "title": "Scalar modulo operation", "statement": "a %= b interprets both as signed integers in [-P/2,P/2) and returns the residue congruent to a modulo |b| lying in [-|b|/2,|b|/2).", "quantifier": "all scalars a and non-zero b", "why_tests_cant": "Fails only at the midpoints.", "anchors": ["src/25519/curve25519.cpp: Scalar::operator%= (75-89)"]}
{"id": "C64", "title": "Bounded and ternary curve samplers stay in range", "statement": "BoundedSizeScalar(n) returns a value in [-(2^n-1),2^n-1] for every random tape and throws unless 1<=n<=251; ZeroOneScalar leaves -1, 0 or 1 in its target.", "quantifier": "all n, all random tapes, all previous contents of the target", "why_tests_cant": "All tapes; the sampler result may depend on the previous contents.", "anchors": ["include/scalar25519.hpp: ZeroOneScalar, BoundedSizeScalar (173-217)"]}
{"id": "C65", "title": "Point arithmetic wrappers agree with the group", "statement": "On points of the prime-order subgroup and canonical scalars the wrappers +=, -=, *= compute the group operations for all inputs including the identity and the zero scalar, and never throw.", "quantifier": "all points and scalars", "why_tests_cant": "Special cases at identity/zero.", "anchors": ["include/point25519.hpp: operator+=, -=, *= (66-109), baseTimesScalar"]}
{"id": "C66", "title": "Map builders place every coefficient at its own index", "statement": "addEVec2Map/addSVec2Map set index offset+i*ell+j to coefficient j of element i and leave all other indexes unchanged; addRange2Set adds exactly the indexes of the half-open range.", "quantifier": "all maps, vectors, offsets", "why_tests_cant": "All offsets and vectors.", "anchors": ["include/utils.hpp: addEVec2Map, addSVec2Map, addRange2Set (91-116)"]}
{"id": "C67", "title": "Field modulus is prime", "statement": "The modulus P = 2^252 + 27742317777372353535851937790883648493 used for all scalars is prime, so that every non-zero scalar is invertible.", "quantifier": "all candidate divisors", "why_tests_cant": "Trial division is infeasible at 253 bits; needs a certificate.", "anchors": ["include/algebra.hpp", "src/regev/regevEnc.cpp: initPdeltaG", "src/25519/curve25519.cpp: Scalar::operator%="]}
{"id": "C68", "title": "Non-square filter has no false negatives", "statement": "maybeSquare(n) returns true for every perfect square, so the search for small decompositions never skips a square.", "quantifier": "all n >= 0", "why_tests_cant": "Infinitely many squares.", "anchors": ["src/algebra/foursquares.cpp: maybeSquare (57-72), squaresModMagic"]}
{"id": "C69", "title": "Proof challenges depend on the statement being proved", "statement": "The challenges used in the decryption, encryption and key generation proofs depend on the ciphertexts, public keys and key commitment of the statement (strong Fiat-Shamir).", "quantifier": "all pairs of statements", "why_tests_cant": "Quantifies over adversarially chosen statements.", "anchors": ["src/regev/regevProofs.cpp: proveDecryption, proveEncryption, proveKeyGen", "include/regevProofs.hpp: MerlinRegev"]}
{"id": "C70", "title": "End-to-end completeness of the proof pipeline", "statement": "For every honest witness of all sub-proofs, the linear and the quadratic proof produced after aggregation and flattening are accepted by the verifier's flattened statement, provided no aggregated coefficient of a linear-only variable vanishes.", "quantifier": "all parameters, witnesses, randomness and challenge functions", "why_tests_cant": "Universal over witnesses and challenges.", "anchors": ["src/main.cpp", "src/regev/regevProofs.cpp: flattenLinPrv, flattenQuadPrv (1113-1163)"]}
{"id": "C71", "title": "Secret-sharing threshold chosen by the key", "statement": "The global key picks a threshold t that is divisible by the ring degree, positive and below half the number of parties, for every number of parties the constructor accepts.", "quantifier": "all numbers of parties", "why_tests_cant": "All n; small n abort.", "anchors": ["src/regev/regevEnc.cpp: GlobalKey ctor (95-128)"]}
{"id": "C73", "title": "Rounding helpers", "statement": "divCeil(x,y) is the ceiling of x/y for every integer x and y>0; ceilDiv(a,b) is the ceiling for 0 <= a, 0 < b as long as a+b fits in an int; log2roundUp(BigInt n) is the least e with 2^e >= n for every n>=1.", "quantifier": "all integers", "why_tests_cant": "Unbounded integers, off-by-one at exact multiples and powers of two.", "anchors": ["include/algebra.hpp: divCeil (57-62), log2roundUp (91-94)", "include/utils.hpp: ceilDiv (42)"]}
{"id": "C74", "title": "Encryption only under registered keys", "statement": "A ciphertext slot is only produced under a registered public key: encrypting under a global key with missing public keys raises an exception, so no plaintext is exposed.", "quantifier": "all global keys and registration histories", "why_tests_cant": "Tests register every key first; the missing check only shows for partial registrations.", "anchors": ["src/regev/regevEnc.cpp: internalEncrypt (201-220), GlobalKey ctor (95-128), addPK (143-157)"]}
{"id": "C75", "title": "keccakf is Keccak-f[1600]", "statement": "The lane-oriented, table-driven keccakf on the 200-byte state computes the Keccak-f[1600] permutation of FIPS 202 (theta, rho, pi, chi, iota over 24 rounds, round constants from the LFSR), and yields 200 bytes.", "quantifier": "all 200-byte states", "why_tests_cant": "2^1600 states; a wrong table entry or rotation is only caught by a test vector if one happens to be run.", "anchors": ["src/libmerlin/merlin.c: keccakf (30-85), tables rho, pi, RC"]}
{"id": "C76", "title": "The aggregated statement ties the values on G to those on H", "statement": "Norm-constrained variables are committed on G_k+H_k; after aggregation the quadratic statement accepts an opening with different values on G_k and H_k for some variable k for few challenges only, so an accepted proof shows that the committed vectors themselves meet the norm bounds.", "quantifier": "all states, openings and challenges", "why_tests_cant": "Universal over dishonest openings and challenges; tests only run honest provers.", "anchors": ["src/regev/regevProofs.cpp: aggregateProver, aggregateVerifier (expandQuadConstraints, uVec)"]}
{"id": "C77", "title": "Aggregation is sound for arbitrary openings", "statement": "For any opening, honest or not, that satisfies the aggregated linear constraint, the aggregated quadratic constraint is missed by a fixed polynomial in the challenges whose coefficients are the amounts by which the individual constraints are missed; so a violated linear constraint survives for fewer than #constraints values of the first challenge and one value of the last, and a violated norm constraint for fewer than twice the number of norm constraints values of its challenge.", "quantifier": "all constraint systems, openings and challenges", "why_tests_cant": "Universal over dishonest openings; the bound counts challenges in a field of 2^252 elements.", "anchors": ["src/regev/regevProofs.cpp: aggregateProver, aggregateVerifier"]}
{"id": "C78", "title": "Deserialised scalars are reduced", "statement": "A scalar read from a stream is the unique 32-byte representation of its value modulo P, so that the byte comparison in operator== and isZero decides equality of values.", "quantifier": "all streams", "why_tests_cant": "2^256 byte strings, of which only about 1/15 are reduced; the code never writes the others.", "anchors": ["include/scalar25519.hpp: operator>> (157-160), operator== (55-57), isZero (59)"]}
{"id": "C79", "title": "Compression halves the chance per scalar of the reply", "statement": "If a vector of ring elements has a coefficient above 2B (as a balanced residue), then, whatever the mask, the masked product with a random ternary matrix has all coefficients within B for at most a 2^-d fraction of the challenge strings, d being the number of scalars of the reply (LINYDIM = 128 in the proof of smallness, JLDIM = 256 in the others), i.e. ell times the number of columns of the matrix.", "quantifier": "all vectors, masks, bounds, dimensions; the fraction is counted over all byte strings of the challenge", "why_tests_cant": "The claim counts 256^n challenge strings; a test sees none of the bad ones.", "anchors": ["src/regev/regevProofs.cpp: proveSmallness (707-712)", "include/regevProofs.hpp: LINYDIM, JLDIM (54-56)", "include/ternaryMatrix.hpp", "include/regevProofs.hpp: newTernaryEMatrix"]}
{"id": "C80", "title": "Combination with powers of a challenge misses few errors", "statement": "A system of m ring equations, not all of which hold, is turned into one that holds (by taking the combination with 1, x, ..., x^(m-1)) by fewer than m values of the challenge ring element x.", "quantifier": "all error vectors, all m, all challenges", "why_tests_cant": "Universal over dishonest provers and 2^504 challenges.", "anchors": ["src/regev/regevProofs.cpp: calls of powerVector and newElement in the proof steps"]}
{"id": "C81", "title": "Norm constraints do not wrap around", "statement": "If the entries are known to be so small that the sum of squares stays below P, a norm constraint modulo P with bound b says that the norm is b over the integers, so that every entry is at most b. (Without that it says nothing about the size of the entries.)", "quantifier": "all constraints, assignments and bounds", "why_tests_cant": "Universal over field elements; tests have small honest witnesses.", "anchors": ["src/regev/regevProofs.cpp: normConstr in the proof steps (e.g. 136-147)", "src/regev/regevProofs-utils.cpp: 140-165"]}
{"id": "C82", "title": "Each proof step bounds what it is about", "statement": "For every assignment that satisfies the linear constraints recorded by a proof step and whose compressed vectors are within B, the noise (decryption; encryption, both parts and the randomness; key generation, noise and secret key) is within 2B, unless the ternary challenge is one of the few of C79 or the challenge element a root as in C80. For the smallness step the compressed vectors are within 2*B_smallness with the same exceptions.", "quantifier": "all runs of the steps, all assignments, all challenge functions", "why_tests_cant": "Universal over dishonest assignments.", "anchors": ["src/regev/regevProofs.cpp: proveDecryption, proveEncryption, proveKeyGen, proveSmallness"]}
{"id": "C83", "title": "The steps together bound the noise", "statement": "An assignment that satisfies the linear and norm constraints of a step and the constraints of the smallness step has noise within 2*(loBound + radix*hiBound), keys and encryption randomness within twice their bound, with no assumption on the size of anything it assigns, unless a challenge was one of the few of C79, C80; provided (JLDIM+4)*(2*B_smallness)^2 and the squares of the bounds are below P.", "quantifier": "all runs, all assignments, all challenge functions", "why_tests_cant": "Universal over dishonest assignments; combines approximate smallness with exact norms.", "anchors": ["src/regev/regevProofs.cpp: all steps", "src/regev/regevProofs-utils.cpp: bounds (140-165)"]}
{"id": "C84", "title": "Proof steps return exactly when the compressed vectors fit", "statement": "If all dimensions are multiples of 4, each proof step returns if the vectors compressed by the ternary challenge meet their norm bounds (high digits; one of 100 trials for the smallness step), and throws if not. It never runs into undefined behaviour or an abort, and the check of the low digits never fails. A vector with norm at most B before it is split into digits is never rejected. A complete proof round for a true statement therefore throws or is accepted. If the key dimension or the number of parties is not a multiple of 4, proveEncryption always reads outside of the challenge buffer.", "quantifier": "all configurations, states, inputs of the right dimensions, challenge functions, libraries as documented", "why_tests_cant": "Universal over runs; the tests try one parameter set and few seeds, and k=2982 (n=512) is not a multiple of 4.", "anchors": ["src/regev/regevProofs.cpp: proveDecryption, proveEncryption, proveKeyGen, proveReShare, proveSmallness", "src/regev/regevProofs-utils.cpp: 186-455", "include/ternaryMatrix.hpp: newTernaryMatrix"]}
{"id": "C85", "title": "The plaintext of a decryption proof is the decryption", "statement": "An assignment that satisfies the constraints of the decryption step and the smallness step has as plaintext what decryption of the ciphertext with the key of the assignment gives, except for the few challenges of C79 and C80.", "quantifier": "all runs, ciphertexts, assignments, challenge functions", "why_tests_cant": "Universal over dishonest assignments; no test tries to prove a wrong decryption.", "anchors": ["src/regev/regevProofs.cpp: proveDecryption (53-150)", "src/regev/regevProofs-utils.cpp: B_dNoise (140-165)", "src/regev/regevEnc.cpp: decodePtxt"]}
{"id": "C86", "title": "setParams always finds parameters, and decryption with them is correct", "statement": "For every number of parties 5 <= n < 2^30 KeyParams::setParams returns without undefined behaviour or overflow, the constructor of GlobalKey accepts the result, and every honestly generated ciphertext decrypts correctly under every registered honest key.", "quantifier": "all n in the range, all randomness, all floating-point results within the stated error", "why_tests_cant": "The tests use three values of n; correctness for all of them is a statement about logarithms and unbounded randomness.", "anchors": ["src/regev/regevEnc.cpp: 73-128", "include/regevEnc.hpp: 228-238"]}
{"id": "C87", "title": "The computed bounds meet the provisos of the proof system", "statement": "For every 5 <= n <= 2^20 the constructor of VerifierData does not throw for the parameters of setParams, its bounds are ordered as its sanity check wants, and they meet the conditions under which the norm constraints speak about integers (C81, C83) and under which honest vectors are not rejected (C84): 2 <= radix < P, no sum of squares reaches P, 4*(loBound+radix*hiBound) < P, JLDIM <= 4*(ceil(sqrt(kk))-1)^2 (and the same for nn if n >= 33).", "quantifier": "all n in the range, all floating-point results within the stated error", "why_tests_cant": "The tests use one n (64) with k reset to 64.", "anchors": ["src/regev/regevProofs-utils.cpp: 111-165", "src/regev/regevEnc.cpp: 73-93"]}
{"id": "C88", "title": "setParams guarantees its documented noise margin", "statement": "The parameters satisfy P^((ell-1)/ell) > 2^sigmaEnc1 * 600 * nn * sqrt(kk*tt), the condition in the comment of the loop.", "quantifier": "all n accepted by main (32 to 4096)", "why_tests_cant": "No test checks the margin; decryption still works without it.", "anchors": ["src/regev/regevEnc.cpp: 77, 85-89"]}
{"id": "C89", "title": "The chosen dimension fits the ternary challenge matrices", "statement": "The dimension k chosen by setParams is a multiple of four, as sampling of the challenge matrices requires (C34, C84).", "quantifier": "all n accepted by main (32 to 4096)", "why_tests_cant": "The tests set k=64 by hand; main runs with k=2982 and reads outside a buffer without a visible failure.", "anchors": ["src/regev/regevEnc.cpp: 80-84", "src/regev/regevProofs.cpp: proveEncryption", "src/main.cpp: 48-60"]}
{"id": "C90", "title": "A run of main either throws or verifies everything", "statement": "For every random source, if the number of parties and the dimension k chosen by setParams are multiples of four, then a run of main ends in an exception or it reports no decryption error and both final proofs verify; the proviso is that no four-squares search fails and no coefficient of the aggregated linear constraint vanishes. For all numbers of parties the part before the proof (parameters, keys, sharing, encryption, decryption, commitment) throws or delivers correct decryptions; it never exhibits undefined behaviour.", "quantifier": "all arguments of main, all randomness, all transcripts and library results meeting their specifications", "why_tests_cant": "Composes some forty functions over all randomness; one run takes hours and shows one execution.", "anchors": ["src/main.cpp: 38-253", "src/regev/regevEnc.cpp: 73-297", "src/regev/regevProofs.cpp", "src/regev/regevProofs-utils.cpp: 105-183"]}
{"id": "C91", "title": "main completes for every number of parties it accepts", "statement": "For every argument of main there is randomness for which the run returns.", "quantifier": "all arguments of main (32 to 4096 parties, 512 by default)", "why_tests_cant": "The overrun is silent in practice; only a proof shows that no execution of the default configuration has defined behaviour up to the end.", "anchors": ["src/main.cpp: 48-60", "src/regev/regevProofs.cpp: proveEncryption", "include/ternaryMatrix.hpp: random sampling"]}
{"id": "C72", "title": "All commitments are in the transcript before the challenges are drawn", "statement": "When the five proof steps are done, the commitments of all proof variables have been put into the transcript, so that the challenges of the aggregation depend on all of them and a prover who wants to change a commitment faces new challenges.", "quantifier": "all transcripts, configurations and inputs of the proof steps", "why_tests_cant": "A commitment that is not hashed does not show in any honest run; the attack is a prover that the tests do not contain.", "anchors": ["src/main.cpp: 139-160", "src/regev/regevProofs.cpp: proveDecryption, proveEncryption, proveKeyGen, proveReShare, proveSmallness", "include/regevProofs.hpp: commit"]}
{"id": "C92", "title": "What a complete proof shows", "statement": "Values of the committed variables that satisfy the two equations left by the aggregation are such that: all four kinds of noise are bounded, the encryption randomness and the new secret key are small, and the new plaintexts are a sharing of the combination of the old ones; unless a challenge of a proof step or of the aggregation was one of the few that make the equations hold for such values by chance. For the parameters of the code the bounds are below P/4, so that this is not void.", "quantifier": "all statements, witnesses, transcripts and configurations (dimensions multiples of four); for the code's constants all 5 to 2^20 parties", "why_tests_cant": "A test runs an honest prover; that nothing else satisfies the equations is a statement about all values.", "anchors": ["src/regev/regevProofs.cpp: 39-767", "src/regev/regevProofs.cpp: 769-1163", "src/regev/regevProofs-utils.cpp: 105-183"]}
{"id": "C93", "title": "Linear constraints are enforced by the pair of proofs", "statement": "The linear and the quadratic proof are tied to each other by a variable w that occurs in both. Values that satisfy the two aggregated equations satisfy every linear constraint of the proof steps, up to lucky challenges, also if w has different values in the two proofs.", "quantifier": "all systems of constraints, values, differences of the two values of w, and challenges", "why_tests_cant": "A test runs a prover who uses one w. That the two values may differ, and what this makes up for, only shows in the equations for arbitrary openings.", "anchors": ["src/regev/regevProofs.cpp: 769-800", "src/regev/regevProofs.cpp: 1000-1090", "src/main.cpp: 205-253"]}
{"id": "C94", "title": "Fingerprints identify the keys", "statement": "Two global keys with the same CRS fingerprint (Ahash) have the same tag, dimension and CRS, and two keys with the same key fingerprint (Bhash) have the same matrix of public keys, unless the hash collides on their encodings. Keys that operator== calls equal are equal.", "quantifier": "all keys, tags, dimensions and hash functions", "why_tests_cant": "A test would have to find the two keys with the same fingerprint; equality is only ever tested on keys that are equal.", "anchors": ["src/regev/regevEnc.cpp: 118-157", "include/regevEnc.hpp: 70-84", "include/algebra.hpp: 113-125"]}
{"id": "C95", "title": "The CRS is a function of the tag", "statement": "The constructor without a given CRS returns exactly for valid parameters and tags of at most 61 bytes (longer ones make it hash with an uninitialised state). The CRS then is the stream of elements of the generator seeded with tag+CRS, in row order, so that all parties compute the same. The state of the caller's generator is the same before and after.", "quantifier": "all tags, parameters, generators and generator states", "why_tests_cant": "Tests use one short tag. They cannot show that the CRS does not depend on anything else.", "anchors": ["src/regev/regevEnc.cpp: 95-128", "include/algebra.hpp: 210-213"]}
{"id": "C96", "title": "Only satisfied constraints are accepted", "statement": "The lengths at which the run of main uses the two inner-product proofs are lengths at which these are sound: a prover whose state violates a linear or a quadratic constraint cannot produce a pair of proofs that both verifications of main accept, except with lucky challenges.", "quantifier": "all configurations, states of the prover (also those that violate constraints), challenges and blinding values", "why_tests_cant": "Tests run the honest prover only. The length of the quadratic statement is a function of the parameters, and its effect only shows with a prover written to cheat.", "anchors": ["src/regev/regevProofs.cpp: 1094-1163", "src/dlproofs/bulletproof.cpp: 257-400", "src/main.cpp: 205-253", "include/regevProofs.hpp: 318-423"]}
{"id": "C97", "title": "Commitments and proofs reveal nothing about the witness", "statement": "A Pedersen commitment is the commitment of every vector, each for exactly one randomness. For given challenges, the linear (quadratic) proofs that the honest prover sends are exactly the accepted ones, each for exactly one choice of its blinding values, whatever the witness is; so a simulator that only knows the statement and the challenges produces the same transcripts, and two witnesses of one statement cannot be told apart.", "quantifier": "all statements, witnesses, lengths, offsets, non-zero challenges and blinding values; groups generated by the base point", "why_tests_cant": "Distributions over blinding values of 2^252 elements cannot be sampled by a test; a leak leaves every proof accepted.", "anchors": ["src/dlproofs/bulletproof.cpp: proveLinear (127-182)", "src/dlproofs/bulletproof.cpp: proveQuadratic (274-336)", "include/pedersen.hpp: 105-125"]}
{"id": "C98", "title": "The statement depends on the secrets only through commitments and the masked reply", "statement": "Two provers with any secrets and any randomness who prove statements about the same public data and arrive at the same commitments (and, in the proof of smallness, send the same masked reply) arrive at the same statement: layout, linear and quadratic constraints, transcript. So do the commitments, statements, generators, offsets and transcripts that the verifiers of the two final proofs get after aggregation and flattening.", "quantifier": "all configurations, secrets, randomness, numbers of rejected masks, transcripts", "why_tests_cant": "A test compares two runs; that no secret ever enters a constraint or the transcript except through a commitment is a statement about all pairs of runs.", "anchors": ["src/regev/regevProofs.cpp: proveDecryption, proveEncryption, proveKeyGen, proveReShare, proveSmallness", "src/regev/regevProofs-utils.cpp: aggregateProver, flattenLinPrv, flattenQuadPrv", "src/main.cpp: 157-253"]}
{"id": "C99", "title": "The masked reply of the smallness proof does not depend on the secrets", "statement": "In proveSmallness the reply is z = u + y, with y drawn by BoundedSizeElement (smlnsBits random bits and a sign bit per coefficient) and accepted if |u| <= B_smallness/128 and |z| <= B_smallness. For fixed R, every acceptable z is the reply for the same number of draws of y whatever u is, so an accepted reply is uniform and independent of the secrets. Zero is drawn twice as often as any other value (it has two signs), so this holds exactly only for the replies that differ from u in every coefficient: a reply comes from 2^a draws, a the number of coefficients in which it equals u. The number of accepted draws, (2B+2)^128, and of accepted draws with a = 0, (2B)^128, do not depend on u.", "quantifier": "for all moduli, numbers of bits, bounds with B/128 + B < 2^bits and 2*2^bits <= P, all u and z within the bounds; the parameters chosen by setParams for 5 <= n <= 2^20 meet the conditions", "why_tests_cant": "the bias is 2^-96 of the draws, no sample of replies shows it, and the independence claim quantifies over all secrets and all randomness", "anchors": ["include/regevEnc.hpp:186-226", "src/regev/regevProofs.cpp:667-767", "src/regev/regevProofs-utils.cpp:157-165"]}
{"id": "C100", "title": "Complete proofs are witness indistinguishable", "statement": "If the base point generates the group and no challenge is zero: given a run of the five proof steps and any pair of final proofs that the verifiers accept, every second prover whose secrets make the statement true, open a key commitment of the same value and, compressed with the challenge matrices of that run, stay within the bounds, has randomness for its commitments (exactly one) and a mask with which its five steps show exactly the same (commitments, constraints, masked reply, transcript), and, if its four-square searches succeed, blinding values with which it sends exactly the same pair of final proofs.", "quantifier": "all configurations satisfying the conditions of C84, all secrets, all accepted proofs", "why_tests_cant": "The second prover's randomness is the solution of an equation over a 252-bit field for every run of the first; no test can quantify over it.", "anchors": ["src/regev/regevProofs.cpp: proveDecryption, proveEncryption, proveKeyGen, proveReShare, proveSmallness", "src/main.cpp: 157-253", "src/dlproofs/bulletproof.cpp: proveLinear, proveQuadratic"]}
{"id": "C101", "title": "The transcript is Merlin v1.0 over STROBE-128", "statement": "For every label and every history of messages and challenges, merlin_transcript_init, _commit_bytes and _challenge_bytes return the challenge bytes that the published Merlin v1.0 over STROBE v1.0.2 (rate 166, Keccak-f[1600]) returns; in particular ad, key and prf are the STROBE operations AD, KEY, PRF and labels and lengths are absorbed with meta-AD (flags M|A).", "quantifier": "for all permutations of 200-byte states, labels, messages, challenge lengths and histories; refutation with Keccak-f and the test vector of the Merlin library", "why_tests_cant": "a wrong flag byte leaves every test that compares prover and verifier green, since both sides use the same code; only comparison with the published definition for all histories shows that nothing else differs", "anchors": ["src/libmerlin/merlin.c:87-256", "src/libmerlin/merlin.c:174-179", "src/libmerlin/merlin.c:197-204"]}
{"id": "C102", "title": "The final verification is about the commitments of the statement", "statement": "If both verifications at the end of main succeed, then the two proofs are proofs for the aggregated commitments that the verifier computes from the prover's commitments (ReadyToVerify::linCom and quadCom); the verifier takes no commitment from the proofs themselves.", "quantifier": "for all configurations, proof states (whether their constraints hold or not), challenges and proofs; forged proofs for every choice of the forger's randomness", "why_tests_cant": "the honest prover sets pf.C to exactly these commitments, so that every test accepts for the right reason; a proof for a commitment made up by the prover is accepted as well, which only shows against provers that no test contains", "anchors": ["src/main.cpp:192-253", "include/regevProofs.hpp:321-326", "src/regev/regevProofs.cpp:831-838", "src/regev/regevProofs.cpp:933-937", "src/dlproofs/bulletproof.cpp:188-251", "src/dlproofs/bulletproof.cpp:342-439"]}
{"id": "C103", "title": "The transcript forgets nothing it was given", "statement": "Keccak-f as coded is one-to-one on states of 200 bytes. Two transcripts at the same place that are given the same messages and return the same challenges end in the same state only if they began in the same state. Changing one byte of one message anywhere in a history therefore changes a later challenge or leaves the final state different; the same holds for any change within one block of 166 bytes.", "quantifier": "for all labels, histories of messages and challenges before and after, messages, byte positions and byte values", "why_tests_cant": "a step that is not one-to-one loses a fraction of 2^1600 states; no test ever meets two states that collide, and the missing difference would only show against someone who looks for it", "anchors": ["src/libmerlin/merlin.c:23-85", "src/libmerlin/merlin.c:98-170", "src/libmerlin/merlin.c:174-256"]}
{"id": "C104", "title": "A secret survives any number of re-sharing rounds", "statement": "If in every round at least t distinct members deal vectors that start with the value they hold and pass the parity check, and all members combine what they receive from these dealers with the Lagrange coefficients of the dealers, then the combined values are again a sharing of the original secret with the same threshold, after any number of rounds, whatever the dealers are; any t members of the last committee reconstruct the secret. The same holds when the values are sent encrypted under the global key with the parameters of the library.", "quantifier": "for all primes, thresholds, distinct positive evaluation points, secrets, numbers of rounds, dealer sets and dealt vectors; for the encrypted form all randomness and keys", "why_tests_cant": "a protocol of several rounds is never run by the code (main stops after one re-sharing that is not even of the decrypted values); an error that keeps the shares of the parties consistent but moves the secret, or that only shows with a dealer set other than 1..t, passes all self-tests", "anchors": ["include/shamir.hpp", "src/tools/shamir.cpp", "src/regev/regevProofs.cpp:603-660", "src/main.cpp:88-160"]}
{"id": "C105", "title": "Corrupted members who change from round to round learn nothing", "statement": "If in every committee fewer than t members are corrupted, a different set each time, then everything they see (their shares, the coefficients of the corrupted dealers, all values the dealers send to corrupted members of the next committee, the final shares) is independent of the secret: for any two secrets the runs correspond one to one with the same dealers and the same view. With t corrupted members in the first committee the view determines the secret.", "quantifier": "for all primes, thresholds, evaluation points, corrupted sets, numbers of rounds, dealer sets and secrets", "why_tests_cant": "independence of the secret is a statement about all random choices at once; a test sees single runs", "anchors": ["include/shamir.hpp", "src/tools/shamir.cpp"]}
{"id": "C106", "title": "The challenges of a proof are hashes of everything sent before", "statement": "Run on the actual STROBE transcript, proveLinear, proveQuadratic and proveNormSquared and their verifiers use exactly the challenges of the history tag; statement (indexes, coefficients, right-hand side); C; generator F; for each halving round L, R, challenge x; S (or S1, S2); last challenge x. A verifier who reads the challenges of this history from a list comes to the same result for every proof, accepted or not, and so does the prover for the proof made. Two such histories with the same inputs to the permutation belong to the same tag, statement and proof except for the last responses. The transcript meets all that the theorems about the five proof steps and main ask of it.", "quantifier": "for all permutations of 200-byte states (Keccak-f in particular), tags, statements (linear: indexes below 2^31), proofs of the right shape, witnesses and blinding values", "why_tests_cant": "a message left out of the transcript, or added after the challenge that should depend on it, keeps prover and verifier in agreement; every test passes and the challenges can be chosen by the prover", "anchors": ["include/merlin.hpp:60-142", "include/regevProofs.hpp:64-148", "include/bulletproof.hpp:86-120", "include/bulletproof.hpp:169-201", "src/dlproofs/bulletproof.cpp:127-251", "src/dlproofs/bulletproof.cpp:274-465"]}
{"id": "C107", "title": "A complete proof hashes its commitments and its masked reply, and nothing else", "statement": "Any number of complete proofs of the program (five steps, aggregation, final proofs, verification), and main itself, give the same results on the actual STROBE transcript as on one that is nothing but the list of what was sent and drawn, each challenge being computed from that list. For the five steps this list is exactly: 25 commitments under their labels, in order, the challenge matrices and ring elements between them with their sizes, the masked reply ring element by ring element, and the last challenge; retries of the smallness step leave no trace. Two runs of the steps with the same inputs to the permutation have the same tag, the same calls before, the same 25 commitments and the same masked reply.", "quantifier": "for all permutations of 200-byte states (Keccak-f in particular), configurations, moduli, start states, inputs of the proofs, queue choices and numbers of proofs; binding: injective encodings of points, equally many calls before", "why_tests_cant": "the prover and the verifier of the program share one state, so a commitment that is never sent to the transcript, or sent after the challenge that should depend on it, changes no test; nor does a retry that is hashed on one side only", "anchors": ["include/merlin.hpp:60-142", "include/regevProofs.hpp:64-148", "src/regev/regevProofs.cpp:39-767", "src/regev/regevProofs-utils.cpp:105-183", "src/main.cpp:60-253"]}
{"id": "C108", "title": "Blinding factors come from the whole transcript, every witness and the entropy", "statement": "newBlindingFactors returns the two halves of 128 bytes drawn from an rng that was keyed with every entry of xes and ys, in order, the first under the label and the others under their positions, and then with the 32 bytes of entropy; the transcript does not change. Two drawings with the same inputs to the permutation have the same tag, the same calls before, the same labelled witnesses, entropy and length; and no drawing has the inputs to the permutation of any challenge of any transcript. processScalarVector is one message per entry, the label going to the first, and the messages determine the vector.", "quantifier": "for all permutations of 200-byte states, tags, histories, labels, witness vectors of any length, entropies and lengths", "why_tests_cant": "blinding factors that ignore part of the witness, or that repeat when the entropy does, look as random as good ones; no test can see what they do not depend on", "anchors": ["include/merlin.hpp:75-84", "include/merlin.hpp:144-187", "src/libmerlin/merlin.c:258-292", "src/libmerlin/merlin.c:120-131"]}
{"id": "C109", "title": "Ternary products and the memory of their result", "statement": "With the result in an object of its own, the loops of the products compute them whatever the result held before. In place (the result is the vector or matrix that is multiplied), M*B is right for a square M and throws for any other; v*M, M*v and B*M lose the argument: they return zero for a square M (v*M is undefined when M has more columns than rows, B*M throws when M is not square). The same holds for products of vectors by matrices of ring elements.", "quantifier": "for all matrices, vectors, dimensions and entry types F_p and R_p, and all earlier contents of the result", "why_tests_cant": "the loops read through pointers into a vector that may be the one written; tests use fresh results only, as do the operators of the header", "anchors": ["src/algebra/ternaryMatrix.cpp:62-156", "src/algebra/ternaryMatrix.cpp:209-232", "include/ternaryMatrix.hpp:108-137"]}
{"id": "C110", "title": "The samplers have their documented distributions", "statement": "Over uniformly random bytes, the entries of a ternary matrix (and of each of the ell matrices of a matrix of ring elements) are independent with Pr[0]=1/2 and Pr[1]=Pr[-1]=1/4: exactly 2^zeros of every 4^(n*m) strings give a matrix with that many zeros. BoundedSizeScalar(n) gives each non-zero value of [-(2^n-1),2^n-1] with probability 2^-(n+1) and zero with 2^-n; ZeroOneScalar on a zeroed target gives 0 with 1/2 and each of 1, -1 with 1/4. A vector of BoundedSizeElement comes from exactly 2^z draws, z the number of its zero coefficients.", "quantifier": "for all dimensions, bit sizes the constructor accepts, and values of the range; random bytes and words counted exactly", "why_tests_cant": "a test sees a few samples; a bias or a dependency between entries that share a byte needs the count over all strings", "anchors": ["src/algebra/ternaryMatrix.cpp:35-60", "src/algebra/ternaryMatrix.cpp:181-207", "include/scalar25519.hpp:170-217", "include/regevEnc.hpp:185-226"]}
{"id": "C111", "title": "The command line determines the number of parties", "statement": "main takes the number of parties from its first argument: white space, an optional sign and decimal digits, anything after them being ignored, as are further arguments. If the number is an int between 32 and 4096 it is used; for any other int, and without an argument, main runs with 512 parties. main throws, and ends with an uncaught exception, exactly when the argument does not start with a number or the number is not an int.", "quantifier": "for all argument lists and strings", "why_tests_cant": "tests never call main; the default silently replaces a number that is out of range", "anchors": ["src/main.cpp:43-54"]}
{"id": "C112", "title": "The constants of the curve layer are set before they are used", "statement": "Whenever libsodium works, the static initialisers of Point leave the generator in basePoint and the neutral element in identityPoint, although init computes the latter with an operator that compares with it; from then on new points are the neutral element, +=, -= compute in the group, and another call of init changes nothing. If libsodium fails the program ends before main.", "quantifier": "for all libraries that encode the group (no element as 32 zero bytes), in every state in which the initialisers can run", "why_tests_cant": "the initialisers run before any test, in an order the language leaves open between files, and with a library that tests cannot put into another state", "anchors": ["src/25519/curve25519.cpp:33-61", "include/point25519.hpp:36-98"]}
{"id": "C113", "title": "ZeroOneScalar and ZeroOneElement give independent coefficients -1, 0, 1", "statement": "ZeroOneScalar returns the difference of two random bits, and ZeroOneElement an element whose coefficient i is the difference of bits 2i and 2i+1 of one word, as scalars modulo p and whatever the element held before. So the coefficients are independent, each 0 with probability 1/2 and 1 and -1 with probability 1/4: among the 4^ell words exactly 2^(number of zeros) give each element.", "quantifier": "for all p >= 3, ell, words and previous contents", "why_tests_cant": "no test calls the two samplers (test_regevEnc.cpp 75 says so), the difference is computed in an unsigned type, and a count over all words is out of reach of tests", "anchors": ["include/regevEnc.hpp:152-183", "include/algebra.hpp:70"]}
