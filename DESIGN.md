# Formal model of cpp-lwevss: design

This file was written before the proofs and is updated as the model grows.

## 1. Approach

* Prover: Rocq/Coq 8.16.1, plain standard library (Z, List, ring/field/lia).
* Each C++ function is transcribed as a small total Gallina function in a
  `*Model.v` file, citing file and lines.  Partial operations return an
  outcome `Ret v | Throw | UB | Abort` (`Outcome.v`): `Throw` is a C++
  exception, `UB` an undefined operation (out-of-bounds access, dereference of
  an end iterator, signed overflow, illegal shift), `Abort` a failed `assert`.
* Each property is stated in a `*Spec.v`/`Prop*.v` file with specification
  vocabulary that does not reuse the helper functions of the model
  (sums over index functions, polynomial evaluation, integer arithmetic).
* `Prop*.v` files contain only theorem statements closed by `exact lemma`,
  concrete `Example`s showing the hypotheses are satisfiable, and
  `Print Assumptions`.

## 2. Common base

| what | model |
|---|---|
| scalars (`CRV25519::Scalar`, `ALGEBRA::Scalar`) | `Fp p`: integers `z` with `z mod p = z`, Leibniz equality, for an arbitrary prime `p`; instance P = 2^252+277... proved prime (Pocklington certificate checked by computation) |
| points (`CRV25519::Point`) | any Z_p-module (record `gmod` of operations and laws, universally quantified); concrete instance: Z_p itself, for the examples |
| `std::map<size_t,Scalar>`, `std::set<size_t>` | lists sorted by strictly increasing key |
| `size_t`, `int` | `Z`/`N` with explicit wrap-around where the code can reach it |
| Merlin transcript seen by the proofs | arbitrary state type and arbitrary challenge functions (universally quantified record); `Merlin*.v` models the actual sponge |
| random sources | arbitrary streams (universally quantified) |
| NTL big integers | `Z` |
| ring elements (`ALGEBRA::Element`) | coefficient lists of length ell modulo X^ell+1 |

## 3. What is modelled, and what is not

| code | model file | properties | not modelled |
|---|---|---|---|
| include/shamir.hpp, src/tools/shamir.cpp | `ShamirModel` | C01-C03, C104, C105 | NTL's `kernel`: any basis of the left kernel |
| include/constraints.hpp, src/dlproofs/constraints.cpp | `ConstraintsModel` | C04-C13 | debug printing; the priority queue of `merge` is a parameter that must respect the index order (ties free) |
| include/pedersen.hpp, src/dlproofs/naive.cpp | `PedersenModel` | C14-C17 | the hash to curve: an arbitrary function of the label |
| include/bulletproof.hpp, src/dlproofs/bulletproof.cpp | `BulletproofModel` | C18-C25, C97 | timers; the blinding factors are arbitrary scalars; n = 1 allocates a zero-length array, which g++ accepts |
| bulletproof.cpp 468-526, scalar25519.hpp 152-160, point25519.hpp 119-127 | `StreamModel` | C26, C78 | iostreams: characters, eofbit, failbit, the "C" locale; allocation succeeds |
| include/algebra.hpp, include/utils.hpp, regevProofs-utils.cpp 1-110 | `AlgebraModel` | C27-C30, C38, C66, C73 | streams of diagnostics |
| src/algebra/foursquares.cpp | `FourSquaresModel` | C35-C37, C68 | NTL's `Jacobi`, `ProbPrime`, `SinglePrecision`: oracles with stated guarantees |
| include/ternaryMatrix.hpp, src/algebra/ternaryMatrix.cpp | `TernaryModel`, `AliasModel` (result and argument the same object) | C31-C34, C109, C110 | overflow of n*m in size_t; NTL's `SetDims`: new zero rows if the number of columns changes, otherwise rows are cut off or appended |
| include/regevEnc.hpp, src/regev/regevEnc.cpp | `RegevModel`, `ZeroOneModel` | C39-C43, C71, C74, C110, C113 | tags and fingerprints are in `KeyModel`; which overload of NTL's `conv` takes a `size_t` is a parameter of `ZeroOneModel` |
| regevEnc.cpp 95-157, regevEnc.hpp 57-84, algebra.hpp 69, 210-213 (tag, CRS, fingerprints, equality) | `KeyModel` | C94, C95 | NTL's generator and libsodium's keyed hash: a record `keylibs` of arbitrary functions; a key of more than 64 bytes is rejected by crypto_generichash_init, whose result the code ignores (UB) |
| regevEnc.cpp 73-93 (`setParams`), regevProofs-utils.cpp 111-165 (bounds) | `ParamsModel` | C85-C89 | the floating-point expressions: a record `fpu` of functions, assumed right up to rounding (`fpu_ok`) |
| include/scalar25519.hpp, include/point25519.hpp, src/25519/curve25519.cpp | `Scalar25519Model`, `InitModel` (static initialisers) | C61-C65, C67, C110, C112 | libsodium: specified as arithmetic modulo P / operations of the group |
| src/libmerlin/merlin.c 23-85 | `KeccakModel` | C75, C103 | - |
| src/libmerlin/merlin.c 87-294, include/merlin.hpp | `MerlinModel`, `SpongeModel` | C55-C60, C101, C103, C106-C108 | `/dev/urandom`: arbitrary bytes; in `SpongeModel` the bytes of a point and `from_uniform` are arbitrary functions |
| regevProofs-utils.cpp 186-455, regevProofs.hpp 50-282, regevProofs.cpp 39-767 | `RegevPfModel` | C44-C51, C69, C72, C79-C85, C92, C98-C100 | the bounds of the constructor (111-165) are members of `cfg` here, see `ParamsModel`; negative `fromIdx`; timers; DEBUGGING code |
| regevProofs.cpp 769-1163, regevProofs.hpp 318-423 | `RegevAggModel` | C52, C53, C72, C76, C77, C92, C93, C96, C102 | timers; DEBUGGING code; that `deltaG[i]` may insert a zero entry in a map that is not used afterwards |
| src/main.cpp 150-253 | `RegevAggModel` (proving and verifying), `RegevRunModel` (sequence of steps) | C54, C70, C98, C100 | timers, output |
| src/main.cpp 38-253 | `MainModel`, `ArgModel` (command line) | C90, C91, C111 | timers, output other than reported errors, the hash of the public keys; the libraries are a record `libs`, everything random a record `tape` |
| tests/, CMake files | - | - | not modelled |

Every definition of a model file cites the lines it transcribes.

Simplifications that hold throughout:

* asserts are active (`Abort`), as in a build without NDEBUG;
* loops over containers are structural recursion; loops with a data-dependent
  end carry a fuel argument, and a theorem (or the model comment) says why it
  does not run out;
* memory is not modelled beyond bounds: a vector is a list, reading outside it is
  `UB`; allocation never fails;
* integers are unbounded where the code cannot leave the range of the type,
  otherwise the wrap-around or overflow is written out;
* in `RegevPf*`/`RegevAgg*` curve scalars and NTL scalars are the same type (`conv`
  between them keeps the value, C28, as the NTL modulus is P); JLDIM, LINYDIM
  and the norm bounds are parameters; `ceil(sqrt(n))` is `Z.sqrt_up`;
* the order in which C++ evaluates the operands of `a = b = c` and of calls is
  not observable in the modelled code.

## 4. Per-property plan

| id | how proved |
|---|---|
| C01 | Lagrange identity from root counting of polynomials |
| C02 | dual vectors built by interpolation |
| C03 | interpolation existence + uniqueness |
| C04,C05,C06 | induction over merge steps; root counting for C06; C05 refuted by witness |
| C07-C13 | induction over sorted lists; C08 refuted by witness, exact UB condition |
| C14 | bit reasoning |
| C15,C16 | induction over the recursion |
| C17 | injectivity of decimal printing; collision witness at 2^32 |
| C18-C20,C24,C25 | invariant over the folding loop |
| C21 | honest quadratic prover run on unrelated vectors |
| C22,C23 | explicit extractor, interpolation in the challenge |
| C27,C28,C30 | base-256 digits |
| C29 | Euclidean division |
| C31-C34 | finite byte case analysis + list induction; C34 exact condition |
| C35-C37,C68 | Hermite-Serret argument, Fermat; C37 refuted by n = 71*4^k |
| C38 | from C36 |
| C39-C42,C71 | Cauchy-Schwarz over Z; state machine invariant |
| C43 | explicit zero divisor |
| C44-C46,C66 | list induction |
| C47-C51 | symbolic execution of each step (`RegevPf*.v`), compression identity over the ring |
| C52,C53 | shape of the final data (`RegevAggProofs.fin`), commitments as sums over index sets (`RegevAggOpen`, `RegevAggAccept`), cheating prover (`RegevAggForge`) |
| C54,C70 | the five steps composed (`RegevRunProofs`), then C18/C19 |
| C55-C60 | invariant over API histories; permutation executable |
| C61-C65 | Z arithmetic; libsodium functions specified by their documentation |
| C67 | Pocklington criterion proved, certificate by vm_compute |
| C69 | two runs with different statements agree on commitments and transcript; the compressed constraint is unchanged under a shift orthogonal to the compression vector (`RegevPfFS`; the first part of a ciphertext and the public key: `RegevPfFSMore`) |
| C26,C78 | the reads executed on what was written; how many bytes a successful read consumes |
| C76,C77 | the error of the aggregated equations as a polynomial in the challenges (`RegevAggSound`), root counting; cheating prover who changes one value on G_0 (`RegevAggFirst`) |
| C79 | columns (rows) of the matrix are independent functions of disjoint bits of the challenge string; per bit pair the values v and v+2c cannot both be small (`CountTernary`, `CountTrans`); exact count for (p+1)/2 |
| C80 | evaluation at both square roots of -1, root counting (`CountPow`) |
| C81-C83 | balanced residues (`NormInt`), C47-C51 turned around (`StepSound`, `StepMain`) |
| C84 | each step run forwards under the weakest conditions (`ProgressBase`, `ProgressDec`, `ProgressEnc`, `ProgressSml`), Cauchy-Schwarz for the digits (`ProgressAll`) |
| C85 | C83 with C40; conversely noise e-g for plaintext a+1, norm of X's first row times g (`WrongProofs`) |
| C86-C89 | bounds on the rounded logarithm from (1+1/m)^m < e < (1+1/m)^(m+1), which make "log2(nn)+ln(tt)/2 rounded up" a statement about integers (`ParamsSpec.ceil_log`, unique by `ceil_log_unique`); then integer inequalities (`ParamsProofs`, `ParamsBounds`) |
| C72 | run with a transcript that records its calls (`TransSpec.recorder`); the residual of C77 as a function of one value of the old key (`RegevAggKey`) |
| C92 | C83 for the three steps, C50 for the re-sharing, frames for the constraints of earlier steps; C77_residual; C87 for the constants |
| C93 | C77_residual with two values of w (`RegevAggLink.residual2_eq`), root counting; the cheating prover: `LinkSpec.with_w`, completeness for the shifted values |
| C94,C95 | injectivity of the byte encoding (C27), chunks of equal length; for the refutations the same stream of entries cut into rows of different length |
| C96 | the set of indices of the norm constraints is an interval (`RegevPfBase.layout_good`), its length is odd; then the cheating prover of C23 (`BulletproofForgery.quadratic_forgery`) for the aggregated commitment; the linear proof from C53 |
| C97 | round by round: L and R determine the blinding values (the base point generates the group), the replies those of the last step; that S is the right point is the verification equation |
| C98 | every step as a function of (statement before, commitments, reply): `HideRuns` lists what a returning run computes, two such lists agree entry by entry; the aggregation likewise |
| C99 | per coefficient the draws that give a reply are listed (`MaskProofs.count_reply`, `count_accepted`, `count_clean`), then the product over the coefficients (`prod_count`) |
| C100 | the generator gives the randomness for each commitment, C84 that the second run returns, C98 that it shows the same; the final proofs by C97 applied to both flattened witnesses |
| C101 | the published STROBE and Merlin written down separately (`StrobeSpec`), a view of the code's state as theirs (`StrobeLink.view`), byte by byte (`StrobeProofs`); the test vector by computation |
| C102 | the right-hand side of the aggregated linear equation is 0, so the zero vector satisfies it; (eq,0,..) and (1,0,..) satisfy the quadratic one; then completeness of the two provers for commitments made up on the spot (`FreeProofs`) |
| C103 | theta, rho, pi, chi and iota are inverted on the bit arrays of FIPS 202 (`PermProofs`), which C75 links to the code; every STROBE step on two states at the same place is one-to-one, squeezing together with its output (`ForgetProofs`) |
| C104 | the new shares are the values of the combination of the dealt polynomials with the Lagrange coefficients, whose value at 0 is the combination of the old shares; induction over the rounds; with C39 for the encrypted form |
| C105 | in each round a polynomial with value 1 at 0 that vanishes at the corrupted points is added, scaled, to the coefficients; the Lagrange coefficients of the dealers sum its values to 1, so the shift carries over to the next round unchanged |
| C106 | the verifiers and provers are run side by side on the STROBE transcript and on a list of challenges; the calls of the history still to come relate the two states; binding from C57 and from parsing the history |
| C107 | a simulation between two transcripts is carried through every step of the proof and of main; the list transcript gives the exact history by running the steps with the items still to be instantiated; binding from C57 |
| C108 | overwriting is mixing in the difference (`RngProofs.ov`), so keys are operations like any other and the blocks determine them as in C57; two labels in a row never occur in a public history |
| C109 | the loops on memory (`AliasModel`) update one position per step, so with separate objects they are the folds of `TernaryModel`; in place, the vector is cleared before it is read, and a column is copied before it is written |
| C110 | an entry is two bits of one byte, so the number of strings is a product over entries (`trit_sum`), with a factor 4 for each unused pair; a bounded draw is the little-endian value modulo 2^n, and residues of a random word are counted exactly |
| C111 | `span` splits a string uniquely; the fold over digits is the positional value |
| C112 | symbolic execution of the initialisers from zero storage (`InitModel`), with libsodium a record of functions on encodings (`encodes`); the toy library of the example gives the refutation |
| C113 | the value is a number in base 4, so strings of bits are counted digit by digit (`exactly_pair`) |
| C90,C91 | symbolic execution of the run up to the proof (`MainProofs.prepare_cases`), then C84 and C89 |

C85_code has `31*2^125 <= B_dNoise` as a hypothesis; C85_params derives it from the
constructor's formulas for the numbers of parties that are powers of two (except 64).

Timing and counters are not modelled.

## 5. Trusted base

* the Coq kernel (and its vm for `vm_compute`);
* `Print Assumptions` answers "Closed under the global context" for every theorem
  listed in MANIFEST.json: no axiom is used, neither of the standard library nor
  of our own;
* the transcription of the C++ in the `*Model.v` files;
* libsodium, NTL, GMP and the C++ standard library behave as documented (each use
  is named in the model comments).  Where they return one of several results
  (kernel basis, square root, prime test, queue ties, randomness) the theorems
  quantify over all of them;
* floating point, in C85_loose, C85_params, C86-C91, C92_code, C99_parameters only: `ParamsSpec.fpu_ok`, i.e. the
  rounded logarithms are those of an argument with a relative error of at most
  2^-30, products with a square root have a relative error of at most 2^-30, and
  `multDbl(128.0/129.0, y)` lies between 0 and y (C99_parameters: at most y*128/129).  (`exact_fpu` meets this.)
* the transcript: in the proof systems every function is allowed as a challenge
  function (`merlin`, `rmerlin` records); that the actual sponge is unpredictable
  is not claimed anywhere.
