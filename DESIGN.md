# Formal model of google/heir in Rocq (Coq 8.16.1)

## How the development is organised

For each area there are up to three kinds of files in `rocq/theories`:

* `<Area>_Model.v` – executable Gallina definitions, each with a comment giving the file and lines
  in `/repo` it models and where it is simplified. No proofs.
* `<Area>_Proofs.v` – lemmas.
* `<Area>_Props.v` – only the property theorems (`exact lemma.`), `Print Assumptions` under each,
  and `Example`s showing that the hypotheses are met by a concrete non-trivial case.

A theorem called `..._refuted` proves that the faithful model violates the claim of the property
(with a concrete witness); the matching positive theorem says exactly on which inputs the claim holds.
A theorem called `..._partial` proves less than the property says; what is missing is written
beside it and in `MANIFEST.json`.

## Trusted base

* The Coq 8.16.1 kernel (and `coqchk`).
* The axioms printed by `Print Assumptions` under each property theorem (see the section at the end).
* The reading of the C++ code: model definitions are hand-written from the cited lines. The code was
  not compiled or run.
* MLIR/LLVM semantics of the emitted operations (`arith`, `tensor`, `scf`, `affine`), as written in the model files:
  `iN` values are integers modulo 2^N, `tensor.extract` outside the bounds is undefined behaviour
  (modelled as a distinct outcome), loops run for their static trip counts.
* MLIR's `Liveness::isDeadAfter`, the walk order of `walkAndApplyPatterns` and the dataflow framework, as described in
  `InPlace_Model.v` and `Secretness_Model.v`; their source is not in the repository.

No axiom, parameter or hypothesis of our own is used. Library code: the Coq standard library; Flocq only
for IEEE-754 comparison and arithmetic in `Select_*` and `Forward_*`. The axioms of the standard library's
real numbers come in only through Flocq and through `PolyEvalReal_Proofs.v`. Seeded wrong programs and the
theorems that caught them are in `seeded/LOG.jsonl`.

## Plan per property

| id | status | what is modelled | how it is proved |
|----|--------|------------------|------------------|
| C01 | proved | the arith ops emitted by ConvertAdd/Sub/Mul/Mac as functions on w-bit words (mod 2^w) | Z arithmetic: no wrap under q < 2^(w-1) |
| C02 | proved | ConvertReduce on w-bit words, signed remainder | case analysis on Z.rem |
| C03 | partial | ConvertLift (centred) | positive theorem for q < 2^(w-1)-1; refuted at q = 2^(w-1)-1 |
| C04 | partial | ConvertBarrettReduce, 3w-bit words, subifge | bound on the reciprocal error |
| C05 | partial | ConvertModSwitch mod to mod | positive away from (q-1)/2, refuted there |
| C06 | partial | ConstantOp::parse/fold, foldScalarModOp | equality of folds with the lowering; refuted for negative literals |
| C07 | proved | each DRR pattern as a pair of expressions over Z_q | ring reasoning modulo q |
| C08 | partial | Garner code generation for any limb count | refuted at 3 limbs, proved for at most 2; corrected variant proved as a reference |
| C09 | proved | the CRT sum with its chosen width | CRT uniqueness by induction on the limb list |
| C10 | proved | the Euclid loop on w-bit words | loop invariant (Bezout) |
| C11 | proved | square-and-multiply | induction on the exponent |
| C12 | proved | trial division | invariant: remaining cofactor has no small divisor |
| C13 | proved | root search loop | order argument from the factor list; Fermat |
| C14 | proved | Miller-Rabin loop | Fermat and square roots of 1 in a field |
| C15 | proved | forward in-place butterflies on lists | induction on log n, evaluation at roots |
| C16 | proved | inverse in-place butterflies on lists | same, inverse of C15 |
| C17 | proved | the tensor butterflies emitted by fastNTT | same spec as C15 |
| C18 | partial | both of the above | refuted on a 4-point (2-point) example; permutation relation proved |
| C19 | partial | naive convolution and the generated long-division function with an out-of-bounds outcome | correct when the reduced product is non-zero; refuted for zero |
| C20 | partial | straight-line polynomial programs, form constraints, rewriting | simulation for every feasible assignment without modulus switch and evaluation-form constants; refuted with either |
| C21 | proved | Horner builder as a function to an expression type | evaluation over any commutative ring, by induction |
| C22 | proved | monomial Paterson-Stockmeyer builder | block decomposition of the polynomial over any commutative ring |
| C23 | partial | Chebyshev Paterson-Stockmeyer builder | decomposition by T_k (C55); error bound over R |
| C24 | partial | Chebyshev to monomial conversion, composition with a linear map | recurrence; refuted where the code fails |
| C25 | partial | sparse polynomial arithmetic (sorted term lists) | coefficients as functions, induction on the lists |
| C26 | proved | diagonal matvec kernels as DAGs of rotations, additions, multiplications | index arithmetic modulo the size |
| C27 | partial | rotate-and-reduce kernels, rolled and unrolled | induction on log of the steps |
| C28 | proved | baby-step giant-step kernel | reindexing of finite sums |
| C29 | partial | rolled and unrolled kernel builders | induction on the loop |
| C30 | proved | Halevi-Shoup matvec | index arithmetic and rotate-and-reduce (C27) |
| C31 | partial | bicyclic and tricyclic matmul kernels | Chinese remaindering of the indices |
| C32 | proved | rotation index generators | set inclusion by induction |
| C33 | partial | rotate folding and DRR patterns | index arithmetic; refuted for non-power-of-two normalisation |
| C34 | proved | mapping, shift scheme, rounds, conflict graph, colouring, masks, groups | invariant per round: each live value is at its scheduled place and every ciphertext holding one is zero elsewhere |
| C35 | partial | insertion chain walk on a use graph | refuted with a fork; proved for linear chains |
| C36 | partial | partial reduction lattice and rewrite | invariant on the lattice; refuted for rotations to the right |
| C37 | partial | rotation insertion and alignment | simulation of programs |
| C38 | proved | adjacency-map graphs, Kahn sort | loop invariant |
| C39 | partial | levels, longest path | induction along the topological order |
| C40 | partial | shortest path | loop invariant |
| C41 | proved | DSatur colouring | loop invariant on the priority queue |
| C42 | partial | condensation | invariant of repeated contraction; refuted with self loops |
| C43 | partial | for-loops as iteration over states | induction on the trip count; refuted for unaligned steps |
| C44 | partial | while-loops as iteration over states | induction on the trip count; refuted for permuted arguments |
| C45 | proved | tensor accesses as loops of selects | induction on the length |
| C46 | partial | branches and selects over words and floats | case analysis; refuted for non-finite floats |
| C47 | partial | sign rewrite over words and floats | refuted (the sense of the comparison is inverted) |
| C48 | proved | flattening and balanced tree construction | induction on list length |
| C49 | partial | straight-line store/load programs with SSA indices | refuted for dynamic aliasing; proved for non-aliasing indices |
| C50 | proved | mask folding | pointwise |
| C51 | proved | powers-of-two helpers | bit arithmetic |
| C52 | proved | approximate critical path | loop invariant |
| C53 | proved | row-major flattening | induction on the shape |
| C54 | partial | broadcasting reduction | induction on log of the steps |
| C55 | partial | Chebyshev decomposition | recurrence of T_k over any commutative ring |
| C56 | partial | power and Chebyshev tables | strong induction on the index |
| C57 | partial | lowering of polynomial.eval | composition of C21 and C23 |
| C58 | proved | Tarjan's algorithm | stack and lowlink invariants over the recursion |
| C59 | proved | contractEdge | set reasoning on both adjacency maps |
| C60 | proved | attachment of NTT roots with its two caches | cache invariant over the list of operations; C10 and C13 |
| C61 | partial | lowering of arith to chunked CGGI operations | induction on the expression with a bound on the chunks; refuted for four cases |
| C62 | partial | update steps of the analysis in any order; structured programs with an execution semantics | monotone lattice steps; relational induction on programs; refuted for implicit flows |
| C63 | partial | in-place conversion for Lattigo on one block; execution with storage cells | simulation that maps live cells; invariant of the storage map; refuted for four kinds of aliases |
| C64 | partial | in-place conversion for OpenFHE on one block and on a loop; execution with storage cells | same simulation with unique ownership of mutated operands; refuted for aliases and loops |
| C65 | partial | update steps of the analysis on programs with loops; execution with degrees | monotone steps; induction on programs; refuted for termination |
| C66 | partial | removal, integer program, insertion; execution with plaintexts and degrees | simulation under a feasible solution; a legal run yields a solution; exchange argument for optimality; refuted for loops and equal degrees |
| C67 | partial | runInsertMgmtPipeline without bootstrapping on a straight-line body: mgmt.init for plaintexts, modulus reductions before or after multiplications, relinearizations, matching of levels and depths, the cleaning patterns with CSE and dead code removal in any order, MulDepthAnalysis, LevelAnalysis, the final validation | simulation of every pass between runs (levels, components, cleartext), laws that the cleaning rewrites respect, invariants of the analyses |
| C68 | partial | AnnotateMgmt: the forward and backward level analysis, getMaxLevel, annotateLevel | exactness of the analysis on bounded runs; the backward analysis by induction over the body |
| C69 | partial | SecretInsertMgmtBFV: getMaxMulDepth, mgmt.init, relinearizations, cleaning, AnnotateMgmt with base level | runs with all levels 0; depth analysis exact up to 40 |
| C70 | partial | ScaleAnalysis forward and backward for B/GV, the solver in any order, annotateScale, deltaScale and ConvertAdjustScaleToMulPlain | all scales are units (induction over solver steps); payload = scale * message by induction over the body; a consistent assignment bounds every reachable state |
| C71 | partial | ScaleAnalysis for CKKS, the insertion of adjust_scale, MergeAdjustScaleIntoInit, the second analysis and the lowering of adjust_scale | the scale of an old value is the larger of its estimate and the default scale, by induction over the body with the walk over insertions; payload = 2^scale * message by induction |
| C72 | partial | Integer relations (equalities, inequalities, locals for mod and floordiv) as in MLIR's IntegerRelation, and the layout constructors of lib/Utils/Layout/Utils.cpp | Semantics of each added constraint as a lemma about the integer points; arithmetic of div/mod and the Chinese remainder theorem give the exact contents and the packing properties |
| C73 | proved | getDomainBox, nextGridPoint, forEachDomainImagePoint, enumeratePoints, getCtComplementPoints, evaluateLayout, unpackLayout; isl calls and getConstantBound64 as parameters with specifications | The scan of the constraints keeps bounds sound (invariant); the grid walk is the lexicographic list of the box (path argument); early stop through a counting invariant; nested vectors by induction on the shape |
| C74 | partial | MLIRLoopNestGenerator (buildExpr, visitAstNode*, generateForLoop), the arith and scf operations it creates with their 32-bit semantics; isl trees as input | Mutual induction on the tree against a relational C semantics; the carried values equal a fold of the body over the trace; reversed loops by reversing the list of trips |
| C75 | partial | implementAssignLayout(Step/Permutation), implementCrtAssignLayoutStep, tryFolding, implementUnpackOp(Step), getIntermediateTargetType, materializeLayout, isDenseLayout, isRelationBicyclic/Tricyclic | Every branch is shown to be a sequence of writes whose set is the relation; last-writer reasoning on the writes; bytes versus elements by an encoding; loop nests by C74, points by C73, cyclic layouts by C72; arrays by induction |
| C76 | partial | propagation of layouts for matvec, matmul, batch_matmul, dot; isRelationBicyclic/Tricyclic; default rectification; haleviShoupKernel, bicyclicKernel, bicyclicDiagonalKernel, tricyclicKernel, ConvertLinalgDot with addBiasAndReplace and prefix replication | Contents of ciphertexts for each layout from C72; kernels from C27, C30, C31; empty diagonals from C73; the accumulator is periodic like the product, so replication keeps the sum |
| C77 | partial | the conversion patterns of LWEToPolynomial for add, sub, negate, mul_scalar, mul, mul_ring_elt, encrypt and decrypt, on polynomials over RNS moduli | Z[x]/(x^n+1) modulo q is shown to be a commutative ring on coefficient lists; every pattern is then a ring identity between phases |
| C78 | partial | DecomposeModDownPattern, DecomposeKeySwitchPattern, ConvertConvertBasis, DecomposeRelinearizePattern | Base conversion from C08 gives centred residues; the sum of digits times key parts is evaluated under the output key modulo Q*P; dividing by P leaves the gadget identity and the rounding terms, whose coefficients are bounded |
| C79 | partial | the rewrite patterns of SecretPatterns.cpp and the extraction functions of GenericOp, on programs with generics, loops, conditionals, conceal, reveal and arbitrary operations without regions | A simulation between programs that agree up to related values gives a criterion for replacing operations in a block; every rewrite is shown to meet it; refutations evaluate concrete programs |
| C80 | proved | FoldSecretSeparators, moveOpToEarlierGeneric, splitGenericBeforeOp, splitGenericAfterFirstOp and the driver of SplitGeneric, on the programs of C79 | moving one operation is extracting it from the second generic and merging the result with the first one, both shown in C79 to keep the meaning; induction over the operations moved |
| C81 | partial | distributeThroughIfOp and the loop case of distributeThroughRegionHoldingOp, with the value mappings of the code | simulation between an iteration of the old loop and one of the new loop under the composed mapping, lifted to all iterations; refutations evaluate concrete programs |
| C82 | partial | the netlist cells and LUTImporter, the lowering of comb.truth_table, the expansion of gates and tables into linear combination and bootstrap with its verifiers, and the lookup-table conversions of the tfhe-rs, tfhe-rs-bool and jaxite back ends | bitwise reasoning on the table constant for any number of inputs, case analysis on the input bits with arithmetic modulo a power of two of arbitrary size; refutations evaluate concrete tables |
| C83 | partial | both vectorizers from the dependency graph to the replaced block, with the compatibility tests and the construction of the packed operations; the graph is the one of C38 and C39 | an assignment of values that satisfies all operations is kept and extended at each replacement, so no order of execution is needed; a rank on values (twice the level of a gate plus one, and in between for other operations) shows that the result can be ordered; induction over buckets, groups and levels |
| C84 | partial | getBit, addResultBit and importModule with the importers of gates and lookup tables, on wires, cells and connections as Yosys hands them over, down to the operations created | an invariant that relates the values named so far and the bits of the results to the assignment, kept by each cell and each connection; progress by a second invariant on which bits are available |
| C85 | partial | the conversions between integers and bits with the arith operations they create, secret.conceal, secret.cast and the element accesses of secret-to-cggi, and flattenIndex/unflattenIndex | bits of words by Z.testbit; folds over the bits with the accumulated value as invariant; induction over shapes for positions and strides |
| C86 | partial | the conversion of types, constants, binary operations and extensions in arith-to-mod-arith; conceal, reveal and the conversion of generics with one operation in secret-to-mod-arith | induction over programs with the lemmas on lowered mod_arith operations; counterexamples by evaluation |
| C87 | partial | all conversion patterns and both materializations of convert-tensor-to-scalars | mutual induction over programs; the loop over indices enumerates them in column-major order |
| C88 | partial | the relations as characteristic functions, getValueAtSlice with tensors as functions of indices | induction over dimensions and over chains of insertions |
| C89 | partial | Masks, layout conversion, slice and padding mappings as characteristic functions over points; remap by its documented meaning (any related source, else zero); propagated layouts. Number of ciphertexts of types and arithmetic types are not modelled. | Composition of relations over enumerated indices; injectivity of slice positions; unit-stride boxes are exactly the positions of the slice; concrete witnesses for the refutations. |
| C90 | partial | The relations as conjunctions of the constraints in the code, with locals quantified; the matrix is any function that agrees with the relation and is zero elsewhere; the kernel is that of C30. | Each row is described by a list of filter elements with injective columns; sums over a row are rewritten to sums over the filter; the interchange by uniqueness of digits; the packed filter satisfies the premises of C30. |
| C91 | partial | The loops that fill the filters on flat arrays with out-of-range accesses as None, the match of the scaling, and the values of the operations before and after. | The loops are summarised as additions to, or assignments of, array elements; the flat index is injective; the sums over the fused window pick one element for each pair of window positions. |
| C92 | partial | Transfer functions, join and visits in any order on optional rational bounds; programs as lists of operations, executions as operations run in any order on rational tensors. | A value with a range has a defining operation whose transfer function gives one; stability bounds it; induction on the execution. Counterexamples are computed. |
| C93 | partial | worst case variant of bgv::NoiseByBoundCoeffModel, visitOperation of NoiseAnalysis on straight-line programs, the check of ValidateNoise, dnum and number of special primes; the ring Z[X]/(X^N+1) as antiperiodic coefficient sequences, BGV encryption, tensor product, hybrid key switching, automorphisms and modulus reduction as relations on ciphertexts | ring laws of the negacyclic product from invariance of sums over a period; per-operation bounds of products by N times the bounds of the factors, exact division after key switching by coprimality; induction over programs; concrete ciphertexts in dimension 2 for the refutations |
| C94 | partial | RotationCountVisitor (all node kinds, visited set and secrecy map as state), the caching visitor of LayoutConversionCost.cpp with its sum over outputs and maximum over groups; graphs as lists of nodes that name earlier nodes; how the groups are built (implementRotationGroups) and the choice between kernels are not modelled | a traversal invariant (visited nodes below the current one are finished, closed under operands and have the right secrecy; the count times the weight of the node is the weighted number of rotations newly visited), induction on depth; for the cache, every entry is the number of paths; concrete graphs for the refutations |
| C95 | partial | run, analyzeRotationOp and handleScfFor; DagBuilder's visits of integer arithmetic, comparisons, divisions, rotations, loops, branches, yields and unsupported operations; evaluation of those nodes by EvalVisitor and RotationEvalVisitor with 32-bit integers; nodes as trees without the cache. Tensor operations (extract, insert, splat, floating point) and the contents of tensors are not modelled | an invariant relating the values of a run to the evaluation of the nodes built, stable under setting variables of later loops; mutual induction on operations and blocks; rotations are found through the chain of operands to the yield; concrete programs for the refutations |
| C96 | partial | computeDnum, computeRingDim, findPrime, getConcreteRLWESchemeParam, the BGV wrapper, moduliQGenerationOpenFHEFixed, moduliQGenerationReducedError and getConcreteSchemeParam of CKKS, and the sizes computed from gaps and bounds. FirstPrime, NextPrime, PreviousPrime and LastPrime of OpenFHE are universally quantified functions, None standing for an exception. The floating-point scaling factors of a reduced error are an arbitrary function of the moduli found. Not modelled: conservative parameters, floating-point rounding of logarithms, attributes | induction over the searches; the invariant that all candidates between the size asked for and the current prime exist already gives that special primes exceed moduli; for the refutations, a search by trial division proved to be such a generator, and primes certified by Proth's theorem |

Not modelled at all (see also the notes in the model files and in `MANIFEST.json`): MLIR's pass and pattern
drivers, parsing and printing, the dataflow solver's scheduling, the FHE libraries called by generated code,
polynomial approximation (Remez / Caratheodory-Fejer), the OR-tools solver (its answers are universally
quantified), ISL (integer relations are modelled by explicit functions).

## Code that is modelled

Every definition in the model files cites its lines; by file:

| model file | source files cited |
|---|---|
| `Assign_Model.v` | Codegen.cpp, TypeConversion.cpp, Utils.cpp, lib/Transforms/ConvertToCiphertextSemantics/AssignLayout.cpp |
| `Assign_Spec.v` | (specification only) |
| `AttachRoots_Model.v` | AttachNTTRoots.h, Polynomial.h, lib/Dialect/Polynomial/Transforms/AttachNTTRoots.cpp |
| `Balance_Model.v` | lib/Transforms/OperationBalancer/OperationBalancer.cpp |
| `Bits_Model.v` | MemrefToArith/Utils.cpp, SecretToCGGI.cpp, lib/Utils/TransformUtils.cpp |
| `Bits_Spec.v` | (specification only) |
| `CggiQuart_Model.v` | lib/Dialect/Arith/Conversions/ArithToCGGIQuart/ArithToCGGIQuart.cpp |
| `CggiQuart_Spec.v` | (specification only) |
| `Codegen_Model.v` | lib/Utils/Layout/Codegen.cpp, lib/Utils/Utils.cpp |
| `Codegen_Spec.v` | (specification only) |
| `Collapse_Model.v` | lib/Dialect/TensorExt/Transforms/CollapseInsertionChains.cpp, lib/Dialect/Utils.h |
| `ConvPool_Model.v` | ConvPoolFusion.h, lib/Transforms/LinalgCanonicalizations/ConvPoolFusion.cpp, lib/Transforms/LinalgCanonicalizations/LinalgCanonicalizations.cpp |
| `ConvPool_Spec.v` | (specification only) |
| `Conv_Model.v` | ConvertToCiphertextSemantics.cpp, Utils.cpp, lib/Utils/Layout/Convolution.cpp |
| `Conv_Spec.v` | (specification only) |
| `Distribute_Model.v` | lib/Dialect/Secret/Transforms/DistributeGeneric.cpp |
| `Distribute_Spec.v` | (specification only) |
| `Forward_Model.v` | FoldPlaintextMasks.cpp, Patterns.td, lib/Transforms/ForwardInsertToExtract/ForwardInsertToExtract.cpp, lib/Transforms/ForwardStoreToLoad/ForwardStoreToLoad.cpp |
| `Generic_Model.v` | SecretOps.cpp, lib/Dialect/Secret/IR/SecretPatterns.cpp |
| `Generic_Spec.v` | SecretOps.td |
| `Graph_Model.v` | lib/Utils/Graph/Graph.h |
| `InPlace_Model.v` | lib/Dialect/Lattigo/Transforms/AllocToInPlace.cpp, lib/Dialect/Openfhe/Transforms/AllocToInPlace.cpp, lib/Utils/AllocToInPlaceUtils.h |
| `InPlace_Spec.v` | (specification only) |
| `Kernel_Model.v` | AbstractValue.h, ConvertToCiphertextSemantics.cpp, RotationUtils.h, lib/Kernel/ArithmeticDag.h, lib/Kernel/EvalVisitor.cpp, lib/Kernel/KernelImplementation.h, lib/Utils/Layout/Utils.cpp |
| `Kernel_Spec.v` | (specification only) |
| `Layout_Spec.v` | (specification only) |
| `Linalg_Model.v` | lib/Transforms/ConvertToCiphertextSemantics/ConvertToCiphertextSemantics.cpp, lib/Transforms/LayoutPropagation/LayoutPropagation.cpp, lib/Utils/Layout/Utils.cpp |
| `Linalg_Spec.v` | (specification only) |
| `Loops_Model.v` | lib/Transforms/ConvertSecretExtractToStaticExtract/ConvertSecretExtractToStaticExtract.cpp, lib/Transforms/ConvertSecretForToStaticFor/ConvertSecretForToStaticFor.cpp, lib/Transforms/ConvertSecretInsertToStaticInsert/ConvertSecretInsertToStaticInsert.cpp, lib/Transforms/ConvertSecretWhileToStaticFor/ConvertSecretWhileToStaticFor.cpp |
| `Lut_Model.v` | BooleanGates.td, CGGIOps.cpp, CGGIPBSOps.td, CGGIToJaxite.cpp, CGGIToTfheRust.cpp, CGGIToTfheRustBool.cpp, CombOps.cpp, DecomposeOperations.cpp, DecomposeOperations.td, JaxiteOps.td, LUTImporter.cpp, SecretToCGGI.cpp, TfheRustEmitter.cpp |
| `Lut_Spec.v` | lib/Dialect/CGGI/IR/CGGIPBSOps.td, lib/Dialect/Comb/IR/Combinational.td |
| `Mgmt_Model.v` | HEIRInterfaces.cpp, LevelAnalysis.cpp, LevelAnalysis.h, MgmtAttributes.cpp, MgmtOps.cpp, MgmtOps.td, MulDepthAnalysis.cpp, MulDepthAnalysis.h, Pipeline.cpp, SecretInsertMgmtBFV.cpp, SecretInsertMgmt{BGV,BFV,CKKS}.cpp, lib/Dialect/Mgmt/Transforms/AnnotateMgmt.cpp, lib/Transforms/SecretInsertMgmt/SecretInsertMgmtPatterns.cpp |
| `Mgmt_Spec.v` | (specification only) |
| `ModArith_Model.v` | ConvertToMac.cpp, ModArithCanonicalization.td, ModArithToArith.cpp, ModArithToArith.td, lib/Dialect/ModArith/IR/ModArithOps.cpp, lib/Dialect/ModArith/IR/ModArithTypes.cpp |
| `NTT_Model.v` | PolynomialOps.cpp, lib/Dialect/Polynomial/Conversions/PolynomialToModArith/PolynomialToModArith.cpp, lib/Utils/Polynomial/NTT.cpp, lib/Utils/Polynomial/RNSPolynomial.cpp |
| `Noise_Model.v` | BGV/NoiseAnalysis.cpp, BGV/NoiseByBoundCoeffModel.cpp, lib/Analysis/NoiseAnalysis/Noise.h, lib/Parameters/BGV/Params.cpp, lib/Parameters/BGV/Params.h, lib/Parameters/RLWEParams.cpp, lib/Parameters/RLWEParams.h, lib/Transforms/ValidateNoise/ValidateNoise.cpp |
| `Noise_Spec.v` | (specification only) |
| `NttPlace_Model.v` | ModArithOps.td, NTTSolver.cpp, NTTSolver.h, PolynomialOps.td, PolynomialTraits.h, lib/Dialect/Polynomial/Transforms/PolyMulToNTT.cpp |
| `NttPlace_Spec.v` | (specification only) |
| `NumTheory_Model.v` | APIntUtils.cpp, APIntUtils.h, MathUtils.h, lib/Utils/MathUtils.cpp |
| `PackedAccess_Model.v` | ConvertToCiphertextSemantics.cpp, LayoutPropagation.cpp |
| `PackedAccess_Spec.v` | TensorExtOps.td |
| `Params_Model.v` | BGV/Params.cpp, CKKS/Params.cpp, RLWEParams.h, RLWESecurityParams.cpp, lib/Parameters/RLWEParams.cpp, lib/Transforms/GenerateParam/GenerateParamBGV.cpp |
| `Params_Spec.v` | (specification only) |
| `PlainArith_Model.v` | ArithToModArith.cpp, ConversionUtils.h, ModArithOps.cpp, ModArithToArith.cpp, SecretToModArith.cpp |
| `PlainArith_Spec.v` | (specification only) |
| `Points_Model.v` | lib/Utils/Layout/Evaluate.h, lib/Utils/Layout/Utils.cpp |
| `Points_Spec.v` | (specification only) |
| `PolyArith_Model.v` | Polynomial.cpp, lib/Utils/Polynomial/Polynomial.h |
| `PolyArith_Spec.v` | (specification only) |
| `PolyEval_Model.v` | ChebyshevDecomposition.cpp, ChebyshevPatersonStockmeyer.h, LowerPolynomialEval.cpp, PatersonStockmeyer.h, lib/Kernel/ArithmeticDag.h, lib/Transforms/LowerPolynomialEval/Patterns.cpp, lib/Utils/Polynomial/Horner.h |
| `PolyEval_Spec.v` | (specification only) |
| `PolyMul_Model.v` | lib/Dialect/Polynomial/Conversions/PolynomialToModArith/PolynomialToModArith.cpp |
| `RNS_Model.v` | ModArithOps.cpp, ModArithToArith.cpp, ModArithTypes.cpp, lib/Dialect/RNS/IR/RNSOps.cpp, lib/Dialect/RNS/IR/RNSTypes.cpp, lib/Dialect/RNS/Transforms/LowerConvertBasis.cpp |
| `Range_Model.v` | RangeAnalysis.cpp, RangeAnalysis.h |
| `Range_Spec.v` | (specification only) |
| `Reduce_Model.v` | PartialReductionRotateAnalysis.h, lib/Dialect/TensorExt/Transforms/RotateAndReduce.cpp |
| `Rel_Model.v` | lib/Utils/Layout/Utils.cpp |
| `Relin_Model.v` | DimensionAnalysis.cpp, DimensionAnalysis.h, lib/Analysis/OptimizeRelinearizationAnalysis/OptimizeRelinearizationAnalysis.cpp, lib/Transforms/OptimizeRelinearization/OptimizeRelinearization.cpp |
| `Relin_Spec.v` | (specification only) |
| `Rlwe_Model.v` | LWEOps.cpp, ModArithToArith.cpp, PolynomialOps.td, lib/Dialect/CKKS/Transforms/DecomposeRelinearize.cpp, lib/Dialect/LWE/Conversions/LWEToPolynomial/LWEToPolynomial.cpp, lib/Dialect/LWE/Transforms/DecomposeLWEOps.cpp |
| `Rlwe_Spec.v` | LWEOps.td |
| `RotCount_Model.v` | ArithmeticDag.h, RotationCountVisitor.h, lib/Kernel/RotationCountVisitor.cpp, lib/Transforms/LayoutOptimization/LayoutConversionCost.cpp |
| `RotCount_Spec.v` | AbstractValue.h, ArithmeticDag.h |
| `RotIdx_Model.v` | EvalVisitor.cpp, RotationEvalVisitor.cpp, lib/Utils/RotationUtils.h |
| `RotKeys_Model.v` | ArithmeticDag.h, DagBuilder.cpp, RotationEvalVisitor.cpp, lib/Analysis/RotationAnalysis/RotationAnalysis.cpp, lib/Kernel/EvalVisitor.cpp, lib/Utils/RotationUtils.h |
| `RotKeys_Spec.v` | (specification only) |
| `Rotate_Model.v` | lib/Dialect/TensorExt/IR/TensorExtCanonicalization.td, lib/Dialect/TensorExt/IR/TensorExtOps.cpp, lib/Dialect/TensorExt/Transforms/InsertRotate.td |
| `Rotate_Spec.v` | lib/Dialect/TensorExt/IR/TensorExtOps.td |
| `Rtlil_Model.v` | BooleanGateImporter.cpp, LUTImporter.cpp, RTLILImporter.cpp, kernel/rtlil.h, lib/Dialect/Comb/IR/Combinational.td |
| `Rtlil_Spec.v` | (specification only) |
| `ScaleCkks_Model.v` | PopulateScalePatterns.cpp, ScaleAnalysis.cpp, lib/Transforms/PopulateScale/PopulateScaleCKKS.cpp |
| `ScaleCkks_Spec.v` | (specification only) |
| `Scale_Model.v` | PopulateScaleCKKS.cpp, PopulateScalePatterns.cpp, ScaleAnalysis.cpp, ScaleAnalysis.h, lib/Transforms/PopulateScale/PopulateScaleBGV.cpp |
| `Scale_Spec.v` | (specification only) |
| `Secretness_Model.v` | SecretnessAnalysis.cpp, lib/Analysis/SecretnessAnalysis/SecretnessAnalysis.h, lib/Analysis/Utils.h |
| `Secretness_Spec.v` | (specification only) |
| `Select_Model.v` | SelectRewrite.td, lib/Transforms/CompareToSignRewrite/CompareToSignRewrite.cpp, lib/Transforms/ConvertIfToSelect/ConvertIfToSelect.cpp |
| `ShiftNet_Model.v` | CtSlot.h, EvalVisitor.cpp, ImplementShiftNetwork.cpp, RotationGroupKernel.h, ShiftScheme.cpp, ShiftScheme.h, lib/Utils/MathUtils.h |
| `Slice_Model.v` | ForwardInsertSliceToExtractSlice.cpp, lib/Utils/Layout/Utils.cpp |
| `Slice_Spec.v` | (specification only) |
| `TensorIndex_Model.v` | lib/Utils/TensorUtils.cpp |
| `TensorScalars_Model.v` | lib/Transforms/TensorToScalars/TensorToScalars.cpp |
| `TensorScalars_Spec.v` | (specification only) |
| `Vectorize_Model.v` | CGGIBinOps.td, CGGIOps.td, Graph.h, lib/Dialect/CGGI/IR/CGGIOps.cpp, lib/Transforms/BooleanVectorizer/BooleanVectorizer.cpp, lib/Transforms/StraightLineVectorizer/StraightLineVectorizer.cpp |
| `Vectorize_Spec.v` | (specification only) |

## Print Assumptions

Theorems that depend on axioms (all of the standard library):

| theorem | axioms |
|---|---|
| `C23_error_bound_partial` | `ClassicalDedekindReals.sig_forall_dec`, `ClassicalDedekindReals.sig_not_dec`, `Classical_Prop.classic`, `FunctionalExtensionality.functional_extensionality_dep` |
| `C46_nonfinite_refuted` | `ClassicalDedekindReals.sig_forall_dec`, `ClassicalDedekindReals.sig_not_dec`, `Classical_Prop.classic`, `FunctionalExtensionality.functional_extensionality_dep` |
| `C46_select_float_partial` | `ClassicalDedekindReals.sig_forall_dec`, `ClassicalDedekindReals.sig_not_dec`, `Classical_Prop.classic`, `FunctionalExtensionality.functional_extensionality_dep` |
| `C47_cmpf_behaviour` | `ClassicalDedekindReals.sig_forall_dec`, `ClassicalDedekindReals.sig_not_dec`, `Classical_Prop.classic`, `FunctionalExtensionality.functional_extensionality_dep` |
| `C47_sense_refuted` | `ClassicalDedekindReals.sig_forall_dec`, `ClassicalDedekindReals.sig_not_dec`, `Classical_Prop.classic`, `FunctionalExtensionality.functional_extensionality_dep` |
| `C50_float_masks` | `ClassicalDedekindReals.sig_forall_dec`, `ClassicalDedekindReals.sig_not_dec`, `Classical_Prop.classic`, `FunctionalExtensionality.functional_extensionality_dep` |

Closed under the global context (487 theorems):

`C01_add`, `C01_expression`, `C01_mac`, `C01_mul`, `C01_sub`, `C01_zero_modulus_refuted`, `C02_reduce`, `C03_centered_lift_partial`, `C03_centered_lift_refuted`, `C03_standard_lift`, `C04_barrett`, `C04_barrett_then_subifge`, `C04_narrow_attribute_refuted`, `C04_subifge`, `C05_mod_switch_partial`, `C05_mod_switch_refuted`, `C05_mod_switch_to_rns`, `C06_fold_matches_lowering_partial`, `C06_fold_matches_lowering_refuted`, `C06_literal`, `C06_negative_literal_refuted`, `C07_rewrites_preserve`, `C08_convert_basis_partial`, `C08_inverse_products`, `C08_mersenne_modulus_refuted`, `C08_shared_limb`, `C08_three_limbs_refuted`, `C09_crt_interpolation`, `C09_verifier_wraps_refuted`, `C10_multiplicative_inverse`, `C11_modular_exponentiation`, `C11_modular_multiplication`, `C11_modulus_one_refuted`, `C12_factorize`, `C13_primitive_2nth_root`, `C13_primitive_root`, `C14_isPrime_accepts_primes`, `C15_ntt_evaluates`, `C15_ntt_round_trip`, `C15_rns_round_trip`, `C16_ntt_product`, `C16_rns_add`, `C16_rns_add_refuted`, `C16_rns_product`, `C16_rns_sub`, `C17_lowered_ntt_evaluates`, `C17_lowered_round_trip`, `C18_fold_is_permuted`, `C18_fold_small_degree_partial`, `C18_intt_fold_refuted`, `C18_ntt_fold_refuted`, `C19_constant`, `C19_constant_truncation_refuted`, `C19_negacyclic_partial`, `C19_polymul_partial`, `C19_remainder_unique`, `C19_zero_product_refuted`, `C20_constant_refuted`, `C20_conversions_partial`, `C20_feasible`, `C20_mod_switch_refuted`, `C20_preserves_partial`, `C21_horner`, `C22_any_block`, `C22_ps_monomial`, `C23_exact_partial`, `C23_null_refuted`, `C24_compose_partial`, `C24_compose_refuted`, `C24_to_standard_partial`, `C24_to_standard_refuted`, `C25_add_nested`, `C25_add_partial`, `C25_add_refuted`, `C25_compose_partial`, `C25_compose_refuted`, `C25_compose_total`, `C25_dense`, `C25_from_coefficients`, `C25_from_monomials`, `C25_monomial_mul`, `C25_mul_zero_refuted`, `C25_naive_mul`, `C25_scale`, `C25_sub_partial`, `C26_matvec`, `C27_dot_partial`, `C27_rotate_and_reduce_partial`, `C27_steps_refuted`, `C28_bsgs`, `C29_false_entry_refuted`, `C29_rolled_accumulation`, `C29_rolled_bsgs_partial`, `C30_halevi_shoup`, `C31_bicyclic_kernel`, `C31_bicyclic_prefix`, `C31_secret_lhs`, `C31_secret_rhs`, `C31_short_refuted`, `C31_tricyclic_kernel`, `C31_unreplicated_refuted`, `C32_linear_transform`, `C32_rotate_and_reduce`, `C33_canonicalise_partial`, `C33_combine_refuted`, `C33_combine_types_refuted`, `C33_extract_partial`, `C33_extract_refuted`, `C33_fold_negative_refuted`, `C33_fold_rank_refuted`, `C33_normalize_refuted`, `C33_normalize_width_refuted`, `C34_any_coloring`, `C34_layout`, `C34_remap`, `C35_collapse_partial`, `C35_ends`, `C35_fork_refuted`, `C36_chain`, `C36_left_partial`, `C36_no_merge_partial`, `C36_right_refuted`, `C37_insert_partial`, `C37_program_partial`, `C37_shapes_refuted`, `C37_target_refuted`, `C38_edges`, `C38_fails_iff_cyclic`, `C38_topological_sort`, `C39_level_from_inputs_refuted`, `C39_level_is_longest_walk`, `C39_levels`, `C40_fails_iff_unreachable`, `C40_nontermination_refuted`, `C40_not_a_path_refuted`, `C40_not_shortest_refuted`, `C40_shortest_path_partial`, `C41_coloring`, `C41_edges`, `C42_condense_partial`, `C42_lost_path_refuted`, `C42_self_loop_refuted`, `C43_loop_semantics`, `C43_static_bounds`, `C43_static_for_partial`, `C43_unaligned_refuted`, `C44_rejects_computed_operands`, `C44_static_while_partial`, `C44_swapped_operands_refuted`, `C45_extract`, `C45_insert`, `C46_if_to_arith_partial`, `C46_if_to_select`, `C46_impure_rejected`, `C46_poison_refuted`, `C46_select_int`, `C47_cmpi_behaviour`, `C47_cmpi_refuted`, `C48_balance_block`, `C48_balance_depth`, `C48_tree_shape`, `C48_word_operations`, `C49_aliased_memref_refuted`, `C49_call_refuted`, `C49_dynamic_index_refuted`, `C49_forward_insert_constant_indices`, `C49_forward_insert_partial`, `C49_forward_store_partial`, `C49_insert_dynamic_refuted`, `C49_remove_store_partial`, `C49_remove_store_refuted`, `C50_fires_on_masks`, `C50_fold_masks`, `C51_is_power_of_two`, `C51_next_power_of_two`, `C52_critical_path`, `C53_flatten`, `C53_overflow_refuted`, `C53_unflatten`, `C54_broadcasted_reduce_partial`, `C54_product_refuted`, `C55_decompose`, `C55_zero_block_refuted`, `C56_balanced_refuted`, `C56_cached_values`, `C56_chebyshev_values`, `C56_powers`, `C57_automatic_refuted`, `C57_lowered_partial`, `C57_sound`, `C57_zero_refuted`, `C58_components`, `C59_absent`, `C59_contract`, `C60_attached_roots`, `C61_add`, `C61_constant_refuted`, `C61_constant_width`, `C61_ext_refuted`, `C61_mul_iff`, `C61_mul_refuted`, `C61_supported_partial`, `C62_condition_refuted`, `C62_generic_refuted`, `C62_loop_bound_refuted`, `C62_memory_refuted`, `C62_noninterference_partial`, `C62_region_refuted`, `C62_secret_iff`, `C62_terminates`, `C63_debug_refuted`, `C63_greedy_refuted`, `C63_loop_refuted`, `C63_memref_refuted`, `C63_pack_refuted`, `C63_semantics_partial`, `C64_after_loop_refuted`, `C64_argument_refuted`, `C64_extract_refuted`, `C64_insert_refuted`, `C64_loop_refuted`, `C64_semantics_partial`, `C65_bounded_partial`, `C65_exact`, `C65_least`, `C65_sound`, `C65_stops_refuted`, `C65_uninitialized_refuted`, `C66_complete`, `C66_correct_partial`, `C66_equal_degrees_refuted`, `C66_fewest_partial`, `C66_loop_refuted`, `C66_solvable`, `C67_components`, `C67_function`, `C67_levels`, `C67_other_refuted`, `C67_succeeds`, `C67_values`, `C68_budget_refuted`, `C68_consistent`, `C68_levels`, `C69_annotation`, `C69_depth`, `C69_depth_refuted`, `C69_function`, `C70_complete`, `C70_correct`, `C70_overflow_refuted`, `C70_plaintext_refuted`, `C70_shared_index_refuted`, `C70_truncation_refuted`, `C71_correct`, `C71_growth_refuted`, `C71_rounding_refuted`, `C71_scales`, `C72_bicyclic`, `C72_bicyclic_diagonal`, `C72_diagonal`, `C72_diagonal_slots_refuted`, `C72_float_refuted`, `C72_per_row`, `C72_periodic`, `C72_product_refuted`, `C72_row_major`, `C72_tricyclic`, `C73_box`, `C73_complement`, `C73_enumerate`, `C73_layouts_found`, `C73_pack`, `C73_roundtrip`, `C73_unpack`, `C74_block_refuted`, `C74_expression`, `C74_loop_nest`, `C74_no_loop_refuted`, `C74_reversed`, `C74_reversed_block_refuted`, `C75_array`, `C75_array_back`, `C75_assign`, `C75_permutation`, `C75_permutation_beyond`, `C75_permutation_negative_refuted`, `C75_roundtrip`, `C75_single_slot_refuted`, `C75_unpack`, `C76_accumulator_refuted`, `C76_batch_matmul`, `C76_batch_rectified_refuted`, `C76_computed_lhs_refuted`, `C76_dot_partial`, `C76_dot_refuted`, `C76_matmul`, `C76_matmul_diagonal_refuted`, `C76_matmul_plain`, `C76_matvec`, `C77_add`, `C77_decrypt_partial`, `C77_decrypt_refuted`, `C77_mul`, `C77_negate_partial`, `C77_negate_refuted`, `C77_public_encrypt`, `C77_public_noise_refuted`, `C77_public_roundtrip_refuted`, `C77_ring_elt`, `C77_scalar`, `C77_secret_encrypt_partial`, `C77_secret_roundtrip_refuted`, `C77_sub`, `C77_unsupported_refuted`, `C78_key_switch_partial`, `C78_mod_down_partial`, `C78_relinearize_partial`, `C78_three_primes_refuted`, `C79_canonicalize`, `C79_capture_ambient_partial`, `C79_capture_ambient_refuted`, `C79_collapse`, `C79_conceal_insert_partial`, `C79_conceal_insert_refuted`, `C79_conceal_then_generic`, `C79_dedupe`, `C79_hoist_after_capture_refuted`, `C79_hoist_after_partial`, `C79_hoist_after_twice_refuted`, `C79_hoist_after_unused_refuted`, `C79_hoist_before_partial`, `C79_hoist_before_refuted`, `C79_hoist_plaintext`, `C79_merge_partial`, `C79_merge_refuted`, `C79_nested`, `C79_remove_public_args`, `C79_remove_unused_args_partial`, `C79_remove_unused_args_refuted`, `C79_remove_unused_yields`, `C80_separator`, `C80_split`, `C80_split_applies`, `C80_split_first`, `C80_split_where`, `C81_for_bound_refuted`, `C81_for_direct_refuted`, `C81_for_partial`, `C81_for_read_refuted`, `C81_for_repeated_refuted`, `C81_for_unmarked_refuted`, `C81_if`, `C81_secret_bound`, `C81_secret_condition`, `C82_backends`, `C82_gates`, `C82_import`, `C82_lincomb_partial`, `C82_lincomb_refuted`, `C82_lut2`, `C82_narrow_refuted`, `C82_netlist`, `C82_packed_gates`, `C82_plain_exact`, `C82_plain_refuted`, `C82_pmap_exact`, `C82_pmap_refuted`, `C83_boolean`, `C83_lut3_types_refuted`, `C83_packs`, `C83_result_type_refuted`, `C83_straight`, `C84_copy_refuted`, `C84_import`, `C84_sound`, `C84_split_refuted`, `C85_access`, `C85_cast`, `C85_cast_bit_refuted`, `C85_conceal`, `C85_conceal_tensor_refuted`, `C85_conceal_vector`, `C85_integer_bits`, `C85_roundtrip_refuted`, `C85_tensor_bits`, `C85_unflatten`, `C85_wide_refuted`, `C86_constant_refuted`, `C86_execute`, `C86_extension_partial`, `C86_extension_refuted`, `C86_large_plain_refuted`, `C86_modulus`, `C86_natural_partial`, `C86_natural_refuted`, `C86_negative_plain_refuted`, `C86_negative_result_refuted`, `C86_secret`, `C87_constants_refuted`, `C87_degenerate_refuted`, `C87_matrix_refuted`, `C87_other_operation_refuted`, `C87_scalar_results_partial`, `C87_tensor_results_partial`, `C87_thin_partial`, `C88_dynamic_offset_refuted`, `C88_extraction_partial`, `C88_forward_partial`, `C88_insertion_exact`, `C88_overlapping_rows_refuted`, `C88_padding`, `C88_shift`, `C88_unit_dimension_refuted`, `C89_extract`, `C89_extract_slice_partial`, `C89_insert_cleartext`, `C89_insert_dynamic`, `C89_insert_secret`, `C89_insert_slice_partial`, `C89_pad`, `C89_pad_layout`, `C89_recorded_layout_refuted`, `C89_row_refuted`, `C89_slice_layout_partial`, `C90_conv1d`, `C90_conv1d_channels`, `C90_conv2d`, `C90_conv2d_channels`, `C90_divisible_needed_refuted`, `C90_interchange`, `C90_lowered_conv`, `C90_result_layout`, `C90_unambiguous`, `C91_average_folded`, `C91_average_folded_1d`, `C91_average_init_refuted`, `C91_divisor_refuted`, `C91_folded`, `C91_fusion_partial`, `C91_generic_input_refuted`, `C91_generic_map_refuted`, `C91_generic_yield_refuted`, `C91_in_bounds`, `C91_in_bounds_width`, `C91_pool_as_conv_1d_partial`, `C91_pool_as_conv_2d_partial`, `C91_undilate_1d`, `C91_undilate_2d`, `C92_all_known`, `C92_dense_integers_refuted`, `C92_loop_refuted`, `C92_one_pass`, `C92_sound_partial`, `C92_subtraction_refuted`, `C92_unknown_refuted`, `C93_budget_refuted`, `C93_digits`, `C93_digits_refuted`, `C93_generic_refuted`, `C93_insert_slice_refuted`, `C93_mod_reduce_refuted`, `C93_repaired`, `C93_sound_partial`, `C93_validated`, `C94_carried_refuted`, `C94_conversion_paths`, `C94_conversion_refuted`, `C94_count_partial`, `C94_iterations_refuted`, `C94_loop_free`, `C95_argument_refuted`, `C95_condition_refuted`, `C95_constant`, `C95_division_refuted`, `C95_keys_partial`, `C95_remainder_refuted`, `C95_unsigned_refuted`, `C95_unused_refuted`, `C96_ckks`, `C96_ckks_level_refuted`, `C96_ckks_special_refuted`, `C96_gap_refuted`, `C96_gap_sizes`, `C96_primes`, `C96_security_partial`, `C96_security_refuted`, `C96_special`.
