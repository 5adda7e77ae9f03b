{"id": "C01", "title": "mod_arith add/sub/mul/mac lower to exact modular arithmetic", "statement": "For every modulus type the verifier accepts (modulus q stored in w bits with q below 2^(w-1)) and all canonical operands in [0,q), the arith code that mod_arith.add, sub, mul and mac are lowered to yields exactly the canonical residue of the mathematical sum, difference, product or multiply-accumulate; no intermediate wrap-around is observable.", "quantifier": "every bit width, every accepted modulus, every pair/triple of canonical operands", "why_tests_cant": "the operand space is q^2 or q^3 for each of unboundedly many moduli and widths; overflow happens only near the width boundary", "anchors": ["lib/Dialect/ModArith/Conversions/ModArithToArith/ModArithToArith.cpp: ConvertAdd, ConvertSub, ConvertMul, ConvertMac", "lib/Dialect/ModArith/IR/ModArithTypes.cpp: ModArithType::verify"]}
{"id": "C02", "title": "mod_arith.reduce canonicalises every machine word", "statement": "Whatever bit pattern a storage word holds (read as a signed integer), lowering mod_arith.reduce yields the unique representative of that integer in [0,q).", "quantifier": "every width, accepted modulus and storage word including negative ones", "why_tests_cant": "the interesting inputs are the extreme words of each width", "anchors": ["lib/Dialect/ModArith/Conversions/ModArithToArith/ModArithToArith.cpp: ConvertReduce"]}
{"id": "C03", "title": "centered lift returns the balanced representative", "statement": "Lowering a mod_arith value to an integer with the centered lift yields the representative in the balanced interval around zero that is congruent to the value.", "quantifier": "every width, accepted modulus and canonical value", "why_tests_cant": "fails only at moduli where the half-modulus computation overflows the storage type", "anchors": ["lib/Dialect/ModArith/Conversions/ModArithToArith/ModArithToArith.cpp: ConvertLift"]}
{"id": "C04", "title": "Barrett reduction stays within one modulus of the residue", "statement": "For any product of two canonical operands, barrett_reduce yields a number congruent to it modulo q and below 2q; one following subifge yields the canonical residue. No intermediate of the generated code overflows.", "quantifier": "every modulus q and every x below q^2", "why_tests_cant": "the error of the precomputed reciprocal is largest at sparse, modulus-specific inputs", "anchors": ["lib/Dialect/ModArith/Conversions/ModArithToArith/ModArithToArith.cpp: ConvertBarrettReduce", "lib/Dialect/ModArith/Conversions/ModArithToArith/ModArithToArith.td: ConvertSubIfGE"]}
{"id": "C05", "title": "mod_switch preserves the represented integer", "statement": "Switching a value from modulus q to modulus p yields the residue modulo p of the integer the value represents (balanced representative).", "quantifier": "every pair of moduli and every canonical value", "why_tests_cant": "depends on the boundary at half the modulus", "anchors": ["lib/Dialect/ModArith/Conversions/ModArithToArith/ModArithToArith.cpp: ConvertModSwitch"]}
{"id": "C06", "title": "constant folding agrees with the lowered code", "statement": "Folding a mod_arith operation on constants at compile time yields the value the lowered code computes at run time, including for constants written with a minus sign.", "quantifier": "every modulus, operation and constant operands", "why_tests_cant": "requires comparing two implementations on all inputs", "anchors": ["lib/Dialect/ModArith/IR/ModArithOps.cpp: foldScalarModOp, ConstantOp::parse, ConstantOp::fold"]}
{"id": "C07", "title": "mod_arith canonicalisations preserve the computed value", "statement": "Every canonicalisation rewrite of modular expressions (constant reassociation, elimination of zero, one and minus one, mac formation) leaves the value of the expression unchanged modulo q.", "quantifier": "every modulus and every value of the operands and constants", "why_tests_cant": "the rewrites are applied to arbitrary programs", "anchors": ["lib/Dialect/ModArith/IR/ModArithCanonicalization.td", "lib/Dialect/ModArith/Transforms/ConvertToMac.cpp: FindMac"]}
{"id": "C08", "title": "RNS basis conversion keeps the integer", "statement": "Converting a residue-number-system value to another basis yields the residues, modulo the new primes, of the same centred integer that the input residues represent.", "quantifier": "every list of pairwise coprime odd input moduli, every output basis and every tuple of residues", "why_tests_cant": "number of limbs is unbounded; a fault may only show from the third limb on", "anchors": ["lib/Dialect/RNS/Transforms/LowerConvertBasis.cpp"]}
{"id": "C09", "title": "CRT interpolation of an RNS value", "statement": "Lowering a mod_switch from an RNS type to a single modulus equal to the product of the limbs yields the unique integer below the product having the given residues, with no overflow in the chosen intermediate width.", "quantifier": "every list of pairwise coprime limbs and every residue tuple", "why_tests_cant": "unbounded number and size of limbs", "anchors": ["lib/Dialect/ModArith/Conversions/ModArithToArith/ModArithToArith.cpp: ConvertModSwitch (RNS to mod)"]}
{"id": "C10", "title": "modular inverse", "statement": "multiplicativeInverse(x, m) returns the y in [0,m) with x*y congruent to 1 when x is coprime to m, and 0 otherwise.", "quantifier": "every bit width, modulus and x", "why_tests_cant": "wrap-around and sign tests inside the Euclid loop only bite near the top of the width", "anchors": ["lib/Utils/APIntUtils.cpp: multiplicativeInverse"]}
{"id": "C11", "title": "modular exponentiation", "statement": "modularExponentiation(base, e, m) returns base^e mod m.", "quantifier": "every base, exponent and modulus", "why_tests_cant": "unbounded exponents", "anchors": ["lib/Utils/APIntUtils.cpp: modularExponentiation"]}
{"id": "C12", "title": "integer factorisation", "statement": "factorize(n) returns exactly the set of prime divisors of n.", "quantifier": "every n of the supported widths", "why_tests_cant": "unbounded n; the loop bound d*d may wrap", "anchors": ["lib/Utils/APIntUtils.cpp: factorize"]}
{"id": "C13", "title": "primitive roots have the advertised order", "statement": "findPrimitive2nthRoot(q, n) for prime q returns, whenever it returns, an element whose 2n-th power is 1 and whose n-th power is minus 1; it returns a result whenever 2n divides q-1.", "quantifier": "every prime q and power of two n", "why_tests_cant": "the search space is every field", "anchors": ["lib/Utils/MathUtils.cpp: findPrimitiveRoot, findPrimitive2nthRoot"]}
{"id": "C14", "title": "primality test never rejects a prime", "statement": "isPrime(n) returns true for every prime n.", "quantifier": "every prime", "why_tests_cant": "infinitely many primes", "anchors": ["lib/Utils/APIntUtils.cpp: isPrime"]}
{"id": "C15", "title": "NTT round trip", "statement": "Transforming a polynomial to evaluation form and back with the compile-time NTT gives back the original coefficients.", "quantifier": "every power-of-two length, every modulus with a 2n-th root of unity, every coefficient vector", "why_tests_cant": "unbounded sizes", "anchors": ["lib/Utils/Polynomial/NTT.cpp: nttInPlace, inttInPlace", "lib/Utils/Polynomial/RNSPolynomial.cpp: toNtt, toCoefficient"]}
{"id": "C16", "title": "NTT turns ring multiplication into pointwise multiplication", "statement": "Multiplying two polynomials through forward transform, pointwise product and inverse transform yields their product in Z_q[x]/(x^n+1).", "quantifier": "every power-of-two n, every modulus with a root, every pair of polynomials", "why_tests_cant": "unbounded sizes", "anchors": ["lib/Utils/Polynomial/RNSPolynomial.cpp: mul"]}
{"id": "C17", "title": "lowered NTT evaluates the polynomial", "statement": "The tensor code emitted for polynomial.ntt produces the values of the polynomial at the odd powers of the root in natural order, and the code emitted for polynomial.intt with the inverse root undoes it.", "quantifier": "every power-of-two degree, modulus, root and coefficient vector", "why_tests_cant": "unbounded sizes", "anchors": ["lib/Dialect/Polynomial/Conversions/PolynomialToModArith/PolynomialToModArith.cpp: fastNTT"]}
{"id": "C18", "title": "folded and lowered NTT agree", "statement": "Constant-folding polynomial.ntt or polynomial.intt gives the tensor that the lowered code would have produced for the same op and root attribute.", "quantifier": "every degree, modulus, root and constant", "why_tests_cant": "needs two implementations to agree on all inputs", "anchors": ["lib/Dialect/Polynomial/IR/PolynomialOps.cpp: NTTOp::fold, INTTOp::fold", "lib/Dialect/Polynomial/Transforms/AttachNTTRoots.cpp"]}
{"id": "C19", "title": "polynomial.mul in coefficient form computes the ring product", "statement": "The lowering of polynomial.mul on coefficient-form operands returns the product reduced modulo the ring's ideal for every pair of operands and never reads outside the coefficient tensor.", "quantifier": "every monic ideal, every modulus, every operand pair including zero polynomials and products divisible by the ideal", "why_tests_cant": "the failing inputs are a measure-zero set", "anchors": ["lib/Dialect/Polynomial/Conversions/PolynomialToModArith/PolynomialToModArith.cpp: ConvertMulCoeffForm, ConvertLeadingTerm, buildPolynomialModFunc"]}
{"id": "C20", "title": "polynomial to NTT form placement preserves program meaning", "statement": "Rewriting a function of polynomial operations so that multiplications run in evaluation form yields a function computing the same ring values, up to the reported form of arguments and results.", "quantifier": "every straight-line polynomial function and every feasible solver answer", "why_tests_cant": "programs and solver answers are unbounded", "anchors": ["lib/Dialect/Polynomial/Transforms/PolyMulToNTT.cpp", "lib/Dialect/Polynomial/Transforms/NTTSolver.cpp"]}
{"id": "C21", "title": "Horner evaluation", "statement": "The evaluation program built by Horner's method for a polynomial computes the value of the polynomial at the input.", "quantifier": "every polynomial and every input", "why_tests_cant": "unbounded degree", "anchors": ["lib/Utils/Polynomial/Horner.h"]}
{"id": "C22", "title": "Paterson-Stockmeyer evaluation in the monomial basis", "statement": "The baby-step giant-step evaluation program computes the value of the polynomial for every degree and input.", "quantifier": "every coefficient map and input", "why_tests_cant": "unbounded degree; split depends on the degree", "anchors": ["lib/Utils/Polynomial/PatersonStockmeyer.h", "lib/Kernel/KernelImplementation.h"]}
{"id": "C23", "title": "Paterson-Stockmeyer evaluation in the Chebyshev basis", "statement": "The Chebyshev evaluation program computes the Chebyshev series at the input; when coefficients below the threshold are dropped the result differs by at most the number of coefficients times the threshold for inputs in the domain, which is mapped to [-1,1].", "quantifier": "every coefficient vector, input and threshold", "why_tests_cant": "unbounded degree", "anchors": ["lib/Utils/Polynomial/ChebyshevPatersonStockmeyer.h", "lib/Utils/Polynomial/ChebyshevDecomposition.cpp"]}
{"id": "C24", "title": "Chebyshev basis conversion and composition", "statement": "Converting a Chebyshev series to the monomial basis, or composing it with a linear map, denotes the same function.", "quantifier": "every series", "why_tests_cant": "unbounded degree", "anchors": ["lib/Utils/Polynomial/Polynomial.cpp: toStandardBasis, compose"]}
{"id": "C25", "title": "sparse polynomial arithmetic", "statement": "Addition, subtraction, multiplication, scaling, monomial multiplication and composition of polynomials agree with evaluation at every point, and keep the terms sorted with distinct exponents.", "quantifier": "every pair of polynomials, including zero", "why_tests_cant": "unbounded size; the zero polynomial is the corner case", "anchors": ["lib/Utils/Polynomial/Polynomial.h"]}
{"id": "C26", "title": "diagonal matrix-vector kernel", "statement": "The naive diagonal kernel returns the matrix-vector product when given the diagonals in its packing.", "quantifier": "every matrix size, matrix and vector", "why_tests_cant": "unbounded sizes", "anchors": ["lib/Kernel/KernelImplementation.h: implementMatvec"]}
{"id": "C27", "title": "rotate-and-reduce sums the requested slots", "statement": "tensor_ext.rotate_and_reduce(v, period, steps) leaves in each slot the sum of the slots at offsets 0, period, ..., (steps-1)*period, cyclically.", "quantifier": "every vector length, period and step count", "why_tests_cant": "fails only for step counts that are not powers of two", "anchors": ["lib/Kernel/KernelImplementation.h: implementRotateAndReduceAccumulation"]}
{"id": "C28", "title": "baby-step giant-step agrees with the naive reduction", "statement": "The baby-step giant-step kernel with plaintext diagonals computes the sum of rotated products for every step count, also when zero diagonals are skipped.", "quantifier": "every vector length, period, steps, diagonals and skip set", "why_tests_cant": "unbounded sizes", "anchors": ["lib/Kernel/KernelImplementation.h: implementBabyStepGiantStep"]}
{"id": "C29", "title": "rolled kernels equal unrolled kernels", "statement": "The loop-form kernels compute the same vector as the unrolled ones for every parameter the API accepts.", "quantifier": "every parameter choice", "why_tests_cant": "two implementations, unbounded parameters", "anchors": ["lib/Kernel/KernelImplementation.h: rolled variants"]}
{"id": "C30", "title": "Halevi-Shoup matvec", "statement": "The Halevi-Shoup kernel on a diagonally packed matrix and a replicated vector returns the matrix-vector product in the leading slots.", "quantifier": "every size satisfying the packing preconditions", "why_tests_cant": "unbounded sizes", "anchors": ["lib/Kernel/KernelImplementation.h: implementHaleviShoup"]}
{"id": "C31", "title": "bicyclic and tricyclic matmul kernels", "statement": "On bicyclic (tricyclic) encodings the ciphertext-ciphertext multiplication kernels return the encoding of the matrix product.", "quantifier": "every coprime dimension triple and all matrices", "why_tests_cant": "unbounded sizes", "anchors": ["lib/Kernel/KernelImplementation.h: implementBicyclicMatmul, implementTricyclicBatchMatmul"]}
{"id": "C32", "title": "announced rotation indices cover the rotations performed", "statement": "Every rotation amount a kernel performs is among the indices reported for key generation.", "quantifier": "every parameter choice", "why_tests_cant": "a missing key only shows at run time for some sizes", "anchors": ["lib/Utils/RotationUtils.h", "lib/Kernel/KernelImplementation.h"]}
{"id": "C33", "title": "rotation canonicalisations preserve the tensor", "statement": "Folding, merging, normalising and moving tensor_ext.rotate operations never changes the tensor or the extracted element.", "quantifier": "every tensor length and every shift, negative or larger than the length", "why_tests_cant": "fails only for lengths that are not powers of two or out-of-range shifts", "anchors": ["lib/Dialect/TensorExt/IR/TensorExtCanonicalization.td", "lib/Dialect/TensorExt/IR/TensorExtOps.cpp"]}
{"id": "C34", "title": "shift network realises the permutation", "statement": "The masked-rotation program produced for a slot mapping places in every mapped target slot exactly the value of its source slot and zero elsewhere.", "quantifier": "every number of ciphertexts and slots, every mapping and every proper colouring", "why_tests_cant": "the number of mappings is exponential", "anchors": ["lib/Dialect/TensorExt/Transforms/ShiftScheme.cpp", "lib/Dialect/TensorExt/Transforms/ImplementShiftNetwork.cpp", "lib/Dialect/TensorExt/Transforms/RotationGroupKernel.h"]}
{"id": "C35", "title": "insertion-chain collapse", "statement": "Replacing a chain of tensor insertions by one rotation yields the tensor the chain built.", "quantifier": "every graph of insert operations", "why_tests_cant": "needs all use graphs", "anchors": ["lib/Dialect/TensorExt/Transforms/CollapseInsertionChains.cpp"]}
{"id": "C36", "title": "reduction trees become rotate-and-reduce without changing the sum", "statement": "Rewriting a tree of additions or multiplications over all slots of a tensor to rotate_and_reduce yields the same scalar.", "quantifier": "every reduction tree, tensor length and tensor", "why_tests_cant": "unbounded trees", "anchors": ["lib/Dialect/TensorExt/Transforms/RotateAndReduce.cpp", "lib/Analysis/PartialReductionRotateAnalysis/PartialReductionRotateAnalysis.cpp"]}
{"id": "C37", "title": "rotation insertion and alignment", "statement": "Turning scalar operations on extracted slots into rotated vector operations, and re-aligning rotations, preserves the extracted value.", "quantifier": "every tensor, slot pair and target slot", "why_tests_cant": "unbounded sizes", "anchors": ["lib/Dialect/TensorExt/Transforms/InsertRotate.td"]}
{"id": "C38", "title": "topological sort", "statement": "Topological sorting of a graph returns each vertex once with every edge pointing forward, and reports failure exactly when the graph has a cycle.", "quantifier": "every finite graph", "why_tests_cant": "all graphs", "anchors": ["lib/Utils/Graph/Graph.h: topologicalSort"]}
{"id": "C39", "title": "level sort and longest path", "statement": "Sorting by levels places each vertex strictly after its predecessors; the longest-path query returns a real path of maximal length.", "quantifier": "every finite acyclic graph and weighting", "why_tests_cant": "all graphs", "anchors": ["lib/Utils/Graph/Graph.h: sortGraphByLevels, getLongestSourceToSinkPath"]}
{"id": "C40", "title": "shortest path", "statement": "getShortestPath returns a path from start to end of minimal weight, and fails exactly when end is unreachable.", "quantifier": "every weighted graph", "why_tests_cant": "all graphs", "anchors": ["lib/Utils/Graph/Graph.h: getShortestPath"]}
{"id": "C41", "title": "greedy colouring is proper", "statement": "The colouring assigns different colours to adjacent vertices, colours each vertex once and uses at most maximum degree plus one colours.", "quantifier": "every undirected graph", "why_tests_cant": "all graphs", "anchors": ["lib/Utils/Graph/Graph.h: GreedyGraphColoring"]}
{"id": "C42", "title": "graph condensation is acyclic", "statement": "Condensing a graph along its strongly connected components gives an acyclic graph that preserves reachability.", "quantifier": "every finite graph incl. self loops", "why_tests_cant": "all graphs", "anchors": ["lib/Utils/Graph/Graph.h: condenseGraph"]}
{"id": "C43", "title": "secret for-loop to static loop", "statement": "Replacing a for loop with secret bounds by a static loop with a guarded body computes the same iteration arguments whenever the annotated static bounds enclose the secret ones.", "quantifier": "every bounds, step, body and initial value", "why_tests_cant": "bodies and bounds are unbounded", "anchors": ["lib/Transforms/ConvertSecretForToStaticFor/ConvertSecretForToStaticFor.cpp"]}
{"id": "C44", "title": "secret while-loop to static loop", "statement": "Replacing a while loop with a secret condition by a static loop of max_iter guarded iterations computes the same results whenever the original loop stops within max_iter iterations.", "quantifier": "every condition, body and state", "why_tests_cant": "unbounded state space", "anchors": ["lib/Transforms/ConvertSecretWhileToStaticFor/ConvertSecretWhileToStaticFor.cpp"]}
{"id": "C45", "title": "secret tensor access to static loop", "statement": "Reading or writing a tensor at a secret index through a full scan gives the element, or the updated tensor, of the direct access for every in-range index.", "quantifier": "every tensor size, contents and index", "why_tests_cant": "unbounded sizes", "anchors": ["lib/Transforms/ConvertSecretExtractToStaticExtract/ConvertSecretExtractToStaticExtract.cpp", "lib/Transforms/ConvertSecretInsertToStaticInsert/ConvertSecretInsertToStaticInsert.cpp"]}
{"id": "C46", "title": "if-to-select and select-to-arithmetic", "statement": "Replacing a branch on a secret by executing both sides and selecting, and replacing the select by c*t+(1-c)*f, gives the value of the branch.", "quantifier": "every condition, pure branch bodies and values", "why_tests_cant": "all bodies and values, including non-finite floats", "anchors": ["lib/Transforms/ConvertIfToSelect/ConvertIfToSelect.cpp", "lib/Transforms/SelectRewrite/SelectRewrite.td"]}
{"id": "C47", "title": "comparison to sign rewrite", "statement": "Rewriting a comparison to an expression using sign gives the truth value of the comparison.", "quantifier": "every pair of operands and every handled predicate", "why_tests_cant": "all operand pairs", "anchors": ["lib/Transforms/CompareToSignRewrite/CompareToSignRewrite.cpp"]}
{"id": "C48", "title": "operation balancing keeps the value and logarithmic depth", "statement": "Rebalancing a tree of additions or multiplications yields the same value and depth ceil(log2 n) for n operands.", "quantifier": "every operand list", "why_tests_cant": "all trees", "anchors": ["lib/Transforms/OperationBalancer/OperationBalancer.cpp"]}
{"id": "C49", "title": "store-to-load and insert-to-extract forwarding", "statement": "Replacing a load (extract) by the value of an earlier store (insert), and erasing overwritten stores, never changes the value read or the final memory.", "quantifier": "every straight-line sequence of stores and loads, also with indices that are only known at run time", "why_tests_cant": "index values are dynamic", "anchors": ["lib/Transforms/ForwardStoreToLoad/ForwardStoreToLoad.cpp", "lib/Transforms/ForwardInsertToExtract/ForwardInsertToExtract.cpp"]}
{"id": "C50", "title": "plaintext mask folding", "statement": "Merging two 0/1 masks applied in sequence into one mask gives the same vector.", "quantifier": "every vector and pair of masks", "why_tests_cant": "all vectors", "anchors": ["lib/Transforms/FoldPlaintextMasks/FoldPlaintextMasks.cpp"]}
{"id": "C51", "title": "powers of two helpers", "statement": "isPowerOfTwo accepts exactly the powers of two, and nextPowerOfTwo returns the least power of two that is at least its argument whenever that fits in the integer type.", "quantifier": "every positive 64-bit integer", "why_tests_cant": "the whole integer range", "anchors": ["lib/Utils/MathUtils.h:17-30"]}
{"id": "C52", "title": "approximate critical path", "statement": "On an acyclic graph the critical-path query never fails; it returns distinct vertices in an order compatible with every edge, contains every inner vertex and ends in a sink. On a cyclic graph it reports failure.", "quantifier": "every finite graph", "why_tests_cant": "all graphs", "anchors": ["lib/Utils/Graph/Graph.h: findApproximateCriticalPath"]}
{"id": "C53", "title": "row-major index helpers", "statement": "Flattening an in-bounds index tuple gives its row-major position, a bijection between in-bounds tuples and positions; unflattening is the inverse.", "quantifier": "every shape and index tuple", "why_tests_cant": "all shapes", "anchors": ["lib/Utils/TensorUtils.cpp:16-54"]}
{"id": "C54", "title": "broadcasting reduction", "statement": "Within each aligned block of steps*period slots, the broadcasting reduction leaves in every slot the sum of the block's slots that are congruent to it modulo the period.", "quantifier": "every slot count that is a multiple of the block, every period and power-of-two step count", "why_tests_cant": "unbounded sizes", "anchors": ["lib/Kernel/KernelImplementation.h:512-567"]}
{"id": "C55", "title": "Chebyshev decomposition", "statement": "Dividing a Chebyshev series repeatedly by T_k terminates and yields non-empty series of degree below k, with as many coefficients in total as the input, whose combination with powers of T_k is the original function.", "quantifier": "every coefficient vector and every block size", "why_tests_cant": "unbounded degree", "anchors": ["lib/Utils/Polynomial/ChebyshevDecomposition.cpp"]}
{"id": "C56", "title": "logarithmic depth of power and Chebyshev tables", "statement": "The programs built for x^j and T_j(x) compute these values and have multiplicative depth at most ceil(log2 j).", "quantifier": "every table size and every j in the table", "why_tests_cant": "unbounded size", "anchors": ["lib/Utils/Polynomial/PatersonStockmeyer.h", "lib/Utils/Polynomial/ChebyshevPatersonStockmeyer.h"]}
{"id": "C57", "title": "lowering of polynomial evaluation", "statement": "Every evaluation of a monomial-basis polynomial with finite coefficients is replaced by a program computing its value, with the method selected by the pass option.", "quantifier": "every polynomial and method", "why_tests_cant": "all polynomials", "anchors": ["lib/Transforms/LowerPolynomialEval/LowerPolynomialEval.cpp", "lib/Transforms/LowerPolynomialEval/Patterns.cpp:77-167"]}
{"id": "C58", "title": "strongly connected components", "statement": "getStronglyConnectedComponents puts every vertex into exactly one set, and two vertices share a set exactly when each is reachable from the other.", "quantifier": "every finite graph", "why_tests_cant": "all graphs", "anchors": ["lib/Utils/Graph/Graph.h: getStronglyConnectedComponents"]}
{"id": "C59", "title": "edge contraction", "statement": "contractEdge removes the target vertex and redirects its incoming and outgoing edges to the source without creating new self loops; without the edge it reports false and changes nothing.", "quantifier": "every finite graph and pair of vertices", "why_tests_cant": "all graphs", "anchors": ["lib/Utils/Graph/Graph.h: contractEdge"]}
{"id": "C60", "title": "roots attached to ntt operations", "statement": "Whatever the order of the operations, the pass gives every ntt over the same limb type and degree the same primitive 2n-th root of unity and every intt its inverse; an operation gets a root exactly when 2n divides q-1 for every limb, and an existing root is kept.", "quantifier": "every list of ntt and intt operations over rings with prime moduli", "why_tests_cant": "every ring and every order of the cached lookups", "anchors": ["lib/Dialect/Polynomial/Transforms/AttachNTTRoots.cpp", "lib/Dialect/Polynomial/Transforms/AttachNTTRoots.h"]}
{"id": "C61", "title": "chunked CGGI arithmetic", "statement": "Integers split into 8-bit chunks held in 16-bit ciphertexts are added, extended and multiplied correctly: decoding the chunks of the lowered program gives the value of the arith expression modulo its width.", "quantifier": "every expression over additions, multiplications, extensions and constants of up to 64 bits", "why_tests_cant": "all operand values and all depths of redundant carries", "anchors": ["lib/Dialect/Arith/Conversions/ArithToCGGIQuart/ArithToCGGIQuart.cpp"]}
{"id": "C62", "title": "secretness analysis", "statement": "The analysis terminates with an order-independent result; a value is reported secret exactly when it depends on a secret source, and values reported public have the same value in any two executions that differ only in secret arguments and reveal the same values.", "quantifier": "every function with straight-line code, conditionals, loops, regions, memory and external calls", "why_tests_cant": "all programs and all pairs of secret inputs", "anchors": ["lib/Analysis/SecretnessAnalysis/SecretnessAnalysis.h", "lib/Analysis/SecretnessAnalysis/SecretnessAnalysis.cpp:34-140", "lib/Analysis/Utils.h:27-43"]}
{"id": "C63", "title": "in-place operations for Lattigo", "statement": "Replacing allocating operations by operations that write into a dead storage does not change what the caller sees: the returned values, all buffers and the ciphertexts that existed before the call; and no operation writes into a storage that has consumed more levels than its result.", "quantifier": "every block of a function, every starting state and every meaning of the operations", "why_tests_cant": "all interleavings of definitions, aliases and last uses", "anchors": ["lib/Utils/AllocToInPlaceUtils.h:45-295", "lib/Dialect/Lattigo/Transforms/AllocToInPlace.cpp"]}
{"id": "C64", "title": "in-place operations for OpenFHE", "statement": "Replacing an operation by one that overwrites its ciphertext operand when that operand is dead does not change the returned values, the buffers, or the ciphertexts of the caller.", "quantifier": "every block of a function, every starting state and every meaning of the operations", "why_tests_cant": "all interleavings of definitions, aliases and last uses", "anchors": ["lib/Utils/AllocToInPlaceUtils.h:311-373", "lib/Dialect/Openfhe/Transforms/AllocToInPlace.cpp"]}
{"id": "C65", "title": "dimension analysis", "statement": "The dimension reported for a ciphertext is an upper bound of its number of components, and exact for straight-line programs; every order of visits stays below every fixed point.", "quantifier": "every program of operations and loops, every fixed point and every execution", "why_tests_cant": "all programs, orders of visits and loop trip counts", "anchors": ["lib/Analysis/DimensionAnalysis/DimensionAnalysis.h", "lib/Analysis/DimensionAnalysis/DimensionAnalysis.cpp"]}
{"id": "C66", "title": "placement of relinearizations", "statement": "Removing all relinearizations and inserting the ones decided by the solver keeps what the program computes; the backend accepts the new program (rotations, modulus reductions, plaintext operations and results have degree 1, no degree exceeds 2, degrees of operands agree unless mixed degrees are allowed); a solution always exists, and an optimal one has the fewest relinearizations of all legal programs.", "quantifier": "every program, every feasible answer of the solver, every execution", "why_tests_cant": "all programs and all solver answers", "anchors": ["lib/Transforms/OptimizeRelinearization/OptimizeRelinearization.cpp", "lib/Analysis/OptimizeRelinearizationAnalysis/OptimizeRelinearizationAnalysis.cpp"]}
{"id": "C67", "title": "insertion of management operations", "statement": "If the insertion of management operations for BGV or CKKS succeeds, the result can be executed with the moduli of the level budget: the ciphertext operands of every operation have the same level, no modulus is dropped that is not there, every product is relinearized before its next use, outputs have the level of their multiplicative depth, and the cleartext function is that of the source.  It succeeds whenever the depths fit in the budget.", "quantifier": "every source program, every mode of the pass, every budget, every order of the cleaning rewrites", "why_tests_cant": "all programs and all orders of rewriting", "anchors": ["lib/Transforms/SecretInsertMgmt/Pipeline.cpp:100-324", "lib/Transforms/SecretInsertMgmt/SecretInsertMgmtPatterns.cpp", "lib/Analysis/LevelAnalysis/LevelAnalysis.cpp", "lib/Analysis/MulDepthAnalysis/MulDepthAnalysis.cpp", "lib/Dialect/Mgmt/IR/MgmtOps.cpp:19-225"]}
{"id": "C68", "title": "annotation of levels", "statement": "After the insertion, every ciphertext is annotated with the number of moduli it still has, counted from the lowest value of the program: operands of an operation agree, dropping moduli lowers the annotation by as many, and plaintext operands get the level of the operation that uses them.", "quantifier": "every source program, budget and order of the cleaning rewrites", "why_tests_cant": "all programs and all orders of rewriting", "anchors": ["lib/Dialect/Mgmt/Transforms/AnnotateMgmt.cpp:90-163", "lib/Analysis/LevelAnalysis/LevelAnalysis.cpp:224-380"]}
{"id": "C69", "title": "management for B/FV", "statement": "For B/FV no modulus is dropped, every product is relinearized before its next use, every ciphertext is annotated with the largest multiplicative depth, and the cleartext function is that of the source.", "quantifier": "every source program of depth at most 40 and every order of the cleaning rewrites", "why_tests_cant": "all programs and all orders of rewriting", "anchors": ["lib/Transforms/SecretInsertMgmt/SecretInsertMgmtBFV.cpp:37-92", "lib/Analysis/MulDepthAnalysis/MulDepthAnalysis.cpp:109-131"]}
{"id": "C70", "title": "scales of B/GV ciphertexts", "statement": "If the scale analysis succeeds with assertions on, then running the program, with adjust_scale turned into products with ones, leaves in every ciphertext its scale times the cleartext modulo t, and the scale is invertible, so decryption gives the cleartext result. If a consistent assignment of scales exists, the analysis never fails and computes it, in debug and in release builds.", "quantifier": "every straight-line program with management operations, every plaintext modulus, all moduli coprime to it, every visiting order of the solver", "why_tests_cant": "all programs, moduli, visiting orders and messages", "anchors": ["lib/Analysis/ScaleAnalysis/ScaleAnalysis.cpp:39-103", "lib/Analysis/ScaleAnalysis/ScaleAnalysis.cpp:163-341", "lib/Analysis/ScaleAnalysis/ScaleAnalysis.cpp:366-541", "lib/Transforms/PopulateScale/PopulateScaleBGV.cpp:30-110", "lib/Transforms/PopulateScale/PopulateScalePatterns.cpp:18-67"]}
{"id": "C71", "title": "scales of CKKS ciphertexts", "statement": "If the management operations drop the right moduli, that is, there is an estimate of the scales in which at most the operands reduced once too often fall below the default scale, then populate-scale-ckks finds scales for every ciphertext: operands of sums agree, products add, reductions subtract the dropped modulus, no scale is below the default, and inputs, outputs and levels of the program are unchanged. Running the result, with adjust_scale turned into products with ones, leaves in every ciphertext 2^scale times the cleartext result.", "quantifier": "every straight-line program with management operations, every default scale and list of moduli, with and without a reduction before the first product", "why_tests_cant": "all programs, moduli and messages", "anchors": ["lib/Analysis/ScaleAnalysis/ScaleAnalysis.cpp:106-160", "lib/Analysis/ScaleAnalysis/ScaleAnalysis.cpp:163-341", "lib/Transforms/PopulateScale/PopulateScaleCKKS.cpp:59-270", "lib/Transforms/PopulateScale/PopulateScaleCKKS.cpp:396-447", "lib/Transforms/PopulateScale/PopulateScalePatterns.cpp:18-67"]}
{"id": "C72", "title": "Layouts place every element of a tensor in a slot and mix up none", "statement": "The relations built by getRowMajorLayoutRelation, getDiagonalLayoutRelation, getBicyclicLayoutRelation, getTricyclicLayoutRelation, getBicyclicDiagonalLayoutRelation, getPeriodicLayoutRelation and getPerRowLayoutRelation contain exactly the (index; ciphertext, slot) pairs of the packing they are named after: row-major with repetition to the next power of two, generalised diagonals, remainders of the position, one row per ciphertext. No slot holds two elements, every element has a slot, every slot lies inside the ciphertexts, and the periodic layouts are unchanged by a rotation by their period.", "quantifier": "for all tensor shapes (up to 2^24 elements), slot counts, indices, ciphertexts and slots", "why_tests_cant": "A test evaluates one shape in one slot count; the relation is a set of linear constraints with existential variables whose integer points depend on all sizes at once, including sizes that are no power of two or do not divide the slot count.", "anchors": ["lib/Utils/Layout/Utils.cpp:47-96", "lib/Utils/Layout/Utils.cpp:116-185", "lib/Utils/Layout/Utils.cpp:187-238", "lib/Utils/Layout/Utils.cpp:261-317", "lib/Utils/Layout/Utils.cpp:319-391", "lib/Utils/Layout/Utils.cpp:400-470", "lib/Utils/Layout/Utils.cpp:472-508", "lib/Utils/Layout/Utils.cpp:510-550"]}
{"id": "C73", "title": "Packing a tensor by a layout and unpacking it gives the tensor back", "statement": "enumeratePoints lists every (index; ciphertext, slot) pair of a layout exactly once, whether it loops over the box of indices found by getDomainBox or asks isl for the points of the whole relation. evaluateLayout puts each element into the slots the layout relates to it and zero into the others, never writing outside of the ciphertexts; unpackLayout recovers the tensor from any ciphertexts holding its elements there. getCtComplementPoints lists exactly the ciphertexts without an element, in ascending order, although it stops early.", "quantifier": "for all relations and layouts, tensors of any rank and shape, element types, and any order in which isl lists points", "why_tests_cant": "Tests evaluate a few layouts on a few tensors; the box is derived from the constraint matrix, and a missed index or a wrong bound shows only for shapes where the constraint decides.", "anchors": ["lib/Utils/Layout/Utils.cpp:803-873", "lib/Utils/Layout/Utils.cpp:875-944", "lib/Utils/Layout/Utils.cpp:953-1030", "lib/Utils/Layout/Utils.cpp:1063-1108", "lib/Utils/Layout/Evaluate.h:32-208"]}
{"id": "C74", "title": "The loop nest generated for a relation runs the caller's body once per statement of the isl tree, in order", "statement": "For a tree of loops, conditionals, blocks and statements as isl generates it, the scf/arith operations created by MLIRLoopNestGenerator evaluate every expression to its value, run the body for exactly the statements the tree runs and in the same order, thread the iteration arguments from each run to the next, and the returned loop yields the final values. With reverse, the order is exactly the opposite (for trees without blocks of several children).", "quantifier": "for all isl trees whose values fit in 30 bits and whose root is a loop, all bodies, all initial values", "why_tests_cant": "Tests compare the printed IR of a few relations; bounds (<= versus <), strides, reversed induction variables, conditions and the numbering of iteration arguments are each exercised by one or two trees.", "anchors": ["lib/Utils/Layout/Codegen.cpp:50-69", "lib/Utils/Layout/Codegen.cpp:216-353", "lib/Utils/Layout/Codegen.cpp:355-605", "lib/Utils/Layout/Codegen.cpp:607-650"]}
{"id": "C75", "title": "Assigning a layout leaves every element in exactly its slots, however it is implemented, and unpacking reads it back", "statement": "Whichever of the implementations implementAssignLayoutStep picks (constant zero, loop of remainders for bicyclic and tricyclic layouts, splat, folding a constant through raw bytes or attributes, loop nest), the resulting ciphertext tensor holds each element of the value in all slots the layout relates to it and zero in all others. implementUnpackOp reads each element from the lexicographically first of its slots and yields zero for elements without slot, so unpacking after packing is the identity. Arrays of layouts pack and unpack by the composition of their relations. For a permutation the last move to a slot decides.", "quantifier": "for all element types, values, relations, targets, schedules, codegen strategies and slot counts", "why_tests_cant": "Tests look at the IR of a few layouts; that the five implementations agree for every relation, and that shape computations, strides, byte offsets and restriction of the domain fit together, is only sampled.", "anchors": ["lib/Transforms/ConvertToCiphertextSemantics/AssignLayout.cpp:61-169", "lib/Transforms/ConvertToCiphertextSemantics/AssignLayout.cpp:171-237", "lib/Transforms/ConvertToCiphertextSemantics/AssignLayout.cpp:239-254", "lib/Transforms/ConvertToCiphertextSemantics/AssignLayout.cpp:256-310", "lib/Transforms/ConvertToCiphertextSemantics/AssignLayout.cpp:312-614", "lib/Transforms/ConvertToCiphertextSemantics/AssignLayout.cpp:616-668", "lib/Transforms/ConvertToCiphertextSemantics/AssignLayout.cpp:670-719", "lib/Utils/Layout/Utils.cpp:638-669", "lib/Utils/Layout/Utils.cpp:1339-1409", "lib/Transforms/ConvertToCiphertextSemantics/TypeConversion.cpp:27-59"]}
{"id": "C76", "title": "Lowered matrix products compute the product plus the accumulator in the layout given to the result", "statement": "For linalg.matvec, linalg.matmul, linalg.batch_matmul and linalg.dot on secrets: if the operands are packed with the layouts that layout propagation chooses for them (or with layouts that isRelationEqual identifies with them) and the accumulator with the layout of the result, then the kernel that replaces the operation succeeds and leaves the matrix product plus the accumulator packed with the layout chosen for the result, in every slot including the replicated ones. For matvec this includes skipping the diagonals that getCtComplementPoints reports as empty.", "quantifier": "for all commutative rings, matrix dimensions, slot counts with room for the kernel, contents, and sound layout comparisons", "why_tests_cant": "Lit tests compare IR; execution tests sample a few shapes and cannot see that layouts, skipped diagonals, kernel, bias addition and replication agree for every shape.", "anchors": ["lib/Transforms/LayoutPropagation/LayoutPropagation.cpp:721-786", "lib/Transforms/LayoutPropagation/LayoutPropagation.cpp:788-809", "lib/Transforms/LayoutPropagation/LayoutPropagation.cpp:1274-1355", "lib/Transforms/LayoutPropagation/LayoutPropagation.cpp:1357-1522", "lib/Transforms/LayoutPropagation/LayoutPropagation.cpp:2042-2075", "lib/Transforms/LayoutPropagation/LayoutPropagation.cpp:2218-2263", "lib/Transforms/ConvertToCiphertextSemantics/ConvertToCiphertextSemantics.cpp:687-697", "lib/Transforms/ConvertToCiphertextSemantics/ConvertToCiphertextSemantics.cpp:779-828", "lib/Transforms/ConvertToCiphertextSemantics/ConvertToCiphertextSemantics.cpp:850-894", "lib/Transforms/ConvertToCiphertextSemantics/ConvertToCiphertextSemantics.cpp:2782-2863", "lib/Transforms/ConvertToCiphertextSemantics/ConvertToCiphertextSemantics.cpp:2871-2945", "lib/Transforms/ConvertToCiphertextSemantics/ConvertToCiphertextSemantics.cpp:2969-3030"]}
{"id": "C77", "title": "The polynomial code generated for RLWE operations acts on the encrypted values", "statement": "Lowering lwe.radd, lwe.rsub, lwe.mul_scalar, lwe.rmul and lwe.mul_ring_elt to the polynomial dialect produces ciphertexts whose value c0 + c1*s + c2*s^2 (modulo every RNS modulus, for every key s) is the sum, difference, scalar multiple or product of the values of the operands. Encryption produces a ciphertext for the message plus a multiple of the noise; decryption inverts the encoding when the noise is small.", "quantifier": "for all ring degrees, lists of moduli, keys, ciphertexts, scalars, messages and noise samples", "why_tests_cant": "Lit tests compare the generated IR; no test evaluates the polynomials for keys and moduli, and none encrypts and decrypts through this lowering.", "anchors": ["lib/Dialect/LWE/Conversions/LWEToPolynomial/LWEToPolynomial.cpp:104-160", "lib/Dialect/LWE/Conversions/LWEToPolynomial/LWEToPolynomial.cpp:162-318", "lib/Dialect/LWE/Conversions/LWEToPolynomial/LWEToPolynomial.cpp:320-377", "lib/Dialect/LWE/Conversions/LWEToPolynomial/LWEToPolynomial.cpp:380-416", "lib/Dialect/LWE/Conversions/LWEToPolynomial/LWEToPolynomial.cpp:418-489", "lib/Dialect/LWE/Conversions/LWEToPolynomial/LWEToPolynomial.cpp:491-563", "lib/Dialect/LWE/IR/LWEOps.td:282-284"]}
{"id": "C78", "title": "Key switching and relinearization preserve the encrypted value up to the noise of the key", "statement": "lwe.mod_down, decomposed into base conversion, subtraction and multiplication by the inverse of P, returns the nearest quotient by the product P of the dropped primes. lwe.key_switch_inner, decomposed into digits, products with the key parts and a mod_down, returns two polynomials that under the output key stand for the input polynomial times the input key, plus a noise v with 2*P*|v| <= n*B*sum of the digit moduli + P*(1 + n*|s|). ckks.relinearize with a key from s^2 to s returns a two-component ciphertext with the value of the three-component input plus that noise.", "quantifier": "for all ring degrees, word widths, lists of pairwise coprime odd moduli, partitions, keys with noise at most B, and input polynomials; one or two key-switch primes", "why_tests_cant": "The property relates residues modulo all moduli and a noise bound; tests run one parameter set, and the base conversion is wrong only with three or more primes.", "anchors": ["lib/Dialect/LWE/Transforms/DecomposeLWEOps.cpp:36-73", "lib/Dialect/LWE/Transforms/DecomposeLWEOps.cpp:80-146", "lib/Dialect/LWE/Transforms/DecomposeLWEOps.cpp:148-290", "lib/Dialect/LWE/Conversions/LWEToPolynomial/LWEToPolynomial.cpp:626-655", "lib/Dialect/CKKS/Transforms/DecomposeRelinearize.cpp:25-58", "lib/Dialect/LWE/IR/LWEOps.cpp:114-133"]}
{"id": "C79", "title": "Rewriting secret.generic preserves the computed values", "statement": "Applying one of the rewrites of secret.generic - inlining a generic without secret operands, dropping unused results and operands, turning plaintext block arguments into captures and captures into block arguments, merging adjacent generics, removing repeated results, hoisting operations in front of or behind the generic, and moving secret.conceal into or out of it - to a generic anywhere in a block yields a block that computes the same values, for every interpretation of the remaining operations. The same holds inside loops, conditionals and other generics, and for sequences of canonicalizations.", "quantifier": "for all blocks in SSA form with nested generics, loops and conditionals, all interpretations of the other operations, all values visible in the block", "why_tests_cant": "Lit tests compare the IR of a few programs and never run it; values captured by nested regions, values yielded more than once and plaintext operands that are passed through do not occur in them.", "anchors": ["lib/Dialect/Secret/IR/SecretOps.td:115-185", "lib/Dialect/Secret/IR/SecretPatterns.cpp:104-168", "lib/Dialect/Secret/IR/SecretPatterns.cpp:170-230", "lib/Dialect/Secret/IR/SecretPatterns.cpp:232-285", "lib/Dialect/Secret/IR/SecretPatterns.cpp:287-341", "lib/Dialect/Secret/IR/SecretPatterns.cpp:343-473", "lib/Dialect/Secret/IR/SecretPatterns.cpp:511-550", "lib/Dialect/Secret/IR/SecretPatterns.cpp:552-622", "lib/Dialect/Secret/IR/SecretPatterns.cpp:624-710", "lib/Dialect/Secret/IR/SecretPatterns.cpp:712-786", "lib/Dialect/Secret/IR/SecretOps.cpp:387-465", "lib/Dialect/Secret/IR/SecretOps.cpp:480-611", "lib/Dialect/Secret/IR/SecretOps.cpp:640-752"]}
{"id": "C80", "title": "Splitting a secret.generic keeps its meaning", "statement": "When secret-distribute-generic splits a secret.generic with several operations, the two generics that replace it compute the same values for every interpretation of the operations, and the result is again in SSA form. With a list of operations to distribute through, the operations in front of the first listed one end up in the first generic and the listed one starts the second; a first operation that is listed, or any first operation when no list is given, gets a generic of its own. Splitting never fails on a generic with two or more operations one of which is listed. A generic that only holds a secret.separator is removed without effect on the other values.", "quantifier": "for all blocks in SSA form, all generics with two or more operations in dominance order, all lists of operations, all interpretations of the operations", "why_tests_cant": "Lit tests compare the IR of a few short generics; they do not reach values used across several split points, operands shared between both halves and operations with regions that capture block arguments.", "anchors": ["lib/Dialect/Secret/Transforms/DistributeGeneric.cpp:69-90", "lib/Dialect/Secret/Transforms/DistributeGeneric.cpp:567-691", "lib/Dialect/Secret/Transforms/DistributeGeneric.cpp:697-708", "lib/Dialect/Secret/Transforms/DistributeGeneric.cpp:710-718", "lib/Dialect/Secret/Transforms/DistributeGeneric.cpp:720-778"]}
{"id": "C81", "title": "Moving a secret.generic into a conditional or a loop keeps its meaning", "statement": "When secret-distribute-generic moves a secret.generic into the branches of the conditional it holds, or into the body of the loop it holds, the replacement computes the same values: loop-carried block arguments become the secret operands, plaintext initial values that are marked are concealed, and the results of the loop replace those of the generic. A conditional on a block argument and a loop with a secret bound are left in place.", "quantifier": "for all blocks in SSA form, all conditionals and loops with arbitrary bodies, all numbers of loop-carried values, all marks, all interpretations of the operations and all trip counts", "why_tests_cant": "Tests compare IR for a few loops in which every block argument initializes at most one loop-carried value and is not read otherwise.", "anchors": ["lib/Dialect/Secret/Transforms/DistributeGeneric.cpp:95-132", "lib/Dialect/Secret/Transforms/DistributeGeneric.cpp:168-246", "lib/Dialect/Secret/Transforms/DistributeGeneric.cpp:248-275", "lib/Dialect/Secret/Transforms/DistributeGeneric.cpp:277-350", "lib/Dialect/Secret/Transforms/DistributeGeneric.cpp:352-408", "lib/Dialect/Secret/Transforms/DistributeGeneric.cpp:410-493", "lib/Dialect/Secret/Transforms/DistributeGeneric.cpp:500-553"]}
{"id": "C82", "title": "Lookup tables keep their truth table from the netlist to the back end", "statement": "A lookup-table cell of the synthesized netlist computes, on encrypted inputs, the function given by its LUT parameter: the importer assembles the constant so that input A is the least significant bit of the row number, the lowering of the truth table to a cggi lookup table of two, three or four inputs keeps the value of every row, and so do the tfhe-rs and jaxite back ends, which order the inputs differently. Expanding a gate or a lookup table into a linear combination followed by a programmable bootstrap gives the same bit. Packing gates or lookup tables into one vector operation gives in each lane what the single operation gives.", "quantifier": "for all tables, all inputs, all netlist cells with up to four inputs, all plaintext widths accepted by the verifiers, all coefficients, all lists of packed operations", "why_tests_cant": "Tests run a handful of tables that are symmetric in their inputs, for which the order of the inputs cannot be observed, and compare the IR otherwise.", "anchors": ["lib/Transforms/YosysOptimizer/LUTImporter.cpp", "lib/Transforms/YosysOptimizer/yosys/techmap_lut3.v", "lib/Transforms/YosysOptimizer/yosys/techmap_lut4.v", "lib/Dialect/Secret/Conversions/SecretToCGGI/SecretToCGGI.cpp:66-87", "lib/Dialect/CGGI/Transforms/DecomposeOperations.cpp", "lib/Dialect/CGGI/Transforms/DecomposeOperations.td", "lib/Dialect/CGGI/IR/CGGIOps.cpp:142-315", "lib/Dialect/CGGI/Conversions/CGGIToTfheRust/CGGIToTfheRust.cpp", "lib/Dialect/CGGI/Conversions/CGGIToJaxite/CGGIToJaxite.cpp:107-189", "lib/Dialect/CGGI/Conversions/CGGIToTfheRustBool/CGGIToTfheRustBool.cpp:143-180"]}
{"id": "C83", "title": "Vectorizing a block of gates keeps its meaning", "statement": "The boolean vectorizer and the straight line vectorizer pack compatible operations of a block into vector operations. On every block in SSA form they succeed, the operations that result can be put into SSA order again, and in every such order the block returns the same values as before, for every interpretation of the operations. No vector operation has more lanes than the requested parallelism, and two compatible gates on which no other gate depends are always packed.", "quantifier": "for all blocks in SSA form, all kinds and numbers of gates, lookup tables and other operations between them, all limits on the parallelism, all interpretations of the operations", "why_tests_cant": "Lit tests compare the IR for a few blocks; dependencies through operations that are not vectorized, several buckets per level and operands that are themselves replaced are not reached systematically.", "anchors": ["lib/Transforms/BooleanVectorizer/BooleanVectorizer.cpp:36-77", "lib/Transforms/BooleanVectorizer/BooleanVectorizer.cpp:79-117", "lib/Transforms/BooleanVectorizer/BooleanVectorizer.cpp:119-238", "lib/Transforms/StraightLineVectorizer/StraightLineVectorizer.cpp:26-38", "lib/Transforms/StraightLineVectorizer/StraightLineVectorizer.cpp:38-158", "lib/Dialect/CGGI/IR/CGGIOps.cpp:142-315"]}
{"id": "C84", "title": "The function imported from a netlist computes the netlist", "statement": "The Yosys optimizer imports a module of gates or lookup tables as a function. For every module and every assignment of bits to its wires that agrees with all cells and connections, running the imported function on the input ports returns the output ports, where bits that nothing drives are 0, as long as no bit of an output of several bits is read before it is driven on its own. The import succeeds for every module in topological order whose connections copy single bits or whole wires.", "quantifier": "for all modules (wires of any width, gates, lookup tables of two to four inputs, connections), all topological orders of the cells, all assignments that agree with the module", "why_tests_cant": "Lit tests import a few circuits and check the IR; the mix of single bits, whole wires and constants on both sides of connections and ports is not reached systematically.", "anchors": ["lib/Transforms/YosysOptimizer/RTLILImporter.cpp:85-114", "lib/Transforms/YosysOptimizer/RTLILImporter.cpp:116-138", "lib/Transforms/YosysOptimizer/RTLILImporter.cpp:140-267", "lib/Transforms/YosysOptimizer/BooleanGateImporter.cpp:1-60", "lib/Transforms/YosysOptimizer/LUTImporter.cpp:1-71"]}
{"id": "C85", "title": "Integers and tensors are represented by their bits in order", "statement": "Secret integers become tensors of bits, the least significant bit first, and secret tensors get the bits as their last dimension. convertIntegerValueToTensorOfBits yields the bits of every integer of at most 32 bits, secret.conceal those of integers of any width, secret.cast from and to flat tensors of bits keeps all bits in row-major order, and reading or writing an element of a secret tensor reads or replaces exactly the bits of that element. unflattenIndex finds the indices that flattenIndex was given, for row-major strides and any offset. convertTensorOfBitsToInteger sets bit j if one of the bits up to j is set.", "quantifier": "for all widths, all integers, all shapes, all indices in bounds, all contents of the tensors", "why_tests_cant": "Lit tests check that the expected operations occur and how many; the values of the masks, the sign extension and the indices that are extracted are not evaluated.", "anchors": ["lib/Utils/TransformUtils.cpp:67-91", "lib/Utils/TransformUtils.cpp:93-114", "lib/Dialect/Secret/Conversions/SecretToCGGI/SecretToCGGI.cpp:89-190", "lib/Dialect/Secret/Conversions/SecretToCGGI/SecretToCGGI.cpp:238-262", "lib/Dialect/Secret/Conversions/SecretToCGGI/SecretToCGGI.cpp:458-552", "lib/Dialect/Secret/Conversions/SecretToCGGI/SecretToCGGI.cpp:554-650", "lib/Transforms/MemrefToArith/Utils.cpp:55-75"]}
{"id": "C86", "title": "Integer programs keep their results when executed modulo a number", "statement": "arith-to-mod-arith and secret-to-mod-arith execute programs of additions, subtractions and multiplications of integers as operations modulo q. With a given modulus the result is the exact integer result modulo q, for every program and all arguments, as long as constants in tensors and plaintexts are neither negative nor, for secret-to-mod-arith, at least q; so a program that is concealed, executed and revealed returns the result on machine integers whenever the exact result lies between 0 and q. Without a given modulus the result is that on machine integers of w bits modulo 2^(w-1).", "quantifier": "for all programs of any size, all widths up to 64 bits, all moduli below 2^63, all arguments", "why_tests_cant": "Lit tests check the created operations; the values of the moduli, the extension of constants and the sign of plaintexts matter only on particular numbers.", "anchors": ["lib/Dialect/Arith/Conversions/ArithToModArith/ArithToModArith.cpp:41-58", "lib/Dialect/Arith/Conversions/ArithToModArith/ArithToModArith.cpp:105-155", "lib/Dialect/Arith/Conversions/ArithToModArith/ArithToModArith.cpp:157-193", "lib/Dialect/Secret/Conversions/SecretToModArith/SecretToModArith.cpp:108-170", "lib/Dialect/Secret/Conversions/SecretToModArith/SecretToModArith.cpp:251-354", "lib/Dialect/Secret/Conversions/SecretToModArith/SecretToModArith.cpp:356-398", "lib/Dialect/ModArith/Conversions/ModArithToArith/ModArithToArith.cpp:158-212"]}
{"id": "C87", "title": "Unrolling tensors into scalars keeps the results of a program", "statement": "After convert-tensor-to-scalars a program computes the same scalars, and returns its tensors as scalars in column-major order or unchanged if they have more than max-size elements, if its small tensor arguments are passed in column-major order and every small from_elements, constant and operand of an operation that the pass does not convert has at most one dimension other than 1.", "quantifier": "for all programs of inserts, extracts, from_elements, constants, scalar and other operations, all shapes, all values", "why_tests_cant": "The tests of the pass use vectors, for which row-major and column-major order are the same.", "anchors": ["lib/Transforms/TensorToScalars/TensorToScalars.cpp:40-60", "lib/Transforms/TensorToScalars/TensorToScalars.cpp:64-96", "lib/Transforms/TensorToScalars/TensorToScalars.cpp:100-239", "lib/Transforms/TensorToScalars/TensorToScalars.cpp:245-290"]}
{"id": "C88", "title": "Relations of slices and forwarding of slices", "statement": "The relations that getSliceInsertionRelation and getSliceExtractionRelation compute hold exactly between an index of a slice and the element of the tensor it refers to, if and only if dimensions of size 1 come last in the shape of the slice; padding relations and shifted relations likewise. forward-insert-slice-to-extract-slice replaces a slice by a tensor with the same elements, if all offsets are static and slices have this form.", "quantifier": "for all ranks, shapes, offsets, sizes, strides and chains of insertions of any length", "why_tests_cant": "The tests have slices without dimensions of size 1 and static offsets only.", "anchors": ["lib/Utils/Layout/Utils.cpp:1144-1300", "lib/Transforms/ForwardInsertSliceToExtractSlice/ForwardInsertSliceToExtractSlice.cpp:33-140"]}
{"id": "C89", "title": "Element and slice access on packed tensors", "statement": "When tensors are packed into ciphertexts by layouts, the lowerings of tensor.extract, tensor.insert, tensor.extract_slice, tensor.insert_slice and tensor.pad by masks and remaps produce ciphertexts that hold, at every point of the result's layout, the element of the tensor the operation defines; the layouts chosen by layout propagation for slices and padded tensors describe those tensors.", "quantifier": "For all shapes, indices, slices, paddings, contents, and all layouts in which no slot belongs to two elements, and every remap result its documentation allows.", "why_tests_cant": "Tests run a few layouts and sizes; which slot is picked, which layout the optimizer assigns to the result and how slots are replicated vary without bound.", "anchors": ["lib/Transforms/ConvertToCiphertextSemantics/ConvertToCiphertextSemantics.cpp:113-156", "lib/Transforms/ConvertToCiphertextSemantics/ConvertToCiphertextSemantics.cpp:1596-2131", "lib/Transforms/ConvertToCiphertextSemantics/ConvertToCiphertextSemantics.cpp:2163-2530", "lib/Transforms/LayoutPropagation/LayoutPropagation.cpp:1591-1790"]}
{"id": "C90", "title": "Convolutions as matrix products", "statement": "The relations that expand a convolution filter into a matrix place every element of the filter where the product of the matrix with the flattened data gives the convolution, for one and two dimensions, with strides, padding and channels; the interchange of rows is a bijection that the recorded result layout describes; and the Halevi-Shoup kernel on the filter packed by the composed relations leaves the value of the convolution in every slot of its output.", "quantifier": "For all filter and data sizes, strides, paddings, numbers of channels and slots, contents over any commutative ring, and every matrix that the relation allows.", "why_tests_cant": "Tests check a few sizes; an index that is off by one for some stride, padding or number of channels only shows for particular sizes.", "anchors": ["lib/Utils/Layout/Convolution.cpp:28-221", "lib/Utils/Layout/Convolution.cpp:223-447", "lib/Utils/Layout/Convolution.cpp:465-602", "lib/Utils/Layout/Convolution.cpp:615-669", "lib/Utils/Layout/Convolution.cpp:727-843", "lib/Transforms/ConvertToCiphertextSemantics/ConvertToCiphertextSemantics.cpp:1468-1523"]}
{"id": "C91", "title": "Fusion of convolutions and poolings", "statement": "A convolution followed by a sum pooling, and by a multiplication or division by a constant, has the value of the single convolution that it is fused to, with the fused filter, the product of the strides and the pooled and scaled initial value, and the fused convolution reads inside of the input; sum and average poolings have the value of the convolution that replaces them; a dilated convolution has the value of the undilated one with the filter spread with zeros.", "quantifier": "For all sizes, strides, dilations, numbers of channels, filters, data and initial values over any commutative ring with exact division.", "why_tests_cant": "Tests fix a handful of sizes; errors in the flattened indices or in the initial value only show for particular combinations of stride, dilation and window, and no test uses a generic operation that reads or yields something else.", "anchors": ["lib/Transforms/LinalgCanonicalizations/ConvPoolFusion.cpp:40-102", "lib/Transforms/LinalgCanonicalizations/ConvPoolFusion.cpp:106-165", "lib/Transforms/LinalgCanonicalizations/ConvPoolFusion.cpp:167-217", "lib/Transforms/LinalgCanonicalizations/LinalgCanonicalizations.cpp:670-753", "lib/Transforms/LinalgCanonicalizations/LinalgCanonicalizations.cpp:755-843", "lib/Transforms/LinalgCanonicalizations/LinalgCanonicalizations.cpp:867-1008", "lib/Transforms/LinalgCanonicalizations/LinalgCanonicalizations.cpp:1200-1360"]}
{"id": "C92", "title": "Ranges bound the values", "statement": "When the range analysis has stopped, in whatever order it visited the operations, every value that the program may compute is bounded in absolute value by the range of that value; without loops a single pass in the order of the program stops, and gives a range to all values when the constants are visible.", "quantifier": "For all programs of arguments, constants, sums, products, insertions, merges and other operations, all input ranges, visit orders and executions.", "why_tests_cant": "Tests print the ranges of a few programs; no test compares them with values, and soundness is about all values.", "anchors": ["lib/Analysis/RangeAnalysis/RangeAnalysis.cpp:36-164", "lib/Analysis/RangeAnalysis/RangeAnalysis.h:20-67", "lib/Analysis/RangeAnalysis/RangeAnalysis.h:83-86"]}
{"id": "C93", "title": "The BGV noise analysis bounds the noise of the ciphertexts", "statement": "For every straight-line program of homomorphic additions, subtractions, multiplications (also by plaintexts), rotations, relinearizations, scale adjustments and level reductions over fresh BGV encryptions, the worst case noise model assigns to every value a number that bounds every coefficient of the noise of the ciphertext, whatever keys, errors (up to six standard deviations) and ciphertexts are drawn; and when the bound leaves half a plaintext modulus of room, decryption yields the result of the program on the messages.", "quantifier": "for all ring dimensions that are powers of two, plaintext moduli, chains of primes, ternary keys, errors up to 6 sigma, messages, plaintext operands, key switching keys, roundings and programs", "why_tests_cant": "Noise of a real ciphertext is far below the worst case, so a bound that is too small is not seen by running programs; tests compare the printed bounds with golden numbers.", "anchors": ["lib/Analysis/NoiseAnalysis/BGV/NoiseByBoundCoeffModel.cpp:NoiseByBoundCoeffModel", "lib/Analysis/NoiseAnalysis/BGV/NoiseAnalysis.cpp:visitOperation", "lib/Transforms/ValidateNoise/ValidateNoise.cpp:validateNoiseForValue", "lib/Parameters/RLWEParams.cpp:computeDnum", "lib/Parameters/BGV/Params.cpp:getSchemeParamFromAttr"]}
{"id": "C94", "title": "Kernel costs are the numbers of rotations of encrypted data", "statement": "The cost that layout optimization assigns to a kernel is the number of rotations of encrypted data that the kernel performs: every rotation node of the kernel's graph (every shift of a bulk rotation) whose operand is computed from an encrypted leaf counts once, however often its result is shared, times the number of runs of the loops around it; rotations of plaintexts cost nothing. The cost of a layout conversion is the largest number, over the groups of rotations, of paths from an output to a rotation.", "quantifier": "for all acyclic graphs of operations with any sharing, any nodes as results, any shifts, loop bounds and nesting", "why_tests_cant": "Tests compare the cost of a few kernels built without loops with formulas; a cost that is too low or too high only changes which layout is chosen, never the result of a program.", "anchors": ["lib/Kernel/RotationCountVisitor.cpp:RotationCountVisitor", "lib/Kernel/ArithmeticDag.h:CachingVisitor", "lib/Transforms/LayoutOptimization/LayoutConversionCost.cpp:computeCostOfLayoutConversion", "lib/Kernel/KernelImplementation.h:implementRotateAndReduceAccumulationRolled"]}
{"id": "C95", "title": "The rotation analysis finds every rotation a program executes", "statement": "The set of rotation indices that RotationAnalysis returns, from which the rotation keys are generated, contains for every rotation the program executes an index equal to the amount up to the number of slots, whichever loops and branches the rotation is in and however its amount is computed.", "quantifier": "for all programs of nested loops with constant bounds, branches, integer arithmetic, comparisons, divisions by constants, rotations (single and bulk) and further operations, all arguments and slot counts", "why_tests_cant": "Tests compare the indices found for a few loops with expected lists; a missing index only shows when the compiled program runs with keys generated for the list and reaches the rotation, possibly only for some arguments.", "anchors": ["lib/Analysis/RotationAnalysis/RotationAnalysis.cpp:RotationAnalysis::run", "lib/Analysis/RotationAnalysis/DagBuilder.cpp:DagBuilder::build", "lib/Analysis/RotationAnalysis/RotationEvalVisitor.cpp:evalRotations", "lib/Kernel/EvalVisitor.cpp:EvalVisitor"]}
{"id": "C96", "title": "Generated parameters have suitable primes and a secure ring dimension", "statement": "The parameters that getConcreteSchemeParam generates for BGV and CKKS have one modulus per level and enough special primes, all of them primes that are 1 modulo twice the ring dimension, pairwise distinct and different from the plaintext modulus; moduli have at least the size requested by the noise analysis; the product of the special primes exceeds every digit of the modulus; and the product of all primes has at most the number of bits that the table of security parameters allows for the ring dimension.", "quantifier": "for all requested sizes, plaintext moduli and slot counts, and all behaviours of OpenFHE's prime generators that return primes of the requested form", "why_tests_cant": "Tests compare the parameters of a few programs with expected lists; a repeated prime, a special modulus below a digit or a modulus one bit above the limit shows as wrong decryptions or weaker security only for particular sizes.", "anchors": ["lib/Parameters/RLWEParams.cpp:getConcreteRLWESchemeParam", "lib/Parameters/RLWEParams.cpp:findPrime", "lib/Parameters/RLWESecurityParams.cpp:computeRingDim", "lib/Parameters/CKKS/Params.cpp:getConcreteSchemeParam", "lib/Transforms/GenerateParam/GenerateParamBGV.cpp:generateParamByGap"]}
