# Formal model of padasip in Coq 8.16 — design

## 1. What is modelled and how

The code in /repo/padasip is small numerical Python on numpy arrays.  It is modelled as a shallow,
executable Gallina model, function by function, with Python exceptions as values and object mutation
as an explicit state (a state is returned *also* when an exception is raised, as in Python).

* **Numbers.**  All code is written over a record of operations `Num T` (add, sub, mul, ..., `np.dot`,
  `np.sum`, `np.linalg.solve`, ...) with *no laws*.  Structural theorems (run vs adapt, chunking,
  causality, shapes, errors, memory windows ...) are proved for every `T` and every `Num T`, hence also
  for IEEE float64 with whatever summation order BLAS uses.  Algebraic theorems (stability, optimality,
  distances ...) are proved for the instance over the real numbers (`RNum`): they are statements about
  exact arithmetic, rounding is out of scope and said so.  Witnesses of violations are computed over exact
  rationals (`QNum`) or kernel binary64 floats (`FNum`).
* **Arrays.**  1-d arrays are lists, 2-d arrays are lists of rows.  numpy broadcasting of unequal
  lengths (equal, or one of them 1, else ValueError) is modelled where the code relies on it.
* **Exceptions.**  `result A = Ok a | Err exn`; methods are in the monad `M S A = S -> S * result A`.
* **External code.**  np.linalg.solve / eig / inv, scipy's genpareto, np.random and argsort are
  parameters (fields of `Num` or arguments); what is assumed of them is in the hypothesis of each theorem.

Files: `Py.v` (exceptions, monad, slices), `Num.v` (operation record, R / Q / float instances),
`Numpy.v` (array functions), `Filters.v`, `Registry.v`, `Misc.v`, `Preprocess.v`, `Detection.v`, `Mlp.v` (model);
`Alias.v` (the same code on a heap of array cells), `History.v` (state histories for the AP/OCNLMS memories);
`Spec.v` the small independent specification vocabulary (reachable objects, row layout, operation sequences; a `reachable` filter is any constructor call followed by any sequence of well-shaped calls of any public method - predict, adapt, run, pretrained_run, and directly learning_rule, clear_memory, update_memory_x, update_memory_d, read_memory - and assignments to mu, w, eps, ro, a, lambd, alpha);
`StructProofs.v`, `RunProofs.v`, `Reach.v`, `KeepProofs.v`, `Steps.v`, `RVec.v`, `RMat.v`, `RFilter.v` lemmas;
`Props*.v` property theorems (`Cnn_...`) with the lemmas they need, the concrete non-trivial instance that meets
the hypotheses (`Cnn_hypotheses`, `Cnn_example...`) beside them.

## 2. Plan and proof method per property

Notation: *any arithmetic* = for every `T` and every `Num T` (no laws), so including float64;
*exact* = over the reals.

| id | what is modelled | how it is proved |
|----|------------------|------------------|
| C01 | `AdaptiveFilter.run` and the overriding runs of AP, OCNLMS, all classes, any arithmetic | case analysis on the class for one body of the loop, induction over samples |
| C02 | the arrays y, e, w built by `run` | `run_eq`: the loop with preallocated arrays equals a trace; index lemmas by induction |
| C03 | two consecutive runs vs one run on the concatenation | trace of an append, `adapt_all_app` |
| C04 | run on two inputs with a common prefix | as C03 plus prefix lemmas |
| C05 | documented predict/adapt loop | induction, predict leaves the state unchanged except for OCNLMS (witness by computation over Q) |
| C06 | `predict` as state transformer | case analysis; insertion into an arbitrary operation sequence by induction |
| C07 | all methods on well-shaped inputs | invariant `wf` of every reachable object, preserved by every operation |
| C08 | the error branches, with the state that remains | evaluation on malformed shapes; witnesses for the violations |
| C09 | `pretrained_run` | reduction to `run` on the two slices; epochs by induction |
| C10-C12 | `init_weights`, constructors, factories, registry, ASCII `upper` | case analysis; registry by computation lifted to all strings |
| C13-C18 | learning rules of LMS, NLMS, LMF, NLMF, SSLMS, NSSLMS, Llncosh, GMCC, exact | scalar identity for the squared weight distance, then induction over runs |
| C19, C20 | all classes on perfect data / mu = 0, exact | per-class step lemma, invariant over the run |
| C21 | RLS, exact | Sherman-Morrison at operator level, completion of the square, induction over samples |
| C22 | GNGD / VSLMS with ro = 0 | simulation relation with the parent class over the run |
| C23-C25 | AP memory (any arithmetic), learning rule with solver oracle (exact) | window invariant; least-norm and energy arguments |
| C26 | OCNLMS memory | index parity invariant; witnesses over Q and over kernel floats |
| C27, C30 | sign symmetry, homogeneity, coordinate permutation, rotation of all classes, exact | two-object simulation relation (`run_rel`) |
| C28 | caller buffers and object arrays as a heap with aliasing, any arithmetic | simulation between heap runs and value runs under a buffer discipline; witness for its necessity |
| C29 | gradient of the documented cost | Coq's `derivable_pt_lim` on the cost in each coordinate |
| C31-C33 | misc/error_evaluation | case analysis; Cauchy-Schwarz / Minkowski on lists |
| C34-C36 | standardize, standardize_back, input_from_history | algebra, index lemmas |
| C37, C38 | PCA, LDA with eig / inv / argsort oracles | specification of the oracle as hypothesis; Rayleigh quotient, variance, Fisher criterion |
| C39-C43 | detection/ (ELBND, LE, ESE; genpareto fit as oracle) | index lemmas, monotonicity, counting |
| C44-C48 | ann/mlp (any arithmetic for state claims, exact for derivatives) | state invariants, chain rule with `derivable_pt_lim`, witnesses |
| C49 | GNGD and VSLMS step sizes as gradient descent on the squared error | derivatives; witness that Benveniste and Ang differ from the gradient |
| C50, C51 | shift of weights and target; superposition | two/three-object simulation |
| C52 | restart from `w` | simulation for memoryless classes, witness for the others |
| C53 | H-infinity energy bound of LMS and NLMS under any disturbance | telescoped energy identity |
| C54 | convergence on endless data (LMS, NLMS, Llncosh...) | monotone energy, summable errors, persistent excitation argument |
| C55 | rate of RLS | invariant on the quadratic form of R^-1 |
| C56 | NLMS with mu = 1, eps = 0 | projection: least change that explains the sample |
| C57 | change of units of x and d, all classes | two-object simulation with scaled parameters |
| C58 | AP on endless data with complete solver | energy argument with the regularised Gram matrix |
| C59 | LMS and NLMS under a drifting system | triangle inequality for the contraction, induction |
| C60 | propagation of an absorbing number (nan) through filters | absorption lemmas, invariant over operation sequences |
| C61 | input_from_history + filter run on a series: end-to-end index map | window lemma composed with the run lemma |
| C62 | latency of ELBND, LE, ESE: which samples an output depends on | dependence of each output index on the inputs, witnesses for the late ones |
| C63 | PCA and LDA under shift, reorder of samples, renaming of labels | the oracle (eig) receives the same matrix; projections are permuted |
| C64 | error measures: concatenation, reorder, best constant, standardised series | exact algebra over R |
| C65 | run of every class on a fresh filter against explicit scalar recursions (`published` in PropsRecursion.v) | state sequence of the run, index form of vectors and matrices; uniqueness of the recursion by induction |
| C66 | predict + update of a whole MLP against an explicit scalar recursion (`learning_step` in PropsBackprop.v): forward activities, back-propagated deltas, every weight of every layer | induction over the layers for the state the forward pass leaves and for the backward pass; index form; uniqueness by backward induction |
| C67 | net_train with a+b epochs against two calls; batches | shift lemma for the epoch loop (position of errors and MSE slice), any arithmetic, no hypothesis on the data |
| C68 | two networks with renamed weights under arbitrary training sequences; twin nodes | the scalar recursion of C66 commutes with renamings (sums over permuted indices), induction over the samples |
| C69 | learning step with zero error or zero rate; predict bound | from the recursion of C66; range of the activations (C45) |
| C70 | squared error after a step as a function of the learning rate | derivative at 0 along the step: minus a sum of squares for one hidden layer; an explicit 1-2-2 network where it is positive |
| C71 | `clear_memory`, `init_weights` called on a used filter | the extra state equals that of a new filter; filters that agree up to the recorded history answer every script alike (C52) |
| C72 | `run` of LMS averaged over all sequences of N independent samples of a finite distribution (recursive definition of the average) | independence of the last sample; energy relation averaged with the normal equations of the best weights |
| C73 | arrays returned by `run` of RLS, rows of weights before and after a sample | from minimality (C21) alone: the cost is a quadratic along the line between two successive minimisers |
| C74 | outcomes and weights of two memoryless filters under mirrored scripts | any arithmetic with sign-blind operations: step relation lifted through the state monad to scripts; binary64: rounding of SpecFloat commutes with negation, zeros compared up to sign |
| C75 | new AP/OCNLMS filters with an empty memory, scripts of calls; init_weights as a method | an invariant (“stuck”) kept by every call, written without the well-formedness invariant of the other proofs, which excludes these settings |
| C76 | PCA, PCA_components, covariance (as C37), reals | Bessel and completeness of c orthonormal vectors in dimension c (trace argument), Parseval, Ky Fan inequality; eigen-solver as in C37 but orthogonality derived for distinct eigenvalues |
| C77 | LDA, LDA_discriminants (Preprocess.v), same assumptions as C38 plus that the eigenvectors form a basis | Gram matrix of the output columns: between = discriminant * within gives orthogonality for different discriminants; a weighted square root of (bound - discriminant) shows the Rayleigh bound; a homogeneous system with fewer equations (class means) than unknowns shows the rank bound |
| C78 | predict, run (Filters.v) over FNumD: the kernel's binary64 with np.dot any evaluation (order, bracketing, FMA) of the products | FloatErr.v: each operation with finite result is the exact one times (1+d), plus h for products (Flocq's error bounds for round-to-nearest, linked to the kernel floats by FloatAxioms); induction on the evaluation tree gives the classical (1+u)^n bound |
| C79 | run, learning_rule of LMS and NLMS over FNumD and over R side by side | one binary64 step is the exact step plus a slack; the exact step is nonexpansive when mu|x|^2 <= 2 (from C59's gradient move), so by the triangle inequality the slacks add up |
| C80 | Mlp.v in any arithmetic with an absorbing number (nan of binary64, PropsNanMLPF.v) | forward: a bad entry reaches every node of the next layer; backward: a bad error reaches every node through np.dot; bad weights stay bad under +=, an invariant of all calls |
| C81 | MlpUnknown.v: predict, update, train, run when Layer.activation falls through and returns None (numpy stores None as nan) | invariant: shapes; the value of every output is a sum with a nan term; update raises in the last hidden layer after line 457 |
| C82 | array identity of the MLP (`MlpAlias.v`: which arrays the program and the network share), programs that overwrite their arrays between calls | simulation between the model with references and the value model `Mlp.v`, with a dirty flag for the array returned by predict; general violation theorem |
| C83 | detectors on rescaled and reordered weight histories; composition with run of every class | closed forms C39–C43, uniqueness of sorted lists, permutation of sums and products; C57 and C30 for the composition; the fit of ESE is a parameter assumed to respect units |
| C84 | run of GNGD and the three VSLMS classes on noise-free data, as the recursions of C65 | two coupled invariants on real sequences: distance + g * energy of the errors <= initial distance, and drift of the step size <= C * energy (Ang: geometric memory; Benveniste: Lyapunov term for the sensitivity vector); converse: explicit two-sample data |
| C85 | NetworkMLP.update with number / array targets of every length, after a predict and before the first one | case split on the broadcasting rules for every length; the state when the exception is raised is part of the statement |
| C86 | NetworkMLP.__init__ and Layer.__init__ with arbitrary draws | induction over the list of sizes; real power -1/2 |
| C87 | the exception paths of learning_entropy, ELBND, pot, ESE, PCA, LDA (np.linalg.eig / inv / scipy fit as parameters that may fail) | exhaustive case distinction, using C39-C43, C37, C38 for the successful cases |
| C88 | run and learning_rule of RLS on zero inputs, over R and over FNumD (any np.dot that `evaluates` the sum of products) | exact: entrywise induction. binary64: an inner product of finite numbers with zeros is a zero, one non-finite factor makes it nan, so a silent sample multiplies R by fl(1/mu); fl(1/mu) >= 1+2^-52 for every mu < 1 (Flocq) and each product loses at most 1-2^-53, so an entry overflows; inf*0 = nan then fills R and the weights |
| C89 | LMS and NLMS over Coq's primitive binary64 floats with an arbitrary evaluation order of inner products (PropsNoOverflow.v, on top of C78/C79) | each float operation is finite when its exact result is below 2^1000 (Flocq); one step moves the weights by at most beta plus 256(n+1)u(size+beta+1); induction over the run with (1+a)^k <= 2 for k a <= 1/2; then the finiteness hypotheses of C79 hold and its drift sums are bounded |
| C90 | RLS over the reals from the constructor on (Filters.v, PropsRLS.v); knowledge about v = quadratic form of the inverse of the stored matrix | the stored matrix is the inverse of A_k (C21); theta = 1 - v.A_(k+1)^-1 v, bounded with Cauchy-Schwarz for the form A_(k+1); A_(k+1) v = mu A_k v when x_k is orthogonal to v |
| C91 | adapt and run in binary64 (NumF.v, PropsRound.v's FNumD) | an addition of at most 2^-55 of the first operand rounds back to it (Flocq's midpoint lemmas, gap to the neighbours at least 2^-54 |a|); induction over the run; for LMS the rounded product is bounded with C78's relative errors; the exact run of the example is solved in closed form |
| C92 | run over the reals on N copies of one sample (Filters.v) | the error series is the orbit of e -> e - f(e), f read off the learning rule; geometric series, monotone orbits shrinking by a factor away from 0, growth, period two, bounded odd responses |
| C93 | get_valid_error, MSE, MAE, RMSE (Misc.v) in binary64 with any sum and dot that add the entries in some order | Flocq's rounding errors of -, *, /, sqrt; C78's bound for inner products in any order (a sum is an inner product with ones); no overflow by magnitude; the count is converted exactly |
| C94 | standardize (default and given offset and scale), standardize_back, mean, std (Preprocess.v) in binary64 with any sum that adds the entries in some order | as C93; the deviation around the rounded mean is compared with the deviation around the true mean through V = W + g^2; relative errors of -, /, *, + compose for the round trip |
| C95 | learning_rule of every class but AP, adapt, run, pretrained_run, numpy broadcasting and dot shape errors, in-place += | frame argument over the method's statements; case analysis over broadcasting of last_x against last_fi; a jammed state is preserved by every call |
| C96 | `act`, `act_der`, `layer_update`, `net_train` over IEEE binary64 (`FNumD`; exp, the summation and the dot product are arbitrary functions, exp only assumed non-negative) | monotonicity of rounding for the range; exact values 1 + z = 1 for z <= 2^-54 (ties to even) and 2/(1+z) - 1 = -1 for z >= 2^56; Flocq finiteness is carried backwards through a learning step, so a finite new weight implies finite factors and a zero slope makes the increment a signed zero; induction over the stream of samples given by C47 |
| C97 | `run` of SSLMS and NSSLMS over exact reals | (a) per-step energy balance (sign(x) = x/c) telescoped over the run; (b) induction over the samples; (c) exact closed form of three steps, induction over the cycles, archimedean choice of N; excitation by an explicit sum of squares; contrast with C54 |
| C98 | `run` of GMCC over exact reals (`Rpowf`, `exp` exact) | t exp(-t) <= exp(-t/2) gives the influence bound per sample, induction over the samples; identification through the generic lemma `identify` of C54 with the sector condition g e >= C abs(e)^alpha and g^2 x.x <= c g e on the ball of the initial distance |
| C99 | `run` of every class followed by `learning_entropy`, `ELBND`, `ESE`; any arithmetic with an absorbing, unordered number, and binary64 with any summation order (`FNumD`) | C60 gives the bad rows of the weight history; differences keep them bad (induction over the order); comparisons with them count nothing; in binary64 the counts are integers below 2^53, so their sums are exact and the quotient is rounded once |
| C100 | `run` of NLMS and LMS over exact reals, finite distributions as in C72 | the NLMS trajectory is the LMS trajectory of the samples divided by the root of their power (uniqueness of the recursion), then C72 for the image distribution; convergence of the mean: the gradient is bounded by the curvature (Cauchy-Schwarz under the mean), so steepest descent contracts; bias: a two-point distribution, Jensen by a tangent |
| C101 | `run` of RLS, LMS and NLMS on the targets of a linear system plus noise; the noise is a sequence of independent draws from a finite law, its average an explicit finite sum over all sequences (`expect`, PropsIID.v) | the least-squares characterisation of C21 gives the weights as an explicit affine function of the noise (`rls_formula`), whose second moment is computed exactly; trace identity `sum x.Qx = n - eps tr Q` and excitation give the upper bound; for the floors the last draw is averaged first, given the earlier ones |
| C102 | `run` / `pretrained_run` of a new RLS filter on permuted and repeated data; two consecutive samples given to any reachable LMS / NLMS filter in both orders | C21's characterisation of the weights as the unique least-squares minimiser, whose cost is a sum over samples (invariant under permutation, p-fold under repetition); an explicit one-weight computation for mu < 1; exact algebra of two consecutive textbook updates for LMS / NLMS |
| C103 | `run` of a new OCNLMS filter with silent inputs, through the closed form of its two memories proved in C65 | the stored targets obey t[k] = d[k] + (change of the average between the two readings of one sample); induction with the bound 2B; for constant targets every `mem` samples the distance of all slots from their limits halves; explicit solution of the recursion for mem = 2 and a linear lower bound for mem = 3 |
| C104 | `IntModel.v`: learning rules, `adapt` and `run` with a function `wr` applied to every product of two input arrays (reduction modulo 2^bits) | agreement with `Filters.v` where `wr` changes nothing (invariant: the remembered inputs are small); trace of a run by induction over the samples; factor per repeated sample; rational witnesses for the seven affected classes |
| C105 | `IntModel.v`: `get_valid_error`, `logSE`, `MAE`, `MSE`, `RMSE` of integer series (differences, squares, absolute values, sums modulo 2^bits, np.sum in 64 bits) | congruences modulo 2^bits; the value held is the one congruent number in the range of the type; case analysis of one term of MAE and induction over the series |
| C106 | run of a new `FilterRLS` in exact real arithmetic (`Filters.v`), a moving system, a jump, a ramp | normal equations of the weights (from C21), Cauchy-Schwarz, geometric sums; exact solution for the ramp |
| C107 | repeated `run` and `pretrained_run` of LMS and NLMS in exact real arithmetic | one epoch is an affine map; energy lost in an epoch bounds the energy of the inputs along the weight error (induction over the samples); projection on the span of the inputs (induction over the inputs, no compactness); hence a contraction of the span, Cauchy sequence, limit; Pythagoras for "nearest"; small steps (PropsEpochsLS.v): normal equations from minimality, the fixed point of an epoch is compared with the least-squares fit by bounding the within-epoch drift |
| C108 | FilterAP over R with any correct solver (`PropsAPNoise.v`), adapt after any history and run of a new filter | regularised projection operator: X^T(XX^T+ifc I)^-1 has norm at most 1/(2 sqrt ifc); contraction of the noise-free part as in C58, triangle inequality, geometric series |
| C109 | all learning rules over R (`PropsOutlier.v`), adapt in every reachable state, run of Llncosh and GMCC with wrong targets | the increment as a function of the target: polynomials and a pole (GNGD) are unbounded; sector and saturation bounds of tanh and of exp(-lambd h^alpha) h^p; triangle inequality and energy argument per sample |
| C110 | `run` of all 15 classes in exact real arithmetic, compared with runs on perturbed data and settings | limits along an arbitrary filter of sets (own small library on top of the standard library's Reals); the recursions of C65 are continuous sample by sample, with the inverse of a regularised Gram matrix (AP) and positivity of the RLS matrix as extra lemmas; jumps by explicit perturbations; limits between classes by explicit gain estimates |
| C111 | `adapt`, `predict`, `run` of all classes on all-zero inputs, exact real arithmetic; witnesses in exact rationals | one step by the step equations; insertion by induction on traces (memoryless classes); leading silence by shifting the recursions of C65 (`lead_shift`: RLS starts from eps*mu^N0, the AP inverse decouples the silent columns) and C65's determinacy; refutations computed |
| C112 | `run` of all 15 classes with a zero column put into the inputs at any position | the recursions of C65 for n+1 inputs restrict to those for n inputs (index map `skip`; RLS: row p of the matrix stays zero off the diagonal), then C65's determinacy |
| C113 | `run` of all 15 classes on inputs orthogonal to a direction v | on the recursions of C65: every increment is orthogonal to v (RLS: v is an eigenvector of the matrix throughout; OCNLMS: offsets are linear in the inputs), and a shift of the weights by v satisfies the same recursion; then determinacy; refutation for sign-sign computed |
| C114 | `run` of FilterSSLMS in binary64 (NumF with any summation order), and over R | each update mu sign(x) sign(e) and the following addition are exact (Flocq: the sum is an integer below 2^53 times 2^p, hence representable); the error's sign agrees with the exact filter's when the error exceeds the slack of C78; computed refutations for mu = 0.1 and for weights of 2^60 |
| C115 | predict/update/train of NetworkMLP over R | on the recursion of C66: two steps whose first-layer nodes have equal pre-activations agree in all deltas (induction from the output down), so first-layer increments are the same multiples of the inputs; induction over the samples; witness for mu='auto' |
| C116 | predict and update of NetworkMLP over R | mean value theorem for the activations, induction over the layers; the limits along filters of C110 applied to the recursion of C66 (induction from the output down), then induction over the samples |
| C117 | Binary64 runs of SSLMS, NSSLMS, Llncosh in `FNumD` (any evaluation order of inner products, any tanh bounded by 1), data bounded by 2^100, no condition linking mu and the data; spec `sane_data`, `stays_finite` (PropsBoundedF.v). | One generic lemma: if each entry of the learning rule is finite and at most B whenever the error is finite and below 2^410, then by induction |w_k| <= (1+u)^k(|w_0| + kB) <= 2(|w_0| + kB), so no inner product or subtraction can reach 2^1000; per filter, exactness of multiplication by a sign, lower bound eps/4 of the computed denominator, |tanh| <= 1. Counterexample for LMS by computation. |
| C118 | run of LMS and NLMS in exact arithmetic, inputs with `exciting_list` (defined at C55), moving system `Sys`, `disturbance`, `drift_at`, `dist` (defined at C59); counterexample stream `fading` (PropsForget.v). | Energy decrement over a window against the excitation of its start (walk length bounded by the decrement, Cauchy-Schwarz) gives the factor q per window; perturbations are added by non-expansiveness of each step, geometric series over windows; unboundedness by induction w_k >= mu/(1+mu) sqrt k. |
| C119 | run of LMS and NLMS over binary64 (`FNumD`, any dot product with `evaluates`), data `sane`, inputs `exciting_list`, `beats_rounding`, claim `runs_for_ever` with `room`, `ceiling`, `jitter`, `floor_of` (PropsForgetF.v). | One float step is an exact gradient step plus an error proportional to the weights (C89); induction over windows: the exact window contracts by q, the error of a window is at most a fraction of 1-q of the weights, so the size stays under the ceiling and every quantity stays finite; the distance to any other perturbed gradient sequence then follows the geometric series of C118. |
| C120 | `run` of LMS, NLMS, RLS, SSLMS, NSSLMS, LMF, NLMF; any algorithm as a function from targets to outputs; `miss`, `noise`, `total` of C53, `exciting` of C54. | Targets the initial weights explain do not tell w0+u from w0-u, so one of the two is missed at least as much as its noise; excitation makes the noise energy outgrow the prior term. RLS: Minkowski on C73's error energy; lower bound by the targets 1/sqrt k (harmonic sum against ln). Sign and cubic rules: two samples. |
| C121 | `run` of seven classes over binary64 (`FNumD`, any inner product that follows one evaluation plan per length, FMA allowed) and over an arithmetic `FNumT` that returns nan instead of underflowing; spec `scaled`, `converted`, `no_underflow` (PropsScaleF.v). | Flocq: rounding commutes with 2^p in the normal range, sums of floats that come out subnormal are exact, accepted products lie on a grid 2^-1010 which no partial sum leaves; then induction over the samples along the recursion of `plain_run`. Counterexamples (factor 3; underflow) by computation. |
| C122 | RLS with mu = 1 over the exact reals, any targets and inputs; determinants by pivots (own small theory in PropsRLSRegret.v: Schur complements, Hadamard's inequality, rank-one updates, solvability for positive definite matrices) | the normal equations of C21/C106 before and after a sample give error before = (1 + q) * error after with 1 + q the factor by which det(eps I + sum x x^T) grows; C73 telescopes the products e_before * e_after into the least-squares cost; q/(1+q) <= ln(1+q) and Hadamard bound the rest; closed form of the errors on the alternating targets for both lower bounds |
| C123 | `run` of LMS and NLMS over the exact reals with a sine / cosine reference (Coq's `sin`, `cos`), any targets | the output and its quadrature component rotate by om per sample and lose m times the error: a 2-dimensional recursion, from which the difference equation follows by elimination; its energy falls by m(2-m) e^2 per sample, and two samples see both components, which gives the rate; for another tone the steady state is written down and subtracted |
| C124 | `run` of LMS and NLMS over the exact reals, any data; the lower bound on runs of every one-weight LMS filter | one energy inequality per sample (distance to v falls by g e^2 up to g r^2 / (1 - g x.x), completing a square), telescoped; lower bound: the offset recursion of C123 solved for constant and for alternating targets, small and large mu separately |
| C125 | `run` of the eight memoryless classes on one-hot rows, RLS as in C106, exact reals | the textbook step on a one-hot row moves one coordinate by the one-weight step; induction on the category list splits the run; both sides of the comparison reduce to the same scalar recursion; RLS by its normal equations tested with the unit vector |
| C126 | `run` of every class from its constructor, exact reals | a rotation of the two coordinates (C30's simulation for any length-preserving linear map) turns the pair into an input that is always zero and one that carries the signal; C112 removes the former; SSLMS by its published recursion (C65) with the merged weight (p w0 + q w1)/(abs p + abs q) |
| C127 | `run` of every class from its constructor, exact reals; two runs whose data differ by factors per sample | the published recursions (C65) of the scaled run are turned into those of the plain run with y/c, e/c and the same weights, class by class (for AP the inverse is conjugated by the factors, for Mathews the factors of neighbouring samples cancel in pairs); RLS by C21; the three exceptions by exact rational runs |
| C128 | `run` of LMS, NLMS and RLS from the constructor, exact reals, on the data with each sample repeated r times | induction inside a block on the published recursion (C65), geometric sums; equality of runs because the recursion determines them; RLS: the cost of the repeated data is the cost of the other filter times 1+mu+...+mu^(r-1), and the minimiser is unique (C21) |
| C129 | `run` of eight classes and RLS from the constructor, exact reals, rows with a constant combination; single-input filters on rows [1] | the weight along u telescopes (published recursion, C65); an invariant interval with a sector bound on the influence; counting signs; RLS: the first variation of the strict minimum (C21) vanishes |
| C130 | `ELBND` over PrimFloat, arrays bounded by 2^400, every summation order | one rounded subtraction (no underflow), one rounded product (underflow 2^-1075), `abs` and max exact (comparison = comparison of values, no NaN arises); sums by the any-order error bound (C74/C93), all terms non-negative so no cancellation |
| C131 | `learning_entropy` over PrimFloat, direct and multiscale, every summation order | order-th differences grow by at most 4 per difference; mean and deviation by C94; `std + 1e-10` is at least 2^-35, so the quotient is bounded; each of the four roundings kept as a factor; multiscale: integers below 2^53 add exactly, one rounded quotient, count identified with a filter over the inputs |

Properties whose documented form is false of the code are stated as the exact truth: the part that
holds is proved, the violation is a theorem named `..._refuted` with a concrete witness.

## 3. Trusted base

1. **Coq 8.16.1 kernel** (with its `vm_compute` and, for the witnesses over floats, its primitive 63-bit integers
   and binary64 floats).  No axiom is declared, nothing is admitted, no kernel check is switched off, there are no
   functors or module types.
2. **What `Print Assumptions` lists**, per theorem, is in `ASSUMPTIONS.md` (generated by `tools/assumptions.py` from
   the compiled development).  In short, structural theorems are closed under the global context; theorems over R use
   the four axioms behind Coq's own Reals (`ClassicalDedekindReals.sig_forall_dec`, `sig_not_dec`,
   `Classical_Prop.classic`, `FunctionalExtensionality.functional_extensionality_dep`); the float theorems use the
   `PrimFloat`/`PrimInt63` primitives and, for nan propagation, `FloatAxioms` (`add_spec`, `sub_spec`, `mul_spec`,
   `SF2Prim_Prim2SF` ...), all of the standard library.  No axiom of another library is used.  Flocq (which declares none) is
   imported by FloatErr.v, PropsRound.v and PropsRoundRun.v only, for the error bounds of round-to-nearest and for the link
   between the kernel's floats and real numbers (proved there from the standard library's `FloatAxioms`); the specification
   of value, finiteness and unit roundoff (`val`, `fin`, `uro`, `eta`) is our own.  Coquelicot and mathcomp are not imported.
3. **The model is faithful to the Python text.**  This is by reading: each definition cites file and lines.

### Modelled
All of `padasip/filters` (base class, 15 filter classes, `filter_data`, `AdaptiveFilter`, `get_filter`), `padasip/misc`,
`padasip/preprocess`, `padasip/detection`, `padasip/ann/mlp`; the module level aliases of `padasip/__init__.py` only as
names.  Exceptions are modelled by class (not message).

### Not modelled, or modelled by assumption
* numpy itself: `np.dot`, `np.sum`, `np.linalg.solve` are fields of `Num`; `np.linalg.eig`, `inv`, `argsort` (as any
  stable ascending sort), `np.random.normal/shuffle` and scipy's `genpareto.fit/cdf` are arguments (oracles) constrained only by the
  hypotheses of a theorem.  Solver hypotheses: `good_solver` (a returned matrix solves the system), `solves_1x1`,
  `homogeneous_solver`, `complete_solver k` (regular systems are solved); `rsolve` (Cramer) witnesses them.
* Rounding: theorems marked *exact* are about real arithmetic.  Overflow, infinities and nan exist only in the
  any-arithmetic theorems, in the binary64 theorems (C60, C74, C78, C79) and in the witnesses over floats (C26, C43).
  C78 and C79 do not fix the order in which np.dot adds; C74 fixes left to right.
* Division by zero: numpy yields inf/nan with a warning where Coq's real division is a total function.  Theorems
  over R therefore ask for `regular` inputs, eps > 0 or mu > 0 wherever a denominator could vanish.  Simulation theorems
  (C27, C30, C57) hold for the totalised division: for inputs on which the Python code divides by 0 they say nothing
  about Python.  Python's own `ZeroDivisionError` (float / int scalars in RLS) is modelled.
* Dtypes and containers: array arguments are float64 ndarrays (or anything `np.array` turns into one), in `IntModel.v` (C104, C105) also integer ndarrays; rows of a 2-d
  array are equally long unless a theorem says ragged.  Python lists where the code needs arrays, float16/32 arrays, mixed
  integer types, object arrays, complex numbers, 0-d and 3-d arrays are not modelled, except where the code branches
  on them explicitly (MSE sentinel, alpha of LE, weights argument).
* Numeric strings for `mu` etc. (`float(param)`); printing, plotting, docs.
* Aliasing: everything is by value except in `MlpAlias.v` (C82, the MLP) and `Alias.v` (C28), which re-models construction, adapt, predict and run on a heap of
  cells: which attributes keep references to the caller's arrays, and which operations are in place.
* Threads: the library has no concurrency, callbacks, I/O or persistent state; there are no crash points other than
  exceptions, which are modelled together with the state they leave behind.

## 4. Findings (each is a theorem or a witness)

* `run([], [])` raises IndexError, `pretrained_run` too when the training or the test part is empty (C08, C09).
* The weight history returned by `run` holds the weights *before* each sample: the final weights are missing (C02).
* A rejected run overwrites `n`; VSLMS_Benveniste is then unusable.  AP and OCNLMS silently accept vectors of length 1 (C08).
* OCNLMS: `predict` moves the memory index, so predicting is not an observation (C06), the documented real-time loop
  differs from `run` (C05), with an even memory half of the slots are never written and the mean offset is halved, with
  memory 1 everything becomes nan, the stored targets are not the targets, a constant offset is never forgotten (C26).
* RLS: eps = 0 or mu = 0 give ZeroDivisionError (C10, C20).  AP with order 0 gives IndexError; with ifc = 0 and order >= 2
  LinAlgError until `order` samples were seen (C24).
* GMCC with alpha = 2 is not LMS (C18).  VSLMS with mu = 0 still learns (C20).  Benveniste and Ang use the previous
  input where the gradient of the squared error has the current one (C49).
* Nothing in the code keeps the adapted step size of the VSLMS classes (or the regularisation of GNGD) in the stable range: for every
  mu and ro <> 0 two noise-free samples with |x| <= 1 can make the weight error grow by any factor (C84).
* GNGD and the VSLMS classes keep a reference to the caller's x: refilling one buffer in place changes what they learn (C28).
* Only the memoryless classes can be restarted from their weights (C52).  The sign filters are not rotation equivariant (C30).
* LE and ESE react one sample late to a jump of the weights, ELBND promptly (C62).  PCA and LDA with a negative `n` keep
  `columns + n` features instead of raising (C37, C38).
* Documentation only: the gradient formulas of LMS/LMF have the wrong sign, AP's documented input matrix has one column more
  than `order`.
* ELBND is always 0 at the last sample (C39); `learning_entropy` in direct form returns an N x n matrix (C40), its windows start with raw
  weights instead of differences; alpha = [] falls back to the direct form, an ndarray alpha is rejected (C41).  ESE: the
  documented method '30%' is unknown, `log10log10` with window 10 overflows, a window longer than the data raises (C42, C43).
* PCA/LDA reject n = number of columns and accept negative n; PCA of one column raises (C37, C38).
* `input_from_history` with n larger than the data gives an empty matrix (C36).
* A nan is never washed out, neither by the filters (C60) nor by the MLP, which it destroys completely (C80); an unknown activation
  name is accepted and turns every output into nan (C81).
* AP with order 0 cannot run (IndexError), OCNLMS with mem 0 neither; `init_weights` called directly takes any n literally (n = −1: the filter's own size; other negative n: ValueError, filter unchanged) (C75).
* The array returned by `predict` of a multi-output MLP is the live `self.y`: overwriting it before `update` changes what is learned (C82).
* MLP: the reported MSE omits the last sample of an epoch (C47); shuffling draws one order for all epochs; back-propagation has an extra
  factor (1 - y) and uses already updated weights in deeper layers and for several outputs (C46, C66), so that with two hidden layers arbitrarily small steps can increase the error (C70); update before predict raises
  after changing the output weights, length-1 inputs are broadcast (C48); numbers and one-element targets are broadcast to all outputs, and a
  target array of length last+1 given to a one-output network overwrites its output weights before ValueError is raised (C85).
* RLS with mu < 1 does not survive silence: zero inputs make its matrix overflow and then all weights nan, for good and without an
  exception; with the defaults (mu = 0.1, eps = 0.001) 312 zero samples are enough (C88).
* C90: with mu < 1 (the default is 0.1) RLS forgets exponentially a direction that the inputs do not visit, even though nothing contradicts what it had learned; after N such samples one sample along that direction replaces the old knowledge up to a fraction of order mu^(N+1).
* C91: in binary64 LMS stops adapting while the error is still mu x_i e ~ 2^-56 w_i; with a small mu that leaves an error far above the rounding errors of the data (2^-15 in the example), for ever.
* C92: no positive learning rate of LMF or NLMF is safe for all data (above |e0| = sqrt(2/a) the error grows at least geometrically), and SSLMS and NSSLMS never converge on a constant input: they end in a cycle of period two.
* C93: MSE and RMSE of series that differ by less than about 2^-537 everywhere are zero although the series differ; MAE is not.
* C94: a constant series need not give a zero deviation: standardize([0.1, 0.1, 0.1]) is [-1, -1, -1], since the rounded mean misses 0.1 and the computed deviation is exactly that miss.
* C95: one direct call of learning_rule with an input of the wrong length is accepted by VSLMS-Ang and VSLMS-Benveniste and makes every later adapt and run raise ValueError for good (last_x keeps the wrong shape and is never overwritten, since the raise comes first); the other classes reject the call unchanged or have no memory to spoil. While proving it a model error was found and fixed: a square array without rows has no columns either (Numpy.sqdot).
* C96: a node of the first hidden layer whose net input is >= 42 (sigmoid) or >= 21 (tanh) on all training rows has a slope of exactly 0.0 in binary64 and can never be trained: large unscaled inputs or initial weights switch nodes off for good, silently. (For the sigmoid at large negative net inputs this needs exp to overflow, below about -709; the slope is merely tiny before that.)
* C97: SSLMS and NSSLMS can diverge on noise-free, persistently exciting data whatever the step size is: no choice of mu makes them stable in the sense in which LMS and NLMS are. The documentation of both classes mentions no such restriction (for NSSLMS it says that eps preserves the stability for inputs close to zero: in fact such an input moves every weight by almost mu/eps, which is 100 with the defaults, however small the error).
* C98: with the default settings GMCC cannot follow targets of the order of 100 from zero initial weights: each sample moves the weights by less than 1e-18. The data have to be scaled or the filter started close to the system. (The documentation does not say so.)
* C99: a filter that was destroyed by a single nan looks perfectly quiet to the multiscale learning entropy and to ESE (comparisons with nan are False), and direct LE and ELBND return nan, which no threshold test reports either. A user has to check the weights with np.isnan.
* C100: NLMS is biased: on non-linear or input-dependent-noise data its average weights do not tend to the least-squares weights, however small mu is; the documentation presents it as LMS with a safe step size.
* C101: the only forgetting factor for which RLS averages the noise out is mu = 1; the class's default mu = 0.1 (in the signature; the example uses 0.1 and 0.5) keeps a noise floor proportional to the variance however long it trains, as LMS and NLMS do at every fixed mu.
* C102: only RLS with mu = 1 is insensitive to the order of the data, and `epochs` in `pretrained_run` acts for it only as a division of eps by the number of epochs; for LMS / NLMS the order of two samples is immaterial only if mu = 0, the inputs are orthogonal or the errors are collinear with them.
* C103: OCNLMS removes only half of a constant offset of the targets when `mem` is even (default 100), and with mem = 2 or 3 its target memory resonates: targets alternating between 1 and -1 drive the output to infinity.
* C104: integer inputs are not converted: NLMS, NLMF, NSSLMS, GNGD, RLS and two VSLMS compute x.x (or x x^T, x.x_last) modulo 2^bits.  A repeated int16 sample with 32768 <= x.x < 65536 (one weight: 182 <= |x| <= 255) makes the errors of NLMS grow for every mu > 0, where float data would be learned; WAV samples are int16; x.x = 0 modulo 256 in uint8 data makes NLMS divide by eps.
* C105: `MSE` of int16 series is wrong, possibly negative, as soon as the sum of squares reaches 32768; `MAE` of unsigned series is not symmetric: uint8 series 5 and 6 have MAE 255 in one order and 1 in the other.
* C106: with the forgetting factor mu = 1 RLS never catches up with a drifting system (the lag behind a ramp grows without bound, at least half of the distance covered), and after a jump it needs about as many samples as it has seen before; with mu = 0.99 (the default) the lag is bounded.
* C107: more epochs do not bring LMS or NLMS closer to the least-squares fit of noisy training data: they converge to a limit that depends on the step size and the order of the samples (-mu/(2-mu) instead of 0 for targets 1, -1 at input 1). The error is of order mu: within mu*4*power*residue/alpha of least squares for small mu (`C107_small_step`).
* C108: `ifc` is what makes FilterAP robust: the effect of a disturbance on the weights is at most mu/(2 sqrt(ifc)) times its size, whatever the inputs; the bound is void for ifc = 0 (the case of C24).
* C109: of the classes only SSLMS, NSSLMS, Llncosh and GMCC limit the influence of one target; for all the others (also RLS, AP and the normalised ones) one wrong target can move the weights arbitrarily far. GNGD even has a pole: a *finite* critical error makes its adapted regularisation cancel |x|^2.
* C110: results of SSLMS, NSSLMS and GMCC with alpha <= 1 are not reproducible across platforms in principle: at an exactly explained sample an arbitrarily small change of the target moves the weights by a fixed amount (alpha < 1: by any amount). GMCC's docstring 'alpha = 2 make the filter LMS' is true only in the limit lambd -> 0 with mu scaled by 1/(2 lambd).
* C111: leading zeros (padding before a delay line has filled, muted input) are harmless for every class but OCNLMS, whose offset memory also stores targets of silent samples; for RLS with mu < 1 they silently weaken the regularisation to eps*mu^N0. A silent sample between the data is harmless only for the memoryless classes.
* C113: on rank-deficient data random initial weights (the default) survive for ever in the unexcited directions, for every class but the sign-sign ones, which drift along them.
* C114: the mu = 0.01 of the FilterSSLMS documentation is not a short dyadic number, so its weights are rounded at every step; mu = 2^-7 would make them exact for 2^53 samples.
* C115: with mu='auto' a useless (always zero) input slows the first layer of the MLP down, since its rate is 1/sqrt(n_input).
* C117: LMS with a too large mu runs into inf and nan in binary64, SSLMS, NSSLMS and Llncosh cannot.
* C118: bounded inputs and targets within the stability limit can drive the weight of LMS and NLMS beyond every bound (inputs that fade).
* C119: under persistent excitation the rounding errors of LMS and NLMS do not accumulate over runs of any length; without it C118's fading inputs show that no such bound exists even in exact arithmetic.
* C120: the worst-case guarantee of LMS cannot be improved by any algorithm; RLS may amplify disturbances four times in energy even when it starts at the true weights; sign-sign and cubic rules have no guarantee.
* C121: units that differ by a power of two give identical digits in binary64 (seven classes, with converted settings), as long as nothing
  underflows; a factor 3 does not.
* C122: without forgetting (mu = 1) RLS has logarithmic regret against every fixed weight vector on every data sequence; with the package's default mu = 0.1 the regret can grow linearly (by 2 * 0.9^2 = 1.62 per sample on alternating targets), so `mu=1` is the setting to choose for a system that is known not to change.
* C123: with a sine and a cosine as inputs LMS and NLMS are exact linear time-invariant notch filters (hum cancelling); `FilterSSLMS`, `FilterLMF` and the other nonlinear classes are not, and no such statement is made for them.
* C124: no value of `mu` makes LMS competitive with RLS (mu = 1) for long records of a fixed system: its excess error is of the order sqrt(N) at best, RLS's is of the order ln N.
* C125: with one-hot inputs the eight memoryless classes are banks of one-weight filters, one per category; RLS is so only with mu = 1. With its default mu = 0.1 a sample of another category leaves the estimate of this one alone but divides its weight by ten against the next sample of this one.
* C126: adding a copy of an input is not neutral: it multiplies the step for that quantity by two (LMS) although predictions after convergence are the same; nothing in the package detects copies. For NSSLMS no merged input exists in general (its movement counts |p|+|q|, its normalisation p^2+q^2).
* C127: Mathews' step rule is invariant under sign flips of single samples but Benveniste's and Ang's as implemented are not: they multiply the new error by `last_x . fi` (vslms_ang.py:101, vslms_benveniste.py:98), where `last_x` is the previous row; with the current row x in its place both would be; OCNLMS is not because of its memory of raw errors and inputs. NLMS with eps=0 (constructor accepts it) sees only the ratio of target to row; with eps=1/1000 the factor matters.
* C128: an RLS filter run on an oversampled record must have its mu raised to the power 1/r and its eps multiplied by 1+mu+... to give the same result; with mu unchanged it forgets r times faster in terms of the signal. With eps=1/1000 the NLMS equivalence is exact only for rows of one length (each row has its own q).
* C129: adding a constant input is what makes the errors of LMS sum to something bounded; without one nothing in the package centres the errors. SSLMS balances the signs, not the errors: on skewed targets its mean error does not vanish (it follows the median).
* C130: ELBND is safe in binary64: its error is relative to the value itself (3 half-ulps for max), even for weights that hardly change between samples, because the difference of two doubles never underflows and only non-negative terms are added.
* C131: the constant 1e-10 in le.py keeps the direct learning entropy from dividing by zero but is an absolute number: for increments so large that their rounding error exceeds it (about 10^6 and above) a constant sequence, whose novelty is 0, can be given a novelty near -1 or 1, because (x+x+x)/3 need not be x in doubles.  The multiscale form only counts comparisons, but compares with the same rounded mean.
* Documentation: `padasip/filters/__init__.py` line 112 shows `f.explore_learning(...)`; no class has such a method (an AttributeError). The docs of `run` call its third result "set of parameters at the end"; it is the whole history of weights (C02).

## 5. Tests of the theorems against wrong programs

`seeded/mutants*.py` list edits of model definitions, `seeded/harness.py` applies each in a scratch copy under /tmp,
rebuilds, replaces broken proofs by Admitted to let the rest build, and reports the broken theorems and, through the
dependency graph, those that rest on a broken lemma.  `seeded/LOG.jsonl` has one line per attempt
(`tools/mklog.py`).
