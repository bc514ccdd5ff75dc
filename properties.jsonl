{"id": "C01", "title": "Batch run equals the sample-by-sample adapt loop", "statement": "For every filter class, f.run(d, x) on well-shaped data leaves f with exactly the same weights and the same internal adaptive state as calling f.adapt(d[k], x[k]) for k = 0..N-1 in order on an identical filter (only w_history differs), and it raises exactly when that loop raises, with the same exception.", "quantifier": "all 15 filter classes and the base class, all reachable filter states, all N >= 1, all data, any arithmetic (float64 or exact)", "why_tests_cant": "the two code paths are duplicated text; a test compares them on finitely many series, the claim is for every class, history and length", "anchors": ["padasip/filters/base_filter.py:AdaptiveFilter.run", "padasip/filters/base_filter.py:AdaptiveFilter.adapt", "padasip/filters/base_filter.py:AdaptiveFilterAP.run", "padasip/filters/base_filter.py:AdaptiveFilterAP.adapt", "padasip/filters/ap.py", "padasip/filters/gmcc.py", "padasip/filters/gngd.py", "padasip/filters/llncosh.py", "padasip/filters/lmf.py", "padasip/filters/lms.py", "padasip/filters/nlmf.py", "padasip/filters/nlms.py", "padasip/filters/nsslms.py", "padasip/filters/ocnlms.py", "padasip/filters/rls.py", "padasip/filters/sslms.py", "padasip/filters/vslms_ang.py", "padasip/filters/vslms_benveniste.py", "padasip/filters/vslms_mathews.py"]}
{"id": "C02", "title": "Meaning of the three arrays returned by run", "statement": "For every k, row k of the returned w is the weight vector after exactly the first k samples (row 0 is the initial weights), y[k] is the prediction made by the filter in that state for x[k], and e[k] = d[k] - y[k]. The final weights (after the last update) are in f.w and are in general NOT a row of the returned history, although filters/__init__ and pretrained_run document w as the final weights.", "quantifier": "all classes, states, N >= 1, data, any arithmetic", "why_tests_cant": "relates each row to an unbounded history of updates", "anchors": ["padasip/filters/base_filter.py:AdaptiveFilter.run", "padasip/filters/base_filter.py:AdaptiveFilterAP.run"]}
{"id": "C03", "title": "Chunked processing", "statement": "Running a filter on a first block and then on a second block yields outputs that concatenate to those of one run on the concatenated data, and the same final filter state, for every split point with both blocks non-empty.", "quantifier": "all classes, states, data, split points, any arithmetic", "why_tests_cant": "all split points of all series", "anchors": ["padasip/filters/base_filter.py:AdaptiveFilter.run", "padasip/filters/base_filter.py:AdaptiveFilterAP.run"]}
{"id": "C04", "title": "Causality of filtering", "statement": "y[k], e[k] and w[k] returned by run depend only on samples 0..k; moreover y[k] and w[k] do not depend on d[k] or any later target: changing d[k..] and x[k+1..] arbitrarily leaves y[0..k] and w[0..k] unchanged.", "quantifier": "all classes, states, k, and all pairs of data sets that agree up to k", "why_tests_cant": "quantifies over all pairs of possible futures", "anchors": ["padasip/filters/base_filter.py:AdaptiveFilter.run", "padasip/filters/base_filter.py:AdaptiveFilterAP.run"]}
{"id": "C05", "title": "Documented real-time loop reproduces run", "statement": "The documented loop y = f.predict(x[k]); f.adapt(d[k], x[k]) logs exactly the y array of f.run(d, x) and ends in the same state for every class except OCNLMS; for OCNLMS it does not (predict advances the memory index), a concrete run is the counterexample.", "quantifier": "all classes, states, data; existence of a violating series for OCNLMS", "why_tests_cant": "equality of two streaming schedules for every series", "anchors": ["padasip/filters/base_filter.py:AdaptiveFilter.predict", "padasip/filters/ocnlms.py:FilterOCNLMS.predict", "padasip/filters/ocnlms.py:FilterOCNLMS.read_memory"]}
{"id": "C06", "title": "predict is an observation", "statement": "predict(x) never changes the filter, so inserting any number of predict calls anywhere in a sequence of adapt/run/predict calls changes no later result; this holds for every class except OCNLMS, where one extra predict can change later weights.", "quantifier": "all classes, all operation sequences and insertion points", "why_tests_cant": "all interleavings of calls", "anchors": ["padasip/filters/base_filter.py:AdaptiveFilter.predict", "padasip/filters/ocnlms.py:FilterOCNLMS.predict"]}
{"id": "C07", "title": "Well-shaped use never raises and keeps the sizes", "statement": "A filter built with size n keeps n weights through every sequence of adapt/run/predict calls with rows of length n, none of those calls raises (AP: except LinAlgError from a singular solve, RLS: except ZeroDivisionError when mu = 0, OCNLMS: mem >= 1), and run returns y, e of length N and a N x n history.", "quantifier": "all classes, all call sequences, all n and N", "why_tests_cant": "every call history", "anchors": ["padasip/filters/base_filter.py", "padasip/filters/ap.py", "padasip/filters/gmcc.py", "padasip/filters/gngd.py", "padasip/filters/llncosh.py", "padasip/filters/lmf.py", "padasip/filters/lms.py", "padasip/filters/nlmf.py", "padasip/filters/nlms.py", "padasip/filters/nsslms.py", "padasip/filters/ocnlms.py", "padasip/filters/rls.py", "padasip/filters/sslms.py", "padasip/filters/vslms_ang.py", "padasip/filters/vslms_benveniste.py", "padasip/filters/vslms_mathews.py"]}
{"id": "C08", "title": "Rejected calls", "statement": "run with len(d) != len(x) raises ValueError and changes nothing; run on empty data raises IndexError and changes nothing; run with rows of a different length than the weights raises ValueError and leaves the weights unchanged, but it does overwrite the filter size n, after which e.g. VSLMS_Benveniste.adapt raises ValueError on data it accepted before.", "quantifier": "all classes, states and inputs of the rejected shapes", "why_tests_cant": "all malformed inputs and the state left behind", "anchors": ["padasip/filters/base_filter.py:AdaptiveFilter.run", "padasip/filters/vslms_benveniste.py"]}
{"id": "C09", "title": "pretrained_run splits the data", "statement": "pretrained_run(d, x, ntrain, epochs) equals running `epochs` times on the first Ntrain = int(len(d)*ntrain) samples (as a Python slice bound: a negative one counts from the end) and then once on the rest, returning only the outputs of the last run, so y and e have length len(d)-Ntrain (the documentation says they match d); if the training part is empty (and epochs >= 1) or the test part is empty it raises IndexError instead.", "quantifier": "all classes, states, data, ratios, epochs", "why_tests_cant": "all ratios, lengths and epochs", "anchors": ["padasip/filters/base_filter.py:AdaptiveFilter.pretrained_run"]}
{"id": "C10", "title": "Initial weights contract", "statement": "Constructing any filter with w='zeros' gives n zeros, with a list/array of length n gives exactly these numbers, with w='random' gives the n numbers drawn from the generator; a vector of another length or any other string raises ValueError. Sizes n < -1 raise ValueError, n = -1 raises AttributeError.", "quantifier": "all classes, n, w and generators", "why_tests_cant": "all sizes, strings and vectors", "anchors": ["padasip/filters/base_filter.py:AdaptiveFilter.init_weights", "padasip/filters/base_filter.py:AdaptiveFilter.__init__"]}
{"id": "C11", "title": "Filter factory and registry", "statement": "AdaptiveFilter(model), filter_data(model) and get_filter(name) select the class by name ignoring (ASCII) letter case; exactly the 15 registered names are accepted, each class is reachable under its own name and no two share one; any other name raises ValueError; a missing n raises ValueError before the name is looked at; filter_data(d, x, model, **kw) equals AdaptiveFilter(model, n=x.shape[1], **kw).run(d, x) whatever n is given in kw.", "quantifier": "all ASCII strings, all keyword sets", "why_tests_cant": "all strings", "anchors": ["padasip/filters/__init__.py:filter_data", "padasip/filters/__init__.py:AdaptiveFilter", "padasip/filters/__init__.py:get_filter", "padasip/filters/__init__.py:FILTERS"]}
{"id": "C12", "title": "Keyword contract of the constructors", "statement": "A class accepts exactly its own keywords: an unsupported keyword raises TypeError; for LMS, LMF, SSLMS and AP a missing mu raises TypeError (although the documentation shows FilterLMS(n)), the other eleven classes have a default mu; all omitted optional parameters take the documented defaults.", "quantifier": "all classes, all keyword sets", "why_tests_cant": "all combinations of keywords", "anchors": ["padasip/filters/__init__.py", "padasip/filters/base_filter.py", "padasip/filters/ap.py", "padasip/filters/gmcc.py", "padasip/filters/gngd.py", "padasip/filters/llncosh.py", "padasip/filters/lmf.py", "padasip/filters/lms.py", "padasip/filters/nlmf.py", "padasip/filters/nlms.py", "padasip/filters/nsslms.py", "padasip/filters/ocnlms.py", "padasip/filters/rls.py", "padasip/filters/sslms.py", "padasip/filters/vslms_ang.py", "padasip/filters/vslms_benveniste.py", "padasip/filters/vslms_mathews.py"]}
{"id": "C13", "title": "LMS error contraction and exact stability limit", "statement": "After an LMS update the a-posteriori error on the same sample is (1 - mu*||x||^2) * e. With noise-free targets d = x.w* the weight error ||w - w*|| does not increase at that step iff e = 0 or 0 <= mu and mu*||x||^2 <= 2 (or the update is null), hence over any whole run if |1 - mu ||x(k)||^2| <= 1 for all k, the documented criterion.", "quantifier": "all weights, inputs, targets, n, N, mu (exact arithmetic)", "why_tests_cant": "stability is a claim over all series of all lengths", "anchors": ["padasip/filters/lms.py:FilterLMS.learning_rule"]}
{"id": "C14", "title": "NLMS stability and energy bound", "statement": "For eps + ||x||^2 > 0 and 0 <= mu <= 2 + 2 eps/||x||^2 (the documented range) an NLMS step never increases ||w - w*|| for noise-free targets; over any run with 0 < mu < 2 and eps >= 0 the normalised squared errors satisfy mu(2-mu) sum e(k)^2/(eps+||x(k)||^2) <= ||w(0)-w*||^2; the a-posteriori error is e*(1 - mu||x||^2/(eps+||x||^2)).", "quantifier": "all runs, n, N, w*, mu, eps (exact arithmetic)", "why_tests_cant": "unbounded horizon", "anchors": ["padasip/filters/nlms.py:FilterNLMS.learning_rule"]}
{"id": "C15", "title": "LMF and NLMF stability", "statement": "With noise-free targets one LMF step does not increase ||w - w*|| when 0 <= mu*e^2*||x||^2 <= 2, and one NLMF step when 0 <= mu*e^2*||x||^2/(eps+||x||^2) <= 2; a run in which every sample meets this never increases it; the update is odd and cubic in the error (a-posteriori error e*(1 - mu e^2 ||x||^2)).", "quantifier": "all runs (exact arithmetic)", "why_tests_cant": "all series", "anchors": ["padasip/filters/lmf.py", "padasip/filters/nlmf.py"]}
{"id": "C16", "title": "Sign-sign filters move each weight by a fixed quantum", "statement": "An SSLMS step changes weight i by exactly mu * sgn(x_i) * sgn(e); so after N samples every weight differs from its initial value by an integer multiple of mu, at most N of them. For NSSLMS with eps > 0 the drift per sample is at most |mu|/eps and the direction is the same.", "quantifier": "all runs, N, n (exact arithmetic)", "why_tests_cant": "bound over unbounded horizons", "anchors": ["padasip/filters/sslms.py", "padasip/filters/nsslms.py"]}
{"id": "C17", "title": "Llncosh robustness and stability", "statement": "Each Llncosh increment is bounded by |mu| |x_i| whatever the error (outlier robustness); with noise-free targets and mu, lambda >= 0, mu*lambda*||x||^2 <= 2, ||w - w*|| never increases over any run.", "quantifier": "all runs (exact arithmetic)", "why_tests_cant": "all errors, all series", "anchors": ["padasip/filters/llncosh.py"]}
{"id": "C18", "title": "GMCC update", "statement": "For alpha >= 1 and mu, lambda >= 0 the GMCC increment has the direction of e*x and magnitude at most mu*lambda*alpha*|e|^(alpha-1)*|x_i|; for alpha = 2 it equals mu' e x with mu' = 2 mu lambda exp(-lambda e^2), so (contrary to the docstring 'alpha = 2 make the filter LMS') no fixed LMS rate reproduces it when mu*lambda != 0; for lambda > 0, alpha = 2 the increment is bounded over all errors.", "quantifier": "all errors, inputs, parameters (exact arithmetic)", "why_tests_cant": "claim over all errors and all candidate rates", "anchors": ["padasip/filters/gmcc.py"]}
{"id": "C19", "title": "A perfect model is a fixed point", "statement": "If the prediction equals the target at every sample (d[k] = x[k].w0), then every one of LMS, LMF, NLMS, NLMF, SSLMS, NSSLMS, GMCC (alpha > 1), Llncosh, GNGD, RLS (mu, eps != 0), the three VSLMS variants and AP (from fresh memory) returns y = d, e = 0 and never changes the weights.", "quantifier": "all runs of these classes (exact arithmetic)", "why_tests_cant": "all lengths and inputs", "anchors": ["padasip/filters/ap.py", "padasip/filters/gmcc.py", "padasip/filters/gngd.py", "padasip/filters/llncosh.py", "padasip/filters/lmf.py", "padasip/filters/lms.py", "padasip/filters/nlmf.py", "padasip/filters/nlms.py", "padasip/filters/nsslms.py", "padasip/filters/ocnlms.py", "padasip/filters/rls.py", "padasip/filters/sslms.py", "padasip/filters/vslms_ang.py", "padasip/filters/vslms_benveniste.py", "padasip/filters/vslms_mathews.py"]}
{"id": "C20", "title": "Zero learning rate freezes the filter", "statement": "With mu = 0 the weights never change, for LMS, LMF, NLMS, NLMF, SSLMS, NSSLMS, GMCC, Llncosh, GNGD, OCNLMS and AP, over every run; hence the filter is a fixed linear combiner y[k] = x[k].w0 (OCNLMS excepted for y).", "quantifier": "all runs of these classes (exact arithmetic)", "why_tests_cant": "all runs", "anchors": ["padasip/filters/ap.py", "padasip/filters/gmcc.py", "padasip/filters/gngd.py", "padasip/filters/llncosh.py", "padasip/filters/lmf.py", "padasip/filters/lms.py", "padasip/filters/nlmf.py", "padasip/filters/nlms.py", "padasip/filters/nsslms.py", "padasip/filters/ocnlms.py", "padasip/filters/rls.py", "padasip/filters/sslms.py", "padasip/filters/vslms_ang.py", "padasip/filters/vslms_benveniste.py", "padasip/filters/vslms_mathews.py"]}
{"id": "C21", "title": "RLS solves the exponentially weighted least-squares problem", "statement": "With mu > 0 and eps > 0, after every k samples the RLS weights are the unique minimiser of sum_i mu^(k-1-i) (d_i - v.x_i)^2 + mu^k eps ||v - w0||^2, and R is the inverse of mu^k eps I + sum_i mu^(k-1-i) x_i x_i^T.", "quantifier": "all runs, n, k (exact arithmetic)", "why_tests_cant": "global optimality over all candidate weight vectors, at all times", "anchors": ["padasip/filters/rls.py:FilterRLS.learning_rule"]}
{"id": "C22", "title": "Variable-step filters reduce to their parents when ro = 0", "statement": "GNGD with ro = 0 behaves exactly as NLMS with the same mu and eps; VSLMS_Mathews, VSLMS_Benveniste and VSLMS_Ang with ro = 0 behave exactly as LMS with the same mu, on every run (y, e, w).", "quantifier": "all runs (exact arithmetic)", "why_tests_cant": "trajectory equality for all series", "anchors": ["padasip/filters/gngd.py", "padasip/filters/vslms_ang.py", "padasip/filters/vslms_benveniste.py", "padasip/filters/vslms_mathews.py"]}
{"id": "C23", "title": "AP memory", "statement": "At every time the AP filter works on the last `order` input vectors and targets, newest first, zero-padded before the first sample: after any sequence of adapt calls / runs the stored matrix and vector are exactly that window.", "quantifier": "all call histories, n, order >= 1, any arithmetic", "why_tests_cant": "history property", "anchors": ["padasip/filters/base_filter.py:AdaptiveFilterAP.adapt", "padasip/filters/base_filter.py:AdaptiveFilterAP.run"]}
{"id": "C24", "title": "AP projection property", "statement": "If the linear solver is correct: with mu = 1 and ifc = 0 the updated weights reproduce all `order` stored targets exactly; with ifc >= 0 and 0 <= mu <= 2 the norm of the vector of a-posteriori errors on the stored samples does not exceed the a-priori one, and with noise-free targets ||w - w*|| does not increase over any run. The mu = 1, ifc = 0 update is the smallest change of the weights that does so. Because the memory starts with zero rows, an unregularised (ifc = 0) filter of order >= 2 can only raise LinAlgError in its first adapt calls, while fewer than `order` samples have been given.", "quantifier": "all states, n, order (exact arithmetic, correct solver)", "why_tests_cant": "all windows and series", "anchors": ["padasip/filters/ap.py:FilterAP.learning_rule", "padasip/filters/base_filter.py:AdaptiveFilterAP.run"]}
{"id": "C25", "title": "AP of order one is NLMS", "statement": "FilterAP(order=1, ifc=eps, mu) and FilterNLMS(eps, mu) from the same weights give the same y, e and w on every run (eps + ||x||^2 != 0), whatever the AP filter has processed before.", "quantifier": "all runs (exact arithmetic, correct solver)", "why_tests_cant": "trajectory equality", "anchors": ["padasip/filters/ap.py", "padasip/filters/nlms.py"]}
{"id": "C26", "title": "OCNLMS memory bookkeeping", "statement": "The memory index always stays inside the memory and the buffers keep mem rows. When the filter is only run/adapted, an odd memory size holds exactly the last mem inputs, so their average is what is subtracted from the input; with an even memory size (the default is 100) the even-numbered slots are never written and stay zero, so that for a constant input c the filter subtracts c/2, not c. A constant offset of the input can influence the errors for ever (the documented 'independent of the nonzero mean value' does not hold), the stored targets are not the targets given by the user, and with mem = 1 every prediction after the first call is nan and after two samples all weights are nan.", "quantifier": "all call histories, all mem >= 1, any arithmetic for the bookkeeping, exact reals for the means, binary64 for the nan part; witnesses for the violations", "why_tests_cant": "invariant over all histories", "anchors": ["padasip/filters/ocnlms.py"]}
{"id": "C27", "title": "Sign symmetry", "statement": "Negating the targets and the initial weights negates y, e and every row of w, for every filter class.", "quantifier": "all classes, runs (exact arithmetic)", "why_tests_cant": "relational property over all runs", "anchors": ["padasip/filters/ap.py", "padasip/filters/gmcc.py", "padasip/filters/gngd.py", "padasip/filters/llncosh.py", "padasip/filters/lmf.py", "padasip/filters/lms.py", "padasip/filters/nlmf.py", "padasip/filters/nlms.py", "padasip/filters/nsslms.py", "padasip/filters/ocnlms.py", "padasip/filters/rls.py", "padasip/filters/sslms.py", "padasip/filters/vslms_ang.py", "padasip/filters/vslms_benveniste.py", "padasip/filters/vslms_mathews.py"]}
{"id": "C28", "title": "Caller arrays may be reused", "statement": "For the classes that do not retain the input vector, every call behaves as if it had been given a copy of the values, whatever the caller writes into its arrays between the calls, and the filter never modifies the caller's arrays. GNGD and the three VSLMS filters keep a reference to the caller's array: overwriting the buffer in place between adapt calls changes later weights (violation, one witness per class), while leaving the array of the last adapt alone until the next adapt (fresh arrays, or two buffers in turn) is safe. A weight history returned by run is never changed by later calls; f.w is one array updated in place, so a reference taken earlier shows the current weights.", "quantifier": "all schedules of array creation, in-place writes, predict, adapt and run calls, all classes, any arithmetic", "why_tests_cant": "all write/adapt schedules", "anchors": ["padasip/filters/base_filter.py:AdaptiveFilter.adapt", "padasip/filters/base_filter.py:AdaptiveFilter.run", "padasip/filters/gngd.py", "padasip/filters/vslms_ang.py", "padasip/filters/vslms_benveniste.py", "padasip/filters/vslms_mathews.py"]}
{"id": "C29", "title": "Gradient descent", "statement": "The increments of LMS, LMF, Llncosh and GMCC are minus the learning rate times the exact gradient (with respect to the weights) of e^2/2, e^4/4, ln cosh(lambda e)/lambda (lambda != 0) and -exp(-lambda |e|^alpha) (alpha > 1, or e != 0) respectively, where e = d - w.x; the increments of NLMS and NLMF are the same gradients times mu / (eps + x.x).", "quantifier": "all weights, inputs, targets, coordinates (exact arithmetic)", "why_tests_cant": "a derivative is a limit statement", "anchors": ["padasip/filters/lms.py", "padasip/filters/lmf.py", "padasip/filters/llncosh.py", "padasip/filters/gmcc.py", "padasip/filters/nlms.py", "padasip/filters/nlmf.py"]}
{"id": "C30", "title": "Permutation and rotation equivariance", "statement": "Permuting the input columns together with the initial weights permutes the weight history and leaves y and e unchanged, for every class. The same is true of every orthogonal change of basis for every class except SSLMS and NSSLMS, for which it is false (their result depends on the choice of axes).", "quantifier": "all permutations, orthogonal matrices, runs (exact arithmetic)", "why_tests_cant": "all permutations and rotations", "anchors": ["padasip/filters/ap.py", "padasip/filters/gmcc.py", "padasip/filters/gngd.py", "padasip/filters/llncosh.py", "padasip/filters/lmf.py", "padasip/filters/lms.py", "padasip/filters/nlmf.py", "padasip/filters/nlms.py", "padasip/filters/nsslms.py", "padasip/filters/ocnlms.py", "padasip/filters/rls.py", "padasip/filters/sslms.py", "padasip/filters/vslms_ang.py", "padasip/filters/vslms_benveniste.py", "padasip/filters/vslms_mathews.py"]}
{"id": "C31", "title": "Error measures from two series or from the error", "statement": "MSE/MAE/RMSE/logSE(x1, x2) equal MSE/MAE/RMSE/logSE(x1 - x2); different lengths raise ValueError; the integer -1 as second argument is treated as 'no second series' whatever was meant; get_mean_error dispatches to exactly MSE, MAE, RMSE and raises ValueError on any other name.", "quantifier": "all series, strings, any arithmetic", "why_tests_cant": "all inputs", "anchors": ["padasip/misc/error_evaluation.py"]}
{"id": "C32", "title": "Error measures are proper distances", "statement": "For non-empty series: MSE, MAE, RMSE >= 0, zero iff the series are equal, symmetric, translation invariant; MAE and RMSE satisfy the triangle inequality and scale with |c|; RMSE^2 = MSE.", "quantifier": "all series (exact arithmetic)", "why_tests_cant": "triangle inequality over all triples", "anchors": ["padasip/misc/error_evaluation.py"]}
{"id": "C33", "title": "Ordering of the error measures", "statement": "For non-empty series MAE <= RMSE <= max |e| and RMSE <= sqrt(N) MAE; MAE^2 <= MSE.", "quantifier": "all series (exact arithmetic)", "why_tests_cant": "inequality over all series", "anchors": ["padasip/misc/error_evaluation.py"]}
{"id": "C34", "title": "standardize and standardize_back are inverse", "statement": "For scale != 0 standardize_back(standardize(x, a, b), a, b) = x and standardize(standardize_back(x, a, b), a, b) = x in exact arithmetic; in float64 the round trip is not exact (witness).", "quantifier": "all series, offsets, scales", "why_tests_cant": "all inputs", "anchors": ["padasip/preprocess/standardize.py", "padasip/preprocess/standardize_back.py"]}
{"id": "C35", "title": "z-score", "statement": "standardize(x) of a non-constant series has mean 0 and standard deviation 1, is idempotent, and is invariant under positive affine changes of units of x.", "quantifier": "all series (exact arithmetic)", "why_tests_cant": "all series", "anchors": ["padasip/preprocess/standardize.py"]}
{"id": "C36", "title": "input_from_history builds the sliding-window matrix", "statement": "For 0 < n <= len(a) the result has len(a)-n+1 rows, entry (i, j) is a[i+j], with bias=True every row gets a trailing 1; n > len(a) gives no rows and n <= 0 raises ValueError. The series is recoverable from the matrix.", "quantifier": "all series, n, bias, any arithmetic", "why_tests_cant": "all sizes", "anchors": ["padasip/preprocess/input_from_history.py"]}
{"id": "C37", "title": "PCA", "statement": "PCA_components returns a descending rearrangement of the eigenvalues of the covariance matrix; PCA(x, n) returns for each sample n features; given a correct eigen-solver (unit eigenvectors), the sample variance of output column i is the i-th largest eigenvalue, and columns belonging to different eigenvalues are uncorrelated. n falsy means cols-1, a negative n keeps cols+n features; n >= cols (also n = cols) raises AssertionError.", "quantifier": "all data, n (exact arithmetic, correct eigen-solver)", "why_tests_cant": "all data sets", "anchors": ["padasip/preprocess/pca.py"]}
{"id": "C38", "title": "LDA", "statement": "The within-class and between-class scatter matrices add up to the total scatter matrix; they do not depend on the (hash) order in which classes are enumerated; LDA_discriminants returns the eigenvalues in descending order and in exact arithmetic they are non-negative reals whenever the within-class scatter is positive definite.", "quantifier": "all data, labels, class orders (exact arithmetic)", "why_tests_cant": "all data sets and set orders", "anchors": ["padasip/preprocess/lda.py"]}
{"id": "C39", "title": "ELBND", "statement": "ELBND(w, e)[k] is max_i (or sum_i) |(w[k+1,i]-w[k,i]) e[k]| for k < N-1 and 0 for the last sample; values are >= 0, max <= sum <= n*max; an unknown function raises ValueError; fed with run's own outputs of an LMS filter it is |mu| e[k]^2 max_i |x[k,i]|, so the last sample can never be flagged.", "quantifier": "all histories and errors", "why_tests_cant": "all series", "anchors": ["padasip/detection/elbnd.py"]}
{"id": "C40", "title": "Learning entropy, direct", "statement": "le[k,i] = (|D^order w|[k,i] - mean window)/(std window + 1e-10) over the preceding m samples for k >= m + order, and 0 for k < m; for k >= m+order it depends only on weight differences (invariant under adding a constant to all weights), but for m <= k < m+order the windows contain raw weights and the invariance fails (witness); the result is an N x n matrix, not one value per sample as documented.", "quantifier": "all histories, m >= 1, orders (exact arithmetic)", "why_tests_cant": "all series, windows", "anchors": ["padasip/detection/le.py"]}
{"id": "C41", "title": "Learning entropy, multiscale", "statement": "With sensitivities alpha (non-empty list) every value lies in [0, 1], is 0 for k < m, equals the fraction of (weight, alpha) pairs with |dw| > alpha * mean window, does not depend on the order of alpha, and decreases when sensitivities increase (for k >= m+order).", "quantifier": "all histories, m, orders, alphas (exact arithmetic)", "why_tests_cant": "all inputs", "anchors": ["padasip/detection/le.py"]}
{"id": "C42", "title": "Peak over threshold", "statement": "pot(data, method) returns the k largest values in descending order (every value left out is <= every value kept), k = max(int(.1 n),1) etc.; an unknown method (also the documented '30%') returns nothing, and ESE then raises IndexError; in float64 int(0.35*n) is not floor(35n/100) for some n (witness).", "quantifier": "all data and methods", "why_tests_cant": "all data", "anchors": ["padasip/detection/ese.py:pot"]}
{"id": "C43", "title": "ESE", "statement": "ESE(w, window) has the length of w, is 0 on the first `window` samples and wherever no increment exceeds the window's peak threshold; for any distribution fit with values in [0,1] every value lies between -n log10(1+1e-20) and 20 n; window > len(w) raises ValueError.", "quantifier": "all histories, windows, fit oracles (exact arithmetic)", "why_tests_cant": "all fits and histories", "anchors": ["padasip/detection/ese.py:ESE"]}
{"id": "C44", "title": "MLP inference does not learn", "statement": "predict, run and test never change any weight; run returns predict of each row independent of the previous rows and of stale layer inputs, test returns d - run(x); only update changes weights.", "quantifier": "all networks, inputs, call histories, any arithmetic", "why_tests_cant": "all call sequences", "anchors": ["padasip/ann/mlp.py"]}
{"id": "C45", "title": "MLP activations", "statement": "The sigmoid output lies in (0,1), the 'tanh' formula equals tanh and lies in (-1,1), and the der=True branches give the derivative of the activation expressed through its output.", "quantifier": "all reals", "why_tests_cant": "analytic identities", "anchors": ["padasip/ann/mlp.py:Layer.activation"]}
{"id": "C46", "title": "MLP update is gradient descent for one hidden layer and one output only", "statement": "For outputs=1 the output layer and last hidden layer are moved by minus mu times the gradient of e^2/2; for deeper layers or several outputs the increment carries an additional factor (1-y) and uses already updated weights, and is not the gradient (witness).", "quantifier": "all networks with that shape (exact arithmetic)", "why_tests_cant": "derivative statement", "anchors": ["padasip/ann/mlp.py:Layer.update", "padasip/ann/mlp.py:NetworkMLP.update"]}
{"id": "C47", "title": "MLP training bookkeeping", "statement": "train performs exactly epochs x N predict/update steps in row order (after one common shuffle, the same order in every epoch although documented otherwise), e holds the N*epochs a-priori errors; MSE[j] omits the last sample of epoch j, so it equals the documented mean squared error only if that error is zero (witness).", "quantifier": "all data, epochs, shuffles", "why_tests_cant": "all runs", "anchors": ["padasip/ann/mlp.py:NetworkMLP.train"]}
{"id": "C48", "title": "MLP shape contract", "statement": "train/test raise ValueError if len(d) != len(x), if the number of columns is not n_input, or if the shape of d does not match the outputs, and then leave the network unchanged; on well-shaped data every operation succeeds and all weight shapes are preserved. Deviations: a list of targets ends in AttributeError, a 1-d target for several outputs and an empty x in IndexError, a width-one input is silently broadcast, and update before predict raises ValueError after the output weights were already changed.", "quantifier": "all networks, inputs", "why_tests_cant": "all inputs", "anchors": ["padasip/ann/mlp.py"]}
{"id": "C49", "title": "What the adaptive step sizes descend on", "statement": "VSLMS_Mathews changes its step size, and GNGD its regularisation, by minus ro times the exact derivative of half the squared error of the next sample with respect to the value used for the previous sample; in VSLMS_Benveniste the vector kept for the step-size recursion is the exact derivative of the weights with respect to a common shift of all step sizes used since construction; but VSLMS_Benveniste and VSLMS_Ang multiply it with the previous instead of the current input, so the step-size change is not the gradient: whenever two consecutive inputs are orthogonal the gradient is zero and the step size still moves (by ro e1 e2 |x1|^2 on the second sample).", "quantifier": "all reachable states, all pairs of samples, all histories (exact arithmetic)", "why_tests_cant": "derivative statements over all histories", "anchors": ["padasip/filters/vslms_mathews.py", "padasip/filters/vslms_benveniste.py", "padasip/filters/vslms_ang.py", "padasip/filters/gngd.py"]}
{"id": "C50", "title": "Only the weight error matters", "statement": "For every class but OCNLMS: shifting the initial weights by h and adding the output of the fixed filter h to the targets shifts every returned weight row by h, adds the same output to y and leaves all errors unchanged.", "quantifier": "all classes but OCNLMS, all parameters, initial weights, shifts h, data (exact arithmetic)", "why_tests_cant": "relates two runs on unbounded data", "anchors": ["padasip/filters/ap.py", "padasip/filters/gmcc.py", "padasip/filters/gngd.py", "padasip/filters/llncosh.py", "padasip/filters/lmf.py", "padasip/filters/lms.py", "padasip/filters/nlmf.py", "padasip/filters/nlms.py", "padasip/filters/nsslms.py", "padasip/filters/ocnlms.py", "padasip/filters/rls.py", "padasip/filters/sslms.py", "padasip/filters/vslms_ang.py", "padasip/filters/vslms_benveniste.py", "padasip/filters/vslms_mathews.py"]}
{"id": "C51", "title": "Superposition", "statement": "LMS, NLMS, RLS, AP and OCNLMS are linear in (initial weights, targets): the run on the sum of two target series from the sum of the initial weights returns the sums of the two runs' y, e and w; the other classes do not superpose (a witness for each).", "quantifier": "all parameters, initial weights, target series, inputs (exact arithmetic)", "why_tests_cant": "relates three runs on unbounded data", "anchors": ["padasip/filters/lms.py", "padasip/filters/nlms.py", "padasip/filters/rls.py", "padasip/filters/ap.py", "padasip/filters/ocnlms.py", "padasip/filters/lmf.py"]}
{"id": "C52", "title": "Warm start from the weights", "statement": "For LMS, LMF, SSLMS, NLMS, NLMF, NSSLMS, GMCC and Llncosh: after any history of calls with inputs of the right width, successful or rejected, a new filter of the same class with the same keyword arguments and w = the current weights answers every later script of calls identically. For AP, GNGD, OCNLMS, RLS and the VSLMS classes this is false (witness for each): saving the weights does not save the filter.", "quantifier": "all histories before and all scripts after the restart, all parameters, any arithmetic", "why_tests_cant": "quantifies over all pasts and futures", "anchors": ["padasip/filters/ap.py", "padasip/filters/gmcc.py", "padasip/filters/gngd.py", "padasip/filters/llncosh.py", "padasip/filters/lmf.py", "padasip/filters/lms.py", "padasip/filters/nlmf.py", "padasip/filters/nlms.py", "padasip/filters/nsslms.py", "padasip/filters/ocnlms.py", "padasip/filters/rls.py", "padasip/filters/sslms.py", "padasip/filters/vslms_ang.py", "padasip/filters/vslms_benveniste.py", "padasip/filters/vslms_mathews.py"]}
{"id": "C53", "title": "Robustness of LMS and NLMS to arbitrary disturbances", "statement": "Whatever the targets are, and for every weight vector ws compared with: if mu |x(k)|^2 <= 1, the sum over a run of (ws.x(k) - y(k))^2 is at most the sum of (d(k) - ws.x(k))^2 plus |w(0)-ws|^2/mu (energy gain at most one); for NLMS with 0 <= mu <= 1 the same holds with both sums normalised by eps + |x(k)|^2, for inputs of any size.", "quantifier": "all runs, all targets (no noise model), all comparison vectors (exact arithmetic)", "why_tests_cant": "worst case over all disturbances", "anchors": ["padasip/filters/lms.py", "padasip/filters/nlms.py"]}
{"id": "C54", "title": "Convergence on endless data", "statement": "For endless noise-free data d(k) = ws.x(k): LMS with 0 < mu, mu |x(k)|^2 <= c < 2; NLMS with 0 < mu < 2 and eps + |x(k)|^2 positive and bounded; Llncosh with mu lambda |x(k)|^2 <= c < 2; LMF and NLMF from initial weights close enough to ws: the errors returned by run tend to 0, the weight error never grows, and if the inputs keep exciting all directions the weights tend to ws.", "quantifier": "all endless data streams (exact arithmetic)", "why_tests_cant": "limit statement about infinite runs", "anchors": ["padasip/filters/lms.py", "padasip/filters/nlms.py", "padasip/filters/lmf.py", "padasip/filters/nlmf.py", "padasip/filters/llncosh.py"]}
{"id": "C55", "title": "Speed of RLS", "statement": "A new RLS filter (mu, eps > 0) on noise-free data: if the samples so far excite every direction with strength alpha (discounted by mu), then |w(k)-ws|^2 <= mu^k eps |w(0)-ws|^2/alpha; with mu <= 1 and excitation alpha in every window of m samples the squared error is at most (eps |w(0)-ws|^2/alpha) mu^(k-m), and with mu = 1 at most eps |w(0)-ws|^2/(q alpha) after q windows.", "quantifier": "all data, parameters, run lengths (exact arithmetic)", "why_tests_cant": "rate over unbounded runs", "anchors": ["padasip/filters/rls.py"]}
{"id": "C56", "title": "NLMS with unit step: minimal disturbance and projection", "statement": "One NLMS adaptation with mu = 1 and eps > 0 moves the weights to the unique minimiser of eps |v-w|^2 + (d - v.x)^2 over all vectors v; with eps = 0 the new weights explain the sample exactly and no vector that explains it is closer to the old weights; hence after a run over mutually orthogonal non-zero inputs every one of the samples is explained exactly whatever the targets were, and a linear system is known on the whole span of the inputs.", "quantifier": "all reachable NLMS filters with mu = 1, all samples, all runs with orthogonal inputs (exact arithmetic)", "why_tests_cant": "optimality over all vectors", "anchors": ["padasip/filters/nlms.py"]}
{"id": "C57", "title": "Change of units", "statement": "Measuring the inputs in a unit s times smaller and the targets in a unit t times smaller (all inputs times s, all targets times t), and converting the constructor arguments accordingly (for example mu of LMS by 1/s^2, eps by s^2, the weights by t/s), gives exactly the same run in the new units: y and e are multiplied by t and the weights by t/s; for every one of the 15 classes, each with its own conversion table.", "quantifier": "all 15 classes, all constructor arguments, all s,t > 0, all data (valid or not), exact real arithmetic; AP for every linear solver with solve(cA,B) = solve(A,B)/c", "why_tests_cant": "A test tries a few scale factors on one class; the conversion laws of 15 update rules must hold for every data set, scale and state, including the recursive states (RLS matrix, AP/OCNLMS memory, adaptive step sizes).", "anchors": ["padasip/filters/base_filter.py:AdaptiveFilter.run", "padasip/filters/lms.py", "padasip/filters/gmcc.py", "padasip/filters/gngd.py", "padasip/filters/rls.py", "padasip/filters/ap.py", "padasip/filters/ocnlms.py", "padasip/filters/vslms_*.py"]}
{"id": "C58", "title": "Affine projection: never raises when regularised, and identifies a noise-free system on endless data", "statement": "An AP filter with ifc > 0 never raises an exception in adapt, whatever calls it received before. If moreover 0 < mu < 2 and all data (before and from now on) come without noise from one linear system with bounded inputs, then on an endless stream the errors returned by run tend to zero, the distance of the weights to the system never grows, and the weights tend to the system if the inputs keep exciting all directions.", "quantifier": "all orders, sizes, weights, histories of calls, endless input streams; every linear solver that returns the solution of every non-singular system (exact arithmetic)", "why_tests_cant": "a limit over an endless stream, for every stream and every history, including the zero-filled start of the memory", "anchors": ["padasip/filters/ap.py:FilterAP.adapt", "padasip/filters/ap.py:FilterAP.run"]}
{"id": "C59", "title": "LMS and NLMS track a changing system", "statement": "For any sequence of systems S_0, S_1, ... and any targets, a run of LMS (mu |x|^2 <= 2 at every sample) ends at a distance from the current system S_N of at most the initial distance to S_0 plus the length of the path the system travelled plus the sum of mu |x_k| |v_k|, where v_k is the part of target k not explained by S_k; for NLMS (0 <= mu <= 2) the same with mu/(eps+|x_k|^2) in place of mu and no condition on the inputs.", "quantifier": "all reachable LMS/NLMS filters, all data, all sequences of systems, all lengths (exact real arithmetic)", "why_tests_cant": "an inequality for every trajectory of the system and every disturbance; no finite set of runs covers it", "anchors": ["padasip/filters/lms.py", "padasip/filters/nlms.py", "padasip/filters/base_filter.py:AdaptiveFilter.run"]}
{"id": "C60", "title": "A nan is never washed out", "statement": "If one sample given to adapt or run has a nan target or a nan among its inputs (or the filter has one nan weight), then after that sample all weights of any learning filter class are nan, the error of that sample and every later output, error and row of the weight history are nan, and no later history of predict/adapt/run/pretrained_run calls makes a nan weight a number again; predict on a filter with a nan weight, or with a nan input, returns nan. Holds for any arithmetic with an absorbing number; nan of IEEE binary64 is absorbing.", "quantifier": "all filter classes except the non-learning base class, all sizes, all reachable filter states, all call histories, all positions of the nan", "why_tests_cant": "A test shows one position of a nan in one data set; the claim is about all later samples of every history and all 15 update rules", "anchors": ["padasip/filters/base_filter.py: AdaptiveFilter.adapt, run, predict; AdaptiveFilterAP.adapt, run", "padasip/filters/*.py: learning_rule"]}
{"id": "C61", "title": "Predicting a time series", "statement": "The usual script x = input_from_history(u, n, bias)[:-1]; y, e, w = f.run(u[n:], x) on growing pieces u of an endless bounded series whose next value is a fixed linear (with bias: affine) function of the last n: run returns errors that do not depend on how much of the series is given, and these errors tend to zero, for NLMS with any 0 < mu < 2, eps > 0 and any start, and for LMS with mu below the limit given by the amplitude. In particular every sampled sinusoid plus a constant is learned by NLMS with n = 2 and bias.", "quantifier": "all linear rules and orders n, all bounded series that follow the rule, all reachable LMS/NLMS filters of matching size, all lengths of data", "why_tests_cant": "Convergence to zero is a statement about infinitely many samples, and about the composition of two functions for every series", "anchors": ["padasip/preprocess/input_from_history.py: input_from_history", "padasip/filters/nlms.py: FilterNLMS", "padasip/filters/lms.py: FilterLMS", "padasip/filters/base_filter.py: AdaptiveFilter.run"]}
{"id": "C62", "title": "What the novelty detectors know, and when", "statement": "learning_entropy of the first j rows of a weight record is the first j values of learning_entropy of the whole record (so it can be evaluated online and old values are never revised); the same for ESE when j >= window; ELBND values 0..j-1 need only weight rows 0..j and errors 0..j-1. Fed with the weights of a filter's run: the LE and ESE values 0..k do not depend on sample k (target or input) or anything later, so a novelty in sample k shows at index k+1 at the earliest; ELBND values 0..k depend on samples 0..k only, provided one more sample follows, and can react at index k itself.", "quantifier": "all arithmetics, filter classes, states, data, window sizes, orders, sensitivities, distribution fits", "why_tests_cant": "quantifies over all continuations of the data record", "anchors": ["padasip/detection/le.py:learning_entropy", "padasip/detection/elbnd.py:ELBND", "padasip/detection/ese.py:ESE", "padasip/filters/base_filter.py:AdaptiveFilter.run"]}
{"id": "C63", "title": "What PCA and LDA depend on", "statement": "PCA_components and LDA_discriminants do not change when one vector is added to all samples, when the samples (with their labels) are listed in another order, or (LDA) when the classes get other, still different labels of any type; PCA and LDA then fail with the same exception or both succeed, and the transformed samples are, respectively, all moved by one vector, listed in that other order, unchanged.", "quantifier": "all data of at least two samples (PCA) and any number of columns, all shifts, permutations, injective renamings, n, any eigen-solver, inverse and sort", "why_tests_cant": "relational: compares two calls for every data set and every transformation", "anchors": ["padasip/preprocess/pca.py:PCA,PCA_components", "padasip/preprocess/lda.py:LDA,LDA_discriminants,LDA_base"]}
{"id": "C64", "title": "Error measures of long records", "statement": "MSE and MAE of two records joined are the averages of the pieces' values weighted by length (RMSE: of the squares), hence lie between them; logSE of the joined record is the two series joined. Listing the samples of both series in another order changes no measure and reorders logSE. Against a constant prediction c, MSE is smallest at the mean of the series and larger by (c - mean)^2 elsewhere. Measures of data standardized with the same offset and scale are the measures in units of the scale; after standardize_back they are the original ones.", "quantifier": "all non-empty series of equal length, all splits, permutations, constants, offsets, nonzero scales", "why_tests_cant": "identities between calls over all series and lengths", "anchors": ["padasip/misc/error_evaluation.py:MSE,MAE,RMSE,logSE", "padasip/preprocess/standardize.py:standardize", "padasip/preprocess/standardize_back.py:standardize_back"]}
{"id": "C65", "title": "Every run follows the published recursion of its class, exactly", "statement": "For each of the fifteen filter classes: build a filter with any accepted keyword arguments and call run(d, x). The first row of the returned history is the initial weight vector, and the returned y, e, w (with the final weights) satisfy, for every sample k and weight i, the recursion published for that class, with the parameters that were passed or their documented defaults: outputs y(k) = sum_i w_i(k) x_i(k) and errors e(k) = d(k) - y(k); weight changes mu e x (LMS), mu e^3 x (LMF), mu sign(x) sign(e) (SSLMS), their normalised forms with eps + |x|^2 (NLMS, NLMF, NSSLMS), the GMCC and Llncosh gradients, GNGD with its recursive regularisation, RLS with the recursion of its inverse correlation matrix, the three variable step-size recursions (Ang, Benveniste, Mathews), AP with the regularised inverse of the Gram matrix of the last `order` samples, and OCNLMS with its two offset memories (the code's slot arithmetic, in closed form). These recursions and the initial weights determine y, e and w uniquely.", "quantifier": "every filter class, every keyword arguments the constructor accepts, every initial weight vector, every number and size of samples, every data; exact arithmetic; AP for every solver that returns solutions; OCNLMS with memory other than 1", "why_tests_cant": "A test compares a few runs on a few data sets with recorded numbers; that the update formula, its parameters, their defaults and the order of the state updates are the published ones is a statement about all data, all parameters and all run lengths.", "anchors": ["padasip/filters/base_filter.py:AdaptiveFilter.run", "padasip/filters/base_filter.py:AdaptiveFilterAP.run", "padasip/filters/*.py:learning_rule", "padasip/filters/*.py:__init__"]}
{"id": "C66", "title": "A learning step of the MLP changes every weight of every layer by an explicit formula", "statement": "For a NetworkMLP built with any layer sizes, number of outputs, activation (sigmoid or tanh) and mu (a number or 'auto', then each layer uses one over the square root of its number of inputs), after any history of calls, predict(x) followed by update(d) succeeds, predict returns the textbook forward pass of the current weights, update returns d minus it, and every weight of the output layer and of every hidden layer (bias column included) changes by rate * delta * input, where delta is back-propagated as the code does it: the output error through the old output weights into the last hidden layer, and from layer to layer through the already updated weights, with an additional factor (1 - activity) except in the last hidden layer of a one-output network. This recursion has exactly one outcome.", "quantifier": "every network shape, activation, learning rate, random initial weights, history of calls (also failed ones), input vector and target; exact arithmetic", "why_tests_cant": "A test trains one network on one data set and looks at the final error; that each weight in each layer moves by the stated amount for every shape, weight value and sample is a universal statement, and a wrong back-propagation factor still often decreases the error.", "anchors": ["padasip/ann/mlp.py:NetworkMLP.predict", "padasip/ann/mlp.py:NetworkMLP.update", "padasip/ann/mlp.py:Layer.predict", "padasip/ann/mlp.py:Layer.update", "padasip/ann/mlp.py:NetworkMLP.__init__", "padasip/ann/mlp.py:Layer.__init__"]}
{"id": "C67", "title": "MLP training can be interrupted and resumed", "statement": "NetworkMLP.train(x, d, epochs=a+b) without shuffling leaves the same network and returns the same errors and MSE values (concatenated) as train(x, d, epochs=a) followed by train(x, d, epochs=b); if the first part raises, so does the whole training, with the same exception and leaving the same network. One epoch over a data set that is the concatenation of two leaves the same network with the same errors as one epoch over each part in turn.", "quantifier": "every network and state of it, every data (fitting or not for the first statement), every number of epochs, any arithmetic (so also floating point)", "why_tests_cant": "Depends on every epoch count, on the global position of the MSE slice for each epoch, and on the absence of hidden state carried between calls; finitely many examples cannot exclude it.", "anchors": ["padasip/ann/mlp.py:NetworkMLP.train"]}
{"id": "C68", "title": "MLP: names of inputs, hidden nodes and outputs do not matter; twin nodes stay twins", "statement": "If two networks with the same options have weights that correspond under a renaming of the inputs, of the nodes of each hidden layer and of the outputs, and are trained on data that correspond under the renaming of inputs and outputs, then after any number of learning steps their weights still correspond and all errors correspond. In particular two hidden nodes of a layer with equal incoming and equal outgoing weights keep equal weights for ever: training cannot break the symmetry.", "quantifier": "every shape, activation, learning rate, renaming, weights reachable by any history of calls, training sequence of any length; exact arithmetic", "why_tests_cant": "Ranges over all permutations, weights and training sequences.", "anchors": ["padasip/ann/mlp.py:NetworkMLP.update", "padasip/ann/mlp.py:Layer.update", "padasip/ann/mlp.py:NetworkMLP.predict"]}
{"id": "C69", "title": "MLP: fixed points of learning and a bound on the outputs", "statement": "If predict(x) already returns d, then update(d) changes no weight; with mu=0 no update changes a weight. Every output differs from its bias weight by at most the sum of the absolute values of the other weights of that output, whatever the input and the hidden layers.", "quantifier": "every network reachable by any history of calls, input, target; exact arithmetic", "why_tests_cant": "Universal over inputs, weights and depths; a test sees finitely many.", "anchors": ["padasip/ann/mlp.py:NetworkMLP.update", "padasip/ann/mlp.py:NetworkMLP.predict", "padasip/ann/mlp.py:Layer.activation"]}
{"id": "C70", "title": "MLP: a small learning step reduces the error of its sample for one hidden layer, not in general", "statement": "For a network with one hidden layer and any number of outputs whose prediction for x is not already d there is a positive bound such that predict(x); update(d) with any smaller positive mu strictly reduces the sum of squared errors on that sample. For deeper networks this is false: there is a two-layer network with two outputs and a sample for which every sufficiently small mu strictly increases the error, because of the extra factor (1 - activity) in the back-propagation.", "quantifier": "every size of the hidden layer, number of inputs and outputs, activation, weights reachable by any history, input and target; exact arithmetic", "why_tests_cant": "'For every small enough learning rate' and 'for every weight vector' are not testable; tests of the deep case that happen to converge do not show that the direction is right.", "anchors": ["padasip/ann/mlp.py:NetworkMLP.update", "padasip/ann/mlp.py:Layer.update"]}
{"id": "C71", "title": "Starting over with a used filter", "statement": "After any history of well-shaped calls, successful or not, clear_memory() on an OCNLMS filter returns, keeps the weights and makes the filter indistinguishable, for every further script of calls, from a new OCNLMS filter built with the same keyword arguments and w set to the current weights. For a class whose only memory is the weight vector, and for OCNLMS after clear_memory(), assigning f.w = f.init_weights(w0) gives a filter indistinguishable from a new one built with w=w0. No other class has clear_memory (AttributeError, nothing changes).", "quantifier": "every arithmetic, every filter length, keyword arguments, history of calls before, initial weight argument w0, script of calls after", "why_tests_cant": "a leftover in the memory shows only for particular histories followed by particular calls; both are unbounded", "anchors": ["padasip/filters/ocnlms.py: FilterOCNLMS.clear_memory, read_memory, __init__", "padasip/filters/base_filter.py: AdaptiveFilter.init_weights"]}
{"id": "C72", "title": "LMS on independent samples", "statement": "Feed run of an LMS filter with N samples drawn independently from any distribution with finitely many outcomes. Averaged over all sequences, (a) the weights are exactly those of steepest descent on the mean squared error (each further sample moves the average weights by mu times the average of error times input, the error being that of the average weights); (b) with X a bound on |x|^2 and ws the best fixed weights, (2 - mu X) E[sum e^2] + E|w_N - ws|^2/mu <= 2 N J(ws) + |w_0 - ws|^2/mu; (c) E[sum e^2] >= N J(ws); (d) hence for every tolerance there is a learning rate below which, for all long enough records, the expected mean squared error lies between that of the best fixed filter and that plus the tolerance.", "quantifier": "every finite distribution of (input, target), filter length, initial weights, learning rate, number of samples, best fixed weights", "why_tests_cant": "a statement about the average over all sequences of all lengths from all distributions; a test sees some sampled sequences", "anchors": ["padasip/filters/lms.py: FilterLMS.learning_rule", "padasip/filters/base_filter.py: AdaptiveFilter.run"]}
{"id": "C73", "title": "The errors of RLS add up to the least-squares cost", "statement": "For RLS with 0 < mu and 0 < eps, after every number of samples the smallest value of the discounted, regularised least-squares cost (attained at the current weights) equals the discounted sum of the products of each error returned by run with the error of the same sample recomputed with the next row of weights. Learning from a sample scales its error by a factor in (0, 1], bounded below by s/(|x|^2 + s) with s = mu^(k+1) eps. Without forgetting (mu = 1), for inputs with |x|^2 <= X the energy of all errors returned by run is at most (1 + X/eps) times the cost of any fixed weights, whatever the targets.", "quantifier": "every filter length, initial weights, mu, eps > 0, data, number of samples, competitor", "why_tests_cant": "an identity between sums over the whole record for all records, and a bound against every competitor", "anchors": ["padasip/filters/rls.py: FilterRLS.learning_rule", "padasip/filters/base_filter.py: AdaptiveFilter.run"]}
{"id": "C74", "title": "Mirrored data give mirrored results, in floating point", "statement": "For LMS, LMF, SSLMS, NLMS, NLMF, NSSLMS, GMCC and Llncosh filters in IEEE binary64 arithmetic: negate every input vector and/or every target, and the initial weights accordingly. After any script of well-shaped predict, adapt, run and pretrained_run calls, the outputs, errors, weight histories and weights are the negated (or the same) numbers, exactly, up to the sign of zero, infinities and nan included; a call raises exactly when its mirror image does. (tanh is assumed odd.)", "quantifier": "every such class, keyword arguments, filter length, initial weights, script of calls, and binary64 data including overflow, underflow, infinities and nan", "why_tests_cant": "a bit-exact statement about all floating-point data and call histories; rounding, overflow and nan cases cannot be enumerated", "anchors": ["padasip/filters/base_filter.py: AdaptiveFilter.run, adapt, predict, pretrained_run", "padasip/filters/lms.py, lmf.py, sslms.py, nlms.py, nlmf.py, nsslms.py, gmcc.py, llncosh.py: learning_rule"]}
{"id": "C75", "title": "Degenerate settings: AP with order 0, OCNLMS with mem 0, init_weights with any n", "statement": "AP(order=0) and OCNLMS(mem=0) can be constructed but never learn: after any history of well-shaped calls the weights are the initial ones and every adapt and every non-empty run raises IndexError. AP still predicts w.x; OCNLMS answers predict only as long as no output was asked for before, then raises IndexError. init_weights(w, n) on a built filter changes nothing and returns the weights described by w of size n, the filter's own size for n = -1 only; a negative n otherwise, a wrong length or an unknown string raise ValueError.", "quantifier": "every arithmetic, filter length, keyword arguments, history of well-shaped calls, argument w and integer n", "why_tests_cant": "all histories of calls, including those interrupted by exceptions", "anchors": ["padasip/filters/base_filter.py: AdaptiveFilterAP.adapt, run, AdaptiveFilter.init_weights", "padasip/filters/ocnlms.py: FilterOCNLMS.read_memory, update_memory_x"]}
{"id": "C76", "title": "PCA keeps as much variance as any projection can", "statement": "If np.linalg.eig returns unit eigenvectors of the covariance matrix that belong to different eigenvalues (or are orthogonal), they form an orthogonal matrix, the columns of PCA(x, n) are the coordinates of the samples along orthonormal directions, and among all choices of as many orthonormal directions these keep the largest sum of variances and approximate the centred samples with the smallest sum of squared distances, which is N-1 times the sum of the dropped values of PCA_components. No two samples get farther apart.", "quantifier": "every data set (at least two samples, two columns), requested n, competing family of orthonormal directions, pair of samples", "why_tests_cant": "optimality against every orthonormal family cannot be tested", "anchors": ["padasip/preprocess/pca.py: PCA, PCA_components"]}
{"id": "C77", "title": "LDA finds the linear features that separate the classes best, and no more of them than there are classes minus one", "statement": "Given a correct matrix inverse and a basis of eigenvectors from the eigen-solver: no linear combination of the input features has a larger ratio of between-class to within-class scatter than the first output column of LDA, whose ratio is the first value of LDA_discriminants; among the combinations without within-class correlation to the first i columns none exceeds the i-th discriminant. Columns with different discriminants are uncorrelated within and between the classes. With C distinct labels, all discriminants from the C-th on are zero and a corresponding column has the same mean in every class.", "quantifier": "every sample matrix, every labelling, every number of kept features, every linear feature, every order in which the set of labels is enumerated, every correct inverse and eigen-solver", "why_tests_cant": "the optimum ranges over all weight vectors and the rank bound over all data sets; tests compare a few projections", "anchors": ["padasip/preprocess/lda.py: LDA, LDA_discriminants, LDA_base"]}
{"id": "C78", "title": "Predictions and errors in IEEE double precision are exact up to a known rounding bound", "statement": "In binary64, with np.dot free to add the products in any order, with any bracketing and with or without fused multiply-add, a finite value returned by predict(x) of any filter but OCNLMS differs from the exact inner product w.x by at most ((1+u)^n - 1) sum|w_i x_i| + n (1+u)^n eta, where u = 2^-53 and eta = 2^-1075; in particular no weight and no input it was computed from is infinite or nan. The same holds for every finite y[k] returned by run with respect to the weights in row k of the history, e[k] is d[k] - y[k] up to one relative rounding u, and is the exact a-priori error up to both bounds.", "quantifier": "every filter class except OCNLMS, every reachable filter, every length n, all float arrays (including denormals, infinities, nan), every order of summation and use of FMA, every k", "why_tests_cant": "the bound must hold for every input and every order of additions a BLAS library may choose; a test sees one BLAS and a few inputs", "anchors": ["padasip/filters/base_filter.py: AdaptiveFilter.predict, AdaptiveFilter.run", "padasip/filters/ap.py: FilterAP.run"]}
{"id": "C79", "title": "Rounding errors of LMS and NLMS add up but are not amplified", "statement": "Run an LMS or NLMS filter in binary64 (any summation order, with or without FMA) and the same filter in exact arithmetic on the same data from the same weights. If mu|x_k|^2 <= 2 for LMS, or 0 <= mu <= 2 and eps > 0 for NLMS, and nothing overflows, then after k samples the two weight vectors differ by at most the sum over the k steps of the norm of an explicit per-step rounding slack computed from the binary64 run alone, and the k-th outputs differ by at most that sum times |x_k| plus the rounding bound of one inner product. The slack is not multiplied by any growth factor from step to step.", "quantifier": "all lengths, numbers of samples, inputs, targets, initial weights, step sizes and eps in the stated range, all orders of summation", "why_tests_cant": "a test compares a few runs with a higher precision; it cannot exclude an input sequence on which the errors grow geometrically", "anchors": ["padasip/filters/lms.py: FilterLMS.learning_rule", "padasip/filters/nlms.py: FilterNLMS.learning_rule", "padasip/filters/base_filter.py: AdaptiveFilter.run"]}
{"id": "C80", "title": "MLP: a nan in training destroys the network for good", "statement": "A nan (more generally a number that + - * exp, the divisor of a division and sums pass on) in the input makes every output of predict nan, whatever the layers, weights and activation. One learning step, or one call of train with a nan in any position of the inputs or targets, raises nothing and leaves every weight of every hidden layer nan; from then on every output of predict and run is nan for every input, whatever calls (including further training on clean data, and calls that raise) follow.", "quantifier": "all layer sizes, numbers of inputs and outputs, activations, weights, positions of the nan, epochs, shuffles, later histories of calls", "why_tests_cant": "a test shows one network and one continuation; the property is about every later history", "anchors": ["padasip/ann/mlp.py: Layer.predict, Layer.update, NetworkMLP.predict, NetworkMLP.update, NetworkMLP.train, NetworkMLP.run"]}
{"id": "C81", "title": "MLP: an unknown activation name is not rejected and silently ruins the network", "statement": "A NetworkMLP built with an activation name other than \"sigmoid\" and \"tanh\" is accepted by the constructor; predict and run accept every input of the right length and return nan for every output without raising and without changing a weight; update with a fitting target raises TypeError but has by then overwritten all output weights with nan, leaving the hidden weights as they were; train on any fitting data raises TypeError at its first sample with the same effect.", "quantifier": "all layer sizes, inputs, outputs, weights, data, epochs, shuffles and histories of calls of such a network", "why_tests_cant": "the state left behind by the exception, for every shape and history, is not visible in a test of the message", "anchors": ["padasip/ann/mlp.py: Layer.activation, Layer.predict, Layer.update, NetworkMLP.__init__, NetworkMLP.predict, NetworkMLP.update, NetworkMLP.train"]}
{"id": "C82", "title": "MLP: which arrays may be reused", "statement": "With a NetworkMLP a program may overwrite its input vectors, its targets and the error arrays returned by update at any time: every call to predict, update, train, run and test answers as if it had been given and had returned copies, the network never changes an array of the program, and it learns the same parameters. The one exception is the array returned by predict of a network with several outputs: it is the network's own record of its output, so a program that overwrites it must call predict (or train/run/test) before the next update; otherwise update returns, and learns from, the target minus the overwritten values. Networks with one output have no such exception.", "quantifier": "all networks (reachable or not), all programs: any sequence of creating arrays, overwriting any of them, and calls with any arguments", "why_tests_cant": "aliasing bugs depend on the interleaving of writes and calls; tests pass fresh arrays", "anchors": ["padasip/ann/mlp.py: NetworkMLP.predict, update, train, run, test; Layer.predict"]}
{"id": "C83", "title": "Novelty detection depends neither on the units of the data nor on the order of the inputs", "statement": "If every weight of a history is expressed in its own smaller unit and the weights are listed in another order, learning_entropy with sensitivities returns the very same series, ESE returns the very same series (given a distribution fit that respects units, as maximum likelihood does), learning_entropy without sensitivities keeps sign and place of every value and multiplies it by a factor between 1 and the unit factor (the 1e-10 in its denominator has a unit), and ELBND is multiplied by the product of the two unit factors of weights and errors. Hence, for every filter class: measuring inputs and targets in other units (constructor arguments converted) or listing the inputs in another order gives the same learning entropy, the same ESE, and ELBND in the new unit.", "quantifier": "all weight histories and errors, all positive unit factors, all permutations, all windows, orders, sensitivities, all filter classes and data, exact real arithmetic", "why_tests_cant": "a metamorphic relation over all histories; sample tests can not rule out a unit-dependent threshold", "anchors": ["padasip/detection/le.py: learning_entropy", "padasip/detection/elbnd.py: ELBND", "padasip/detection/ese.py: ESE, pot", "padasip/filters/base_filter.py: AdaptiveFilter.run"]}
{"id": "C84", "title": "Variable step-size filters: a condition that guarantees stability, and none for free", "statement": "Let the targets come from fixed weights ws without noise and let every squared input norm be at most X2. If the initial squared distance of the weights to ws is small enough for the chosen ro (Mathews: |ro| X2 D <= del g; Ang: the same divided by 1-|a|; Benveniste: 7 |ro| D <= 2 del g^2; GNGD: |ro| X2 D (eps+del+X2) <= del (eps-del)^2 (2-mu), with g = (mu-del)(2-(mu+del)X2)), then for data of any length run keeps the step size (GNGD: the regularisation) within del of its initial value, the distance to ws never increases, and the sum of all squared errors is at most D/g. Without such a condition no choice of mu and ro <> 0 is safe: for every factor M there are two noise-free samples of size at most one for which the error of the weight grows at least M times.", "quantifier": "all constructor arguments, all noise-free data of any length and width, all del; for the converse all mu, ro, eps, a and M", "why_tests_cant": "The step size and the errors feed back on each other; the bound must hold for all data lengths, which is an invariant, and the converse quantifies over all parameters.", "anchors": ["padasip/filters/vslms_mathews.py: FilterVSLMS_Mathews.learning_rule", "padasip/filters/vslms_ang.py: FilterVSLMS_Ang.learning_rule", "padasip/filters/vslms_benveniste.py: FilterVSLMS_Benveniste.learning_rule", "padasip/filters/gngd.py: FilterGNGD.learning_rule", "padasip/filters/base_filter.py: AdaptiveFilter.run"]}
{"id": "C85", "title": "MLP update: targets of every shape", "statement": "After a predict, update accepts besides the documented target also a one-element array (one output: it counts as its element; several outputs: it counts for every output) and a single number for several outputs (it counts for every output): the network learns exactly what it learns from the documented target meant. An array of any other length is rejected with ValueError and the network is unchanged - except that a network with one output, given an array as long as its output weight vector, raises ValueError only after it has overwritten its output weights (each by its own target). Before the first predict a single number given to a network with several outputs shifts all output weights by mu times the number and then raises ValueError.", "quantifier": "all networks reachable by any history, all inputs, all targets (numbers and arrays of every length), any arithmetic", "why_tests_cant": "Broadcasting makes wrong shapes silently legal; which of them are, and what is changed before an exception, depends on relations between all sizes.", "anchors": ["padasip/ann/mlp.py: NetworkMLP.update, Layer.update"]}
{"id": "C86", "title": "MLP: which constructor arguments are accepted, and what the network starts with", "statement": "NetworkMLP(layers, n_input, outputs, activation, mu) raises IndexError for an empty list of layers, ZeroDivisionError when a hidden layer or the input has size 0, ValueError when mu is neither \"auto\" nor a number, and accepts everything else. The network then has the given sizes; every layer with k inputs has k+1 weights per node drawn with standard deviation 1/sqrt(k), and its learning rate is mu or, with \"auto\", 1/sqrt(k), where k is the number of inputs of that layer (for the output layer the size of the last hidden layer). Before any predict all stored inputs are 1 and all stored outputs are 0. The automatic learning rates lie in (0, 1] and fall with the width.", "quantifier": "all lists of layer sizes, all numbers of inputs and outputs, all values of mu, all random draws, exact real arithmetic", "why_tests_cant": "The arguments range over all lists of sizes; a wrong width for one layer shows only for particular size lists.", "anchors": ["padasip/ann/mlp.py: NetworkMLP.__init__, Layer.__init__"]}
{"id": "C87", "title": "Detection and preprocessing: every outcome, for every argument", "statement": "learning_entropy: a negative order gives ValueError; otherwise the default, an empty list, an empty array, the number 0 and the array [0] all give the same matrix, a non-empty list gives a series, an array with one non-zero element gives the series of that list, another number TypeError, a longer array ValueError. ELBND with a known function: one value per row when there are as many errors as rows (ValueError for \"max\" without weights); a single error counts for every row; a single row gives zeros, one per error; any other number of errors gives ValueError. pot fails only for log10log10 on no (ValueError) or 10 values (OverflowError) and log10 on no values (OverflowError), and otherwise returns the k largest values. ESE with a fit that never fails raises exactly when the window is longer than the data (ValueError), or there is at least one sample to evaluate and pot fails on a window, or the method is unknown or the window empty (IndexError). PCA and LDA: AssertionError exactly for n >= columns, then IndexError for a wrong number of labels (LDA), then LinAlgError exactly for one column (PCA) or when the linear algebra library fails on the covariance (scatter) matrix; PCA_components and LDA_discriminants likewise.", "quantifier": "all arguments: all orders, sensitivities, windows, method names, numbers of features, all data of any size", "why_tests_cant": "The claim is an exact case distinction over all arguments; tests sample some cases.", "anchors": ["padasip/detection/le.py: learning_entropy", "padasip/detection/elbnd.py: ELBND", "padasip/detection/ese.py: pot, ESE", "padasip/preprocess/pca.py: PCA, PCA_components", "padasip/preprocess/lda.py: LDA, LDA_discriminants, LDA_base"]}
{"id": "C88", "title": "RLS with a forgetting factor below one does not survive silence", "statement": "While all inputs are zero an RLS filter in exact arithmetic keeps its weights and divides every entry of its matrix R by mu at each sample. In IEEE binary64, whatever the order in which np.dot sums (fused multiply-adds included), for every mu with 0 < mu < 1 and every filter in which some entry of R is a normal number there is a K such that any run of more than K zero samples, with any targets, ends with all weights nan, without any exception; K samples suffice as soon as ((1-2^-53)^2/mu)^K |r| >= 2^1024. The weights stay nan under every later call. Before that nothing shows: as long as R is finite the weights have not changed. With mu = 1 silence is harmless for any number of samples. The default filter (mu = 0.1, eps = 0.001) is destroyed by 312 zero samples.", "quantifier": "all reachable RLS filters, all mu in (0,1), all targets, all runs of zero inputs (either sign of zero), all summation orders of np.dot, all later calls", "why_tests_cant": "the overflow takes hundreds to billions of samples depending on mu, and depends on every intermediate rounding; a test picks one mu and one length, and a test of moderate length sees unchanged weights", "anchors": ["padasip/filters/rls.py: FilterRLS.learning_rule, FilterRLS.__init__", "padasip/filters/base_filter.py: AdaptiveFilter.run"]}
{"id": "C89", "title": "LMS and NLMS in binary64 never overflow on data of sane size, and stay within an explicit distance of exact arithmetic", "statement": "Take an LMS filter (mu times the squared norm of every input at most 2) or an NLMS filter (0 <= mu <= 2, 2^-100 <= eps <= 2^100) computing in IEEE binary64 with inner products evaluated in any order, with or without fused multiply-add. If the inputs, targets and initial weights are finite with norms up to 2^100 and the run makes up to 2^44 multiply-adds (samples times taps plus one), then run() succeeds, every output, error and weight is finite (no inf, no nan), the weights after k samples have norm at most 2(|w0| + k(beta+1)) where beta bounds the move of one sample, and weights and outputs differ from the run in exact arithmetic by at most k times 256(n+1) 2^-53 times that size (plus the rounding of one inner product for the outputs).", "quantifier": "all numbers of taps up to 2^40, all reachable LMS/NLMS filters, all parameters, inputs and targets in the stated ranges, all run lengths with samples times (taps+1) up to 2^44, all evaluation orders of the inner products", "why_tests_cant": "no test can enumerate 2^44-sample runs or the data; freedom from overflow and a worst-case error bound are statements about all of them", "anchors": ["padasip/filters/lms.py: FilterLMS", "padasip/filters/nlms.py: FilterNLMS", "padasip/filters/base_filter.py: run"]}
{"id": "C90", "title": "What RLS remembers about a direction, and how one sample along it overrides everything", "statement": "For a new RLS filter (mu > 0, eps > 0) in exact arithmetic: the error of sample (d, v) recomputed after learning from it is a fraction theta of the error returned by run, 0 <= theta <= K/(K+|v|^4), where K = mu (mu^k eps |v|^2 + sum of mu^(k-1-i) (x_i.v)^2). If no input since sample m has a component along v, the remaining error is at most mu^(k-m+1) I_m/|v|^4 times the error, where I_m is what the filter knew at m: with mu < 1 a direction that is not excited is forgotten exponentially although no contradicting data arrived, and one sample (even a wrong one) then sets the prediction. For a direction never seen the prediction is still that of the initial weights and the fraction left is exactly s/(s+|v|^2), s = mu^(k+1) eps.", "quantifier": "all RLS filters built by the constructor with mu, eps > 0, all inputs, targets and run lengths, all samples k and m <= k", "why_tests_cant": "a relation between whole histories, for all histories; tests see individual runs only", "anchors": ["padasip/filters/rls.py: FilterRLS.__init__, learning_rule", "padasip/filters/base_filter.py: run"]}
{"id": "C91", "title": "In binary64 a filter stops learning, for good, once its updates fall below the resolution of its weights", "statement": "For filters whose learning rule changes nothing but the weights (LMS, NLMS, LMF, NLMF, SSLMS, NSSLMS, GMCC, LlncoshLMS), in binary64 arithmetic: when every change the learning rule proposes is at most 2^-55 of the weight it applies to, adapt leaves the filter bit for bit as it was; if that holds for every sample of a run, run reports the errors of the fixed initial weights at every step, however long the run is, and the weights at the end are those at the start. For LMS this happens whenever |mu x_i e| <= 2^-56 |w_i| for every i (weights not below 2^-600, numbers not above 2^300), so the error need not tend to zero where the exact algorithm's does: with one tap, w = 1, input 1, target 1 + 2^-15 and mu = 2^-41 the reported error is 2^-15 for ever, while in exact arithmetic it is (1 - 2^-41)^k 2^-15.", "quantifier": "every reachable filter whose learning rule keeps no state, every sample, every run length, every order of the sum in the dot product", "why_tests_cant": "a test runs finitely many samples and cannot tell slow learning from none; the claim is about all run lengths and all float values", "anchors": ["padasip/filters/base_filter.py: AdaptiveFilter.adapt, AdaptiveFilter.run", "padasip/filters/lms.py: FilterLMS.learning_rule"]}
{"id": "C92", "title": "What each class does with one sample presented over and over", "statement": "Give run the same sample (d, x) N times. With e0 = d - w.x the first error: LMS and NLMS report e[k] = (1-a)^k e0 with a = mu|x|^2 (NLMS: divided by eps+|x|^2), so they converge for 0 < a < 2 and exceed every bound for a < 0 or a > 2. LMF and NLMF (same a > 0) converge to 0 iff a e0^2 < 2, flip sign for ever if a e0^2 = 2, and grow at least like (a e0^2 - 1)^k if a e0^2 > 2, so every positive learning rate has targets on which they explode. SSLMS and NSSLMS (a = mu sum|x_i|, over eps+|x|^2 for NSSLMS) shrink the error by exactly a per sample until it is at most a, then stay within a and, unless the error is exactly 0, repeat with period two, the two absolute errors adding up to a: they never converge. LlncoshLMS, and GMCC with alpha = 2, never report an error above max(|e0|, mu |x|^2) (GMCC: mu sqrt(lambda) |x|^2), whatever the learning rate.", "quantifier": "every reachable filter of the classes named, every sample (d, x) of the filter's width, every number of repetitions, real arithmetic", "why_tests_cant": "convergence, periodicity and divergence are statements about unboundedly many samples and all data", "anchors": ["padasip/filters/base_filter.py: AdaptiveFilter.run", "padasip/filters/lms.py: FilterLMS.learning_rule", "padasip/filters/nlms.py: FilterNLMS.learning_rule", "padasip/filters/lmf.py: FilterLMF.learning_rule", "padasip/filters/nlmf.py: FilterNLMF.learning_rule", "padasip/filters/sslms.py: FilterSSLMS.learning_rule", "padasip/filters/nsslms.py: FilterNSSLMS.learning_rule", "padasip/filters/llncosh.py: FilterLlncosh.learning_rule", "padasip/filters/gmcc.py: FilterGMCC.learning_rule"]}
{"id": "C93", "title": "Error measures computed in binary64 are the true ones up to a relative error of about n 2^-52", "statement": "For two series of n >= 1 finite binary64 numbers not above 2^400 in absolute value (n up to 2^40), and whatever the order in which np.sum and np.dot add up: MSE, MAE and RMSE return a finite, non-negative number; MSE and MAE differ from the exact mean of the squares (absolute values) of the differences of the given numbers by at most 2(n+3) 2^-53 times that mean, plus 2^-1073; RMSE differs from the exact root by at most 2(n+4) 2^-53 times that root, plus 2^-535. A series of finite numbers compared with itself gives exactly zero in all three. The additive terms are real: MSE and RMSE of [2^-600] against [0] are zero.", "quantifier": "all pairs of series of equal length within the stated sizes, all summation orders, with or without fused multiply-add", "why_tests_cant": "an accuracy bound for all inputs and all summation orders cannot be sampled", "anchors": ["padasip/misc/error_evaluation.py: get_valid_error, MSE, MAE, RMSE"]}
{"id": "C94", "title": "Standardisation in binary64", "statement": "In IEEE binary64 arithmetic (correctly rounded operations, any summation order), for a non-empty series of at most 2^40 finite numbers of size at most 2^400: the default offset that standardize uses differs from the true mean by at most 2(n+1)u times the mean absolute value (plus 6 eta), and the default scale is finite, non-negative and differs from the true standard deviation by at most 2(n+5)u times that deviation plus twice the bound for the mean plus 2^-535. With any finite offset of size at most 2^400 and a scale of size between 2^-400 and 2^400, every standardised element is finite and within 3u relative (plus eta) of (x-offset)/scale, and standardize_back with the same offset and scale returns every element within u|x| + 5u|x-offset| + 3 eta(|scale|+1). The deviation of a constant series need not come out as 0: the series 0.1, 0.1, 0.1 is standardised to -1, -1, -1.", "quantifier": "every series, length, offset, scale and summation order within the stated ranges", "why_tests_cant": "rounding errors accumulate over arbitrary lengths and values; tests compare a few series with a tolerance", "anchors": ["padasip/preprocess/standardize.py: standardize", "padasip/preprocess/standardize_back.py: standardize_back"]}
{"id": "C95", "title": "learning_rule called by the user, with an input of any length", "statement": "For every filter except AP and every arithmetic, in any reachable state: calling learning_rule(e, x) directly never changes the weights, n, mu or the recorded history. For the classes without memory (base, LMS, LMF, SSLMS, NLMS, NLMF, NSSLMS, GMCC, Llncosh) it changes nothing at all and returns len(x) numbers whatever the length of x; adapt(d, x) is exactly learning_rule(d - w.x, x) added to the weights (all classes but OCNLMS and AP). With an x of the wrong length, RLS, GNGD and Mathews raise ValueError unchanged; OCNLMS raises ValueError unchanged unless x is a single number, which it takes for the constant vector; but Benveniste, and Ang with n other than 1, return an update of length len(x) and are dead from then on: every later learning_rule and adapt raises ValueError and changes nothing, no run or pretrained_run ever returns, while predict goes on as before. Ang with one weight survives exactly one more correct call. In the user's own loop f.w += f.learning_rule(e, x) with a class without memory, an x of length neither n nor 1 raises ValueError and leaves the filter unchanged, and a single number moves every weight by the same amount (for LMS by mu*x*e).", "quantifier": "every class but AP, every reachable state, error, input of every length, and every later call", "why_tests_cant": "the consequence is about every later call on every data; tests call learning_rule only through adapt and run with matching lengths", "anchors": ["padasip/filters/base_filter.py: AdaptiveFilter.learning_rule, AdaptiveFilter.adapt", "padasip/filters/vslms_ang.py: FilterVSLMS_Ang.learning_rule", "padasip/filters/vslms_benveniste.py: FilterVSLMS_Benveniste.learning_rule", "padasip/filters/ocnlms.py: FilterOCNLMS.learning_rule", "padasip/filters/rls.py: FilterRLS.learning_rule", "padasip/filters/lms.py: FilterLMS.learning_rule"]}
{"id": "C96", "title": "MLP in binary64: activations stay in range, saturation is exact, and a saturated node never learns again", "statement": "In IEEE binary64, whatever non-negative value (0 and +inf included) np.exp returns, every activation of the MLP of a non-nan argument is a finite number in [0,1] (sigmoid) or [-1,1] (tanh) and the slope used by backpropagation is a finite number in [0,1]. When exp(-x) <= 2^-54 (sigmoid) or exp(-2x) <= 2^-54 or >= 2^56 (tanh), or exp(-x) overflows, the output is exactly an end of the range and the slope is exactly zero; with an exp correct within a factor 2 this happens from x >= 42 (sigmoid) and x >= 21 (tanh) on. A learning step leaves the weights of a node with zero slope unchanged (bit for bit, unless a weight is -0.0), or one of its weights becomes nan/inf; a node of the first hidden layer which is saturated on every training row therefore leaves NetworkMLP.train, for any number of epochs and any shuffling, with exactly the weights and outputs it went in with.", "quantifier": "every reachable network, every activation argument, every training set, target, number of epochs and shuffling; every exp oracle with non-negative values; every summation and dot-product evaluation order", "why_tests_cant": "The claim is about all floating point inputs including those where exp underflows or overflows, and about all training histories; tests sample a few nets with moderate weights", "anchors": ["padasip/ann/mlp.py: Layer.activation", "padasip/ann/mlp.py: Layer.update", "padasip/ann/mlp.py: NetworkMLP.train", "padasip/ann/mlp.py: NetworkMLP.update"]}
{"id": "C97", "title": "Sign-sign filters: settled within a quantum for one weight or inputs of constant magnitude, divergent in general for every step size", "statement": "SSLMS and NSSLMS move each weight by a quantum q (mu, resp. mu/(eps+x.x)). (a) With inputs whose entries are all +c or -c, whatever the targets are and for every competitor ws, the sum of |e| over a run is at most the sum of the absolute noise (target minus output of ws) plus N n c q/2 plus c |w0-ws|^2/(2q). (b) With one weight, non-zero inputs and noise-free targets the distance to the true weight after k samples is at most max(initial distance - k q, q). (c) In general there is no stability: on the noise-free periodic inputs (3,-1,-1), (-1,3,-1), (-1,-1,3), which excite every direction, a filter started at ws - K(1,1,1), K > 0, ends after 3N samples at exactly ws - (K + N q)(1,1,1), for every step size mu > 0; the distance exceeds every bound. NLMS with 0 < mu < 2 identifies the system on the very same data. (d) NSSLMS moves every weight with a non-zero input by between mu/(eps + delta) and mu/eps whenever x.x <= delta and e is not 0: the quieter the input the larger the jump (up to 100 with the default mu and eps).", "quantifier": "every reachable filter of the two classes, every step size, every eps >= 0, every record and every competitor (a); every noise-free record (b); every step size, system, starting offset and number of cycles (c)", "why_tests_cant": "A statement about the limit behaviour for all step sizes and record lengths; a test with random data never hits the divergent pattern", "anchors": ["padasip/filters/sslms.py: FilterSSLMS.learning_rule", "padasip/filters/nsslms.py: FilterNSSLMS.learning_rule", "padasip/filters/base_filter.py: AdaptiveFilter.run"]}
{"id": "C98", "title": "GMCC: the larger an error the less it moves the weights - outliers do not hurt, but a filter that starts far away does not move", "statement": "In exact arithmetic, for every GMCC filter with mu, lambd, alpha >= 0: a sample with |e| >= h > 0 changes weight i by at most mu alpha exp(-lambd h^alpha / 2)/h times |x_i|, never away from the target; k samples whose errors all are at least h move weight i by at most k times that (times a bound on |x_i|). Consequently, with alpha = 2, one weight started at 0, input 1 and target D, the filter has not come half of the way after D^2 exp(lambd D^2/8)/(8 mu) samples (astronomically many for D = 100 and the defaults). Still, on noise-free endless data with bounded inputs, for alpha >= 2 and mu lambd alpha R^(alpha-2) B <= c < 2 (B bounds |x|^2, R^2 = B |w0 - ws|^2), the errors tend to zero and, if the inputs keep exciting all directions, the weights tend to the system; the distance never grows.", "quantifier": "every reachable GMCC filter, every record, every error size (outliers, far away); every D, mu, lambd (stuck); every endless noise-free stream (identification)", "why_tests_cant": "A limit statement and an exponential time bound over all records and settings", "anchors": ["padasip/filters/gmcc.py: FilterGMCC.learning_rule", "padasip/filters/base_filter.py: AdaptiveFilter.run"]}
{"id": "C99", "title": "The novelty detectors do not notice that the filter broke down", "statement": "When one target or input entry of a run is nan, the detectors fed with the weight history of that run behave as follows for all later samples. The multiscale learning entropy (alpha a list) returns exactly 0, its 'nothing new' value, for every window, order and list of sensitivities; ESE returns the value of a sample at which no weight moved unusually; the direct learning entropy and ELBND (max and sum) return nan. So an alarm of the form detector > threshold, for any threshold that 0 does not exceed, never fires after the sample, with any of the four. For every history whatever, with or without nan or inf, the multiscale learning entropy in binary64 is the correctly rounded quotient of two counts, hence a number between 0 and 1.", "quantifier": "all filter classes, all data with a nan target or input at any sample k, all windows, orders, sensitivities, ESE methods; binary64 with any order of summation", "why_tests_cant": "needs the composition of every filter's update with every detector, at every later sample", "anchors": ["padasip/detection/le.py: learning_entropy", "padasip/detection/elbnd.py: ELBND", "padasip/detection/ese.py: ESE", "padasip/filters/base_filter.py: run"]}
{"id": "C100", "title": "NLMS on independent samples: it minimises the normalised error, which is not the error", "statement": "A run of NLMS is a run of LMS on the samples divided by the square root of their power eps + x.x: same weights, normalised errors. So for samples drawn independently from any distribution, the average NLMS weights follow steepest descent on the mean of e^2/(eps + x.x) exactly; for every mu below 2, without any assumption on the size of the inputs, they converge geometrically to the weights that minimise it, and the average normalised error energy obeys an explicit bound relative to the best fixed weights, which it cannot beat. These weights are the minimum-mean-squared-error ones when the errors of these are centred for every input; otherwise not: there is a distribution on which, for every mu in (0, 2) and every initial weight, the average NLMS weight tends to 5/13 where the best weight is 1/5, and the average mean squared error stays at least 2/25 above the best one, which LMS with a small step approaches (C72). For LMS the average weights converge to the best ones geometrically.", "quantifier": "all finitely supported distributions of the samples, all reachable NLMS (and LMS) filters, all learning rates, all record lengths", "why_tests_cant": "a statement about averages over all sequences of samples, and about limits", "anchors": ["padasip/filters/nlms.py: FilterNLMS.learning_rule", "padasip/filters/base_filter.py: run", "padasip/filters/lms.py: FilterLMS.learning_rule"]}
{"id": "C101", "title": "Random noise on the targets averages out in RLS without forgetting, and never in LMS, NLMS or RLS with forgetting", "statement": "Let the targets be ws.x_k plus independent noise of mean zero and variance v (any law with finitely many outcomes), the inputs fixed and arbitrary. After run() on N samples a freshly made RLS filter (0 < mu, 0 < eps) has weights whose mean is ws + mu^N eps Q (w0 - ws) and whose mean squared distance to ws is exactly |mu^N eps Q (w0 - ws)|^2 + v sum_i mu^(2(N-1-i)) |Q x_i|^2, where Q, the stored matrix, is the inverse of mu^N eps I + sum_i mu^(N-1-i) x_i x_i'. With mu = 1 and inputs that excite every direction with strength lam this is at most (eps/(eps+lam))^2 |w0-ws|^2 + n v/(eps+lam), so on endless persistently exciting inputs it tends to 0. With mu < 1 it is at least v |x_N|^2 / (mu^N eps + X/(1-mu))^2, for LMS at least v mu^2 |x_N|^2 and for NLMS at least v (mu/(eps+|x_N|^2))^2 |x_N|^2, after any history: the noise never averages out.", "quantifier": "all systems, inputs, lengths, noise laws, initial weights; all RLS filters with 0 < mu and 0 < eps; all reachable LMS and NLMS filters", "why_tests_cant": "an average over all noise sequences for every number of samples, and a limit; a simulation sees a few sequences", "anchors": ["padasip/filters/rls.py: FilterRLS.learning_rule", "padasip/filters/lms.py: FilterLMS.learning_rule", "padasip/filters/nlms.py: FilterNLMS.learning_rule", "padasip/filters/base_filter.py: AdaptiveFilter.run"]}
{"id": "C102", "title": "Reordering and repeating the data", "statement": "For a freshly built RLS filter with mu = 1 and eps > 0 the weights (and the stored matrix) after a run depend only on the multiset of samples, not on their order; pre-training it with p >= 1 epochs leaves it, at the start of the test part, at the unique minimiser of misfit + (eps/p)*|w - w0|^2 over the training part, so its misfit exceeds that of any fixed weights v by at most (eps/p)*|v - w0|^2. With a forgetting factor 0 < mu < 1 order matters already for one weight and two samples, whatever mu and eps are. For LMS and NLMS, whatever happened before, exchanging two consecutive samples changes the weights by exactly g1*g2*(x1.x2)*(e2*x1 - e1*x2), e1, e2 being the errors the filter makes on the two samples before either is learned and g1, g2 the step sizes; so the order of the two is immaterial exactly when mu = 0, or the inputs are orthogonal, or e2*x1 = e1*x2.", "quantifier": "all sizes, data, permutations of the data, epoch counts, training fractions, initial weights, eps > 0; all reachable LMS/NLMS filters and pairs of samples", "why_tests_cant": "It ranges over all permutations of unboundedly long data, all epoch counts and all histories.", "anchors": ["padasip/filters/rls.py:FilterRLS.learning_rule", "padasip/filters/lms.py:FilterLMS.learning_rule", "padasip/filters/nlms.py:FilterNLMS.learning_rule", "padasip/filters/base_filter.py:AdaptiveFilter.run", "padasip/filters/base_filter.py:AdaptiveFilter.pretrained_run"]}
{"id": "C103", "title": "OCNLMS: what the centring of the targets does", "statement": "A new OCNLMS filter whose output can only come from its memory of targets (all inputs zero, or mu = 0 with zero weights): with mem >= 4, targets bounded by B give outputs bounded by 2B and errors bounded by 3B for ever; for a constant target c the output tends to c if mem is odd, but to c/2 if mem is even - the default is 100 - and the distance to the limit after (1+j)*mem samples is at most 3|c|/2^j, so with the default an offset of the target is never removed by more than half; with mem = 2 or 3 the bounded targets 1, -1, 1, -1, ... make the output grow without bound (|y[k]| >= k/4).", "quantifier": "all filter lengths, keyword arguments (mem as stated, eps > 0), records of any length, all bounded targets, all constants c", "why_tests_cant": "Limits and bounds over records of unbounded length and every memory size; a test of a hundred samples with the default memory never even sees the memory full twice.", "anchors": ["padasip/filters/ocnlms.py:FilterOCNLMS.learning_rule", "padasip/filters/ocnlms.py:FilterOCNLMS.predict", "padasip/filters/ocnlms.py:FilterOCNLMS.read_memory", "padasip/filters/ocnlms.py:FilterOCNLMS.update_memory_d"]}
{"id": "C104", "title": "Filters fed with integer arrays", "statement": "run and adapt do not convert their inputs to floats, so int8 ... uint64 arrays are multiplied with each other modulo 2^bits. (1) Only NLMS, NLMF, NSSLMS, GNGD, RLS, VSLMS Benveniste and VSLMS Mathews are affected; for the base class, LMS, LMF, SSLMS, GMCC, Llncosh, VSLMS Ang, AP and OCNLMS integer arrays give the results of float arrays, and each of the seven gives other errors for some int16 data. (2) If all inputs have magnitude at most A and n A^2 < 2^(bits-1) (unsigned: 2^bits), then for every class and every sequence of runs of a new filter the results are those of the same numbers as floats. (3) NLMS, NLMF, NSSLMS: whatever the data, run divides by eps + (x.x modulo 2^bits) instead of eps + x.x. (4) NLMS fed with the same sample again and again: the errors are e0 (1 - mu q/(eps + wrapped q))^k with q = x.x; once q overflows a signed type (2^(bits-1) <= q, q + eps < 2^bits) they grow by a factor of at least 1 + mu per sample for every mu > 0; for an unsigned type with q a multiple of 2^bits the factor is 1 - mu q/eps. (5) RLS with one weight, 0 < mu <= 1 and x^2 overflowing a signed type: the error at least doubles with each repetition of a sample (when x^2/eps >= 3).", "quantifier": "all integer types (any number of bits, signed or not), all filter classes and parameters, all data and numbers of samples, all magnitudes A, all sequences of runs", "why_tests_cant": "A test uses float arrays or small integers; that wrap-around is the only effect, which classes it reaches and when it cannot happen are statements about all integer arrays.", "anchors": ["padasip/filters/base_filter.py: AdaptiveFilter.run, AdaptiveFilter.adapt", "padasip/filters/nlms.py: learning_rule", "padasip/filters/nlmf.py: learning_rule", "padasip/filters/nsslms.py: learning_rule", "padasip/filters/gngd.py: learning_rule", "padasip/filters/rls.py: learning_rule", "padasip/filters/vslms_benveniste.py: learning_rule", "padasip/filters/vslms_mathews.py: learning_rule"]}
{"id": "C105", "title": "Error measures of integer series", "statement": "MAE, MSE, RMSE and logSE of integer arrays are computed modulo 2^bits. (1) MSE: never too large; it is the exact mean square minus a whole multiple of 2^bits/N, exact if and only if the sum of the squared errors is below 2^(bits-1) (unsigned: 2^bits), and always below 2^(bits-1)/N, so the MSE of a signed series of at least 2^(bits-1) samples is below 1 whatever the errors; it can be negative. (2) RMSE is exact under the same condition. (3) logSE: each value is that of the square modulo 2^bits: exact while the square fits, and that of a perfect prediction (log 0) when 2^bits divides the square. (4) MAE of signed series never exceeds the exact one and is exact if and only if every error is below 2^(bits-1) in magnitude. (5) MAE of unsigned series: every negative error -m counts as 2^bits - m; exact if x1 >= x2 everywhere; MAE(x1,x2) + MAE(x2,x1) = 2^bits * (number of places where they differ)/N, so the measure is not symmetric. (6) For float arrays these are the functions of the other claims.", "quantifier": "all integer types, all pairs of integer series of that type and of equal length, all single series of errors (MAE: up to 2^63/2^bits samples)", "why_tests_cant": "Exactness conditions and the bound on MSE are about all integer series; tests use floats or a few small integers.", "anchors": ["padasip/misc/error_evaluation.py: get_valid_error, logSE, MAE, MSE, RMSE"]}
{"id": "C106", "title": "RLS follows a changing system if it forgets, and only then", "statement": "For a run of a newly created FilterRLS over any data: (1) the distance of the weights after k samples to ANY vector u, times the forgetting-weighted excitation of the first k inputs, is at most mu^k*eps times the initial distance plus the mu-weighted sum of |d_i - u.x_i|*|x_i|; (2) with mu < 1, inputs of norm at most X that excite every direction within each window of m samples with constant alpha, disturbances at most V and a target system moving at most del per sample, the distance to the current system after k >= m samples is at most (mu^k*eps*(initial distance + k*del) + X*V/(1-mu) + X^2*del/(1-mu)^2)/(mu^m*alpha); (3) with mu < 1 and no disturbance, after the system jumps from a to b at sample q, the distance to b after k more samples (m samples in all have been seen) is at most mu^k times a constant that does not grow with q; (4) with mu = 1 the distance to b after the jump stays at least (lam*|a-b| - eps*|w0-b|)/(eps + (q+k)*X^2), lam being the excitation of the first q inputs in the direction a-b: the filter needs about as many new samples as it has already seen; (5) with mu = 1, inputs 1 and the ramp d_i = i*del, the lag behind the ramp after k samples is given by an exact formula and is at least k*del/2: it grows for ever.", "quantifier": "every number of weights, every eps > 0 and mu in the stated ranges, every input and target series meeting the stated bounds, every instant and every history length", "why_tests_cant": "the bounds range over all signals, systems, drifts, disturbances and history lengths; a test sees one trajectory and cannot separate a slow lag from a permanent one", "anchors": ["padasip/filters/rls.py:FilterRLS.learning_rule", "padasip/filters/base_filter.py:AdaptiveFilter.run"]}
{"id": "C107", "title": "Training LMS and NLMS in epochs: always converges, to the nearest exact fit if there is one, and otherwise not to least squares", "statement": "Let FilterLMS or FilterNLMS be trained by calling run over and over with the same data (d, x), or by pretrained_run with that many epochs, with settings stable for each input (LMS: 0 < mu and mu|x_i|^2 < 2; NLMS: 0 < mu, eps+|x_i|^2 > 0, mu|x_i|^2 < 2(eps+|x_i|^2)). No further assumption on the data. (1) There is a factor rho < 1 depending on the inputs and settings only such that the weights after E epochs are within rho^E times the initial distance of a limit; the limit is not changed by a further epoch, it is the nearest to the initial weights among all weights with that property, and its distance to the initial weights is at most the move of the first epoch divided by 1-rho. (2) If some weights fit every sample exactly, the limit fits every sample, and of all weights that do it is the nearest to the initial ones, even if the data do not determine the weights. (3) If no direction is left out by the inputs the limit does not depend on the initial weights. (4) pretrained_run raises nothing and starts the test part with the weights after `epochs` epochs of the training part. (5) On inconsistent data the limit is in general not the least-squares fit: inputs 1, 1 and targets 1, -1 give the limit -mu/(2-mu), for every 0 < mu < 2, instead of 0. (6) LMS is only approximately a least-squares fitter, and the approximation improves with the step size: if the inputs excite every direction with constant alpha, 2*mu*power <= 1 and 4*mu*power^2 <= alpha (power is the sum of |x_i|^2), then after E epochs the weights are within rho^E*K + mu*4*power*residue/alpha of the least-squares fit u, where residue is the sum of |d_i - u.x_i|*|x_i|.", "quantifier": "every number of weights, every data set (consistent or not, exciting or not), every stable setting, every initial weights, every number of epochs", "why_tests_cant": "convergence is a statement about all data sets and an unbounded number of epochs; a test sees a finite number of epochs on data that usually excite all directions", "anchors": ["padasip/filters/base_filter.py:AdaptiveFilter.pretrained_run", "padasip/filters/base_filter.py:AdaptiveFilter.run", "padasip/filters/lms.py:FilterLMS.learning_rule", "padasip/filters/nlms.py:FilterNLMS.learning_rule"]}
{"id": "C108", "title": "Affine projection under disturbances and drift", "statement": "FilterAP with ifc > 0, any targets, after any history of calls, when the linear solver is correct: (1) one call of adapt moves the weights by at most |mu|/(2 sqrt(ifc)) times the norm of the errors of the old weights on the stored samples, however large or small the inputs are; (2) for 0 <= mu <= 2 and any reference weights ws, the distance of the weights to ws grows in one call by at most mu/(2 sqrt(ifc)) times the norm of the errors of ws on the stored samples, so it never grows on samples that ws explains exactly. In run with a new filter, 0 < mu < 2, inputs of norm at most XB, a target = output of a moving system + disturbance of size at most V, where the system moves at most delta per sample: (3) the distance of the weights in the history to the system of that instant grows at most by a fixed computable amount b per sample, whatever the inputs; (4) when every window of `order` samples excites all directions by alpha, it is at most q^(k+1-order) (initial distance + (order-1) b) + b/(1-q) after k samples with q = sqrt(1 - mu(2-mu) alpha/(alpha+ifc)) < 1, for runs of any length.", "quantifier": "all sizes n, orders, step sizes, regularisations ifc > 0, histories of calls, input and target sequences of any length, disturbances and system trajectories, over the exact real numbers and every correct linear solver", "why_tests_cant": "boundedness under every disturbance and drift sequence for runs of unbounded length", "anchors": ["padasip/filters/ap.py:FilterAP.learning_rule", "padasip/filters/ap.py:FilterAP.update_memory_x", "padasip/filters/base_filter.py:AdaptiveFilter.run"]}
{"id": "C109", "title": "What a single wrong target can do to the weights", "statement": "Exact arithmetic. (1) LMS, LMF, NLMS, NLMF, GNGD and the three variable-step filters (in every reachable state with a step size that is not zero and no zero denominator), RLS (at every point of every record, mu, eps > 0), AP (after any history, ifc > 0, a correct linear solver) and OCNLMS (whenever the target has any influence at all): at any non-zero input, one call of adapt with a suitable target moves the weights farther than any given distance. (2) For SSLMS, NSSLMS, Llncosh and GMCC (lambd >= 0, alpha >= 1) no target moves the weights by more than |mu| sqrt(n), |mu/(eps+|x|^2)| sqrt(n), |mu| |x| and |mu| alpha (1+lambd) |x|. (3) Hence in a run of Llncosh (mu lambd |x|^2 <= 2 on the good samples) or GMCC (alpha >= 2, mu alpha (1+lambd) |x|^2 <= 2), where some targets are arbitrarily wrong and the others come from weights ws, the distance of the weights to ws grows at most by mu |x| (mu alpha (1+lambd) |x|) for every wrong sample and not at all for the others. (4) For Llncosh with mu lambd |x|^2 <= 1 and any targets, the squared distance to any ws grows by at most mu times the sum of min(lambd v^2, 2|v|), v being the part of the target ws does not explain: large disturbances count linearly, not with their square.", "quantifier": "all classes, sizes, settings, reachable states, inputs, targets, sets of wrong samples, runs of any length", "why_tests_cant": "unbounded influence is about all sizes of the target, robustness about every pattern and size of outliers", "anchors": ["padasip/filters/llncosh.py:FilterLlncosh.learning_rule", "padasip/filters/gmcc.py:FilterGMCC.learning_rule", "padasip/filters/rls.py:FilterRLS.learning_rule", "padasip/filters/ap.py:FilterAP.learning_rule", "padasip/filters/gngd.py:FilterGNGD.learning_rule", "padasip/filters/base_filter.py:AdaptiveFilter.adapt"]}
{"id": "C110", "title": "Small changes of the data and settings have small effects - except at a zero of a sign, and the limits in which one class becomes another", "statement": "Exact arithmetic, all 15 classes. (1) Let a new filter be run over data (d, x) without raising. For every tolerance there is a distance such that changing every target, every input, every initial weight and every real setting (mu, eps, ro, a, lambd, alpha, ifc) by less than that distance changes no output, no error, no weight of the history and no final weight by more than the tolerance, provided that the run in question divides by no zero (NLMS, NLMF, NSSLMS: eps+|x_k|^2 != 0; GNGD: eps_k+|x_(k-1)|^2 != 0 throughout; RLS: mu, eps > 0; AP: ifc > 0 and a correct linear solver; OCNLMS: eps > 0, mem != 1) and takes the sign of no zero (SSLMS, NSSLMS: no error and no input is 0; GMCC: alpha > 1 or no error is 0). (2) Otherwise the effect can jump: for SSLMS and NSSLMS at a sample whose target the weights already explain, targets arbitrarily close to it move each weight with non-zero input by the full quantum while the target itself moves nothing; GMCC with alpha = 1 jumps by at least |mu|*lambd*|x_i|/2; with 0 < alpha < 1 targets arbitrarily close to the prediction move the weights arbitrarily far. (3) Run over any data with the same initial weights, Llncosh with lambd -> 0 and mu = M/lambd, GMCC with alpha = 2, lambd -> 0 and mu = M/(2 lambd), and NLMS with eps -> infinity and mu = M*eps give, in the limit, the outputs, errors and weights of LMS with rate M.", "quantifier": "all 15 classes, all sizes, settings, data sets of any length, all tolerances and all perturbations", "why_tests_cant": "continuity quantifies over all perturbations and tolerances, and the jumps over all arbitrarily small changes", "anchors": ["padasip/filters/base_filter.py:AdaptiveFilter.run", "padasip/filters/sslms.py:FilterSSLMS.learning_rule", "padasip/filters/nsslms.py:FilterNSSLMS.learning_rule", "padasip/filters/gmcc.py:FilterGMCC.learning_rule", "padasip/filters/llncosh.py:FilterLlncosh.learning_rule", "padasip/filters/nlms.py:FilterNLMS.learning_rule", "padasip/filters/rls.py:FilterRLS.learning_rule", "padasip/filters/ap.py:FilterAP.learning_rule", "padasip/filters/ocnlms.py:FilterOCNLMS.learning_rule"]}
{"id": "C111", "title": "Silence: samples whose inputs are all zero", "statement": "In exact arithmetic: (1) an adapt call with an all-zero input leaves the weights of every class except FilterAP and FilterOCNLMS unchanged (whatever the target), predict returns 0 for it, and for the classes that keep nothing but their weights (LMS, LMF, NLMS, NLMF, SSLMS, NSSLMS, GMCC, Llncosh) the whole filter is unchanged. (2) For these classes silent samples can be inserted anywhere in a series given to run: the outputs, errors and weight history are those of run without them, with zeros, the targets and repeated weights at the inserted places. (3) Silence before the data is harmless for every class except FilterOCNLMS: run on N0 silent samples followed by the data returns zeros, the targets and the initial weights, and then exactly what a filter that never saw the silence returns; for FilterRLS the second filter has to be created with eps*mu**N0 instead of eps (the regularisation is forgotten during the silence). (4) FilterAP rests once the whole memory (the last `order` inputs) is silent. Refuted: a silent sample between the data changes what AP, GNGD, OCNLMS, RLS (mu<1) and the three VSLMS classes learn afterwards; AP and OCNLMS change their weights on a silent sample; for OCNLMS even silence before the data changes the results.", "quantifier": "every class, every reachable filter or every accepted set of keyword arguments, every size, every number of silent samples, every target and input series", "why_tests_cant": "tests insert a few zero rows; the statement is about every series, every class and every number of silent samples, and about the exact effect on the later outputs", "anchors": ["padasip/filters/base_filter.py:AdaptiveFilter.run", "padasip/filters/base_filter.py:AdaptiveFilter.adapt", "padasip/filters/base_filter.py:AdaptiveFilterAP.adapt", "padasip/filters/rls.py:FilterRLS.learning_rule", "padasip/filters/gngd.py:FilterGNGD.learning_rule", "padasip/filters/ocnlms.py:FilterOCNLMS", "padasip/filters/vslms_ang.py", "padasip/filters/vslms_benveniste.py", "padasip/filters/vslms_mathews.py"]}
{"id": "C112", "title": "An input that is always zero is the same as no input", "statement": "In exact arithmetic, for each of the fifteen classes: put a column of zeros into the inputs, at any position, and create the filter with one more weight at that position (any start value): run returns the same outputs and errors as the filter without that input, the history of the weights is the same with the start value of the extra weight in each row, and so are the final weights. So unused inputs never change what a filter learns and their weights never move.", "quantifier": "every class, all accepted keyword arguments (FilterAP: any solver that returns inverses; FilterOCNLMS: memory not 1), every size, position, start value and data series", "why_tests_cant": "a test pads a few arrays; the statement is for every class, position and series, including the matrix state of RLS and AP and the memories of OCNLMS and VSLMS", "anchors": ["padasip/filters/base_filter.py:AdaptiveFilter.run", "padasip/filters/base_filter.py:AdaptiveFilterAP.run", "padasip/filters/rls.py:FilterRLS.learning_rule", "padasip/filters/ap.py:FilterAP.learning_rule", "padasip/filters/ocnlms.py:FilterOCNLMS", "padasip/filters/gngd.py:FilterGNGD.learning_rule", "padasip/filters/vslms_ang.py:FilterVSLMS_Ang.learning_rule", "padasip/filters/vslms_benveniste.py:FilterVSLMS_Benveniste.learning_rule", "padasip/filters/vslms_mathews.py:FilterVSLMS_Mathews.learning_rule"]}
{"id": "C113", "title": "Directions that no input has shown: never learned, never used", "statement": "In exact arithmetic, let v be a direction of the weight space with row.v = 0 for every row of the inputs x (rank-deficient data). (1) For every class except the sign-sign ones (SSLMS, NSSLMS) the component of the weights along v is the initial one in every row of the history and at the end: the weights move only within the span of the inputs. (2) For all fifteen classes, adding v to the initial weights changes neither the outputs nor the errors, and every row of the weight history and the final weights by exactly v. (3) If two inputs always have the same value, the difference of their weights keeps its initial value, for all fifteen classes (so zero-initialised twin inputs get equal weights). Refuted: SSLMS and NSSLMS do move along unseen directions.", "quantifier": "every class, all accepted keyword arguments (FilterAP: any solver that returns inverses; FilterOCNLMS: memory not 1), every size, every data series, every direction orthogonal to it", "why_tests_cant": "a test uses one data set and one direction; the claim is about every rank-deficient series and includes the matrix of RLS, the inverse of AP and the offsets of OCNLMS", "anchors": ["padasip/filters/base_filter.py:AdaptiveFilter.run", "padasip/filters/base_filter.py:AdaptiveFilterAP.run", "padasip/filters/rls.py:FilterRLS.learning_rule", "padasip/filters/ap.py:FilterAP.learning_rule", "padasip/filters/ocnlms.py:FilterOCNLMS", "padasip/filters/sslms.py:FilterSSLMS.learning_rule", "padasip/filters/nsslms.py:FilterNSSLMS.learning_rule"]}
{"id": "C114", "title": "The weights of a sign-sign LMS filter in binary64 move on an exact grid", "statement": "In IEEE double precision a FilterSSLMS makes no rounding error in its weights: if mu is M times 2^p and every initial weight is an integer times 2^p (M, p integers, and the integers reached stay within 2^53), then after every sample of run each weight is exactly its initial value plus mu times an integer, namely the number of samples on which sign(x_i) sign(e) was +1 minus the number on which it was -1 - for every data that is not NaN, also when outputs or errors overflow to infinity. With data bounded by 2^100 nothing overflows: outputs, errors and weights are all finite. Rounding can therefore act only through the sign of a computed error: as long as the errors of the exact-arithmetic filter exceed the rounding of one inner product, the binary64 filter has exactly its weights, sample for sample, for ever. With mu = 0.1 (which is not a short multiple of a power of two) the third step is already rounded, and with a weight too large for the grid (2^60) the filter does not move at all although the error is not zero.", "quantifier": "every filter length, every mu and initial weights on a common grid, every number of samples, every finite (or merely non-NaN) data, every summation order of the inner product", "why_tests_cant": "Tests compare a run with rounded reference values; that no rounding error ever enters the weights, in whatever order the inner product is summed, is a statement about all data and all run lengths.", "anchors": ["padasip/filters/sslms.py: FilterSSLMS.adapt, FilterSSLMS.run", "padasip/filters/base_filter.py: AdaptiveFilter.predict, AdaptiveFilter.run"]}
{"id": "C115", "title": "MLP: inputs that are zero, constant or equal, and directions the inputs never show", "statement": "For a NetworkMLP with any layers, outputs, activation and mu: if a linear combination v_0 + sum_j v_j x_j vanishes on every input of a training sequence, then training (update after predict, or train with any epochs and shuffle) never changes the component of the weights of any first-layer node along (v_0, v_1, ...), and two networks that differ only by multiples of it in their first-layer nodes make exactly the same errors and keep exactly that difference. In particular the weights of an input that is always zero never change, the weight of an input that is always a moves a times as much as the bias, and the weights of two inputs that are always equal move alike. With a numeric mu an input that is always zero may be left out: the smaller network makes the same errors and has the same other weights for ever; with mu='auto' it does not, because the learning rate of the first layer depends on the number of inputs.", "quantifier": "every network, after every history of calls, every training sequence of every length, every such combination", "why_tests_cant": "The claim ranges over all networks, weights and training sequences, and over all epochs; tests fix a few.", "anchors": ["padasip/ann/mlp.py: NetworkMLP.predict, NetworkMLP.update, NetworkMLP.train, Layer.predict, Layer.update"]}
{"id": "C116", "title": "MLP: predictions are Lipschitz in the inputs, and training is continuous in weights, learning rate and data", "statement": "For a NetworkMLP with any layers, outputs, activation and mu: if every input changes by at most t, an output changes by at most t times the sum of the absolute output weights (bias excluded) times, for every hidden layer, the largest sum of absolute incoming weights of a node times the steepest slope of the activation (1/4 for sigmoid, 1 for tanh). And nothing jumps in training: for every network, every training sequence and every tolerance there is a distance such that every network of the same shape whose weights and learning rates are within it, trained on inputs and targets within it, makes errors and ends with weights within the tolerance.", "quantifier": "every network, after every history of calls, every pair of inputs, every training sequence of every length, every tolerance", "why_tests_cant": "A bound for all inputs and an epsilon-delta statement about all perturbations cannot be settled by trying some.", "anchors": ["padasip/ann/mlp.py: NetworkMLP.predict, NetworkMLP.update, Layer.predict, Layer.update, Layer.activation"]}
{"id": "C117", "title": "The filters with a bounded step cannot overflow in binary64", "statement": "In IEEE double precision, on finite data of sane size (up to 2^40 taps, 2^50 samples, inputs of Euclidean norm at most xi <= 2^100, targets and initial weights at most 2^100), run of SSLMS, NSSLMS (eps between 2^-100 and 2^100) and Llncosh (|lambd| <= 2^100) succeeds and every output, error and weight it returns is finite - no inf, no nan - for every mu with |mu| <= 2^100, stable or not, positive or negative, in whatever order the inner products are accumulated. Weight i after k samples is at most 2(|w_i(0)| + k B) in absolute value, with B = |mu| (SSLMS), 8|mu|/eps + 2^-1075 (NSSLMS), 4|mu| xi plus an underflow term (Llncosh, for every implementation of tanh with finite values in [-1, 1]). LMS has no such guarantee: on one of these data sets (one tap, mu = 2^20) it returns inf and then nan.", "quantifier": "every reachable SSLMS, NSSLMS, Llncosh filter, every data set of sane size, every order of summation in the inner products, every tanh implementation bounded by 1", "why_tests_cant": "quantifies over all binary64 data and run lengths, including divergent settings", "anchors": ["padasip/filters/sslms.py:FilterSSLMS", "padasip/filters/nsslms.py:FilterNSSLMS", "padasip/filters/llncosh.py:FilterLlncosh", "padasip/filters/base_filter.py:run"]}
{"id": "C118", "title": "With inputs that keep exciting all directions LMS and NLMS forget geometrically; without, bounded data can drive the weights beyond every bound", "statement": "Exact arithmetic. Suppose every m consecutive inputs excite all directions by alpha (sum of (v.x)^2 >= alpha |v|^2 for every v), and LMS has 0 < mu, mu |x|^2 <= c < 2 (NLMS: 0 < mu < 2, eps > 0, |x|^2 <= X2). Put q = sqrt(1 - (2-c) mu alpha/(4 m^2)) (NLMS: sqrt(1 - (2-mu) mu alpha/(4 m^2 (eps+X2)))), which is below 1. (1) Two filters of the same settings started with different weights and run on the same data, whatever the targets are, differ after k samples by at most q^floor(k/m) times their initial distance. (2) For any moving system and any targets such that movement plus step-weighted disturbance is at most p per sample, the weights after k samples are within q^floor(k/m) (initial distance) + m p/(1-q) + m p of the system of that instant - a bound that does not grow with the length of the run; without noise and movement the distance vanishes geometrically. (3) Without the excitation this is false: with the inputs 1, 1/sqrt 2, 1/sqrt 3, ... and all targets 1, within the stability limit, the weight of a one-tap LMS filter (0 < mu <= 1, initial weight not negative) after N samples is at least mu/(1+mu) sqrt N; for NLMS the same with mu/(1+eps) in place of mu.", "quantifier": "every reachable LMS and NLMS filter, every exciting input sequence of any length, every target sequence, every moving system, every pair of initial weights", "why_tests_cant": "a uniform bound over runs of every length", "anchors": ["padasip/filters/lms.py:FilterLMS.learning_rule", "padasip/filters/nlms.py:FilterNLMS.learning_rule", "padasip/filters/base_filter.py:run"]}
{"id": "C119", "title": "In binary64 LMS and NLMS under persistent excitation run for ever: no overflow, no drift away from the exact run, however long the run", "statement": "IEEE binary64, numpy's dot product of any summation order. Let every m consecutive inputs excite all directions by alpha, and LMS have 0 < mu, mu |x|^2 <= c < 2 (NLMS: 0 < mu < 2, 2^-100 <= eps <= 2^100), with inputs of norm at most xi and targets at most D in size (both at most 2^100, initial weights too, at most 2^40 taps); let q be the factor of C118 and suppose the excitation beats rounding: 1024 m (n+1) 2^-53 <= 1-q. Then for a run of ANY length - there is no bound on the number of samples - (1) the run ends normally and every output, error and weight is a finite number; (2) the weights before sample k (and the final ones) have norm at most 2 (((1+q)/2)^floor(k/m) W0 + room), room = 4m(beta + u(beta+1))/(1-q) with u the rounding unit of a step (256(n+1) 2^-53) and beta the largest possible step of the rule from zero weights (LMS: mu xi (D+1), NLMS: mu (D+1)/(2 sqrt eps)); (3) the same run in exact arithmetic never is further away than a fixed floor 2m j/(1-q), j = u (largest weight + beta + 1), in any of the weight vectors, nor the outputs than that floor times |x| plus the rounding of one dot product; (4) for a moving system with disturbed outputs, with movement plus step-weighted disturbance at most p per sample, the weights after k samples are within q^floor(k/m) (initial distance) + 2m(j+p)/(1-q) of the system; (5) two floating-point runs from different weights on the same data differ after k samples by at most q^floor(k/m) (initial distance) + the floor for 2j. (C89 allows less than 2^44 samples and its bounds grow with the run.)", "quantifier": "every reachable LMS and NLMS filter in binary64, every data of any length satisfying the bounds and the excitation condition, every summation order of the dot product, every moving system", "why_tests_cant": "a bound on rounding errors uniform over runs of every length; testing can only sample finite runs", "anchors": ["padasip/filters/base_filter.py:AdaptiveFilter.run", "padasip/filters/lms.py:FilterLMS.learning_rule", "padasip/filters/nlms.py:FilterNLMS.learning_rule"]}
{"id": "C120", "title": "No algorithm can guarantee more than LMS does; RLS, sign-sign and cubic rules guarantee less", "statement": "Exact arithmetic. For weights ws call sum (ws.x_k - y_k)^2 the miss energy and sum (d_k - ws.x_k)^2 the noise energy of a run. (1) Let the inputs be endless and exciting, w0 any weights, mu > 0 and gamma < 1. Then there is a record length N such that for EVERY algorithm that turns targets into outputs - every class of the library and any other, causal or not - there are N targets and weights ws with miss energy > gamma (noise energy + |w0-ws|^2/mu); also when sample k counts c_k times, c_k bounded below by a positive number. (2) For a FilterLMS with mu |x_k|^2 <= 1 the bound miss <= gamma (noise + |w0-ws|^2/mu) holds for all lengths, targets and ws if and only if gamma >= 1; so the guarantee of C53 is the best any algorithm can give. The same for FilterNLMS with 0 < mu <= 1, eps > 0 and energies normalised by eps+|x_k|^2. (3) FilterRLS without forgetting guarantees miss <= (1+sqrt(1+X/eps))^2 (noise + eps |w0-ws|^2) for |x_k|^2 <= X, and no factor below 4: for every eps > 0 and gamma < 4 there are targets such that a one-tap filter started at the true weight 0, with constant input 1, has miss energy > gamma noise energy. (4) SSLMS, NSSLMS, LMF and NLMF (eps > 0, mu not 0) guarantee no finite factor at all, not even for two samples of input 1 and a filter started at the true weight.", "quantifier": "all algorithms, all weights, all targets, record lengths, exciting input sequences, all reachable filters of the classes named, all gamma", "why_tests_cant": "a statement about the best possible guarantee over all algorithms and all data", "anchors": ["padasip/filters/lms.py:FilterLMS.learning_rule", "padasip/filters/nlms.py:FilterNLMS.learning_rule", "padasip/filters/rls.py:FilterRLS", "padasip/filters/sslms.py:FilterSSLMS.learning_rule", "padasip/filters/lmf.py:FilterLMF.learning_rule", "padasip/filters/base_filter.py:AdaptiveFilter.run"]}
{"id": "C121", "title": "Units that differ by powers of two: identical digits in binary64", "statement": "For LMS, LMF, SSLMS, NLMS, NLMF, NSSLMS and Llncosh filters in IEEE binary64: multiply all inputs by 2^s, all targets by 2^t and the initial weights by 2^(t-s), and convert the settings accordingly (mu of LMS by 2^(-2s), of LMF by 2^(-2s-2t), of SSLMS by 2^(t-s), of NLMF by 2^(-2t), of NSSLMS by 2^(s+t), of Llncosh by 2^(t-2s) and its lambd by 2^(-t); mu of NLMS unchanged; eps by 2^(2s)). If both runs stay finite and no product or quotient of non-zero numbers in them falls below 2^-900 in magnitude, the outputs and errors are multiplied by exactly 2^t and the whole weight history and the final weights by exactly 2^(t-s): every rounding is the same rounding, for any order of summation in the inner products and with or without fused multiply-add. For the factor 3 this is false although nothing underflows, and with a power of two so small that products underflow it is false as well.", "quantifier": "every size, every reachable filter of the seven classes and every converted one, all targets and inputs of every length, all integers s and t, every evaluation plan of the inner products (one for each length), every tanh that maps zeros to zeros and nan to no number", "why_tests_cant": "A test compares two runs for a few factors; that rounding commutes with the scaling in every operation of every run is a statement about all of them.", "anchors": ["/repo/padasip/filters/base_filter.py:AdaptiveFilter.run", "/repo/padasip/filters/lms.py:FilterLMS.learning_rule", "/repo/padasip/filters/nlms.py:FilterNLMS.learning_rule", "/repo/padasip/filters/llncosh.py:FilterLlncosh.learning_rule", "/repo/padasip/filters/nsslms.py:FilterNSSLMS.learning_rule"]}
{"id": "C122", "title": "The regret of RLS without forgetting is logarithmic, and only without forgetting", "statement": "Take any run of a new RLS filter with mu = 1 (no forgetting), in exact arithmetic, with any targets and any inputs, and let E bound the absolute errors returned for the first N samples. Then the sum of their squared errors exceeds that of any fixed weight vector v, plus eps |v - w0|^2 where w0 are the initial weights, by at most E^2 sum_i ln(1 + (sum_k x_ki^2) / eps); with inputs of size at most X by at most n E^2 ln(1 + N X^2 / eps). So on average over the samples the filter, which predicts each target before it sees it, is in the long run as good as the best fixed weights chosen with hindsight, with no assumption on how the data arise. The order is right: on the inputs 1 and the targets 1, -1, 1, -1, ... (all |e| <= 2) the excess over the weight 0 after 2M samples is at least ln(M + 1). And it needs mu = 1: with any mu in (0, 1) the same data give errors |e| <= 2 and an excess of at least 2 (1 - mu)^2 (N - 1), linear in N.", "quantifier": "for all filter sizes n, eps > 0, initial weights, targets, inputs, numbers of samples N, comparison vectors v (C122_regret, C122_log); for all M > 0 (C122_log_needed); for all mu in (0, 1) and N > 0 (C122_forgetting)", "why_tests_cant": "a guarantee against every data sequence and every comparison vector, whose rate in N only shows in the limit", "anchors": ["padasip/filters/rls.py:FilterRLS.learning_rule", "padasip/filters/base_filter.py:AdaptiveFilter.run"]}
{"id": "C123", "title": "LMS and NLMS fed with a sine and a cosine are notch filters: hum cancelling", "statement": "Take n = 2 and inputs x_k = (C cos(om k), C sin(om k)), the usual reference for cancelling hum of a known frequency om, in exact arithmetic, and let m = mu C^2 for LMS and m = mu C^2 / (eps + C^2) for NLMS. Whatever the targets d and the initial weights, the returned errors satisfy exactly e(k+2) - (2-m) cos(om) e(k+1) + (1-m) e(k) = d(k+2) - 2 cos(om) d(k+1) + d(k): the adaptive filter is a linear, time-invariant notch filter. For 0 <= m <= 2, adding any tone A cos(om k) + B sin(om k) to the targets and changing the initial weights changes the k-th error by at most r^(k/2) times their combined size, squared, with r = 1 - m(2-m) sin(om)^2 / 3, which is below 1 for 0 < m < 2 and sin(om) <> 0: hum at the reference frequency is removed completely, whatever else the targets contain. A tone of another frequency th comes out, up to such a transient, as a tone of that frequency with its power multiplied by 4(cos th - cos om)^2 / ((2-m)^2 (cos th - cos om)^2 + m^2 sin(th)^2): 0 at om, never above 4/(2-m)^2, and at least 1 - m^2 sin(th)^2 / (4 (cos th - cos om)^2), so a small step leaves the rest of the signal alone. With one constant input C the errors satisfy e(k+1) = (1-m) e(k) + d(k+1) - d(k): an offset is removed.", "quantifier": "for all amplitudes C, frequencies om and th, steps m, targets, initial weights, numbers of samples and both classes", "why_tests_cant": "statements about frequency responses and infinite transients, for every signal and every reference frequency", "anchors": ["padasip/filters/lms.py:FilterLMS.learning_rule", "padasip/filters/nlms.py:FilterNLMS.learning_rule", "padasip/filters/base_filter.py:AdaptiveFilter.run"]}
{"id": "C124", "title": "The regret of LMS: the square root of the number of samples with a tuned step, and never less", "statement": "In exact arithmetic, for LMS with 0 < mu and mu |x|^2 <= mu X2 < 1, any targets and any fixed weight vector v, the sum of squared errors of the run is at most |v - w0|^2 / mu + L / (1 - mu X2), where L is the sum of squared errors of v on the same data; for NLMS with 0 < mu < 1 and eps > 0 the same holds with every squared error divided by eps + |x|^2 and 1 - mu below L. With the LMS step mu = U / (X (U X + sqrt Lm)), inputs of length at most X, a comparison vector within U of the initial weights and with L <= Lm, the errors are at most L + 2 U X sqrt(Lm) + U^2 X^2: for targets whose noise stays bounded the excess over the best fixed weights grows like the square root of the number of samples, against the logarithm of RLS without forgetting (C122). The square root cannot be avoided: for every LMS filter with one weight, started at 0, whatever its mu, and N = 4 M^2 samples with input 1, there are targets +1 / -1 and a v in {0, 1} for which the excess is at least sqrt(N) / 8.", "quantifier": "for all filter sizes, initial weights, targets, inputs, comparison vectors v and numbers of samples (upper bounds); for all M and every real mu (lower bound)", "why_tests_cant": "bounds against every data sequence and every comparison vector, growing with the number of samples; and a lower bound for every step size", "anchors": ["padasip/filters/lms.py:FilterLMS.learning_rule", "padasip/filters/nlms.py:FilterNLMS.learning_rule", "padasip/filters/base_filter.py:AdaptiveFilter.run"]}
{"id": "C125", "title": "With one-hot inputs a filter is one filter per category", "statement": "Suppose every input row of run is one-hot, i.e. encodes one of n categories. In exact arithmetic, for LMS, LMF, SSLMS, NLMS, NLMF, NSSLMS, GMCC and Llncosh, the predictions, the errors and the final weight of each category are exactly those of a filter of the same class and step with a single weight, run on the targets of that category alone with the constant input 1: the categories do not influence each other, and neither does the way in which their samples are interleaved. For LMS (m = mu) and NLMS (m = mu/(eps+1)) the prediction for a category is the exponentially weighted average (1-m)^i w0 + m sum (1-m)^(i-1-l) t_l of its earlier targets, and for 0 <= m <= 1 it never leaves the range of these targets and the start value. RLS estimates each category by the discounted mean of its targets regularised by eps towards the start weight; with mu = 1 that is the ridge mean (eps w0 + sum)/(eps + count) and again separate, but with mu < 1 samples of other categories age the estimate, and the same targets of a category can give different estimates (2/7 and 2/11).", "quantifier": "all numbers of categories, category sequences and targets of any length, all reachable filters of the named classes and all steps; all RLS filters created with positive eps and mu", "why_tests_cant": "Separation is a claim about every interleaving of every sequence; the decisive fact (a zero input coordinate leaves its weight alone, in every class, whatever the error) and its failure for RLS with forgetting are not visible in a test on one sequence.", "anchors": ["padasip/filters/base_filter.py:AdaptiveFilter.run", "padasip/filters/lms.py:FilterLMS.learning_rule", "padasip/filters/nlms.py:FilterNLMS.learning_rule", "padasip/filters/sslms.py:FilterSSLMS.learning_rule", "padasip/filters/rls.py:FilterRLS.learning_rule"]}
{"id": "C126", "title": "Inputs that are multiples of one signal are one input", "statement": "If two inputs of a filter are always p a and q a for one signal a (for example an input and a copy of it, or the same quantity in two units), then, in exact arithmetic, the filter predicts and errs at every sample exactly like a filter of the same class and settings in which the two inputs are replaced by the one input sqrt(p^2+q^2) a, started at the weight (p s + q t)/sqrt(p^2+q^2); the two weights move along (p, q) only, and their component across it keeps its initial value for ever. A copy of an input therefore acts like the input multiplied by sqrt 2 and the copies share its weight equally. This holds for all classes except SSLMS and NSSLMS; for SSLMS the same is true with |p|+|q| in place of the square root (a copy doubles the input).", "quantifier": "all classes but SSLMS and NSSLMS (SSLMS with the other rule), all settings and start weights, all factors p, q not both zero, all numbers of inputs, all data and runs of every length; AP with any correct solver, OCNLMS with a memory other than 1", "why_tests_cant": "The equivalence must hold at every sample of every run for classes with internal state (covariance of RLS, memories of AP and OCNLMS, adaptive steps); a test compares two runs on one data set.", "anchors": ["padasip/filters/base_filter.py:AdaptiveFilter.run", "padasip/filters/rls.py:FilterRLS.learning_rule", "padasip/filters/ap.py:FilterAP.adapt", "padasip/filters/ocnlms.py:FilterOCNLMS.learning_rule", "padasip/filters/sslms.py:FilterSSLMS.learning_rule", "padasip/filters/gngd.py:FilterGNGD.learning_rule"]}
{"id": "C127", "title": "Multiplying individual samples by factors", "statement": "Multiply individual samples - the target and the whole input row - by factors of one's choice and run the same filter. In exact arithmetic: flipping the sign of any samples (factors 1 and -1) changes nothing but the signs of the corresponding predictions and errors, the weight history is the same, for every class except VSLMS_Ang, VSLMS_Benveniste and OCNLMS (for each of these three flipping the sign of one sample changes the weights). For SSLMS, and for NLMS with eps=0, any nonzero factors leave the weight history unchanged and multiply the predictions and errors by the factors. For LMS the factor c multiplies the step of that sample by c^2; for RLS it gives the sample the weight c^2 in the least-squares problem the filter solves. NLMS is LMS run on the samples divided by sqrt(eps+|x|^2).", "quantifier": "all factors (nonzero, or 1 and -1), chosen per sample; all settings, start weights, data, sizes and runs of every length of the class named (twelve classes for sign flips; AP with any correct solver)", "why_tests_cant": "The equivalence relates two complete runs with arbitrary per-sample factors, for classes with internal state whose recursions couple neighbouring samples; a test compares two runs for one choice of factors.", "anchors": ["padasip/filters/base_filter.py:AdaptiveFilter.run", "padasip/filters/nlms.py:FilterNLMS.learning_rule", "padasip/filters/lms.py:FilterLMS.learning_rule", "padasip/filters/rls.py:FilterRLS.learning_rule", "padasip/filters/sslms.py:FilterSSLMS.learning_rule", "padasip/filters/vslms_mathews.py:FilterVSLMS_Mathews.learning_rule", "padasip/filters/ocnlms.py:FilterOCNLMS.learning_rule"]}
{"id": "C128", "title": "Repeating each sample", "statement": "Feed a filter with data in which every sample occurs r times in a row (data reuse, or an oversampled record). In exact arithmetic: LMS and NLMS: the error of the j-th copy of a sample is q^j times that of the first, q = 1 - mu |x|^2 (LMS) or 1 - mu |x|^2/(eps+|x|^2) (NLMS), and after the r copies the weights are where a single step multiplied by 1+q+...+q^(r-1) leads. Hence NLMS with eps=0 behaves, at the first copy of every sample and after the last, exactly like NLMS with the step 1-(1-mu)^r on the data without repetition; LMS and NLMS on rows of one common length like the same class with the step mu(1+q+...+q^(r-1)); and RLS like RLS with the forgetting factor mu^r and eps divided by 1+mu+...+mu^(r-1). For LMS on rows of different lengths there is in general no such step.", "quantifier": "all r >= 1, steps, forgetting factors > 0, eps (> 0 for RLS), start weights, data, sizes and runs of every length, for LMS, NLMS and RLS", "why_tests_cant": "The statement relates whole runs of two filters at every sample and for every r; the RLS part rests on the uniqueness of a minimiser. A test compares two runs for one r.", "anchors": ["padasip/filters/base_filter.py:AdaptiveFilter.run", "padasip/filters/nlms.py:FilterNLMS.learning_rule", "padasip/filters/lms.py:FilterLMS.learning_rule", "padasip/filters/rls.py:FilterRLS.learning_rule"]}
{"id": "C129", "title": "A constant input balances the errors; alone it makes a running average or a running median", "statement": "If some combination u of the inputs is constant v (for example a bias input), then in exact arithmetic over every run mu*v times the sum of the influences of the errors (the error itself for LMS, its cube for LMF, tanh(lambd e) for Llncosh, the GMCC expression; divided by eps+|x|^2 for NLMS and NLMF) equals the change of u.w; for SSLMS and NSSLMS the same holds for a constant input and sgn(v) with the signs of the errors. So the mean error of LMS over N samples is the weight change over mu v N, and SSLMS makes as many positive as negative errors up to the weight change over mu. For RLS the discounted residuals of the final weights sum to mu^N eps (u.w_N-u.w_0)/v. A filter whose only input is the constant 1, with targets and start weight in [lo,hi]: under a step condition (mu<=1 for LMS, mu<=eps+1 for NLMS, mu(hi-lo)^2<=1 for LMF, mu*lambd<=1 for Llncosh, 2*mu*lambd<=1 for GMCC with alpha=2) it never leaves [lo,hi] and its influences sum to at most (hi-lo)/mu in absolute value, for any N; SSLMS and NSSLMS stay within one step of [lo,hi] and the numbers of targets above and below the prediction differ by at most (hi-lo)/step+1, for any N: they follow a median.", "quantifier": "all runs of every length and all data with the constant combination; all settings and start weights of the classes named (RLS with positive eps and mu); all step sizes within the conditions for the bounds", "why_tests_cant": "The bounds do not grow with the number of samples, which no finite test shows, and hold for every target sequence, however adverse.", "anchors": ["padasip/filters/base_filter.py:AdaptiveFilter.run", "padasip/filters/lms.py:FilterLMS.learning_rule", "padasip/filters/sslms.py:FilterSSLMS.learning_rule", "padasip/filters/lmf.py:FilterLMF.learning_rule", "padasip/filters/llncosh.py:FilterLlncosh.learning_rule", "padasip/filters/gmcc.py:FilterGMCC.learning_rule", "padasip/filters/nlms.py:FilterNLMS.learning_rule", "padasip/filters/nsslms.py:FilterNSSLMS.learning_rule", "padasip/filters/rls.py:FilterRLS.learning_rule"]}
{"id": "C130", "title": "ELBND in binary64: how close the computed values are to the true ones", "statement": "Let w (N rows of c entries) and e (N entries) be arrays of finite doubles of absolute value at most 2^400, and let novelty(k,i) = |(w[k+1,i] - w[k,i])*e[k]| for k < N-1 and 0 for k = N-1, computed exactly on those doubles. (i) With c >= 1, ELBND(w, e, function='max') returns N finite non-negative doubles, and entry k differs from the exact maximum M over i of novelty(k,i) by at most 3*2^-53*M + 2^-1075; the maximum itself rounds nothing. (ii) With c <= 2^40, ELBND(w, e, function='sum') returns N finite non-negative doubles, and entry k differs from the exact sum S of novelty(k,i) by at most (4c+3)*2^-53*S + 4*c*2^-1075*(1 + c*2^-53), in whatever order numpy adds. In particular no overflow, NaN or cancellation can occur: nearly equal weights lose nothing.", "quantifier": "all N, all c (>= 1 for max, <= 2^40 for sum), all arrays of finite doubles bounded by 2^400, all sample indices, every summation order numpy might use", "why_tests_cant": "A test compares with one rounded computation; the bound on the distance to the exact value has to hold for every array of doubles and every order of the summation, including increments of nearly equal weights and products that underflow.", "anchors": ["padasip/detection/elbnd.py:ELBND"]}
{"id": "C131", "title": "Learning entropy in binary64: never a division by zero or an overflow, an explicit error, and an exact count", "statement": "Let w hold N rows of c doubles; inc(k,i) is the double the code looks at (w[k,i] for k < order, otherwise the absolute value of the order-th difference ending at sample k, computed with rounded subtractions), and W(k,i) the m values inc(k-m,i)..inc(k-1,i). (i) If all entries of w are finite and at most 2^300 in absolute value, order <= 50 and 1 <= m <= 2^40, then learning_entropy(w, m, order) returns an N x c matrix of zeros in the rows before m and of finite doubles of absolute value at most 2^440 in the others, and entry (k,i) is ((inc(k,i) - a)*(1+d1) / ((s + 1e-10)*(1+d2)))*(1+d3) + h with |d1|, |d2|, |d3| <= 2^-53, |h| <= 2^-1075, where a is within dm = 2(m+1)*2^-53*(mean of |W(k,i)|) + 6*2^-1075 of the true mean of W(k,i), and s >= 0 within 2(m+5)*2^-53*s0 + 2*dm + 2^-535 of its true standard deviation s0 - in whatever order numpy adds. (ii) With alpha a non-empty list and c*len(alpha) < 2^53 (c >= 1), for arbitrary doubles in w (also nan and infinities), any order and any m, entry k is zero before m and otherwise the correctly rounded quotient of H by c*len(alpha), H being the exact number of pairs (alpha, i) whose comparison mean(W(k,i))*alpha < inc(k,i), carried out in doubles, is true; it lies in [0, 1]. (iii) The absolute part of dm is real: for weights that never change (order 0, m = 3, all equal to 0.1*2^40) the computed novelty is below -0.9 although the exact one is 0. (iv) With order >= 1 this does not happen to a weight at rest: if w[j,i] is the same double (at most 2^300) for all j from k-m-order to k, the value at (k,i) is exactly 0, whatever the other entries of w are.", "quantifier": "all N, c, m, order within the stated limits, all arrays of doubles (bounded in (i), arbitrary in (ii)), all samples and inputs, all lists of sensitivities, every summation order numpy might use", "why_tests_cant": "A test looks at one array and one summation order; that no division by a vanishing deviation, no overflow and no rounded-up count ever occurs, and how far rounding can move the result, are statements about all arrays of doubles.", "anchors": ["padasip/detection/le.py:learning_entropy"]}
