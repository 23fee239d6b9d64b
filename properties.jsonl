{"id": "C01", "title": "filter returns one row per observation", "statement": "Whenever KalmanFilter.filter or ExtendedKalmanFilter.filter returns, states has shape (len(Z), n) and errors has shape (len(Z), n, n), both float64, with n = state_size; the same holds of smooth.", "quantifier": "every filter object, every Z and U of any shape and dtype, any float arithmetic", "why_tests_cant": "The number of observations, the state size and the array shapes are unbounded.", "anchors": ["src/kalmankit/standard.py:KalmanFilter.filter", "src/kalmankit/standard.py:KalmanFilter.smooth", "src/kalmankit/extended.py:ExtendedKalmanFilter.filter", "src/kalmankit/extended.py:ExtendedKalmanFilter.smooth"]}
{"id": "C02", "title": "filter is predict and update, step by step", "statement": "filter(Z, U) gives in states[k], errors[k] exactly what a user gets by calling predict then update by hand for observations 0..k, starting at (xk, Pk) and feeding each posterior to the next predict, bit for bit; the gains appended are those of these updates.", "quantifier": "every filter object, every Z, U, every k below the number of steps, any float arithmetic", "why_tests_cant": "Equality along histories of unbounded length.", "anchors": ["src/kalmankit/standard.py:KalmanFilter.filter", "src/kalmankit/standard.py:KalmanFilter.predict", "src/kalmankit/standard.py:KalmanFilter.update", "src/kalmankit/extended.py:ExtendedKalmanFilter.filter"]}
{"id": "C03", "title": "causality: later data cannot change earlier estimates", "statement": "If two runs of filter on the same object agree on the first k rows of Z and U, then the first k rows of states and errors and the first k gains are identical, whatever the later rows hold.", "quantifier": "every pair of observation and control sequences with a common prefix, any float arithmetic", "why_tests_cant": "Quantifies over every continuation of every prefix.", "anchors": ["src/kalmankit/standard.py:KalmanFilter.filter", "src/kalmankit/extended.py:ExtendedKalmanFilter.filter"]}
{"id": "C04", "title": "a run can be split and resumed", "statement": "Filtering a whole sequence gives the concatenation of filtering its first part and filtering the rest with a second filter started from the last posterior mean and covariance of the first.", "quantifier": "every split point of every sequence, any float arithmetic", "why_tests_cant": "Every split of every sequence.", "anchors": ["src/kalmankit/standard.py:KalmanFilter.filter"]}
{"id": "C05", "title": "parameters shorter than Z leave zero rows", "statement": "filter processes exactly min(len A, len H, len B, len U, len Z, len Q, len R) steps (extended: min of U, Z, Q, R); surplus parameter rows are ignored, and the rows of states and errors beyond the last processed step are exactly zero, with no exception.", "quantifier": "every combination of lengths, any float arithmetic", "why_tests_cant": "Seven independent unbounded lengths.", "anchors": ["src/kalmankit/standard.py:KalmanFilter.filter", "src/kalmankit/extended.py:ExtendedKalmanFilter.filter"]}
{"id": "C06", "title": "kalman_gains is an append-only log", "statement": "In every history of predict, update, filter and smooth calls on one object, kalman_gains only grows at its end; predict appends nothing, update at most one, filter and smooth one per processed step (smooth the same ones as filter), also when a later step raises.", "quantifier": "every sequence of method calls with arbitrary arguments, including calls that raise", "why_tests_cant": "Histories are unbounded and include failing calls.", "anchors": ["src/kalmankit/standard.py:KalmanFilter.update", "src/kalmankit/extended.py:ExtendedKalmanFilter.update"]}
{"id": "C07", "title": "calls do not interfere", "statement": "The outcome of any predict, update, filter or smooth call on an object does not depend on the calls made before it: it equals the outcome of the same call on a freshly built object; no call changes A, xk, B, Pk, H, Q, R or state_size.", "quantifier": "every history of calls and every next call, any float arithmetic", "why_tests_cant": "Histories are unbounded.", "anchors": ["src/kalmankit/standard.py:KalmanFilter", "src/kalmankit/extended.py:ExtendedKalmanFilter"]}
{"id": "C08", "title": "covariances and gains do not depend on the data (standard filter)", "statement": "Two successful runs of KalmanFilter.filter on the same object with observation arrays of the same length and any controls of the same length return identical errors and append identical gains.", "quantifier": "every pair of data sets of equal length, any float arithmetic (NaN included)", "why_tests_cant": "All pairs of data sets.", "anchors": ["src/kalmankit/standard.py:KalmanFilter.update", "src/kalmankit/standard.py:KalmanFilter.predict"]}
{"id": "C09", "title": "an all-NaN control row means no control", "statement": "A step whose control vector or control matrix is entirely NaN predicts A x exactly as if there were no control term; a step in which neither is entirely NaN predicts A x + B u; a float Z with U=None, or a float A with B=None, is the same as passing an all-NaN array.", "quantifier": "every step, every matrix and vector, any float arithmetic", "why_tests_cant": "Ranges over all shapes and NaN patterns.", "anchors": ["src/kalmankit/standard.py:KalmanFilter.predict", "src/kalmankit/utils.py:is_nan_all", "src/kalmankit/utils.py:check_none_and_broadcast"]}
{"id": "C10", "title": "omitting B or U disables control, except for integer arrays", "statement": "With float64 A and Z, U=None (or B=None) makes filter behave as the model without control. With int64 Z (or A) it does not: the placeholder is not NaN, the control branch is taken and a huge number is added to the state.", "quantifier": "every float system for the positive part; an existential witness for the failure", "why_tests_cant": "The positive part ranges over all systems.", "anchors": ["src/kalmankit/utils.py:check_none_and_broadcast", "src/kalmankit/standard.py:KalmanFilter.__init__", "src/kalmankit/standard.py:KalmanFilter.filter"]}
{"id": "C11", "title": "predict accepts None for Bk and uk as documented", "statement": "The docstring of KalmanFilter.predict says Bk and uk can be None to ignore control. The code raises TypeError for every such call in which the other test does not short-circuit.", "quantifier": "every predict call with Bk None, or with uk None and a Bk that is not all NaN", "why_tests_cant": "Ranges over all arguments.", "anchors": ["src/kalmankit/standard.py:KalmanFilter.predict", "src/kalmankit/utils.py:is_nan_all"]}
{"id": "C12", "title": "a float R is accepted as documented", "statement": "The class documentation says R may be a float. filter (and smooth) raise TypeError for every scalar R, whatever the other arguments, in both classes.", "quantifier": "every object whose R (or Q, or A, H, B) is a scalar, every Z with a length, every U", "why_tests_cant": "Ranges over all systems and data.", "anchors": ["src/kalmankit/standard.py:KalmanFilter.filter", "src/kalmankit/extended.py:ExtendedKalmanFilter.filter"]}
{"id": "C13", "title": "is_nan_all decides all-NaN", "statement": "is_nan_all(a) is True exactly when every element of a is NaN; it is False for every non-empty integer array and True for every empty array.", "quantifier": "every array of every shape and dtype", "why_tests_cant": "All arrays.", "anchors": ["src/kalmankit/utils.py:is_nan_all"]}
{"id": "C14", "title": "check_none_and_broadcast", "statement": "check_none_and_broadcast(arr, b) returns arr itself when arr is not None, and otherwise an array of the shape of b which is all NaN when b is a float array, and contains no NaN when b is a non-empty integer array.", "quantifier": "every pair of arrays", "why_tests_cant": "All arrays.", "anchors": ["src/kalmankit/utils.py:check_none_and_broadcast"]}
{"id": "C15", "title": "the smoother starts at the filter's last estimate", "statement": "Whenever smooth returns, its last state and covariance equal those filter returns for the same arguments, its gains are filter's, and with one observation it returns exactly filter's result.", "quantifier": "every object, Z, U, any float arithmetic, both classes", "why_tests_cant": "All lengths and values.", "anchors": ["src/kalmankit/standard.py:KalmanFilter.smooth", "src/kalmankit/extended.py:ExtendedKalmanFilter.smooth"]}
{"id": "C16", "title": "smooth refuses what it cannot index", "statement": "smooth raises IndexError on an empty Z, and whenever A, Q, B or U has fewer rows than Z (Z of length at least 2) although filter silently accepts them; when only H or R is short it does not raise for that reason.", "quantifier": "every object and every length", "why_tests_cant": "All combinations of lengths.", "anchors": ["src/kalmankit/standard.py:KalmanFilter.smooth", "src/kalmankit/extended.py:ExtendedKalmanFilter.smooth"]}
{"id": "C17", "title": "the extended filter on a linear system is the standard filter", "statement": "An ExtendedKalmanFilter whose f, h and Jacobians are those of a time-invariant linear system returns from filter and smooth the same outcome (values, gains, exceptions) as the KalmanFilter of that system.", "quantifier": "every linear system (any shapes and dtypes), every Z, U, any float arithmetic", "why_tests_cant": "All systems and data; the repository's test checks one scalar series.", "anchors": ["src/kalmankit/extended.py:ExtendedKalmanFilter.filter", "src/kalmankit/extended.py:ExtendedKalmanFilter.smooth", "src/kalmankit/standard.py:KalmanFilter.filter"]}
{"id": "C18", "title": "column-vector states are refused beyond dimension one", "statement": "With an initial mean of shape (n, 1), n >= 2, and a processed step, filter raises; it never returns wrongly shaped states. Shape (1, 1) is accepted.", "quantifier": "every n >= 2, every system of matching shapes, any float arithmetic", "why_tests_cant": "All dimensions.", "anchors": ["src/kalmankit/standard.py:KalmanFilter.filter"]}
{"id": "C19", "title": "where the extended filter evaluates the user's functions", "statement": "ExtendedKalmanFilter.filter evaluates f and jacobian_A at the previous posterior mean and the step's control, h and jacobian_H at the predicted mean; the result depends on the callables only through these values. With U=None and a float Z, the control passed is an all-NaN array of the shape of the observation, not None.", "quantifier": "every set of callables, Z, U, any float arithmetic", "why_tests_cant": "Quantifies over all functions.", "anchors": ["src/kalmankit/extended.py:ExtendedKalmanFilter.predict", "src/kalmankit/extended.py:ExtendedKalmanFilter.update", "src/kalmankit/extended.py:ExtendedKalmanFilter.filter"]}
{"id": "C20", "title": "one NaN observation poisons every later state", "statement": "If one observation contains a NaN, the state estimates of that step and of every later step are entirely NaN, while errors and gains stay those of the clean run; after smooth every state is NaN. Missing observations are thus not skipped.", "quantifier": "every position of the NaN, every system, any arithmetic in which NaN propagates", "why_tests_cant": "All positions and systems.", "anchors": ["src/kalmankit/standard.py:KalmanFilter.update", "src/kalmankit/standard.py:KalmanFilter.smooth"]}
{"id": "C21", "title": "state_size", "statement": "The constructor takes n from state_size when it is a non-zero integer and from xk.shape[0] when it is None or 0; a negative value raises ValueError; with a state_size that differs from the dimension of the state, filter raises as soon as a step is processed.", "quantifier": "every constructor call", "why_tests_cant": "All sizes.", "anchors": ["src/kalmankit/standard.py:KalmanFilter.__init__"]}
{"id": "C22", "title": "the code computes the textbook recursion", "statement": "In exact arithmetic on well-shaped NaN-free inputs, filter returns x- = A x + B u, P- = A P A' + Q, K = P- H' (H P- H' + R)^-1, x = x- + K (z - H x-), P = (I - K H) P- at every step, with the kalman_gains equal to the K's, for every documented array layout (vectors of shape (n,) or (1,1); scalar Z, Q, R rows in dimension one; int64 or float64 entries).", "quantifier": "every dimension n, m, p, every length, every system over any ordered field", "why_tests_cant": "All dimensions, lengths and values.", "anchors": ["src/kalmankit/standard.py:KalmanFilter.predict", "src/kalmankit/standard.py:KalmanFilter.update", "src/kalmankit/standard.py:KalmanFilter.filter"]}
{"id": "C23", "title": "filter fails exactly on a singular innovation covariance", "statement": "In exact arithmetic filter on well-shaped inputs raises LinAlgError iff some H P- H' + R is singular; with P0 and Q positive semidefinite and R positive definite it never raises.", "quantifier": "every well-shaped system", "why_tests_cant": "All systems.", "anchors": ["src/kalmankit/standard.py:KalmanFilter.update"]}
{"id": "C24", "title": "covariances stay symmetric positive semidefinite", "statement": "With P0, Q symmetric positive semidefinite and R symmetric positive definite, every matrix in errors is symmetric positive semidefinite; positive definite if moreover P0 is and every A is invertible, or every Q is.", "quantifier": "every system and length, exact arithmetic", "why_tests_cant": "Invariant over unbounded runs.", "anchors": ["src/kalmankit/standard.py:KalmanFilter.filter"]}
{"id": "C25", "title": "an update never increases uncertainty", "statement": "The posterior covariance is at most the prior one in the Loewner order; in particular every variance and the trace do not increase.", "quantifier": "every positive semidefinite prior, every H, every positive definite R", "why_tests_cant": "All matrices.", "anchors": ["src/kalmankit/standard.py:KalmanFilter.update"]}
{"id": "C26", "title": "the gain is optimal", "statement": "The returned covariance equals the Joseph form for the returned gain, and for every other gain L the error covariance (I-LH)P(I-LH)' + LRL' is at least the returned one; equality forces L = K.", "quantifier": "every prior, H, R and every competing gain L", "why_tests_cant": "All competitors.", "anchors": ["src/kalmankit/standard.py:KalmanFilter.update"]}
{"id": "C27", "title": "the update is the least-squares (maximum a posteriori) estimate", "statement": "The posterior mean is the unique minimiser over all x of (x-x-)' P^-1 (x-x-) + (z-Hx)' R^-1 (z-Hx).", "quantifier": "every x, every prior with positive definite covariance", "why_tests_cant": "All competitors.", "anchors": ["src/kalmankit/standard.py:KalmanFilter.update"]}
{"id": "C28", "title": "filter and smoother solve the whole least-squares problem", "statement": "smooth returns the unique trajectory minimising the sum of the prior, process and observation misfits over all trajectories, and filter's last state is the end of that trajectory.", "quantifier": "every trajectory, every length, positive definite P0, Q, R, exact arithmetic", "why_tests_cant": "Optimality over an infinite set for unbounded lengths.", "anchors": ["src/kalmankit/standard.py:KalmanFilter.filter", "src/kalmankit/standard.py:KalmanFilter.smooth"]}
{"id": "C29", "title": "errors are the true error covariances, and no linear estimator does better", "statement": "When the data are generated by the linear model with uncorrelated zero-mean noises of covariances P0, Q_k, R_k, the estimation error of states[k] is a linear function of the noises whose covariance is errors[k], and every other linear unbiased estimator of the state from the same data has a covariance at least errors[k].", "quantifier": "every realisation of the noises, every competing linear estimator", "why_tests_cant": "All realisations and competitors.", "anchors": ["src/kalmankit/standard.py:KalmanFilter.filter"]}
{"id": "C30", "title": "information form", "statement": "With positive definite P- and R, inverse(errors[k]) = inverse(P-) + H' R^-1 H and inverse(errors[k]) states[k] = inverse(P-) x- + H' R^-1 z.", "quantifier": "every system", "why_tests_cant": "All systems.", "anchors": ["src/kalmankit/standard.py:KalmanFilter.update"]}
{"id": "C31", "title": "superposition", "statement": "states is a linear function of (xk, U, Z) together: running filter on a linear combination of the initial means, controls and observations of two runs of the same system gives the same combination of the states.", "quantifier": "every pair of runs and coefficients", "why_tests_cant": "All pairs.", "anchors": ["src/kalmankit/standard.py:KalmanFilter.filter"]}
{"id": "C32", "title": "change of state coordinates", "statement": "Re-expressing the model in coordinates y = T x (T invertible) makes filter and smooth return T x and T P T' at every step.", "quantifier": "every invertible T and every system", "why_tests_cant": "All coordinate changes.", "anchors": ["src/kalmankit/standard.py:KalmanFilter.filter", "src/kalmankit/standard.py:KalmanFilter.smooth"]}
{"id": "C33", "title": "change of sensor units", "statement": "Replacing z, H, R by M z, M H, M R M' with M invertible (rescaling, permuting or mixing the sensors) leaves states and errors unchanged.", "quantifier": "every invertible M and every system", "why_tests_cant": "All unit changes.", "anchors": ["src/kalmankit/standard.py:KalmanFilter.update"]}
{"id": "C34", "title": "only noise ratios matter", "statement": "Multiplying P0, every Q and every R by one c > 0 leaves states and gains unchanged and multiplies errors by c.", "quantifier": "every c and every system", "why_tests_cant": "All scalings.", "anchors": ["src/kalmankit/standard.py:KalmanFilter.filter"]}
{"id": "C35", "title": "a noise-free trajectory is tracked exactly", "statement": "If xk is the true initial state and the observations are noise-free observations of a trajectory of the model, filter and smooth return the true trajectory at every step.", "quantifier": "every system and length", "why_tests_cant": "All systems and lengths.", "anchors": ["src/kalmankit/standard.py:KalmanFilter.filter", "src/kalmankit/standard.py:KalmanFilter.smooth"]}
{"id": "C36", "title": "smoothing never increases uncertainty", "statement": "Every smoothed covariance is symmetric positive semidefinite and at most the filtered covariance of the same step in the Loewner order.", "quantifier": "every system, length and step", "why_tests_cant": "All systems.", "anchors": ["src/kalmankit/standard.py:KalmanFilter.smooth"]}
{"id": "C37", "title": "better sensors and better priors give smaller covariances", "statement": "If P0 <= P0', Q_k <= Q_k' and R_k <= R_k' (Loewner order), then errors[k] <= errors'[k] at every step.", "quantifier": "every ordered pair of systems", "why_tests_cant": "All pairs.", "anchors": ["src/kalmankit/standard.py:KalmanFilter.filter"]}
{"id": "C38", "title": "independent sensors can be processed jointly or one after the other", "statement": "One update with two stacked sensors of uncorrelated noise equals two successive updates, in either order.", "quantifier": "every prior, every pair of sensors", "why_tests_cant": "All systems.", "anchors": ["src/kalmankit/standard.py:KalmanFilter.update"]}
{"id": "C39", "title": "constant level: the filter is a weighted average", "statement": "For the scalar model A = H = 1, Q = 0, R = r > 0 (tests/test_standard.py:test_filter), errors[k] = 1/(1/P0 + (k+1)/r) and states[k] is the precision-weighted mean of xk and the observations 0..k.", "quantifier": "every length, every r, P0 > 0 and every data", "why_tests_cant": "All lengths and values.", "anchors": ["src/kalmankit/standard.py:KalmanFilter.filter"]}
{"id": "C40", "title": "a scalar R row with several sensors is not R times the identity", "statement": "A scalar Q or R row with dimension at least 2 is added to every entry of the covariance: the run equals that with the all-equal matrix, i.e. perfectly correlated noise, and differs from the run with r times the identity.", "quantifier": "every system of dimension >= 2; witness for the difference", "why_tests_cant": "All systems.", "anchors": ["src/kalmankit/standard.py:KalmanFilter.update", "src/kalmankit/standard.py:KalmanFilter.predict"]}
{"id": "C41", "title": "certain states ignore the data", "statement": "With P0 = 0 and every Q = 0 the gains and errors are 0 and states is the deterministic trajectory from xk, whatever Z holds.", "quantifier": "every system and data", "why_tests_cant": "All data.", "anchors": ["src/kalmankit/standard.py:KalmanFilter.filter"]}
{"id": "C42", "title": "perfect sensors are believed", "statement": "With R = 0 and H P- H' invertible, the posterior mean reproduces the observation exactly (H x = z) and H P = 0; in general the post-fit residual is R S^-1 times the innovation.", "quantifier": "every prior and H", "why_tests_cant": "All systems.", "anchors": ["src/kalmankit/standard.py:KalmanFilter.update"]}
{"id": "C43", "title": "double precision keeps the scalar filter sane", "statement": "For a scalar state observed directly (H = 1, any transitions A) in IEEE-754 double arithmetic with round to nearest, whatever the length: the gain stays in [0,1] and every variance in errors is a number with 0 <= P <= P- as long as the predicted variance P- does not overflow; no variance is ever negative; with positive R the call never raises; with |A| <= 1 and Q = 0 (estimation of a constant) the variances stay finite and never increase.", "quantifier": "every length, every double A, every non-negative P0, Q, R in binary64, any data, NaN included", "why_tests_cant": "Rounding behaviour for all doubles and all lengths.", "anchors": ["src/kalmankit/standard.py:KalmanFilter.filter"]}
{"id": "C44", "title": "double precision does not keep covariances symmetric or positive", "statement": "The (I - K H) P update does not keep errors exactly symmetric in double precision, and can return a covariance with a negative variance although all inputs are symmetric positive definite.", "quantifier": "existential (witness) for symmetry and sign", "why_tests_cant": "A counterexample search by tests may miss it; the witness settles it.", "anchors": ["src/kalmankit/standard.py:KalmanFilter.update"]}
{"id": "C45", "title": "documented shapes raise nothing but LinAlgError", "statement": "With arrays of the documented shapes (n states, m sensors, p controls; see DESIGN.md for the layouts), filter and smooth of both classes either return or raise numpy's LinAlgError; no ValueError, TypeError or IndexError can come out of them.", "quantifier": "every n, m, p, length, contents (NaN included), every arithmetic; extended: callables that return the documented shapes", "why_tests_cant": "All shapes, lengths and contents.", "anchors": ["src/kalmankit/standard.py:KalmanFilter.filter", "src/kalmankit/standard.py:KalmanFilter.smooth", "src/kalmankit/extended.py:ExtendedKalmanFilter.filter", "src/kalmankit/extended.py:ExtendedKalmanFilter.smooth"]}
{"id": "C46", "title": "the smoother is the best linear estimator from all the data", "statement": "When the data are generated by the linear model with uncorrelated zero-mean noises of covariances P0, Q_k, R_k, the k-th matrix smooth returns is the covariance of the error of the k-th state it returns, and no affine function of all the observations has a smaller error covariance.", "quantifier": "every probability space, every realisation, every competing affine estimator", "why_tests_cant": "All realisations and competitors.", "anchors": ["src/kalmankit/standard.py:KalmanFilter.smooth"]}
{"id": "C47", "title": "the extended filter computes the textbook EKF recursion", "statement": "In exact arithmetic every row extended filter and smooth return, and every gain, is what the textbook extended Kalman filter and Rauch-Tung-Striebel smoother give with the user's f, h and Jacobians: prediction f(x,u) with covariance A P A' + Q, A the Jacobian at the state before the step; correction with the Jacobian and value of h at the predicted state; update does the correction alone.", "quantifier": "every system, callables of the documented shapes, length and data", "why_tests_cant": "All systems and data.", "anchors": ["src/kalmankit/extended.py:ExtendedKalmanFilter.filter", "src/kalmankit/extended.py:ExtendedKalmanFilter.smooth", "src/kalmankit/extended.py:ExtendedKalmanFilter.update"]}
{"id": "C48", "title": "the extended filter is the standard filter of its linearisation", "statement": "In exact arithmetic, a KalmanFilter given the first-order expansions of f and h along the states the extended filter returned, as time-varying A, B u, H and shifted observations, returns the same states, errors and gains; the smoothers agree too.", "quantifier": "every system, length and data", "why_tests_cant": "All systems and data.", "anchors": ["src/kalmankit/extended.py:ExtendedKalmanFilter.filter", "src/kalmankit/extended.py:ExtendedKalmanFilter.smooth", "src/kalmankit/standard.py:KalmanFilter.filter", "src/kalmankit/standard.py:KalmanFilter.smooth"]}
{"id": "C49", "title": "extended filter: covariances stay positive semidefinite, updates and smoothing never increase them", "statement": "With positive semidefinite P0, Q and R, whatever the callables return, every matrix in errors is positive semidefinite and at most the predicted one, the gain gives the smallest covariance of the linearised error, and smoothed covariances are at most the filtered ones.", "quantifier": "every system, callables, length and data", "why_tests_cant": "All systems and data.", "anchors": ["src/kalmankit/extended.py:ExtendedKalmanFilter.filter", "src/kalmankit/extended.py:ExtendedKalmanFilter.smooth"]}
{"id": "C50", "title": "extended filter: only a singular innovation covariance can make it fail", "statement": "In exact arithmetic, with callables returning the documented shapes, filter raises only LinAlgError and only at a step whose innovation covariance is singular, keeping the gains of the steps before; with positive definite R it never raises, and with positive definite Q and R smooth never raises, however wild the functions.", "quantifier": "every system, callables, length and data", "why_tests_cant": "All systems and data.", "anchors": ["src/kalmankit/extended.py:ExtendedKalmanFilter.filter", "src/kalmankit/extended.py:ExtendedKalmanFilter.smooth"]}
{"id": "C51", "title": "extended filter: errors and gains are those of a standard filter with the Jacobians as matrices", "statement": "In every arithmetic (doubles included), errors and gains of an extended filter run equal, number for number, those of a KalmanFilter whose A and H rows are the Jacobians at the states the run visits, whatever observations that filter is given.", "quantifier": "every arithmetic, system, length and data", "why_tests_cant": "All systems, data and rounding behaviours.", "anchors": ["src/kalmankit/extended.py:ExtendedKalmanFilter.filter", "src/kalmankit/standard.py:KalmanFilter.filter"]}
{"id": "C52", "title": "extended filter: a noise-free trajectory of the non-linear system is followed exactly", "statement": "If xk is the true initial state and the observations are h of the true states of x[k+1] = f(x[k], u[k]), then filter returns the true states, whatever the Jacobians and covariances.", "quantifier": "every f, h, Jacobians (right or wrong), covariances and length", "why_tests_cant": "All systems.", "anchors": ["src/kalmankit/extended.py:ExtendedKalmanFilter.filter"]}
{"id": "C53", "title": "no call modifies an array that existed before it", "statement": "Constructing either class, predict, update, filter and smooth leave every array that existed before the call as it was, whether the call returns or raises and whatever arrays share memory; so does any number of calls. The constructor stores the very arrays it is given (no copy) and no call rebinds them.", "quantifier": "every memory content, every way arrays can share buffers, every call and history; extended: callables that do not write to existing arrays", "why_tests_cant": "All aliasing patterns and histories.", "anchors": ["src/kalmankit/standard.py:KalmanFilter", "src/kalmankit/extended.py:ExtendedKalmanFilter"]}
{"id": "C54", "title": "results and logged gains are new arrays", "statement": "The two arrays a call returns are newly allocated, share memory neither with each other nor with any array that existed before, nor with any entry of kalman_gains; the gains appended are new and pairwise disjoint, over any number of calls. (predict of the extended filter returns as mean whatever array f returned; its covariance is new.)", "quantifier": "every memory, every aliasing of the arguments, every call and history", "why_tests_cant": "All aliasing patterns and histories.", "anchors": ["src/kalmankit/standard.py:KalmanFilter.filter", "src/kalmankit/standard.py:KalmanFilter.smooth", "src/kalmankit/standard.py:KalmanFilter.update", "src/kalmankit/standard.py:KalmanFilter.predict", "src/kalmankit/extended.py:ExtendedKalmanFilter.predict"]}
{"id": "C55", "title": "sharing memory among arguments does not matter", "statement": "Outcome (values or exception) and attributes after a call are a function of the values of the arguments and attributes: passing the same array twice, views of one buffer, or the object's own arrays gives what distinct copies would give.", "quantifier": "every memory, every aliasing, every call and history; extended: callables may return their argument or the same stored array each time", "why_tests_cant": "All aliasing patterns.", "anchors": ["src/kalmankit/standard.py:KalmanFilter", "src/kalmankit/extended.py:ExtendedKalmanFilter"]}
{"id": "C56", "title": "overwriting arguments, results or gains between calls is harmless", "statement": "If between calls the user overwrites, in place, any array except those the object holds (A, xk, B, Pk, H, Q, R and its identity; for the extended filter also what the callables read), every later call returns what it would have returned without the writes.", "quantifier": "every history of calls and writes", "why_tests_cant": "All histories.", "anchors": ["src/kalmankit/standard.py:KalmanFilter", "src/kalmankit/extended.py:ExtendedKalmanFilter"]}
{"id": "C57", "title": "the object follows in-place changes of the arrays it was built from", "statement": "After any in-place change of the arrays passed to the constructor, every call behaves exactly as on an object newly constructed from the arrays as they are now (identity and the control placeholder, which the constructor allocated, excepted).", "quantifier": "every change of memory between construction and call", "why_tests_cant": "All memory changes.", "anchors": ["src/kalmankit/standard.py:KalmanFilter.__init__", "src/kalmankit/extended.py:ExtendedKalmanFilter.__init__"]}
{"id": "C58", "title": "a user function that writes to its argument corrupts the extended filter", "statement": "filter passes self.xk itself to f at the first step: with an f such as 'x[0] += x[1]; return x' the stored initial state is overwritten and the same call made twice returns different states.", "quantifier": "existential (witness)", "why_tests_cant": "Shows the hypothesis of the previous properties is needed.", "anchors": ["src/kalmankit/extended.py:ExtendedKalmanFilter.filter", "src/kalmankit/extended.py:ExtendedKalmanFilter.predict"]}
{"id": "C59", "title": "when importing kalmankit fails", "statement": "Importing the package raises exactly when the date keyword in _version.py is empty (IndexError), or, outside a git archive and inside a git checkout whose describe output names a v-tag or no tag, when git show fails (AttributeError) or prints only blanks (IndexError), or when no tag is named and git rev-list fails (AttributeError). It raises no other exception; in particular with a date keyword and no git it always succeeds.", "quantifier": "every content of the keywords, every path of the file, every behaviour of every program that can be started, both platforms", "why_tests_cant": "All environments.", "anchors": ["src/kalmankit/_version.py:get_versions", "src/kalmankit/_version.py:git_pieces_from_vcs", "src/kalmankit/_version.py:run_command", "src/kalmankit/_version.py:git_versions_from_keywords", "src/kalmankit/__init__.py:__version__"]}
{"id": "C60", "title": "version from the directory name", "statement": "With unexpanded keywords and no git checkout, __version__ is what follows 'kalmankit-' in the name of the source root, else of its parent, else of its grandparent, and '0+unknown' if none of the three has the prefix.", "quantifier": "every path and environment without a checkout", "why_tests_cant": "All paths.", "anchors": ["src/kalmankit/_version.py:versions_from_parentdir", "src/kalmankit/_version.py:get_versions"]}
{"id": "C61", "title": "version in a git checkout", "statement": "If git describe prints vTAG-N-gHEX, __version__ is TAG when N is 0 and the tree is clean, else TAG+N.gHEX (a dot for the plus if TAG has one) with .dirty appended when dirty; with no tag it is 0+untagged.COMMITS.gHEX[.dirty]; for any other output it is 'unknown' with an error. full-revisionid is HEAD, dirty says whether -dirty was printed, and a date 'D T Z' on the last line becomes DTTZ.", "quantifier": "every tag, number, revision, date and environment that answers like a checkout", "why_tests_cant": "All git outputs.", "anchors": ["src/kalmankit/_version.py:git_pieces_from_vcs", "src/kalmankit/_version.py:render", "src/kalmankit/_version.py:render_pep440", "src/kalmankit/_version.py:get_versions"]}
{"id": "C62", "title": "version in a git archive", "statement": "With expanded keywords the version is the lexicographically smallest ref of the form v<digit>... among those marked 'tag: ' (among all refs with a digit if none is marked), without the v; '0+unknown' with an error if there is none; order and repetition of the refs do not matter.", "quantifier": "every ref list", "why_tests_cant": "All ref lists.", "anchors": ["src/kalmankit/_version.py:git_versions_from_keywords", "src/kalmankit/_version.py:get_versions"]}
{"id": "C63", "title": "describe output is read in one way only", "statement": "The tag, distance, revision and dirtiness read from a describe output are unique even if the tag contains hyphens and digits, and rendering them in style git-describe-long gives the output back (without the v).", "quantifier": "every describe output", "why_tests_cant": "All outputs.", "anchors": ["src/kalmankit/_version.py:git_pieces_from_vcs", "src/kalmankit/_version.py:render_git_describe_long"]}
{"id": "C64", "title": "version styles", "statement": "An unknown style raises ValueError; every known style but pep440-pre returns; on a clean tag every style but git-describe-long gives the tag; only the two branch styles depend on the branch, which is the one HEAD is on, or for a detached HEAD master if it contains the commit, else the first one git lists; a version has at most one plus sign if its tag has; pep440-pre turns TAG.postK at distance N into TAG.post(K+1).devN.", "quantifier": "every tag, distance, revision, branch, dirtiness and style", "why_tests_cant": "All pieces.", "anchors": ["src/kalmankit/_version.py:render", "src/kalmankit/_version.py:render_pep440_branch", "src/kalmankit/_version.py:render_pep440_pre", "src/kalmankit/_version.py:render_pep440_post", "src/kalmankit/_version.py:render_pep440_post_branch", "src/kalmankit/_version.py:render_pep440_old", "src/kalmankit/_version.py:render_git_describe", "src/kalmankit/_version.py:pep440_split_post"]}
{"id": "C65", "title": "different builds have different versions", "statement": "Two checkouts get the same pep440 version only if tag (for tags without a plus), distance, dirtiness and, unless both are the clean tag, revision agree.", "quantifier": "every pair of checkouts", "why_tests_cant": "All pairs.", "anchors": ["src/kalmankit/_version.py:render_pep440"]}
{"id": "C66", "title": "From matrices to arrays, end to end", "statement": "Build a KalmanFilter from arrays holding any matrices A_k, B_k, H_k, Q_k, R_k and any x0, P0 (each sequence with its own length; B omitted or not; state_size omitted or equal to len(xk)) and call filter on any observations and controls (or no controls): in exact arithmetic the call returns exactly the arrays of the textbook means and covariances, with zeros in the rows beyond the shortest sequence, and appends exactly the textbook gains to kalman_gains; if some innovation covariance among the processed steps is singular it raises LinAlgError and kalman_gains holds exactly the gains of the steps before the first singular one. smooth returns exactly the arrays of the Rauch-Tung-Striebel means and covariances, or raises LinAlgError exactly when an innovation covariance or a predicted covariance (after the first step) is singular.", "quantifier": "all dimensions, lengths, matrices, vectors, previous contents of kalman_gains, over any ordered field", "why_tests_cant": "A test compares a few outputs with a reference implementation on a few models; this is an equation between whole calls and whole answers for every model, every length and every data.", "anchors": ["src/kalmankit/standard.py:KalmanFilter.__init__", "src/kalmankit/standard.py:KalmanFilter.predict", "src/kalmankit/standard.py:KalmanFilter.update", "src/kalmankit/standard.py:KalmanFilter.filter", "src/kalmankit/standard.py:KalmanFilter.smooth", "src/kalmankit/utils.py:check_none_and_broadcast", "src/kalmankit/utils.py:is_nan_all"]}
{"id": "C67", "title": "From functions to arrays, end to end", "statement": "Build an ExtendedKalmanFilter from any functions f, h and any Jacobian functions on vectors (written as callables on arrays) and arrays holding any Q_k, R_k, x0, P0, and call filter or smooth on any observations, with or without controls: in exact arithmetic the answer is exactly the arrays of the textbook extended Kalman filter (f and its Jacobian at the estimate before the step, h and its Jacobian at the prediction) and extended RTS smoother, or LinAlgError at the first singular innovation covariance (or a singular predicted covariance for smooth) with exactly the gains before it kept. For linear functions these are the standard filter's answers.", "quantifier": "all dimensions, lengths, functions, Jacobian functions, matrices, vectors, previous contents of kalman_gains, over any ordered field", "why_tests_cant": "Quantifies over all functions and data; an argument swapped, a Jacobian taken at the wrong point or noises exchanged can be invisible on the linear or symmetric examples used in tests.", "anchors": ["src/kalmankit/extended.py:ExtendedKalmanFilter.__init__", "src/kalmankit/extended.py:ExtendedKalmanFilter.predict", "src/kalmankit/extended.py:ExtendedKalmanFilter.update", "src/kalmankit/extended.py:ExtendedKalmanFilter.filter", "src/kalmankit/extended.py:ExtendedKalmanFilter.smooth", "src/kalmankit/utils.py:check_none_and_broadcast"]}
{"id": "C68", "title": "Integer parameters behave like their float versions", "statement": "Take any history of calls (constructor, predict, update, filter, smooth) whose arrays are int64, float64 or a mixture, with dimensions at most d and integers at most M in absolute value, where 3 d^4 M^5 does not exceed 2^53 (2^63-1 in exact arithmetic). Converting every argument with .astype(float) changes nothing but the dtype of what predict returns: the same exceptions, the same values, filter and smooth return the same float64 arrays and kalman_gains is the same, bit for bit. (Control omitted together with integer observations, or B omitted together with an integer A, is excluded: C10.) Beyond the bound this is false: int64 wraps around.", "quantifier": "all int64/float64 arrays within the bound, all shapes (also ill-formed ones), all histories; every float arithmetic that is exact on integers in its range, with doubles and exact arithmetic as instances", "why_tests_cant": "The integer path is taken only in the first step and only for some dtype combinations; tests use one of them. Which operations see two integer operands depends on the whole data flow.", "anchors": ["src/kalmankit/standard.py:KalmanFilter.__init__", "src/kalmankit/standard.py:KalmanFilter.predict", "src/kalmankit/standard.py:KalmanFilter.update", "src/kalmankit/standard.py:KalmanFilter.filter", "src/kalmankit/standard.py:KalmanFilter.smooth"]}
{"id": "C69", "title": "Smoothing the end of a record needs only a checkpoint", "statement": "Filter the first k observations, keep the last state and covariance (and kalman_gains), and smooth the remaining observations with an object started from them and the remaining parameters: the answer is exactly the rows from k on of smoothing the whole record, and kalman_gains is the same. If smoothing the rest raises, smoothing the whole raises the same exception. Filtering splits the same way for the extended filter.", "quantifier": "all models, all data, all k, every number format (bit for bit), both classes", "why_tests_cant": "All records and all cut points.", "anchors": ["src/kalmankit/standard.py:KalmanFilter.smooth", "src/kalmankit/standard.py:KalmanFilter.filter", "src/kalmankit/extended.py:ExtendedKalmanFilter.smooth", "src/kalmankit/extended.py:ExtendedKalmanFilter.filter"]}
{"id": "C70", "title": "More data never hurts the smoother", "statement": "In exact arithmetic with positive semidefinite covariances, if smooth succeeds on the whole record it succeeds on every prefix, and for every row of the prefix the covariance smoothed with the whole record is at most (Loewner, every variance, trace) the covariance smoothed with the prefix.", "quantifier": "all linear models, all data, all prefixes", "why_tests_cant": "An order between two runs for all models.", "anchors": ["src/kalmankit/standard.py:KalmanFilter.smooth", "src/kalmankit/standard.py:KalmanFilter.filter"]}
{"id": "C71", "title": "A blind sensor's readings do not matter", "statement": "At a step whose observation matrix is zero the posterior is the prediction and the gain is zero, whatever the reading; two records of one system that differ only in such readings give the same filter and smooth answers and gains (exact arithmetic; the readings are numbers, not NaN).", "quantifier": "all models, data and sets of blind steps", "why_tests_cant": "All data.", "anchors": ["src/kalmankit/standard.py:KalmanFilter.update", "src/kalmankit/standard.py:KalmanFilter.filter", "src/kalmankit/standard.py:KalmanFilter.smooth"]}
{"id": "C72", "title": "Independent systems may be filtered together or separately", "statement": "Stack two systems in block diagonal matrices: the joint filter succeeds exactly when both separate ones do, and then its states are the stacked states, its covariances and gains the block diagonal ones, without cross terms; the same for smooth.", "quantifier": "all pairs of models and data, exact arithmetic", "why_tests_cant": "All pairs of systems.", "anchors": ["src/kalmankit/standard.py:KalmanFilter.filter", "src/kalmankit/standard.py:KalmanFilter.smooth"]}
{"id": "C73", "title": "With a constant model the uncertainty moves one way", "statement": "If A, H, Q, R are constant and the first step shrinks (grows) the covariance, every later step shrinks (grows) it; a covariance given back by the first step is given back by every step with the same gain; runs started below (above) a steady state stay below (above) it.", "quantifier": "all constant models, all lengths, exact arithmetic", "why_tests_cant": "All models and lengths.", "anchors": ["src/kalmankit/standard.py:KalmanFilter.filter", "src/kalmankit/standard.py:KalmanFilter.predict", "src/kalmankit/standard.py:KalmanFilter.update"]}
{"id": "C74", "title": "The prediction is the best linear forecast", "statement": "On data generated by the model with white noises, the prediction A x + B u from the row of states before has error of mean zero and covariance A P A' + Q, and no affine function of the observations before has a smaller error covariance (only the prediction attains it).", "quantifier": "every probability space, all linear models and noises with the model's covariances, all lengths", "why_tests_cant": "A statement about all distributions and all competing estimators.", "anchors": ["src/kalmankit/standard.py:KalmanFilter.predict", "src/kalmankit/standard.py:KalmanFilter.filter"]}
{"id": "C75", "title": "Innovations are white with the computed covariance", "statement": "On data generated by the model, the innovations z - H x (x the prediction) have mean zero, covariance H P H' + R with P the prediction's covariance, are uncorrelated with each other and with all earlier observations, and each gain in kalman_gains times that covariance is the covariance of state and innovation. The normalised innovation squared has mean m and the normalised estimation error squared mean n (the usual consistency tests).", "quantifier": "every probability space, all linear models and noises, all lengths", "why_tests_cant": "All distributions; a test estimates moments from samples.", "anchors": ["src/kalmankit/standard.py:KalmanFilter.filter", "src/kalmankit/standard.py:KalmanFilter.update", "src/kalmankit/standard.py:KalmanFilter.predict"]}
{"id": "C76", "title": "The extended filter does not care about units", "statement": "Write the system for V x + d instead of the state x and M z + b instead of the observation z (V, M invertible; functions and Jacobians rewritten accordingly) and multiply Q, R and P0 by c: filter and smooth return V x + d and c V P V', the gains become V K M^-1, and LinAlgError is raised by one exactly when by the other, with as many gains kept. In particular, with the same callables, only ratios of the covariances matter.", "quantifier": "all functions, Jacobian functions, invertible V and M, d, b, c != 0, lengths, with or without controls; exact arithmetic", "why_tests_cant": "All functions and all changes of units.", "anchors": ["src/kalmankit/extended.py:ExtendedKalmanFilter.filter", "src/kalmankit/extended.py:ExtendedKalmanFilter.smooth", "src/kalmankit/extended.py:ExtendedKalmanFilter.predict", "src/kalmankit/extended.py:ExtendedKalmanFilter.update"]}
{"id": "C77", "title": "The extended filter on independent systems, together or separately", "statement": "Stack two non-linear systems (functions stacked, Jacobians and covariances block diagonal): filter and smooth return the stacked means and block diagonal covariances and gains of the two separate calls, and raise exactly when one of them does.", "quantifier": "all pairs of systems, lengths, with or without controls; exact arithmetic", "why_tests_cant": "All pairs of functions.", "anchors": ["src/kalmankit/extended.py:ExtendedKalmanFilter.filter", "src/kalmankit/extended.py:ExtendedKalmanFilter.smooth"]}
{"id": "C78", "title": "predict computes the textbook prediction", "statement": "A call of predict on documented layouts (also (1,1) states in dimension one and scalar or one-element Q) returns A x + B u (A x if B or u is missing, that is all NaN) and A P A' + Q; the extended filter's predict returns exactly the array f returned and J P J' + Q with J its Jacobian at the given state.", "quantifier": "all arrays of the documented layouts, exact arithmetic", "why_tests_cant": "All arguments.", "anchors": ["src/kalmankit/standard.py:KalmanFilter.predict", "src/kalmankit/extended.py:ExtendedKalmanFilter.predict"]}
{"id": "C79", "title": "Forecasts by repeated predict", "statement": "Filter k observations, then call predict h times with the parameters of the following steps: no call fails, mean and covariance follow the model, and on data generated by the model the result is the best affine estimate of the state h steps ahead from the k observations, with the returned covariance as covariance of its error.", "quantifier": "all models, k, h, every probability space and noises with the model's covariances", "why_tests_cant": "All models, horizons and distributions.", "anchors": ["src/kalmankit/standard.py:KalmanFilter.predict", "src/kalmankit/standard.py:KalmanFilter.filter"]}
{"id": "C80", "title": "Error bars hold for any disturbances", "statement": "Without any assumption on probabilities: take any trajectory and measure by P0, Q and R how far it and the readings depart from the model (the sum of the squared departures, each weighted by the inverse covariance). Then the squared error of every component of states[k] is at most errors[k][i,i] times that sum, and in every direction c the squared error is at most c' errors[k] c times it; the same for smooth. The bound is attained: for every direction there are disturbances and readings for which it is an equality.", "quantifier": "all linear models with semidefinite covariances, all trajectories, readings, steps and directions; exact arithmetic", "why_tests_cant": "A worst case over all disturbances.", "anchors": ["src/kalmankit/standard.py:KalmanFilter.filter", "src/kalmankit/standard.py:KalmanFilter.smooth"]}
{"id": "C81", "title": "Overstating the noise is safe", "statement": "On random data whose white noises have covariances at most (Loewner) those given to the object, the covariance of the errors actually made is at most errors[k] (every variance too), and the errors have mean zero; the same for smooth.", "quantifier": "every probability space, all linear models, all true covariances below the assumed ones, all lengths", "why_tests_cant": "All distributions and all tunings.", "anchors": ["src/kalmankit/standard.py:KalmanFilter.filter", "src/kalmankit/standard.py:KalmanFilter.smooth"]}
{"id": "C82", "title": "Estimates are unbiased however the covariances are tuned", "statement": "If the noises have mean zero, states and the smoothed states have errors of mean zero, whatever the covariances of the noises, their correlations, and the P0, Q, R given to the object.", "quantifier": "every probability space, all linear models, all centred noises, correlated or not, all P0, Q, R for which the call returns", "why_tests_cant": "All distributions and all tunings.", "anchors": ["src/kalmankit/standard.py:KalmanFilter.filter", "src/kalmankit/standard.py:KalmanFilter.smooth"]}
{"id": "C83", "title": "Poorer sensors never help", "statement": "Replace the sensors by ones that show M_k times the old readings (fewer of them, sums, averages, ...) plus more noise, and P0, Q by larger ones: every covariance returned by filter and by smooth is at least (Loewner, every variance, trace) the old one.", "quantifier": "all linear models, all matrices M_k of any shape, all larger covariances; exact arithmetic", "why_tests_cant": "An order between two runs for all models and all M.", "anchors": ["src/kalmankit/standard.py:KalmanFilter.filter", "src/kalmankit/standard.py:KalmanFilter.smooth"]}
{"id": "C84", "title": "Every semidefinite model describes a random experiment", "statement": "For every object with positive semidefinite P0, Q, R on which filter returns there is a finite probability space with white noises of exactly these covariances, and readings generated by the model from them, on which filter returns in every outcome the same errors array, and errors[k] is the covariance of the error of states[k]. (So the statements about random data are about every object.)", "quantifier": "all linear models with semidefinite covariances, all lengths", "why_tests_cant": "A construction for every model.", "anchors": ["src/kalmankit/standard.py:KalmanFilter.filter"]}
{"id": "C85", "title": "Small changes of the data change the estimates little", "statement": "Two calls of filter with the same matrices but different initial states, control contributions and readings return the same covariances; if the data differ by P0 l, Q_j a_j and R_j b_j, the squared difference of the states in every direction c is at most c' errors[k] c times l'P0 l + sum of a'Q a + b'R b, in particular every component is bounded by errors[k][i,i] times it; the same for smooth. With invertible covariances this bounds the difference of any two runs by the sum of the squared differences of their data, each weighted by the inverse covariance.", "quantifier": "all linear models with semidefinite covariances, all pairs of initial states, inputs and readings, all lengths; exact arithmetic", "why_tests_cant": "A bound over all pairs of inputs.", "anchors": ["src/kalmankit/standard.py:KalmanFilter.filter", "src/kalmankit/standard.py:KalmanFilter.smooth"]}
{"id": "C86", "title": "Error bars of the extended filter", "statement": "Whatever trajectory X the true system follows and whatever was read: the squared error of component i of states[k] is at most errors[k][i,i] times the sum of the squared departures of X and of the readings from the linear expansions the filter used (state transition expanded at the previous row of states, sensors at the prediction), each weighted by the inverse covariance: linearisation errors count as disturbances and nothing else is lost. The same for smooth.", "quantifier": "all callables and Jacobian callables, all trajectories, readings and lengths, invertible covariances; exact arithmetic", "why_tests_cant": "All functions and all trajectories.", "anchors": ["src/kalmankit/extended.py:ExtendedKalmanFilter.filter", "src/kalmankit/extended.py:ExtendedKalmanFilter.smooth"]}
{"id": "C87", "title": "Threads may share one object", "statement": "Any number of threads call predict, update, filter and smooth on one object, with any schedule: at every moment nothing but kalman_gains has changed; what was appended to it is an interleaving of what the calls append alone (of an initial part of it for a call not finished or interrupted, of all of it for one that is); every call that finishes returns, or raises, what it does alone; and it finishes after a number of its own steps that does not depend on the others.", "quantifier": "all objects, numbers of threads, calls and schedules, every moment of a run (also a thread that is never scheduled again, that is interrupted), both classes, any arithmetic", "why_tests_cant": "All schedules; races show up in a test only by luck.", "anchors": ["src/kalmankit/standard.py:KalmanFilter.filter", "src/kalmankit/standard.py:KalmanFilter.update", "src/kalmankit/standard.py:KalmanFilter.smooth", "src/kalmankit/standard.py:KalmanFilter.predict", "src/kalmankit/extended.py:ExtendedKalmanFilter.filter", "src/kalmankit/extended.py:ExtendedKalmanFilter.update", "src/kalmankit/extended.py:ExtendedKalmanFilter.smooth"]}
{"id": "C88", "title": "Assigning attributes while filter runs", "statement": "filter reads the object's parameters once, at the start: assignments to any of them made by other code after the first gain has been appended change neither the answer of the call nor the gains it appends. smooth reads A, B, Q and state_size again for its backward pass, so this holds there for xk, Pk, H, R and kalman_gains (and a new Q is mixed with the old one). The extended filter looks up its callables at every step; the same holds for its other attributes.", "quantifier": "all objects, calls, and sequences of assignments between any two steps, any arithmetic", "why_tests_cant": "All points at which other code may run.", "anchors": ["src/kalmankit/standard.py:KalmanFilter.filter", "src/kalmankit/standard.py:KalmanFilter.smooth", "src/kalmankit/extended.py:ExtendedKalmanFilter.filter", "src/kalmankit/extended.py:ExtendedKalmanFilter.smooth"]}
{"id": "C89", "title": "The past is forgotten", "statement": "Two calls of filter with the same matrices, whose inputs and readings agree from some step on: measured by the returned covariance (squared difference in direction c, relative to c' errors[k] c), the difference of the returned states never grows from then on, and shrinks at every step at least by the share r of the old uncertainty in the prediction (A P A' <= r (A P A' + Q)). In particular, when only the initial state differs by P0 l and the covariances stay below pp, A A' below a and Q above q > 0, every component of the states differs by at most pp (l'P0 l) rate^(k+1) (squared) with rate = pp a / (pp a + q) < 1.", "quantifier": "all linear models with semidefinite covariances, all pairs of initial states and all lengths; exact arithmetic", "why_tests_cant": "A rate for all models and unboundedly long runs.", "anchors": ["src/kalmankit/standard.py:KalmanFilter.filter"]}
{"id": "C90", "title": "The extended filter solves a least-squares problem", "statement": "With invertible covariances, states[k] of the extended filter is where the only trajectory ends that minimises the sum of its squared departures, over steps 0..k, from the prior, from the linear expansions of the dynamics (at the previous rows of states) and from the linear expansions of the sensors (at the predictions), each weighted by the inverse covariance; smooth returns the only minimiser for all steps. One call of update returns the unique Gauss-Newton step, started at the prediction, for the problem of fitting the reading and the prediction.", "quantifier": "all callables and Jacobian callables, all trajectories, readings and lengths; exact arithmetic", "why_tests_cant": "A minimum over all trajectories.", "anchors": ["src/kalmankit/extended.py:ExtendedKalmanFilter.filter", "src/kalmankit/extended.py:ExtendedKalmanFilter.smooth", "src/kalmankit/extended.py:ExtendedKalmanFilter.update"]}
{"id": "C91", "title": "More data and blind sensors, extended filter", "statement": "Smoothing the first k rows with the extended filter gives covariances at least as large (Loewner, every variance, trace) as smoothing all rows. Where the sensor Jacobian at the prediction is 0, states[k] is f(previous state), errors[k] the prior covariance and the gain 0; readings at such steps do not matter: with other readings there, filter returns the same rows and gains everywhere.", "quantifier": "all callables and Jacobian callables, readings, lengths and k; semidefinite covariances for the first part; exact arithmetic", "why_tests_cant": "All functions and all pairs of readings.", "anchors": ["src/kalmankit/extended.py:ExtendedKalmanFilter.filter", "src/kalmankit/extended.py:ExtendedKalmanFilter.smooth"]}
{"id": "C92", "title": "Keywords can be read without importing", "statement": "git_get_keywords applied to a version file whose lines assign strings to git_refnames, git_full and git_date returns exactly these strings (the last assignment wins; any indentation, any line ends; strings may contain quotes), hence the keywords and the version that importing the file gives; a keyword no line starts with is missing from the result, and so are all of them if the file cannot be opened.", "quantifier": "all file contents and all values without a line break", "why_tests_cant": "All texts.", "anchors": ["src/kalmankit/_version.py:git_get_keywords", "src/kalmankit/_version.py:get_keywords", "src/kalmankit/_version.py:git_versions_from_keywords"]}
{"id": "C93", "title": "Rounding errors of the variances stay small", "statement": "In double precision, for a scalar state observed directly (H = 1): if the predicted variances are at most M, |A| at most alpha and no innovation variance overflows, errors[k] is within e (1 + alpha^2 + ... + alpha^2k) of the value the same recursion has in exact arithmetic, e = 9 2^-53 M + (4 + alpha) 2^-1075: at most linear growth in k when alpha = 1, a bound independent of k when alpha < 1. The gain of step k is within 2 2^-53 + 2^-1075 + (the same)/rho of the exact gain when R >= rho > 0.", "quantifier": "all double inputs, all observations and all lengths", "why_tests_cant": "Rounding errors of unboundedly many operations on all doubles.", "anchors": ["src/kalmankit/standard.py:KalmanFilter.filter", "src/kalmankit/standard.py:KalmanFilter.predict", "src/kalmankit/standard.py:KalmanFilter.update"]}
{"id": "C94", "title": "Rounding errors of the states stay small", "statement": "In double precision, for a scalar state observed directly, without control, |A| <= 1, R >= rho > 0, the initial state, the observations and the returned states at most X in absolute value, the predicted variances at most M: after n steps states[n-1] is within n (12 2^-53 X + 2 2^-1075) + n (n+1) X (9 2^-53 M + 5 2^-1075)/rho of the state the filter computes in exact arithmetic, and within a bound independent of n when |A| <= alpha < 1.", "quantifier": "all double inputs and all lengths", "why_tests_cant": "Rounding errors of unboundedly many operations on all doubles.", "anchors": ["src/kalmankit/standard.py:KalmanFilter.filter", "src/kalmankit/standard.py:KalmanFilter.predict", "src/kalmankit/standard.py:KalmanFilter.update"]}
{"id": "C95", "title": "The initial covariance is forgotten", "statement": "Two calls of filter with the same A, H, Q, R and initial covariances P0' <= (1+v) P0 (readings, inputs and initial states may differ): errors' [k] <= (1 + v r_0 ... r_k) errors[k] (Loewner order), where r_i is the share of the old uncertainty in the prediction of step i (A P A' <= r_i (A P A' + Q)); with bounded covariances and Q >= q > 0 the excess of every variance decays geometrically. With a constant model and a steady state W whose share is at most r < 1, errors[k] is at most (1 + v r^(k+1)) W and at least W/(1 + w q^(k+1)), q < 1, when P0 <= (1+v) W and W <= (1+w) P0: the covariances approach the steady state at a geometric rate.", "quantifier": "all linear models with semidefinite covariances, all pairs of initial covariances, all data and all lengths; exact arithmetic", "why_tests_cant": "A rate for all models and unboundedly long runs.", "anchors": ["src/kalmankit/standard.py:KalmanFilter.filter"]}
{"id": "C96", "title": "With Gaussian noises the answers are the Bayesian ones", "statement": "README: if the noises are drawn from a Gaussian distribution and the system is linear, the filter outputs the best possible estimate. Over the real numbers, with positive definite P0, Q_k and R_k: run the Bayes filter (prior N(xk, Pk); predict by integrating the transition density N(A x + B u, Q) against the density of the state; correct by multiplying with the likelihood N(z; H x, R) and normalising). The density of the state after observations 0..k is exactly the normal density with mean states[k] and covariance errors[k]; the normalising constant (the likelihood of observation k given the earlier ones) is the normal density of z with the predicted mean and the innovation covariance; the Bayes smoother gives the normal densities with the means and covariances smooth returns.", "quantifier": "all linear models with positive definite covariances, all data, all lengths; every functional that is homogeneous and gives 1 on normal densities, as the integral over R^n does", "why_tests_cant": "An identity between density functions at every point, for all models and lengths.", "anchors": ["src/kalmankit/standard.py:KalmanFilter.filter", "src/kalmankit/standard.py:KalmanFilter.smooth", "README.md"]}
{"id": "C97", "title": "Overridden predict and update are what filter and smooth run", "statement": "A subclass of KalmanFilter that overrides predict and/or update (with any code and any extra attributes) needs to override nothing else: row j of what the inherited filter returns is what calling the overridden methods by hand for steps 0..j gives, the object ends as these calls leave it, and filter raises exactly when they do; the inherited smooth calls the overridden filter and predict. Overriding nothing changes nothing. Overrides that only transform Q, H, R or the readings before calling the inherited methods act as a plain KalmanFilter built with the transformed arrays. An update that returns its arguments when the reading is all NaN handles missing observations: the answers are those of a filter whose sensors are blind (H = 0) at these steps, and no gain is logged there. An update that computes the covariance by Joseph's formula answers as KalmanFilter in exact arithmetic.", "quantifier": "all subclasses, all states of their objects, all arguments; the last two over exact arithmetic, all linear models, all patterns of missing readings", "why_tests_cant": "All programs a user may write as overrides, all data and lengths.", "anchors": ["src/kalmankit/standard.py:KalmanFilter.filter", "src/kalmankit/standard.py:KalmanFilter.smooth", "src/kalmankit/standard.py:KalmanFilter.predict", "src/kalmankit/standard.py:KalmanFilter.update"]}
{"id": "C98", "title": "Exact numbers give the exact answers: the equations are really solved", "statement": "np.linalg.solve is modelled as the program it is: elimination with partial pivoting and back substitution. On exact numbers it returns the one solution of A X = B for every invertible A of any size, however the rows have to be exchanged, and refuses exactly the singular ones. A KalmanFilter or ExtendedKalmanFilter that runs this program and sums products left to right on the elements of an ordered field answers any history of calls with the same arrays, the same exceptions and the same gains as the textbook instance that the other theorems are about; in binary64 it is this same program that is run on doubles.", "quantifier": "all sizes and matrices; all constructor arguments and all histories of calls", "why_tests_cant": "All systems of equations of every size; the pivoting order depends on the data.", "anchors": ["src/kalmankit/standard.py:KalmanFilter.update", "src/kalmankit/standard.py:KalmanFilter.smooth", "src/kalmankit/extended.py:ExtendedKalmanFilter.update", "src/kalmankit/extended.py:ExtendedKalmanFilter.smooth"]}
{"id": "C99", "title": "The sign of a zero never matters", "statement": "In binary64, arguments that differ at most in the signs of zeros (0.0 or -0.0) give the same exceptions and results and gains that differ at most in the signs of zeros, over any history of calls; so a -0.0 in a reading, a model matrix or a control input can never turn a number into another, into an infinity or into NaN, nor change a pivot. The same holds for ExtendedKalmanFilter when its callables have this property.", "quantifier": "all constructor arguments and histories of calls, NaN and infinities included, all platforms' int64 casts", "why_tests_cant": "All positions and combinations of zeros; the division in the solver could turn a sign into an infinity.", "anchors": ["src/kalmankit/standard.py:KalmanFilter", "src/kalmankit/extended.py:ExtendedKalmanFilter"]}
{"id": "C100", "title": "Subclasses of ExtendedKalmanFilter, and functions with effects", "statement": "A subclass of ExtendedKalmanFilter that overrides predict and/or update, with user functions that may have effects (counters, logs, random numbers, other attributes), needs to override nothing else: row j of what the inherited filter returns is what calling predict and update by hand for steps 0..j gives, the program is left in the state these calls leave, and filter raises exactly when they do; the inherited smooth calls the overridden filter and then, from the last row but one to the first, predict and jacobian_A at the filtered state of the row and the control of the next. Overriding nothing, with pure functions, changes nothing.", "quantifier": "all subclasses, all functions with any effects that do not write into existing arrays, all states, all arguments", "why_tests_cant": "All programs a user may write as overrides or functions, all data and lengths.", "anchors": ["src/kalmankit/extended.py:ExtendedKalmanFilter.filter", "src/kalmankit/extended.py:ExtendedKalmanFilter.smooth", "src/kalmankit/extended.py:ExtendedKalmanFilter.predict", "src/kalmankit/extended.py:ExtendedKalmanFilter.update"]}
{"id": "C101", "title": "When and with what the user's functions are called", "statement": "filter calls, for k = 0, 1, 2, ..., jacobian_A and f at the estimate before step k and the control of step k, then jacobian_H and h at the predicted state, each exactly once and in this order, and nothing else. smooth adds, for each row from the last but one down to the first, jacobian_A, f and jacobian_A again, at the filtered state of the row and the control of the next. Hence functions that count their calls can look up the matrices of a time-varying system: filter then returns what KalmanFilter returns for these matrices, exceptions and gains included.", "quantifier": "all functions, all objects, all lengths; all time-varying linear systems", "why_tests_cant": "The sequence of calls for every length and data; all models.", "anchors": ["src/kalmankit/extended.py:ExtendedKalmanFilter.filter", "src/kalmankit/extended.py:ExtendedKalmanFilter.smooth", "src/kalmankit/extended.py:ExtendedKalmanFilter.predict", "src/kalmankit/extended.py:ExtendedKalmanFilter.update"]}
{"id": "C102", "title": "One state, one sensor: estimates follow the readings", "statement": "With one state and one sensor and no negative factor in the model (A, H, Q, R, Pk not negative), raising readings, inputs or the initial guess never lowers any filtered estimate, and with the same inputs never lowers any smoothed estimate. If moreover the level is observed directly (A = H = 1), every filtered and every smoothed estimate lies between the smallest and the largest of the initial guess and the readings (no input), and changing these by something between lo and hi changes every estimate by something between lo and hi. (Exact arithmetic.)", "quantifier": "all such systems, all data, all lengths", "why_tests_cant": "All real data, all lengths, all variances.", "anchors": ["src/kalmankit/standard.py:KalmanFilter.filter", "src/kalmankit/standard.py:KalmanFilter.smooth", "src/kalmankit/standard.py:KalmanFilter.update"]}
{"id": "C103", "title": "Inverted signs in, inverted signs out, bit for bit", "statement": "In binary64: inverting the sign of all states, all observations and/or all control inputs (and of H if only one of states and observations is inverted, of B if only one of states and inputs is) gives the same covariances and the same exceptions, and states and gains that are the old ones with the corresponding sign inverted, bit for bit except for the signs of zeros: rounding, overflow, NaN and the choice of pivots do not prefer a sign. The same holds for ExtendedKalmanFilter when its four functions turn with the data.", "quantifier": "all constructor arguments and all histories of calls, NaN and infinities included, all eight choices of signs", "why_tests_cant": "All doubles, all roundings and all pivot choices, in any history of calls.", "anchors": ["src/kalmankit/standard.py:KalmanFilter", "src/kalmankit/extended.py:ExtendedKalmanFilter"]}
{"id": "C104", "title": "A release carries the version it was made from", "statement": "sdist and build write into the distribution a _version.py that holds, as JSON, the dictionary get_versions returned. For every dictionary (texts of any Unicode characters): setup.py run beside this file reads back the same dictionary, whatever git, the directory name or the environment say, and packing again gives the same file byte for byte, any number of times. Importing the installed file gives the same dictionary when the texts hold no quotation mark, backslash, control character, character beyond U+FFFF and no three apostrophes in a row; these limits are real: a tag with a quotation mark gives a package that builds but cannot be imported.", "quantifier": "all version dictionaries, all trees and worlds around the file, any number of repackings", "why_tests_cant": "All texts a tag may hold, all environments in which a release is rebuilt.", "anchors": ["versioneer.py:versions_from_file", "versioneer.py:write_to_version_file", "versioneer.py:get_versions", "versioneer.py:get_cmdclass", "setup.py:setup"]}
{"id": "C105", "title": "setup.py, the source tree and the installed package agree on the version", "statement": "For the checked-in _version.py (with its keywords substituted by git archive or not): the version setup.py puts in the metadata, kalmankit.__version__ imported in place, and kalmankit.__version__ of the installed package are the same text, and the whole dictionaries of get_versions are the same, for every repository, tag and directory name; setup.py raises exactly when the import in place does.", "quantifier": "all worlds (git outputs, directory names, platforms), all keyword substitutions", "why_tests_cant": "All repositories and environments; two copies of the code that could drift apart.", "anchors": ["versioneer.py:get_versions", "versioneer.py:get_version", "setup.py:setup", "src/kalmankit/_version.py:get_versions", "src/kalmankit/__init__.py:__version__"]}
{"id": "C106", "title": "Estimating a constant: only two sums matter", "statement": "When the state does not change (A = 1, Q = 0, no input) the estimate after some readings depends on them only through the sums of H' R^-1 H and of H' R^-1 z: two runs from the same x0 and Pk with the same sums have the same state and covariance in the corresponding rows, also with different numbers of steps and sensors. Hence the order of the readings does not matter for the last row, and readings of the same kind may be replaced by their mean with R divided by their number. Every smoothed row is the last filtered row. (Exact arithmetic.)", "quantifier": "all such systems, any initial covariance, all data, all lengths, all orders", "why_tests_cant": "All real data, all permutations and lengths.", "anchors": ["src/kalmankit/standard.py:KalmanFilter.filter", "src/kalmankit/standard.py:KalmanFilter.smooth", "src/kalmankit/standard.py:KalmanFilter.update"]}
{"id": "C107", "title": "Constant models converge to the steady state", "statement": "With constant A, H, Q, R that have a steady state W (one prediction and one correction give W back) with A W A' <= b Q: started at most the factor 1 + v above W, the excess after k+1 steps is at most v (b/(1+b))^(k+1); started within the factor 1 + v on both sides, what is missing is at most v (c/(1+c))^(k+1) with c = (1+v) b; after v c / d steps every covariance filter returns is within the factor 1 + d of W. (Exact arithmetic; semidefinite order.)", "quantifier": "all constant models with a steady state, all initial covariances, all data, all lengths", "why_tests_cant": "Geometric rates for every number of steps and every model.", "anchors": ["src/kalmankit/standard.py:KalmanFilter.filter", "src/kalmankit/standard.py:KalmanFilter.predict", "src/kalmankit/standard.py:KalmanFilter.update"]}
{"id": "C108", "title": "Powers of two as units: only exponents change", "statement": "States in units 2^-a, observations in units 2^-b, inputs in units 2^-c instead of 1: rescale all numbers accordingly (A by 1, B by 2^(a-c), Pk and Q by 2^(2a), H by 2^(b-a), R by 2^(2b)). In 53-bit binary arithmetic without limits on exponents every call of every history then gives the same exception, or exactly 2^a times the states, 2^(2a) times the covariances and 2^(a-b) times the gains; for ExtendedKalmanFilter too, with functions that go with the units. In double precision (KalmanFilter): every number of every outcome and gain that in both sessions is computed without overflow, without products or quotients that may underflow (and with no singular or dropped pivot), is finite and exactly rescaled, and the exceptions are the same.", "quantifier": "all integers a, b, c, all objects, all histories of calls, all sizes", "why_tests_cant": "All floating-point inputs, all powers of two, all histories; rounding happens at every operation.", "anchors": ["src/kalmankit/standard.py:KalmanFilter.filter", "src/kalmankit/standard.py:KalmanFilter.smooth", "src/kalmankit/standard.py:KalmanFilter.predict", "src/kalmankit/standard.py:KalmanFilter.update", "src/kalmankit/extended.py:ExtendedKalmanFilter.filter", "src/kalmankit/extended.py:ExtendedKalmanFilter.smooth"]}
{"id": "C109", "title": "A run can carry a proof of its own accuracy", "statement": "Run the filter on doubles that carry error bounds (each operation adds the exact rounding error of its own result and propagates the bounds of its operands; a division whose divisor may be zero, an overflow or NaN gives up the bound; a system is solved only if every coefficient and solution keeps a bound). Inputs may carry bounds too (0.1 and the nearest double). If no call of a session of such numbers raises LinAlgError, then for every entry of every outcome and of kalman_gains that has a bound: the same session in double precision returns exactly that double, and in exact arithmetic (on the exact inputs) a number within the bound of it; S is then invertible in exact arithmetic wherever it was inverted; and the exceptions are the same. For ExtendedKalmanFilter too, with functions that keep the bounds right. Numbers written as fractions get a correct initial bound; every finite double is a whole number of units of 2^-1074.", "quantifier": "all units 2^-k, all objects, all inputs within their bounds, all histories of calls, all sizes", "why_tests_cant": "It bounds the distance to exact arithmetic, over all real inputs within the bounds, for every history; a test cannot compute the exact run.", "anchors": ["src/kalmankit/standard.py:KalmanFilter.filter", "src/kalmankit/standard.py:KalmanFilter.smooth", "src/kalmankit/standard.py:KalmanFilter.predict", "src/kalmankit/standard.py:KalmanFilter.update", "src/kalmankit/extended.py:ExtendedKalmanFilter.filter", "src/kalmankit/extended.py:ExtendedKalmanFilter.smooth"]}
{"id": "C110", "title": "The example programs compute what they are written for", "statement": "The five programs of the README's Usage section, for a series of any length and content and any positive noise variances, all return without an exception. Market beta: states[k] is the end of the one drifting pair (slope, intercept) that minimises the squared start + squared moves / q + squared residuals / r of the regression of y on x. Moving average: every gain is (V+q)/(V+q+r), in (0,1), and states[k] is a weighted average of the initial mean and the observations with positive weights that sum to 1. Pendulum: each row obeys the textbook extended equations for that pendulum, S > 0, every returned covariance is positive definite; over the real numbers the programs' Jacobians are the derivatives of their f and h. Pendulum smoothing: the filter part is that program's filter, smoothing continues on the same object, obeys the Rauch-Tung-Striebel equations, ends in the last filtered row and no variance is above the filtered one. Constant velocity: the same for the filter and the smoother, with a singular process covariance (its rank is one) and a first step that does not move.", "quantifier": "all data series, all lengths, all positive variances, all time steps (positive for the pendulum), every ordered field; all initial angles", "why_tests_cant": "It ranges over all observation series and lengths; a test sees a few random series and can check a minimum over all coefficient paths at no point.", "anchors": ["src/kalmankit/standard.py:KalmanFilter.filter", "src/kalmankit/standard.py:KalmanFilter.smooth", "src/kalmankit/extended.py:ExtendedKalmanFilter.filter", "src/kalmankit/extended.py:ExtendedKalmanFilter.smooth", "examples/market_beta.py:main", "examples/moving_average.py:main", "examples/pendulum.py:main", "examples/pendulum_smoothing.py:main", "examples/constant_velocity_smoothing.py:main"]}
{"id": "C111", "title": "With process noise of any rank the estimates explain the data with the least disturbance", "statement": "Write the initial covariance and each Q as G D G^T with D positive definite; every covariance, singular or not, can be written so. A history is then a starting disturbance a (x = x0 + G0 a) and one disturbance u_k per step (x = A x + B u + G_k u_k); its effort is a' D0^-1 a + the sum of u_k' D_k^-1 u_k + the sum of the squared misfits of the observations weighted by R^-1. filter returns, and states[k] is the last state of the history of least effort for the first k+1 observations; smooth's rows are, all together, the states of the one history of least effort for all observations. The minimising disturbances are unique. The extended filter and smoother do the same for the linearised model they build along their own run. With no process noise (Q = 0, P0 positive definite) the filter is recursive least squares: states[k] is where the one best start for the first k+1 observations has come, and smooth's rows are the one undisturbed path of the best start for all of them. So examples/constant_velocity_smoothing.py returns the smoothest track: the positions and velocities of the track minimising (x0^2 + v0^2)/p + the sum of acc_k^2/v + the sum of (z_k - position_k)^2/r.", "quantifier": "all dimensions, lengths, data and inputs; all positive semidefinite P0 and Q_k of any rank (including 0), all positive definite R_k, every ordered field", "why_tests_cant": "It compares the output with every other history of states; the least-squares theorem for invertible covariances says nothing when Q is singular, which is the usual case of a model driven by fewer noises than states.", "anchors": ["src/kalmankit/standard.py:KalmanFilter.filter", "src/kalmankit/standard.py:KalmanFilter.smooth", "src/kalmankit/extended.py:ExtendedKalmanFilter.filter", "src/kalmankit/extended.py:ExtendedKalmanFilter.smooth", "examples/constant_velocity_smoothing.py:main"]}
