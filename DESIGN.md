# A Rocq (Coq 8.16) model of kalmankit

## What is modelled

| code in /repo | model | remarks |
|---|---|---|
| numpy calls made by the library | `Np.v` | arrays of any rank, int64/float64, broadcasting, dtype promotion, int64 wrap-around, exceptions; float arithmetic is a parameter `num` |
| `src/kalmankit/utils.py` (both functions) | `Kf.v` | complete |
| `src/kalmankit/standard.py` (`__init__`, `predict`, `update`, `filter`, `smooth`) | `Kf.v` | complete; the object state is the record `kf`, histories of calls are `kf_calls` |
| `src/kalmankit/extended.py` (same methods) | `Ekf.v` | complete; user callables are functions of the values of their arguments that may raise |
| the same two classes, arrays as objects in memory | `Mem.v`, `MemKf.v` | a heap of buffers and references (views); which operations allocate, which return views; callables may return their argument or a stored array, and may write |
| filter and smooth in a subclass that overrides predict, update | `Sub.v`, `ESub.v` | any methods, any object state; for ExtendedKalmanFilter also user functions with effects |
| the same methods, step by step, on an object shared by threads | `Conc.v` | reads of attributes and appends to kalman_gains are the steps; everything else is local to a call |
| IEEE-754 doubles | `Binary64.v`, `Ieee.v` | executable instance of `num` (SpecFloat), related to Flocq |
| `src/kalmankit/_version.py`, `__version__` in `__init__.py` | `Text.v`, `Ver.v`, `VerKw.v` | complete but for the exclusions below; the file system and the programs that can be started are a parameter (`world`) |
| `versioneer.py`, `setup.py` (version in the metadata, generated `_version.py` of sdist/build) | `Release.v` (and `Ver.v` for the functions it shares with `_version.py`) | not modelled: `get_root`, reading `pyproject.toml` (its constants are used), `do_setup`, `build_ext`, `py2exe`, messages; JSON numbers, lists and nesting; octal, `\x`, `\U`, `\N` escapes (not reached: `json.dumps` writes none) |
| `np.linalg.solve`, `@` as programs over scalars | `Lu.v` | elimination with partial pivoting, left-to-right sums; the instance `Binary64` is this program on doubles |
| `tests/` | `ModelTests.v` | the repository's tests replayed on the model (fidelity tests) |

| `examples/*.py`, the five `main()` | `Examples.v` | the arrays built, the constructor, filter and smooth calls and what is read off the results, for any data and constants; not modelled: drawing random data, plotting |

Every definition of the model cites the lines it models.

Not modelled:
- dtypes other than int64/float64, Python sequences that are not arrays, memory
  layout other than "which array owns which buffer", warnings, plotting and random data in the examples;
- LAPACK's blocking and BLAS's order of summation in doubles: in the structural
  theorems `np.linalg.solve` and `@` are arbitrary functions of the values, in the exact
  instance the inverse of the matrix (`LinAlgError` if singular), in `Lu`/`Binary64`
  unblocked elimination (C98 relates the last two);
- in `_version.py`: messages printed when verbose is set,
  UnicodeDecodeError, `\d` and `int()` on non-ASCII
  digits, start-up options on Windows.

## Layers

1. `Np`, `Kf`, `Ekf`: the model, parametric in the arithmetic `num`.
2. Structural theorems: for **every** `num`, hence for IEEE doubles with
   whatever BLAS/LAPACK does (as long as it is a deterministic function of the
   operand values), NaN and infinities included.
3. `Exact`: the instance over an arbitrary ordered field `F : realFieldType`
   extended with NaN. `Textbook`, `RunSpec`: the textbook filter on mathcomp
   matrices. `Refine`, `Refine2`, `EkfRun`: the model run on well-shaped arrays
   returns the arrays of the textbook recursion. The mathematical theorems are
   proved about the textbook recursion and carried to the API by the refinement.
4. Doubles: the scalar filter by Flocq (`Scalar64`, `Run64`); counterexamples by
   evaluation of the executable instance (`Cases`).
5. Memory: `MemSim*` prove that the heap model computes what the value model
   computes (a simulation), whatever shares memory.
6. Version: no arithmetic; `TextLemmas`, `VerLemmas`.

Specifications, separate from the model and the proofs: `ApiSpec` (calls by
hand, histories), `RunSpec` (what a run is), `Textbook`, `LeastSq`, `Prob`
(objective functions, covariances of formal noises), `MemSpec` (sharing,
separate memories), `VerSpec` (what git prints), `EndSpec` (the answers of C66,
C67), `IntSpec` (conversion, bounds of C68), `RobustSpec` (disturbances of
C80-C84). Concrete cases that meet the
hypotheses: `Cases`, `ExCases`, `ModelTests`, `VerCases` and the `Example`s
beside the theorems.

## Plan per property

C01-C08, C15, C16, C17, C19, C45: structural, induction over the loop of `filter`
and of `smooth`, for every `num`.
C09, C13, C14: case analysis on the model of utils.py/predict, every `num`.
C10: positive part structural; the int64 failure by a computed witness
(`_refuted`). C11, C12: the documented behaviour is false; the theorems state
what the code does for all inputs.
C18, C21: shape reasoning, every `num`.
C20: every `num` with NaN-propagation laws; the laws are proved of binary64.
C22, C23: refinement.
C24-C27, C30, C33, C34, C37, C38, C41, C42: matrix algebra on the textbook step,
lifted by induction and refinement.
C28: dynamic programming: the value function of the past is the quadratic form
of the filtered mean and covariance.
C29, C46: noises as formal vectors; covariance of a linear form is L S L'.
C31, C32, C35, C36, C39, C40: induction over the textbook recursion.
C43: monotonicity of rounding (Flocq). C44: witness by evaluation.
C47-C52: the extended filter: the run is described step by step through the
callables (EkfRun), the linearisation about the visited states is a standard
filter (C48, C51), then the algebra of C24-C27 applies.
C53-C58: simulation between the heap model and the value model, with an
invariant on which buffers a run may reach; C58 a witness by evaluation.
C59-C65: case analysis over what git answers; uniqueness of the reading of
TAG-N-gHEX; order on texts; injectivity of decimal numerals.
C66, C67: the refinement theorems composed with the constructors: an equation
between a whole call on arrays built from matrices (or functions) and the arrays
of the answer written in EndSpec.
C68: a relation between a run on int64 arrays and the run on their conversions,
with a bound c d^i M^j on the integers, preserved by every numpy operation; the
law "exact on integers up to L" is proved of exact arithmetic and, with Flocq, of
doubles.
C69: structural, both loops, every `num`. C70-C73: algebra of the textbook
recursion (Loewner order, block matrices, monotone Riccati map), lifted by the
refinement.
C74, C75, C79: moments of innovations and forecasts by the orthogonality of
errors to past observations (as C29). C76, C77: induction over the extended
recursion of EndSpec, composed with C67. C78: refinement of one call.
C80-C83: the estimation errors are linear functions of the disturbances; with
white noises of the model's covariances (which exist for every semidefinite
model, C84: a semidefinite matrix is a sum of weighted squares) the covariance of
that function is the computed one (C29). Cauchy-Schwarz gives C80, monotonicity
of the covariance C81, its mean C82; C83 is optimality (C29, C46) of the filter
that sees more, applied to the estimate of the one that sees less.
C85: the difference of two runs is a linear function of the difference of the
data, the same one as in C80. C86: C80 applied to the linear system an extended
run describes (C48).
C87, C88: `Conc` gives the methods as programs of small steps (attribute reads and
appends, in the order of the source); `ConcLemmas` proves that they compute what
the value model computes, and by an invariant over the schedule that threads
cannot disturb each other because no step reads kalman_gains (C87) or, after the
first gain, anything that is not in a short list (C88).

C89: the bound (c'd)^2 <= v c'Pc on the difference d of two runs is carried through
predict (which keeps only the share r of the old uncertainty) and update (Joseph
form) by induction on the steps (`Forget`).

C90, C91: the extended filter is the filter of its linearisation (`EkfRun`), so C28,
C27, C70 and C71 are carried over to it; the cost is written out with the callables.

C92: `git_get_keywords` and its regular expression on texts; the expression is
proved to find the leftmost, longest match, then lines are folded.

C93, C94: each operation whose result is finite is the rounded exact one (Flocq), so
one step is compared with one exact step from the same numbers (`Round64`); the
exact update is 1-Lipschitz in the variance, so the errors add up along the run
(`Err64`).

C95: P' <= (1+v) P is carried through predict (the share r of the old uncertainty)
and update (monotonicity and scaling, C37 and C34) to 1 + v r (`Forget2`).

C96: Coq's reals are made a field of mathcomp (`RReal`), normal densities defined
with exp, sqrt and PI; prior times likelihood is posterior times evidence (completing
the square and a determinant identity), and the two recursions follow by induction
(`Gauss`). Not modelled: the integral over R^n itself; the theorems hold for every
functional with the two properties of it that are used, and one is constructed.

C97: filter and smooth over an arbitrary pair of methods with an arbitrary state
(`Sub`); the loop by induction as for KalmanFilter. Missing readings: an update with
H = 0 changes nothing, so both runs hold the same matrices (`SubExact`, `Props31`).
Not modelled: overrides that write into arrays they were given.

C98: elimination is written once for any scalar operations (`Lu`); correctness over a
field by induction on the rows (equations are kept, a zero column gives a nonzero
kernel vector). `Param`: a relation between the numbers of two arithmetics that their
operations respect is respected by every method, by induction over the loops; applied
to equality between this program and the textbook instance (`Props32`).
C99: the same theorem, applied to doubles equal up to the sign of zeros (`Zeros`): the
only division has a pivot as divisor, and pivots are not zero.

C100: as C97, for ExtendedKalmanFilter (`ESub`, `Props33`). C101: the instance whose
state is a list of calls: what is noted is computed by induction over the steps; the
instance whose state is four counters simulates the standard filter.

C102: for one state and one sensor a correction is a weighted mean of prediction and
reading, a smoothing step one of filtered and later smoothed estimate, with weights that
are not negative and depend on covariances only; induction forwards and backwards
(`Scalar`, `Props34`).

C103: every array carries a grade (states a, observations b, inputs c; covariances a+a,
H b-a, gains a-b ...) and a relation per grade between the numbers of two arithmetics;
if operations respect it grade by grade, every method does (`Graded`, `GradedOps`,
induction over the loops and the elimination steps). Instance: inverted signs at odd
grades (`Mirror`), from the symmetry of rounding to nearest even.

C104, C105: `Release.v` models the release path of `versioneer.py`: `json.dumps` (indent,
sorted keys) and a JSON reader, the two regular expressions of `versions_from_file` (first
opening, last closing: `C104_regular_expression` states what the search finds without the
functions), the file template, Python's reading of a `'''` literal, and the order in
`get_versions`. Proof: the reader undoes the writer, by induction over texts and items
(`ReleaseLemmas`-`ReleaseLemmas4`); escapes are the identity on the characters `carried` allows.
C105 by unfolding both `get_versions` over C92 (reading the file is importing it).

C106: with A = 1, Q = 0 one correction P' satisfies P' (1 + H'R^-1H P) = P; by induction
P_k (1 + M_k P_0) = P_0 and x_k = x_0 + P_k (b_k - M_k x_0) with the two sums M_k, b_k,
without inverting P_0 (`Sums`, `Props37`); sums are invariant under permutations.

C107: the one-step lemma of C95 with one of the two covariances equal to W, by induction
from above and from below; Bernoulli's inequality for the number of steps (`Steady`,
`Props38`).

C108: a third and a fourth arithmetic for the same model: `Wide`, 53-bit numbers whose
exponents have no limits (reals rounded with Flocq's FLX format; one value for NaN and the
infinities), and `Checked`, doubles that drop what overflows or may have underflowed and
all that is computed from it. In `Wide` rounding commutes with powers of two, so the graded
relational theorem (`Graded`) applies (`WideThms`, `Props39`). A lax version of the relational
theorem (`LaxParam`, `LaxOps`: the first arithmetic may lose numbers, and nothing is claimed
of a solve with a lost pivot) relates a `Checked` run to the run in doubles and to the run
in `Wide`; together they give the claim for doubles (`CheckedThms`, `Props40`).

C109: a fifth arithmetic for the same model: `Track`, doubles with an optional error bound, an
integer in units of 2^-k. TrackThms.v proves the bound of each operation (in any ordered field);
TrackRel.v relates a tracked run to the run in doubles (where a bound is left, the double is that
one) and to the exact run (the exact elimination follows the tracked pivots: `follow`), through
the parametricity theorem LaxParam.v of C108. Props41.v states the result against definitions of
its own (`within`, `certified`, `dvalue`); the case runs a filter and a smoother on decimals, every
entry certified to 2^-47. No axiom: the reals are any ordered field.

C110: the five example programs are functions of the data series and the constants (Examples.v),
built from the constructor, filter and smooth of the model; the Python functions of the pendulum
are callables on arrays that compute swing, seen and their Jacobians, with sine and cosine any two
functions (the real ones in Props44). The data rows of one-sensor programs are bare numbers (shape
()), and h of the pendulum returns one: `good_obs` of EkfRun.v admits both forms, so every theorem
about exact runs of the extended filter does. Then each program is an instance of the theorems of
C22, C28, C36, C47, C49, C50 with the closed forms worked out; the covariance of the constant
velocity program is singular, so its predicted covariances are definite because A is invertible.

C111: C28's least-squares theorem asks P0 and every Q to be invertible. LeastSqG.v removes that: with P0 = G0 D0 G0^T and
Q = G D G^T (C111_every_covariance: from the factorisation of a psd matrix, every psd matrix has this form) a history is
a start a and disturbances u_k, and its states follow from them (path), so nothing has to be divided by Q. The best a and u are
written with the adjoint variable (innovations weighted by S^-1 pulled back through the closed loop); the effort of any history
is the least effort plus the effort of the difference (bestE, effortE), which is a sum of positive definite forms. fit_best and
smooth_xbest identify the last state with the filtered row and all states with the smoothed rows. filter needs no predicted
covariance to be invertible; smooth must have returned. C111_constant_velocity is the
concrete instance: the program of examples/constant_velocity_smoothing.py, whose Q has rank one (rank 0 in the first step),
for all data; C110 proves that it returns.
C111_any_rank asks only for covariances (the factorisations follow). C111_no_noise is Q = 0: the path of a start is the model's own,
and the disturbances drop out; C111_no_noise_case meets its hypotheses with a moving position.

No property was found inexpressible so far.

## Testing the theorems

`tools/seed.py` edits the model in a scratch copy the way a bug would, rebuilds,
and lists the property theorems that lose their proof; the results are in
`seeded/LOG.jsonl`.

## Trusted base

- Coq's kernel (8.16.1).
- The reading of the Python source, of numpy's documentation and of git's
  behaviour behind `Np.v`, `Kf.v`, `Ekf.v`, `Mem.v`, `MemKf.v`, `Text.v`, `Ver.v`,
  `Release.v`.
- Print Assumptions, theorem by theorem, is in `ASSUMPTIONS.md` (generated by
  `tools/assumptions.py`). All theorems are closed under the global context
  except those of C43, C93, C94, C108 and the instance of C68 for doubles, which use Coq's real numbers through Flocq and list the
  standard library's `ClassicalDedekindReals.sig_forall_dec`,
  `ClassicalDedekindReals.sig_not_dec`, `Classical_Prop.classic` and
  `FunctionalExtensionality.functional_extensionality_dep`, and those of C96 and C110_jacobians, which
  use Coq's real numbers and a choice operator on them and list the same and
  `ClassicalEpsilon.constructive_indefinite_description`. A checker working on
  compiled files (coqchk) also lists constants that mathcomp, ssreflect and the
  standard library's reals seal in modules with opaque signatures
  (`finset.Imset.*`, `finset.SetDef.*`, `perm.PermDef.*`, `bigop.BigOp.*`,
  `finfun.FinfunDef.*`, `fintype.{SubsetDef,CardDef,Finite.EnumDef}.*`,
  `tuple.FinTuple.*`, `generic_quotient.{Repr,Pi,MPi}.*`, `ssrunder.Under_rel.*`,
  `Rdefinitions.{RbaseSymbolsImpl,RinvImpl}.*`): those modules define them.
- No axiom of our own, no Admitted, no kernel check switched off, no plugin.
