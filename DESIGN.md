# Design of the formal model of mssm

This file says, for each property in `properties.jsonl`, what is modelled and how it
is proved. It is written before the proofs and is updated when a proof attempt
changes the plan. Findings (places where the code does not have a property) are
collected at the end.

## 1. Shape of the development

All Coq files are in `rocq/theories` (logical name `Verif`). Each area of the code
has up to four files:

* `<Area>Model.v`: total functions that follow the python / C++ code function by
  function. No proofs. Each definition cites the file and lines it models and lists
  its simplifications.
* `<Area>Spec.v`: the small independent specification (what the user relies on),
  written without using the model.
* `<Area>Proofs.v`: lemmas.
* `<Area>Props.v`: the theorems named in `MANIFEST.json`, each followed by
  `Print Assumptions` and by an `Example` showing a concrete non-trivial case that
  meets its hypotheses.

Areas: `Real` (reals as a mathcomp field, determinants), `Reml` (restricted likelihood), `Repar` (stabilising transform), `Pen` (penalties), `Lam` (smoothing parameter steps), `Step` (coefficient step
control and line searches), `Ar` (AR(1)), `Fam` (links and families),
`Gls` (families with several parameters), `Mvn` (multivariate Gaussian), `Haz`
(proportional hazards), `Mat` (matrix identities), `Dch`
(derivatives of Cholesky factors), `Hsmm` (hidden semi-Markov
models), `Hgr` (their gradients), `Resid` and `Dur` (their residuals), `Root` (the root of the total penalty), `Qr` (the coefficient update), `Work` (working data, scale, offsets), `Loop` (the fitting loop of additive models), `Upd` (coefficients of models with several parameters), `Glam` (their smoothing parameters), `Hess` (covariance of log smoothing parameters), `Vcor` (corrected covariance matrices and degrees of freedom), `Sim` (simulated series), `Qefs` (quasi-Newton Hessians), `Disc` and `Block` (approximate derivatives of factor smooths), `Nest` (nested smooth terms), `Gfit` (preparing and resuming fits of general models), `Grid` (candidates for smoothing parameters),
`Samp` (sampled update vectors, restarts), `Srone` (rank one updates), `Cond` (condition numbers), `Ident` (coefficients that cannot be identified), `Gupd` (coefficients of general models), `Split` (series and signals of HSMMs), `Term` (terms in several formulas, shared ids, penalties of smooths), `Hsamp` (update vectors drawn again, results of general fits), `Res` (residuals and simulated observations of models and families), `Tab` (parametric terms, wrapped families, data of log-likelihoods), `Pref` (reference distributions of smooth terms), `Dav` (Davies' routine in C++), `Fin` (diagonal penalties, attributes set at the end of fits), `Dav2` (searches and integration in Davies' routine), `Dlog` (its logarithms), `Dtr` and `Dtr2` (its bound of the truncation error), `Prm` (column orders of structured quasi-Newton storage), `Bud` (which columns are differenced), `Nuts` (the MCMC sampler), `Joint` (the density it samples), `Vague` (its vague prior), `Store` and `Conv` (stored samples, stopping), `Form` (formulas and terms), `Tile` (positions of penalties), `Asm` (assembled derivatives,
split and dropped coefficients), `Par` (block-wise computation), `File`
(cache), `Refit` (histories of fits), `Pred` (predictions and intervals), `Cmp` (comparison, priors),
`Pval` (p-values of smooths), `Spl` (splines and convolution).

### Number systems

* Bookkeeping code (indices, lists of penalties, term positions, state machines) is
  modelled over `nat`, `Z`, `bool`, lists and records, so it runs inside Coq and
  counterexamples are found by `vm_compute`.
* Code whose correctness is algebraic is modelled over an arbitrary ring/field
  (section variables that become ordinary parameters) or over mathcomp matrices over
  an arbitrary field; counterexamples are evaluated over `Q` or `Z`.
* Code whose correctness is analytic (links, likelihoods) is modelled over the
  standard library's `R`, with derivatives in the sense of `Coquelicot.is_derive`.
* Floating point is *not* modelled: a python float is an exact number. Where the code
  tests for `inf`/`nan`, evaluations return an option or a three-way result, so these
  outcomes are part of the model.

### Oracles

Code that calls numeric libraries (a Cholesky factorisation, an eigenvalue routine,
a user-supplied likelihood) is modelled with the result as a parameter, plus, as a
named hypothesis of the theorem, the equation that the library documents for its
result (for instance `P A P^T = L L^T`). The loops around them are modelled
completely.

### Exceptions

Python exceptions are values: `option` / a sum type. Out-of-range indexing is an
explicit error, never a default value that could hide a bug.

## 2. Trusted base

* The Coq 8.16.1 kernel (and `coqchk`).
* The axioms printed by `Print Assumptions` under each theorem. These are: none for
  the bookkeeping and mathcomp parts ("Closed under the global context"); for the
  parts over `R` the standard library's `ClassicalDedekindReals.sig_not_dec`,
  `ClassicalDedekindReals.sig_forall_dec`,
  `FunctionalExtensionality.functional_extensionality_dep` and, where Coquelicot is
  used, `Classical_Prop.classic` and (for mathcomp's choice structure on the reals)
  `ClassicalEpsilon.constructive_indefinite_description`. No axiom is added by this development.
* The reading of the code that the model's comments record. Nothing ties the model
  to the python text mechanically: the source cannot be executed here.

Not modelled at all: floating point rounding, numpy/scipy/Eigen internals, plotting,
printing, the MCMC samplers in C++ (`mcmc.cpp`), Davies' algorithm (`davies.cpp`),
pandas I/O.

## 3. Plan per property

| id | model | proof |
|----|-------|-------|
| C01 | `Pen`: penalties as records (id, start, lambda, matrix, shared list); `create_id_dict`, `combine_shared_penalties`, `split_shared_penalties` | refutation by evaluation for an id used once while another is shared; positive theorem by induction over the list under "an id is used never or at least twice" |
| C02 | `Pen`: triplet embedding as list of (value,row,col) | entry-wise characterisation of the embedded matrix, induction over repetitions |
| C03 | `Pen`: difference matrix by repeated differencing of the identity, as in `np.diff` | induction on m; null space = polynomials by discrete integration |
| C04 | `Pen`: Kronecker products in the order of `TP_pen` / row-wise Kronecker of `TP_basis_calc` | index arithmetic, induction over marginals |
| C05 | `Pen`: the running `cIndexPinv` against start indices | refutation with a gap; theorem when groups tile |
| C06 | `Pen`: grouping loop | induction over the list |
| C07, C08 | `Lam` over R | case analysis + lra/nra |
| C09 | `Lam`: extension state | invariants over arbitrary histories |
| C10-C13 | `Step`: loops with fuel-free structural recursion on the counters in the code, objective as oracle | loop invariants |
| C14 | `Lam`: loop over oracle answers | invariant + measure |
| C15 | `Step`: list of pairs | invariant over histories |
| C16-C18 | `Ar` over R / a field: bidiagonal matrix as function of indices | covariance of AR(1) multiplied out; refutations by evaluation |
| C19-C23, C67 | `Fam` over R | `auto_derive`, log inequalities |
| C24 | `Gls`: the lists `deriv_transform_mu_eta` builds, for any log-likelihood and links | chain rule with Coquelicot; the running index of the mixed derivatives against all pairs |
| C25, C68 | `Gls`: multinomial family | induction over categories, `auto_derive` along a coordinate |
| C26, C27 | `Gls`: location-scale families, scaled t | `auto_derive`; expectations by linearity |
| C28, C70 | `Gls`: gradient and weights for extended families | chain rule; refutations with a log link |
| C29, C69 | `Mvn`: multivariate Gaussian | index bijection, derivative of a quadratic form, refutations |
| C30-C32, C71-C74 | `Haz`: single pass over sorted times, family object with cached table | loop invariant relating accumulator to risk-set sums; sums by event time exchanged with sums by subject; derivatives of risk sums; refutations with two subjects |
| C33, C80 | `Dch`: recurrence of `dChol`, `invdChol` | induction over rows; the factor of a differentiable family is shown differentiable |
| C78, C79 | `Dch`: `compute_Vb_corr_WPS`, `computeV2` | implicit differentiation; the derivatives are real ones (`is_derive`) |
| C34-C37, C39 | `Mat`: mathcomp matrices | matrix algebra |
| C75, C76 | `Mat`: eigenvalue correction; block matrix and its four-term form | Bessel's inequality; completing the square |
| C38, C77 | `Mat` | permutation matrices; triplets against csc entries |
| C40-C42, C83 | `Hsmm`: recursion over t, d, j | induction over time against a sum/maximum over segmentations |
| C91 | `Hgr`: the recursions of `llkgrad` and `llkFTPgrad` with their two-slot buffer, one kernel per kind of coefficient; normalised durations, multinomial rows, densities of event models | product rule for the forward variables of C40 by induction over time; scaling cancels; derivatives are real ones (`is_derive`); refutations by evaluating both sides |
| C92 | `Nuts`: `leap_frog`, vectors as functions; a trajectory is a sequence over Z | undoing the three updates in reverse; displacements along curves (Coquelicot), symmetry of Hessian and metric |
| C93 | `Nuts`: `advance_chain` as a computation that branches on uniform draws | invariant on all branches |
| C94 | `Nuts`: `build_tree`, `check_dynamic_divergence` | induction on depth for both directions: the tree over a block of Z is determined up to its proposal, whose distribution is uniform over the slice; the criterion is invariant under reversal |
| C95 | `Nuts`: the doubling loop of `advance_chain` | expectation of the next state in closed form: a sum over all aligned blocks that contain the starting point of (probability that the loop ends with this block) * (probability of the point within it); the first factor does not depend on the starting point, the second is symmetric |
| C96 | `Nuts`: dual averaging, `find_reasonable_epsilon` with fuel | invariants; induction on fuel |
| C97 | `Reml`: `REML`, determinants, `Mp`; mathcomp matrices over the reals (`RealField`, `RealMat`) | preconditioned Cholesky, Sylvester's identity, generalised determinant; witnesses |
| C98 | `Reml`: `grad_lambda`, `compute_lgdetD_bsb`, `trace_term` | Jacobi's formula (`RealDet`), envelope argument, uniqueness of the pseudo-inverse |
| C99 | `Repar`: `reparam_term`, `pass`, `loop` | invariant of the loop over the accumulated rotation; kernels of semi-definite forms; the assumed decomposition exists (`RealEigen.spectral`) |
| C100 | `Repar`: `bases`, `Xs_rp`, `coef_rp`, `S_emb_rp`, `D_J_emb_rp`, `undo_*` | the loop builds a block-diagonal matrix (invariant over the processed terms); selection matrices of the slices commute with it |
| C43 | `Hsmm`: parametrisation and the serial/parallel loops | normalisation by algebra; refutation of the closure re-binding |
| C44, C45, C48, C81 | `Form`: terms as records; triplets, counts and names as the term classes build them | the specification gives every term a list of columns (functions of the row); triplets are shown to represent that list, induction over terms; refutations by evaluation |
| C46 | `Tile`: penalty positions as `build_penalties` tracks them | induction over the terms; refutation by evaluation |
| C47, C49 | `Form`: factor coding, `itertools.combinations` | lists, pigeonhole |
| C82 and the set-up part of C39 | `Form`: constraints of all three types | summation by parts; refutation over R with an explicit QR |
| C50, C87, C88 | `Par`: `np.array_split`, processes taking up subsets in any order, the cache shared by all calls of a fit, file contents and `pd.read_csv` as parameters | cache invariant; induction over blocks and files; refutations by evaluation |
| C51 | `File`: files and directories of the working directory, `os.makedirs`, `os.removedirs`, `os.remove` | state as a lookup function, induction over the path; refutations by evaluation |
| C53 | `Pred`: `predict` and `predict_diff` with the term builders of `Form` and the coefficient split of `Asm`; normal quantile as parameter | linearity of the triplet builders in the selected terms; C44 for the columns of one term; sums for variances |
| C54 | `Refit`: attributes of a `GAMM`, `fit`, `get_llk`, `get_resid`, `get_mmat`, `compute_bias_corrected_edf`; solver and family as parameters | every history of actions; comparison with a new model fitted the same way |
| C55 | `Pred`: `adjust_CI`, `sample_post` with the normal draws as input, float division and NaN | finite maxima; refutations by evaluation |
| C89, C90 | `Pval`: the two statistics of `approx_smooth_p_values` from a given eigendecomposition, its walk over terms, the listing of `print_smooth_terms` | quadratic form in components along eigenvectors; induction over terms; refutations by evaluation |
| C56 | `Cmp`: `compare_CDL` with its option resolution; `correct_VB`, F and chi-square distributions as parameters | case analysis on signs and branches |
| C57 | `Pen`: `calculate_edf`, `calculate_term_edf` over the merged penalties; `Edf`: the traces as squares of `inv(L) D` | loop invariants over any ring for the sums; over the reals the trace of V S is bounded by the rank of S through the spectral theorem |
| C58 | `Cmp`: both uniform priors | per coordinate; equivalence with limits enclosing zero |
| C52, C61, C62 | `Asm`: the loops over pairs of parameters with running indices; `np.split`; `drop_terms_X` | triplets by position; chain rule with Coquelicot; lists; refutations by evaluation |
| C59, C84 | `Spl`: truncated powers and differences, as `bbase` computes them | the columns are shown equal to the Cox-de Boor recursion by induction over the degree; partition of unity and Marsden-type reproduction of polynomials follow |
| C60, C85, C86 | `Spl`: event spike, FFT convolution, `irf` terms, loop over series | discrete convolution algebra, lists; refutations by evaluation |
| C63 | `Pen`: the merge/split round in `calculate_edf` | refutation by evaluation; theorem for sorted lists |
| C64 | `Step`: rows with NaN means are filtered before the deviance, as in the code | refutation with the overflowing logit; guarded theorem from C10 |
| C66 | `Ar`: recovered weight and bump means | algebra; refutation at rho = -3/5 |
| C65 | `Lam`: the loop also returns the parameters of its last refit | refutation with a concrete accelerated step; guarded theorem by loop invariant |
| C101 | `Joint`: `llk_wrapper`, `llk_wrapper_fixed`, `pgrad`, `pen_grads` | derivative of the quadratic form and of the log-determinant (Jacobi) along a curve; trace terms by C98's lemmas |
| C102 | `Joint`: `start_lam`, `pgrad` | the penalty at the sampler's smoothing parameters is the model's over the scale; normal equations |
| C103 | `Vague`: `fcols`, `NP_fidx`, `NP_tidx`, `selected`, `prior` | sums over located terms re-indexed to sums over terms; positions are unique in one formula; positivity by induction over terms |
| C104 | `Store`: `sample`, `loop`, `store`, `after_all` | loop invariant: the arrays hold the runs so far (`ok`), the chains are at their ends; runs in calls of different length are joined |
| C105 | `Conv`: `check_convergence`, `met`; `Store`: `stops`, `conv_samples` | statistics as functions of half chains; the loop invariant of C104 at the stop |
| C106 | `Store`: `pool`, `loop`; `Nuts`: `advance_chain` | induction over the calls of a run |
| C107-C109 | `Resid`: `forward_resid`, `predictive_resid` on the tables of `Hsmm`; `Dur`: `_compute_dur_res_series`, the calls of `decode_viterbi` | the residual is the forward sum of the series cut off at t with another factor at time t, so C40's enumeration of segmentations applies; sums to one by shifting durations; loop invariant over segments; refutations by evaluation |
| C110 | `Root`: S_root of `compute_S_emb_pinv_det(root=True)`, roots of single penalties and eigh as parameters | invariant of the grouping loop (`PenProofs5`), sums over windows of columns; refutation by evaluation |
| C111, C112 | `Qr`: `update_coef` (QR and Cholesky), `solve_coef_pqr2`, `solve_coef`, embedding of L and InvCholXXS; decompositions and triangular solves as parameters with contracts in `QrSpec` | pivots as a bijection, selection matrix T with T^T T = 1, A T = Q R; completing the square; refutation for every correct `llt` |
| C113–C115 | `Work`: `PIRLS_pdat_weights`, `update_PIRLS`, `update_scale_edf`, `est_scale`, the end of `solve_gamm_sparse` and `GAMM.fit`; link derivative, variance and the test for invalid rows as parameters | induction over rows; the weight's root times the working residual squared is Pearson's term; refutations by small models |
| C116 | `Loop`: `solve_gamm_sparse`, `init_step_gam`, `correct_lambda_step` around `Step`'s coefficient and `Lam`'s smoothing parameter steps; working data, coefficient update and Fellner-Schall quantities as parameters | invariant through the three loops; refutations by a run with two observations and link 1/mu, symbolic in the distance from the solution |
| C117-C119 | `Upd`: `update_coef_gammlss` with dropping, checks of the drop and restarts; derivatives, identifiability check and convergence tolerance as parameters | invariant through the loop: padding the reduced coefficients with zeros gives the same predictors and penalty; fuel bound from the loop counter; refutations by one-parameter runs symbolic in the tolerance |
| C120, C121 | `Glam`: `correct_lambda_step_gamlss`, `correct_lambda_step_gen_smooth` and the outer loops of `solve_gammlss_sparse`, `solve_generalSmooth_sparse`, on `Lam`'s step functions; estimation for given smoothing parameters as parameter | invariant of the penalties through rejection, limits, extension and damping (a damped step stays between 0 and the step); step control ends because halving makes the norm small; refutations by a parameter that climbs by a constant and by an undone extension |
| C122, C123 | `Hess`: `compute_Vp_WPS`, `updateVp`, the end of `estimateVp`; real matrices, groups of penalties as in `Reml` | second derivatives of the profiled criterion by differentiating the closed form of the first (derivatives of inverse, trace and solution of the penalised least squares problem); each of the program's five terms evaluated to its part; inverses through the spectral decomposition; refutation: two copies of a block with two overlapping penalties, where the program's entry is off by 1/4 |
| C124 – C127 | `Vcor`: `correct_VB` from the sampled candidates on (weights, the three grid types, `only_expected_edf`, the final reduction including the aliased array), the candidates of `compute_reml_candidate_GAMM` and `_compute_VB_corr_terms_MP` for normal observations; real matrices | psd order of sums, congruences and mixtures; the mixture as law of total covariance; bounds through `0 <= tr(F - FF)` for `F` the product of a psd matrix and its penalised inverse; refutations: one coefficient, or the mean of two observations with a ridge penalty |
| C128 – C130 | `Sim`: `predict_series` of `HSMMFamily.predict` as a random computation (a tree of choices) on the tables of `Hsmm`, the loops over samples and series | probability of a sequence of states by induction over time, segment by segment, against the sum over an enumeration of all divisions into segments (without repetition, complete); bumps by an invariant of consecutive time points that holds for all draws; refutations by evaluation |
| C131 – C134 | `Qefs`: `compute_omega`, `computeHSR1` (implicit), `getImplicitV`, `computetrVS3`, `calculate_edf` for linear operators, `getExplicitnH`, `getCholnH`, what `solve_generalSmooth_sparse` stores, `makepdd_fd2llk`, `jhessian`; mathcomp matrices over any real closed field, decompositions as oracles with contracts | Woodbury identity for the implicit covariance matrix; up- and downdates by induction over the eigenvalues, keeping the partial sums positive definite; pseudo-inverses by uniqueness; triplets by induction over the listed columns. `RcfMat` proves that the contracts can be met: Cholesky, spectral theorem (through the algebraic closure) and singular values over every real closed field, used by the examples |
| C135, C138 | `Block`: `compute_B`, its two worker functions, the choice in `calculate_edf`; mathcomp matrices over any real field, triangular solves as an oracle with a contract, shared memory as copies | the sum of squares of solved columns is a quadratic form of V; sums over visited columns against sums over all columns, blocks of columns by `reshape`; levels partition columns |
| C136, C137, C139 | `Disc`: `__discretize`, `__split_discretize`, `__cluster_discretize`, dictionaries of clusters; lists of integers, kmeans2 as an oracle that is told the number of calls before | positions in sorted lists of distinct values; rows as blocks by series; permutations of groups of labels; induction over parts and restarts |
| C140 | `Nest`: `id_dependencies`; columns as lists of vectors over any real field, both QR decompositions as oracles with contracts | the rows below X1 are a linear image whose kernel has at most as many dimensions as X1 has columns (rank-nullity); pivoted columns are independent there, hence with X1 |
| C141 | `Nest`: `__fix_nested` with names, masks of levels, the loop over sizes, terms and levels and the list of dropped positions | invariant: every cell holds the columns whose position is not dropped; cells are written once, after all cells they are compared to; names at a level by arithmetic of positions in the flattened list |
| C142 | `Gfit`: `coef_split_idx` with its loop in place, `np.split` | the loop computes cumulative sums (invariant over the written prefix); induction on formulas |
| C143 | `Gfit`: start values of smoothing parameters and coefficients in `GSMM.fit` and `GAMMLSS.fit` | induction on penalties for `init_lambda`; refutations by the state kept on the model |
| C144 | `Gfit`: collection of columns over formulas and terms, budgets, the draw and `np.unique`; draws without replacement are an oracle with a contract | collected columns are a permutation of part of the coefficients of each formula; floor of shares; counting |
| C145 | `Gfit`: `get_ys`, `get_mmat` with masks of missing responses | position of the k-th true entry of a mask, induction on rows |
| C146 | `Gfit`: numbers of sampled vectors in `GSMM.fit` and at the end of `solve_generalSmooth_sparse`; the dictionary as state | floor of shares; refutations by two calls |
| C147 | `Grid`: shapes of draws (`squeeze`, item assignment, `reshape`), the closeness test and the state of the copied penalties in `estimateVp` / `correct_VB`; rationals | cases of shapes; entrywise closeness; refutations by evaluation |
| C148 | `Grid`: the serial loop with its state and the parallel map, `compute_REML_candidate_GSMM` up to its exception handler; the computation of a score is an oracle | induction on candidates (state is overwritten completely) |
| C149 – C152 | `Samp`: `sample_ys_qefs` (both versions, adaptation of the radius), options from `GSMM.fit`, `restart_coef`; lists of reals, likelihoods with infinite and undefined values, draws as an oracle | induction over the draws with the list of the draws kept; the sum of the code equals Hoffman and Gelman's average times t + t0 by induction; bounds on the averaged radius as convex combinations; induction over the tries |
| C153 – C154 | `Srone`: `test_SR1`, `compute_omega`, the matrix inverted by `computeHSR1`; `inv` as an oracle that fails exactly for singular matrices | entries of the middle matrix equal the entries of the specification; invariant of the memory over the draws; equality in Cauchy and Schwarz's inequality for single pairs |
| C155 – C156 | `Cond`: `est_condition` and the checks of the three solvers; matrices as lists of rows of reals, `svds` as an oracle that gives the largest singular value for two or more rows | the inverse turns the largest factor on sizes of vectors into the smallest; explicit diagonal matrices as witnesses, with an oracle built by description |
| C157 – C158 | `Ident`: `identify_drop`, mathcomp matrices over an ordered field, index lists; QR, LU, svds and the Cholesky check as oracles with contracts | rows that span the row space of a symmetric matrix give a regular principal submatrix; scaling by an invertible diagonal; each pass of the loop drops a column still kept |
| C159 – C161 | `Gupd`: `update_coef_gen_smooth`, `gd_coef_smooth`, `handle_drop_gsmm`, `check_drop_valid_gensmooth`, storage of update vectors | invariant of the loop (values belong to coefficients, kept and dropped split the coefficients); step control and transitivity; newest elements of appended lists, linearity of the penalty |
| C162 – C167 | `Split`: `_split_matrices`, `yfix`, reading of signals, decoding within `get_resid`, shared predictors, `_sample_series_emissions`; lists of rows of any type | splitting at increasing positions; index arithmetic over the documented order of formulas by induction over states and signals; splitting a series again changes nothing; refutations by evaluation |
| C168 – C170 | `Term`: what `Formula.__init__` writes into term objects (heap of terms), ids of `LambdaTerm`s and `combine_shared_penalties`, `f.__init__` and `f.build_penalty` with exceptions as outcomes | frame and agreement lemmas over the loops, invariance of a second run; membership in groups characterised by ids; induction over blocks of n penalties with division of positions; refutations by evaluation |
| C171 – C173 | `Hsamp`: `sampleHcoef`, end of `solve_generalSmooth_sparse`, start of `GAMM.fit`; draws, exact blocks and degrees of freedom are oracles | induction over attempts with a characterisation of the first sufficient draw; case analysis of branches; refutations by evaluation |
| C174 – C176 | `Res`: `GAMM.get_resid`, `get_resid` and `rvs` of GAUMLSS, GAMMALS, MULNOMLSS, MultiGauss, deviance residuals of PropHaz; drawing is an oracle | reals; signed roots, deviance identities of C21, the survival table of C71–C73, induction over rows; refutations by evaluation |
| C177 – C179 | `Tab`: `print_parametric_terms`, `GAMLSSGSMMFamily` (init_coef, split of coefficients, get_resid), `GSMM.get_ys`/`get_llk` and the log-likelihoods of `compare_CDL`; distribution functions and log-likelihoods are parameters | lists and reals; positions of split coefficients, symmetry of distribution functions, case analysis; refutations by evaluation |
| C180 – C183 | `Pref`: weights, degrees of freedom and fallbacks of `approx_smooth_p_values`, the degrees of freedom picked per parameter there and in `print_smooth_terms`, the rows sampled; Davies' routine, distribution functions and the generator are parameters with contracts | reals and lists; square roots, case analysis over error codes, induction over groups of penalties; refutations by evaluation |
| C184 – C187 | `Dav`: davies.cpp: `order`, `cfe`, `errbd` over the reals, and the control flow of `findu`, `ctff`, `qf` and the counter with bounds and integrals as parameters | arrays as functions, invariants of the loops; derivative of the cumulant generating function (Coquelicot); counter as decreasing measure; refutations by evaluation |
| C188 – C190 | `Fin`: `IdentityPenalty.constructor` with and without `f`, the end of `GSMM.fit` over sequences of fits, residuals at the end of `solve_gammlss_sparse` | sums over diagonal matrices, kernel for the rank; fold over calls with the pieces of C142; equivalences, refutations by computation |
| C191 – C193 | `Dav2`: postconditions of `findu` and `ctff` (model in `Dav`), `integrate` over the reals | invariants of the searches; polar form of complex powers (Coquelicot), induction over weights, continuity of the root; bounds of summands |
| C194 | `Dlog`: `log1` of davies.cpp after any number of rounds | loop as partial sum, derivative of the remainder and mean value theorem (Coquelicot) |
| C195 | `Dtr`: `truncation` of davies.cpp, used in `findu` (`Dav`) | monotonicity of each sum over the weights; closed form of the bound for a list of two weights and rational comparisons for the counterexample |
| C196 | `Dtr` with `Dtr2Spec`: modulus of the characteristic function and the rest of the integral | pointwise bounds for each of the three cases (power of t, product inequality (E-(E-1)a)(E-(E-1)b) >= E-(E-1)ab, normal part), then comparison of integrals (Coquelicot) |
| C197 | `Prm`: column orders, P1 and P2 of `init_qEFS_storage` as sparse triplets | permutation of the columns; sums with one nonzero term |
| C198 | `Bud`: choice of `fcols` in `GSMM.fit`; the draw is a parameter | disjointness of shifted index lists by induction over formulas and terms; np.unique as insertion; case analysis of the budget |

## 4. Statuses

`proved`: the English statement is covered by the listed theorems for the modelled
code. `partial`: either a part is missing (the theorem name ends in `_partial` and the
note says what), or the property is false of the code, in which case a theorem ending
in `_refuted` gives a concrete counterexample and the guarded version that does hold is
proved beside it.

## 5. Findings

Places where the code does not have the property. Each is a theorem.

* **C01** `C01_single_id_refuted`: `combine_shared_penalties` appends a penalty whose id is
  used only once to the merged list although it is already in the list of unshared
  penalties, as soon as another id is shared; the penalty counts twice.
  `C01_frozen_refuted`: splitting rebuilds shared penalties with default flags, so
  `frozen` is lost.
* **C05** `C05_gap_refuted`: `compute_S_emb_pinv_det` places the blocks of the pseudo-inverse
  with a running index that ignores unpenalised coefficients between penalised ones.
* **C06** `C06_single_id_refuted`: one rank flag too few in the situation of C01.
* **C17** `C17_missing_start_refuted`: when the first row of a series has a missing value, no row
  of the series is treated as its start; the first remaining row is correlated with the last row
  of the previous series.
* **C18** `C18_hsmm_sign_refuted`: the hidden semi-Markov log-likelihood subtracts the
  log-determinant of the whitening transform (additive models add it).
* **C66** `C66_negative_rho_refuted`: the weight for expected values inside bumps is recovered
  as the positive root of a square, so the sign of a negative auto-correlation is lost.
* **C28** `C28_log_link_refuted`: `GAMLSSGSMMFamily.gradient` calls `link.dy1` with the derivative
  of the deviance instead of the mean, so the gradient of an extended family is wrong for every
  link whose derivative is not constant (witness: gradient 1, returned -2).
* **C70** `C70_fisher_log_refuted`: `PIRLS_pdat_weights` replaces only the second derivative of an
  extended family's deviance by its expectation; the term with the first derivative stays, so
  with a log link weights can be negative.
* **C29** `C29_log_link_refuted`: `MultiGauss.gradient` multiplies the residual part with the model
  matrix only; the derivative of the inverse link is missing (derivative 6, returned 3).
* **C69** `C69_off_diagonal_refuted`: `MultiGauss.jcolhessian` adds the term with the second
  derivative of a cell of the factor for every parameter; it belongs to diagonal cells (which are
  exponentials) only (second derivative -1, returned -2).
* **C32** `C32_between_refuted`, `C32_after_last_refuted`: `get_survival` looks up the nearest event
  time *later* than the request, so risk of an event that has not happened yet is included; after
  the last event time it raises a ValueError.
* **C71** `C71_stale_refuted`: `PropHaz` computes its hazards once per object; a later call with
  other coefficients (a refit, a posterior sample) silently returns the old hazards.
* **C63** `C63_unsorted_refuted`: trace terms are permuted relative to the smoothing
  parameters for by-smooths with several penalties next to a shared id.
* **C64** `C64_undefined_means_refuted`: rows with undefined means are dropped from the
  deviance; a step that makes every mean undefined has deviance 0 and is accepted. The logit
  inverse `exp(eta)/(1+exp(eta))` is undefined for eta > 709.
* **C65** `C65_extension_refuted`: undoing an accelerated smoothing parameter step can leave
  so small a step that the loop stops at once; it then returns the smoothing parameter without
  the acceleration together with the model fitted with it.

* **C35** `C35_failed_factor_refuted`: `computeSVPS` does not look at the code returned by the
  pivoted Cholesky factorisation; when it fails, the "inverse" inverts nothing.
* **C37** `C37_int_mean_refuted`: `sample_MVN` accepts an integer mean but only adds array means;
  any integer behaves like 0.
* **C75** `C75_definite_refuted`: `computeHSR1(make_pd=True)` lifts corrected eigenvalues by a
  multiple of the largest eigenvalue after correction, which is 0 if all were corrected; the
  result is singular although positive definiteness was asked for.
* **C79** `C79_dropped_refuted`: `compute_Vb_corr_WPS` multiplies the inverse with the scale when
  coefficients have been dropped (`V = Vbr.T @ Vbr * scale`), but the system it differentiates is
  unscaled, as in the other branch (witness: derivative -1/4, used -1/2).
* **C80** `C80_sign_refuted`: `invdChol` is documented to return the derivative of the inverse
  factor and returns its negative. The package only uses products of two of them.

* **C39** `C39_te_refuted`: for a tensor smooth with `te=True` the sum-to-zero constraint is
  computed from the marginal bases before the reparameterisation that is the default for several
  variables (`formula.py:1640-1657`), and is applied after it (`terms.py:1260-1272`). The columns do
  not sum to zero; the smooth is not centred.
* **C44** `C44_irf_names_refuted`: `irf.get_coef_info` multiplies by the number of levels and then
  loops over the levels; it reports too many names.
* **C45** `C45_drop_refuted`: after dropping columns, `f.build_matrix` runs over the remaining
  columns with a new counter and takes `counter % m_cols` as the column of the basis.
* **C46** `C46_unpenalised_irf_refuted`: an unpenalised `irf` is counted among the unpenalised
  coefficients and again in the loop over impulse responses; `build_penalties` raises.
* **C48** `C48_single_level_refuted`: an interaction with a one-level factor repeats the columns of
  the rest of the interaction when there is a constant (the list of columns is empty and the next
  variable starts it afresh).
* **C81** `C81_codebook_refuted`: with a codebook, the names of a by-smooth's coefficients belong to
  other levels than their columns.

* **C42** `C42_tv_refuted`: `sample_backwards` weights the transition from time t-1 to t with
  `ds(.,.,t-1)`, the forward pass with `ds(.,.,t)`. `C42_ar_refuted`: with an AR model the first
  observation of a flat has its own probability (`bs(t,1,j)`), which the weights leave out although
  it decides between "the flat went on" and "the flat began" (posterior 1/9, sampled with 1/6).
* **C43** `C43_serial_refuted`: in `compute_Tpi` the serial loop assigns its results to `T, pi`, the
  variables the inner function reads; after the first series the lists are gone and all series get
  the first matrices. `C43_two_states_refuted`: for two states with time-varying models the
  three-dimensional array is stacked once more.
* **C83** `C83_impossible_refuted`: if no segmentation is possible, `viterbi` keeps -1 as state
  and reads `psi` there.

* **C59** `C59_degree_zero_refuted`: for degree 0 every basis function is zero at the lower limit
  (truncated powers use a strict comparison), so the row there sums to 0.
* **C85** `C85_late_start_refuted`: an `irf` basis is evaluated at the absolute times of the series
  and then shifted to the event, so the time since the event is only right for series that start at
  time zero.
* **C86** `C86_selection_refuted`: prediction pairs the series of the new data with the event
  onsets of the fitted data from the first one on; a selection of later series gets the onsets of
  others.
* **C61** `C61_shape_refuted`: `deriv_transform_eta_beta` builds the Hessian without giving its shape;
  if the last column of the last model matrix is empty (a level without observations), it has
  fewer rows than there are coefficients, and adding the penalty fails.
* **C62** `C62_extra_refuted`: `handle_drop_gsmm` does not add the position of a family's extra
  coefficients to the split positions, so the last parameter's piece includes them.
  `C62_check_refuted`: `check_drop_valid_gensmooth` adds it, but for a single formula
  `drop_terms_X` has already done so and the columns are counted twice. `C62_unbuilt_refuted`:
  `drop_terms_X` asks for the shape of matrices that were not built.
* **C50** `C50_names_refuted`: cached matrices are stored under the last component of the file name, so
  with `SHOULD_CACHE` files of the same name in different directories are confused.
  `C50_empty_refuted`: `np.array_split(..., min(nc, 0))` raises if a file (or a slice of the kept data) has
  no usable rows. `C50_irf_refuted`: `GAMM.fit` with `file_loading_nc > 1` passes all series to every
  process; impulse response terms then have more rows than the subset.
* **C51** `C51_crash_refuted`: nothing clears the cache directory after an exception, and the next fit is
  refused. `C51_nested_refuted`: `os.removedirs` also removes empty directories above the cache directory
  that were there before.
* **C54** `C54_rho_refuted`: `fit` sets `self.rho` and `self.res_ar` only if `rho` is given, so after a second fit
  without `rho`, `get_llk` evaluates the first fit's residuals and `get_resid("ar1")` returns them.
  `C54_transform_refuted`: the same for `transform_X` and `get_mmat`. `C54_edf1_refuted`: `edf1` is kept across
  fits and used for p-values. `C54_failed_refuted`: `self.rho` is replaced before the solver runs.
* **C55** `C55_cancel_refuted`: `use_post = predi_mat.sum(axis=0) != 0` drops coefficients whose column
  cancels, e.g. for a centred covariate; the multiplier can be zero. `C55_altered_refuted`: `b *= bmadq`
  works on the caller's array. `C55_zero_row_refuted`: rows without any selected coefficient (another level
  of a by-factor) have half width 0, 0/0 is NaN, and the NaN reaches every row through the quantile.
* **C56** `C56_theta_refuted`: theta parameters are counted only if `model1.family.est_theta`.
  `C56_order_refuted`: if llk1 > llk2 and DOF1 < DOF2 a p-value is computed (with a warning), but for the
  swapped models `test_stat < 0` gives NaN. `C56_settings_refuted`: grid, `only_expected_edf`, `compute_Vcc`,
  `use_importance_weights` and `recompute_H` are resolved from `model1` only.
* **C58** `C58_valid_refuted`: `0.9 * a` is below a positive `a`, `0.9 * b` above a negative `b`.
* **C89** `C89_orientation_refuted`: `U *= sign` is executed twice on the same array, which restores the
  orientation that LAPACK happened to return; with degrees of freedom that are not an integer the off-diagonal
  entry of the 2 x 2 block makes the second statistic depend on it, hence also `max(Tr1, Tr2)` and the averaged
  p-value. `C89_zero_entry_refuted`: `np.sign(0)` is 0, so an eigenvector whose first entry is exactly zero is
  multiplied by zero and its share of the statistic is lost.
* **C90** `C90_irf_refuted`: `approx_smooth_p_values` starts at `unpenalized_coef` and `edf_idx = 0`, although the
  coefficients and penalties of impulse response terms come first: the first smooth is tested with the
  coefficients and degrees of freedom of the first impulse response term; `print_smooth_terms` lists the wrong
  degrees of freedom as well. `C90_unpenalised_refuted`: an unpenalised smooth is tested with the coefficients of
  the next smooth, and the last test uses coefficients beyond the last one.
* **C91** `C91_initial_refuted`: `llkgrad` (llk.cpp:1395) uses `ds(d, j)` rather than `ds(d, j, t)` for coefficients
  of the initial probabilities, that is the durations of the first time point at all time points.
  `C91_hmp_refuted`: for every hmp model `gradient` calls `llkFTPgrad`, which has no loop over coefficients of
  transition and initial probabilities, so that a model that estimates them (T and pi not given) gets a zero
  gradient for them although its log-likelihood depends on them.
* **C97** `C97_dominant_refuted`: `reparam` (option 4) leaves its loop in the first pass if the largest of a
  term's penalties has full rank on the space the penalties act on (repara.py:439-440), and then sets `S_rep`
  from the first penalty alone (:593-595). The log-determinant of the restricted likelihood, the total penalty
  returned as `S_emb_rp`, its root and its inverse then ignore all other penalties of the term.
  `C97_repeated_refuted`: `Mp` adds the null space of a penalty once, also if the penalty is used for several
  blocks (`rep_sj > 1`: smooths of a factor sharing an id, repara.py:381).
  `C97_later_refuted`: `Mp` counts unpenalised columns before the first penalty only (:360), so intercepts and
  linear terms of later formulas are not counted. Both shift the score by a constant, which matters when models
  are compared.
  `C97_fallback_refuted`: if the Cholesky factorisation fails, the determinant of `S_rep` is used instead of that
  of `S_rep / scale` (utils.py:2248).
* **C99** `C99_dominant_refuted`, `C99_shape_refuted`: in the first pass of `reparam` (option 4) a penalty that is the
  largest and has full rank on the range space ends the loop. `S_rep` is then the first penalty times its
  smoothing parameter (repara.py:593-595), whichever was the largest and however many there are. If the term also
  has a null space, `Q_rep` is the identity of the range dimension and `Q_rep0 @ Q_rep` multiplies matrices of
  different shapes (repara.py:599-600), for instance for difference penalties of order 1 and 2 on the same
  unconstrained smooth with the first one dominating.
* **C101** `C101_dominant_refuted`: with `sample_rho`, the density uses the log-determinant of `reparam`, which leaves
  out all penalties of a term but the largest one if that has full rank, while the gradient (`mcmc.py:1053-1062`) uses
  the trace with the pseudo-inverse of the whole sum. Density and gradient do not fit together for such terms (for
  example a smooth with an identity or shrinkage penalty next to a difference penalty).
* **C102** `C102_fixed_refuted`: `sample_mssm` takes the smoothing parameters of the fit, which for families with a
  scale are relative to the scale, and divides them by the scale only if `sample_rho` is set (`mcmc.py:736-743`). With
  fixed smoothing parameters (the default) the penalty in the sampled density is the one for a scale of 1, so the chains
  do not sample around the fit. In the witness the slope of the density at the fitted coefficient is -1/2.
* **C103** `C103_twice_refuted`: the null-space penalties to add are selected by `pen.dist_param in NP_fidx and pen.term
  in NP_tidx` (`mcmc.py:929-936`), two independent tests. With several formulas a smooth that has its own null-space
  penalty is given a second one, with the fixed weight `lambda_0`, when its formula has some smooth without one and some
  other formula has a smooth without one at the same position.
* **C103** `C103_improper_refuted`: only linear terms and terms in `smooth_terms` are treated. Impulse response terms
  (penalised by differences, or not at all) and unpenalised smooths (for which `build_penalties` creates nothing) keep
  an improper prior, so the sampled density need not be integrable although `make_proper=True`.
* **C105** `C105_density_refuted`: `conv_samples` for all parameters but the log-density are the second half
  (`mcmc.py:1263-1297`); the log-density is monitored from the first sample on. Sampling can stop with returned
  log-densities that do not meet the criterion (and can go on although they do).
* **C105** `C105_selected_refuted`: with `convergence_type=1` fixed effects are recognised by a positive column sum of the
  design matrix (`mcmc.py:175`). A centred or negative covariate is not monitored.
* **C106** `C106_no_warm_up_refuted`: `epsilonbar` starts at 1 (`mcmc.py:1116`) and `advance_chain` sets `epsilon` to it
  from the first step after the warm-up on. With `M_adapt=0` the step size found by the initial search is used for one
  step only; then it is 1 whatever the density.
* **C107** `C107_last_refuted`: `forward_resid` applies the restriction on the last state to the sums `resid(t,m)` without
  dividing by its probability, so the last residual tends to a number below 1 for large observations.
  `C107_earlier_refuted`: with `ends_with_last` cells with `t + d >= n_T` are skipped, which takes away mass at
  every time point from the second on. The transformed residuals are then too small.
* **C108** `C108_signals_refuted`: `mus(t,j)` in the transition term of `predictive_resid` reads an array with three
  axes with two indices, i.e. the mean of signal `j % M` in state `j / M` (resid.cpp:501). `C108_first_refuted`: the
  loop that divides by `sqrt(resid_sd)` starts at 1. `C108_last_refuted`: as for C107. For bump models with `rho`,
  `mus(t-1,m,j-1)` is also read for `j = 0` (outside the array; harmless as long as the memory holds a finite number).
* **C109** `C109_time_refuted`: `get_resid(...)[t if tvdtpi else 0, 0]` uses the first time point of the next segment.
  `C109_single_refuted`: after the loop the column of later segments is used without asking for `transitions == 0`.
  `C109_tables_refuted`: `decode_viterbi` is called with `sid=[0]`, so `T[0]` and `pi[0]` decode every series.
  `C109_transform_refuted`: it is also handed transformed data, and transforms them again if they have as many rows as
  `Lrhoi`, i.e. for a single series.
* **C110** `C110_gap_refuted`: blocks of terms with more than one penalty are placed at `cIndexPinv`, the same running
  index as in C05. A smooth with `is_penalized=False` before a tensor smooth shifts the block: the default solver
  (`method="QR"`) then penalises the coefficients of the unpenalised smooth and not those of the tensor smooth,
  while the reported `S_emb` says the opposite.
* **C111, C112** `C111_chol_refuted`, `C112_chol_refuted`: `cpp_solve_coef` and `cpp_solve_coefXX` return code 1, an identity
  factor and zero coefficients when the matrix is not positive definite; `update_coef` never looks at the code. With
  `method="Chol"`, or when data are read from files, a model with unidentifiable coefficients is silently fitted with all
  coefficients zero and a wrong covariance matrix.
* **C113** `C113_scale_refuted`: `update_scale_edf` compares pseudo-data `z`, which exclude the offset, with `eta`, which includes it. With
  an offset the scale of, e.g., Gamma models, and with it all standard errors, is wrong. `C113_files_refuted`: with data read from files an
  offset is accepted and ignored.
* **C114** `C114_dropped_refuted`: models without penalties use `total_edf = colsX` although coefficients were dropped.
* **C115** `C115_excluded_refuted`: if `inval` has an entry, `Wr` — already a root — is rebuilt with another square root; the stored Hessian
  (and every quantity computed from it) uses roots of the weights.
* **C116** `C116_stopped_refuted`, `C116_two_refuted`, `C116_rejected_refuted`: `solve_gamm_sparse` returns `coef` with the `eta` (and scale, degrees of
  freedom and inverse factor) of `n_coef` when it runs out of iterations. With `max_inner=2` the inner loop ends after computing a predictor for
  `n_coef2` without accepting it. If `correct_lambda_step` gives up after a rejection (the step is smaller than 1e-7, or nothing was changed), `eta`
  has just been reset to the previous coefficients while the new ones are returned.
* **C118** `C118_restart_refuted`: gradient descent in `update_coef_gammlss` draws new coefficients once it has converged; with `max_inner` at most 21 the
  loop may end right there and return them.
* **C119** `C119_refuted`: `update_coef_gammlss` returns `H` and `LV` from before the last step together with the coefficients after it. With
  `min_inner=0` an accepted drop in the first pass raises IndexError, and `max_inner=0` raises UnboundLocalError (part of the model `Upd`).
* **C120** `C120_stopped_refuted`, `C120_extension_refuted`: `solve_gammlss_sparse` and `solve_generalSmooth_sparse` add `lam_delta` to the smoothing
  parameters after the last fit when `max_outer` is reached, so `overall_penalties` no longer give the stored total penalty, degrees of freedom and
  REML. With `extend_lambda`, undoing an extension can leave a step below 1e-7; the smoothing parameter is then reset without estimating again.
* **C122** `C122_repeated_refuted`: `compute_Vp_WPS` multiplies the traces in `t3` by `rep_sj`, but takes them over matrices in which all copies of
  the block are embedded already. For one penalty the two parts cancel; for factor smooths (`fs`) and other repeated blocks with several penalties the
  Hessian, and with it the covariance of the log smoothing parameters, is wrong.
* **C123** `C123_regularised_refuted`: `compute_Vp_WPS` regularises by adding 0.1 to the eigenvalues of the precision, `estimateVp` by adding 0.1 to their
  square roots.
* **C125** `C125_alias_refuted`: `correct_VB` assigns `edf = edf2` when the corrected degrees of freedom exceed their bound and then does `edf2 += ...` in place for
  `form_t1`: both arrays are the same object, so the coefficient-wise `edf` contains the increment as well and does not add up to `total_edf`.
* **C126** `C126_expected_refuted`, `C126_failed_refuted`: `origNH` is passed to the candidate functions only for `n_c > 1`, so `only_expected_edf` averages
  different quantities for different `n_c`; exceptions of candidates are caught only for `n_c == 1`.
* **C127** `C127_offset_refuted`: for Gaussian models with identity link `compute_reml_candidate_GAMM` passes `y - offset` and offset 0 to `update_coef` and then
  computes scale and log-likelihood from `y` and the predictor without the offset.
* **C128** `C128_duration_refuted`, `C128_transition_refuted`: the loop of `predict` draws a new state `if dur < 0`, after `dur -= 1` per time point: a duration of d
  gives d + 1 time points. For `tvdtpi` the transition into a state that starts at t uses `Ts[state, :, t]`, the likelihood `T(i, j, t-1)`.
* **C129** `C129_bumps_refuted`: because of the additional time point `d = (event_width - 1) - dur` is -1 for the first observation of a bump,
  `event_template[-1]` is its last value. (The correction for AR residuals after a bump is applied when `dur == 0`, i.e. within the bump.)
* **C130** `C130_series_refuted`: `series_seed = seed` for every series in `predict` (and `seed` for every series in `sample_posterior_states`): all series
  are driven by the same random numbers; incrementing `series_seed` later has no effect.
* **C131** `C131_empty_refuted`, `C131_scale_refuted`: `VS_c[0, 0]` in `computetrVS3` fails for the 0-d array that `V0 @ S_c` without update terms leaves; `n_corrs` of the
  operator is not updated when `sampleHcoef` replaces `sk` and `yk`. `compute_omega` replaces `omega < 0` by 1 but not `omega == 0`.
* **C132** `C132_empty_refuted`, `C132_single_refuted`: `getExplicitnH` prepares `omega = 1` for an empty memory and then calls `computeHSR1`, which reads `s[0]`. With one sampled
  pair `DK + L + L.T - STS` is `s.y - (s.y / s.s) s.s = 0`.
* **C133** `C133_twice_refuted`; **C134** `C134_zero_refuted`: see the notes in MANIFEST.json.
* **C135** `C135_null_refuted`, `C135_last_refuted`: `np.arange(start_index + NULL_idx, S_J.shape[1] * (rep_sj + 1), S_J.shape[1])` should stop at `start_index + S_J.shape[1] * rep_sj`. With other
  smooths before the factor smooth levels are left out of the trace; with two null-space penalties after just an intercept an index is out of range.
* **C136** `C136_twice_refuted`, `C136_subgroup_refuted`: `cov_flat[sub_lvl_idx, [...]]` pairs a mask with a list of columns.
* **C137** `C137_three_refuted`: `dig_cov_unq_counts[-1]` is added to the bins, not the sum of all counts.
* **C138** `C138_order_refuted`, `C138_levels_refuted`: `clust_series` holds numbers of series by first appearance; `compute_B` takes them for numbers of levels of the factor.
* **C139** `C139_shared_refuted`: `approx_deriv` is changed in place.
* **C140** `C140_deficient_refuted`: `HouseholderQR` of X1 is not pivoted, so rows up to `X1.cols()` are cut off even if X1 has lower rank (two smooths of the same variable, say); independent
  columns of X2 are lost. `C140_units_refuted`: the threshold is relative to the first column (the intercept), not to the columns of X2.
* **C141** `C141_fs_refuted`: with the default `find_nested=True` a formula whose smooth terms are all `fs` terms fails with `ValueError` (`np.max` of an empty list, formula.py:1689); the guard in
  `__init__` counts `fs` terms, `__fix_nested` leaves them out. `C141_levels_refuted`: `Xs[ti][by_idx]` uses the position of a level in another factor; with `f(x, by=g)` (no, yes) and `f(x, z, by=h)`
  (maybe, sure, yes) it is out of range. `C141_by_refuted`: names carry the level of `by`, so `f(x)` and `f(x, z, by=g)` have no name in common (as in mgcv).
* **C143** `C143_coef_refuted`: `fit(restart=True)` ("Whether fitting should be resumed") keeps the smoothing parameters, but coefficients start again from `init_coef`, the family or random numbers
  (models.py:1058-1067); `C143_gammlss_refuted`: likewise in `GAMMLSS.fit`, which has no argument `init_coef` (models.py:2018-2061).
* **C144** `C144_null_refuted`: the documentation restricts columns to smooth terms with a non-trivial null space; the code leaves out factor smooths only (models.py:1095). `C144_float_refuted`:
  `structured_qefs_budget=2.0` raises `TypeError` in `choice` (models.py:1115).
* **C145** `C145_refuted`: every formula drops rows by its own response (models.py:375, :466, :495); with two responses that are missing in different rows, rows of `ys[0]`, `Xs[0]`, `Xs[1]` do not belong together.
* **C146** `C146_repeated_refuted`: `sample_hessian_options["n_samples"] = N_u` (models.py:1157) and `LV.sample_hessian_options["n_samples"] = N_u` (gamm_solvers.py:9618) write to the dictionary of
  the caller, also over a number the caller gave; `C146_other_refuted`: a second model then uses the number of the first.
* **C147** `C147_fidiff_refuted`: `reml_wrapper` writes to `rPen` (utils.py:2499), which is later taken for the estimate (:2639-2643, :2831-2835). `C147_scale_refuted`: :2636-2641 compares differences of
  smoothing parameters with standard deviations of their logarithms. `C147_single_refuted`: with `nR=1` and one penalty the draw is a number, and `p_sample[np.isinf(p_sample)] = b` raises
  `TypeError` before the reshape meant for this case (:2618-2625).
* **C148** `C148_failing_refuted`: the handler in `compute_REML_candidate_GSMM` returns `total_edf`, which is unbound at that point (utils.py:2145), so that it raises instead of returning `-inf`; the serial loop
  skips the candidate, the parallel one fails.
* **C150** `C150_undefined_refuted`: `acc = min(1, np.exp(...))` is 1 if the argument is NaN, because `nan < 1` is false. A perturbation at which the log-likelihood is undefined counts as accepted and the radius grows.
* **C151** `C151_fit_refuted`: `sample_kwargs` is passed to `scp.differentiate.jacobian`, but `GSMM.fit` has always added `n_samples` (and `delta` by default): a TypeError for `sample_hessian_method=1`.
* **C153** `C153_full_refuted`: `test_SR1` tests all pairs with the new one; if the memory is full, `update_ys_qefs` then removes the oldest pair, and the rest was never tested.
* **C154** `C154_one_refuted`, `C154_isotropic`: the initial matrix is scaled by `y'y / y's` of the same pair, so for parallel step and difference (always the case with one coefficient) the matrix inverted is zero and the pair is refused; sampling ends with the warning that no update vectors could be sampled.
* **C155** `C155_one_refuted`: `svds(k=1)` requires more than one row and column; for one coefficient both attempts raise and `est_condition` returns an infinite condition number and code 1.
* **C156** `C156_silent_refuted`, `C156_raise_refuted`, `C156_one_refuted`: for `method='Chol'` only `Kcode == 1` is tested, so the worst level passes silently. For other methods line 3209 reads `raise warnings.warn(...)`, a TypeError. Intercept-only models get code 1, or an ArithmeticError with `check_cond=2` and `method='Chol'`.
* **C158** `C158_lu_refuted`, `C158_single_refuted`: `splu` raises RuntimeError for exactly singular matrices and line 4849 is outside any try block, so `method='LU/...'` stops with an exception for exactly collinear columns, for which it is meant. When one coefficient remains `svds` refuses to work and the coefficient is kept unchecked.
* **C160** `C160_restart_refuted`: `restart_coef` is entered when a Newton step was undefined and the step control came back to the old coefficients; any finite value at the random mixture is accepted, however low, and the iteration limit may end the loop there.
* **C161** `C161_options_refuted`: line 8068 reads `bfgs_options['maxcor']` without default, so `fit(method='qEFS', bfgs_options={'maxls': 100})` fails with KeyError after the first optimisation, although the options are documented as being passed on to scipy.
* **C163** `C163_shared_refuted`: bump models fill `y_mat[:, m]` from `ys[m]` (line 621), which is the formula of signal m only if there are no shared formulas. With `shared_pars=[0]` the entries of the other signals are None after `_split_matrices` (line 123) or shifted by one, so all states are evaluated at the wrong signal. The gradient (line 3515) has the same error.
* **C164** `C164_twice_refuted`, `C164_transitions_refuted`: `get_resid` hands transformed observations of one series to `decode_viterbi` and `sample_posterior_states`, which recognise them only by their length; with one series the length is that of the data and the autoregressive transformation is applied again. These calls see the series as number 0 and use `T[0]`, `pi[0]`.
* **C165** `C165_new_data_refuted`: `compute_od_probs` has no check of the length (line 1371); the other two skip the transformation silently but keep `rho` for the expected bumps.
* **C166** `C166_second_refuted`: `shared_eta.append([])` followed by `shared_eta[par]` (lines 440-444, 911-915) works only if parameters are 0, 1, ... in order.
* **C168** `C168_data_refuted`, `C168_nested_refuted`, `C168_subgroup_refuted`: `self.terms = terms` (formula.py:328) keeps the caller's objects, whose `Z`, `RP`, `drop_coef` and (line 564) `by` are overwritten. Predictions of a model whose terms were used in a later formula use the later constraint with the old coefficients.
* **C169** `C169_refuted`, `C169_slope_refuted`: `LambdaTerm.id = id + penid` (terms.py:1117, 2038) and `id + level` (2856) collide with ids of other terms.
* **C170** `C170_default_refuted`, `C170_lists_refuted`: `rp_idx = penid` (terms.py:753) runs over penalties times variables, but there are only as many transformations as variables; the check in the constructor allows up to that many penalties. Lists of `basis_kwargs`, documented as required when `nk` is a list, are unpacked with `**`.
* **C171** `C171_seed_refuted`: `seed += 1` (gamm_solvers.py:7834) for `seed=None`.
* **C172** `C172_unpenalised_refuted`: the solver passes `S_emb`, so `total_edf = n_coef` (line 7766) is skipped and the None returned replaces the number set in line 9596. `model.edf` is None and every summary or comparison that uses it fails.
* **C173** `C173_message_refuted`: line 3090 takes the length of penalties before line 3096 checks that they exist.
* **C174** `C174_family_refuted`: `type="family"` is in the list of line 2849 of models.py but no branch returns anything for it.
* **C176** `C176_seeds_refuted`: `seed += 1` for every row (exp_fam.py:5237-5238); data sets simulated with seeds s and s + 1 from equal means hold the same rows, moved by one.
* **C177** `C177_p_refuted`: `df=len(y) - form.n_coef` (utils.py:777); models with many random effects print NaN for every parametric term.
* **C178** `C178_no_theta_refuted`: `coef[:-n_theta]` with `n_theta = 0` (utils.py:272, 338, 484).
* **C179** `C179_compare_refuted`: `model1.get_llk(penalized=False)` (compare.py:510-511) ignores the argument `drop_NA` of compare_CDL.
* **C180** `C180_scale_refuted`: `n.extend([1, 1, rs_df])` (utils.py:1389) is cut to int by `py::array_t<int, … forcecast>` (davies.cpp:425), the weight `-Tr1 / rs_df` (:1399) is not.
* **C181** `C181_negative_refuted`: `p1 = 1 - p1` (utils.py:1418) instead of `1 - min(p1, 1)` (:1487).
* **C183** `C183_default_refuted`: `n_sel: int = 1e5` (utils.py:1099) is handed to `np_gen.choice(..., size=n_sel)` (:1278).
* **C184** `C184_refuted`, `C184_scale`: `} break;` after the else-branch (davies.cpp:83), added when the goto was removed, leaves the loop over k after one round; `th[0] = j` then overwrites the first rank. **C185** `C185_refuted`: `cfe` sums the degrees of freedom over these ranks, and underestimates the error.
* **C188** `C188_root_refuted`, `C188_rank_refuted`: `IdentityPenalty.constructor` returns the values of `f` as penalty and as root (penalties.py:636-644) and the size as rank. **C189** `C189_refuted`, `C189_none_refuted`: `preds` and `mus` are assigned only if `build_mat is None` (models.py:1223). **C190** `C190_refuted`: `wres = y - Xs[0] @ split_coef[0]` (gamm_solvers.py:6414) leaves out the inverse link, e.g. for GAMMALS with its log link.
* **C195** `C195_refuted`, `C195_increase`: the bound of the truncation error (davies.cpp:138-173) is not monotone: when a second weight is passed, the product moves from ln(1 + x) to ln(x) and the bound jumps up by up to a factor of 5 in the example. `findu`'s comment (truncation(u / 1.2) > accx) fails; the result stays valid, integration is longer than necessary.
* **C198** `C198_refuted`: columns given as a list in `structured_qefs_budget` (models.py:1080-1082) are not checked; with all coefficients listed none is left to the quasi-Newton updates, a case that lines 1111-1112 avoid for the routine's own choice.
* **C87** `C87_options_refuted`: `read_XTX`, `read_eta` and `solve_gamm_sparse2` call `pd.read_csv(file)`
  without `file_loading_kwargs`. `C87_missing_refuted`: with `keep_cov`, `encode_data` only looks for
  missing values of the dependent variable.
* **C88** `C88_missing_refuted`: limits from files use `np.min`, from data frames `np.nanmin`.
  `C88_reference_refuted`: `read_unique` returns levels in the iteration order of a set; for strings this
  changes from run to run, and with it the level dummy coding refers to.

## 6. Reading assumptions

* scipy sparse `A += B` binds a new matrix; it does not change other references to `A`.
* `scipy.stats.multivariate_t.rvs` drops axes of length one; a single number it returns is no array and does not support item assignment.
* `scipy.special.softmax` of an empty list raises; `Generator.choice` with a float `size` raises `TypeError`.
* Dictionaries and penalties are passed by reference; `init_qEFS_storage` and `update_coef_gen_smooth` hand on the same dictionary of options.
* `np.argsort` is stable (the default `quicksort` is stable for short arrays only).
* Lists that the code keeps in parallel (lambda, step, extension state) are one list of
  records in the model.
* Inputs of `step_fellner_schall_sparse` are finite.
* Terms other than impulse response terms build a row of the model matrix from the predictors in that row
  (used in `Par`; `Form` and `Spl` define the rows this way).
* Davies' routine (`Dav`, `Dav2`, `Dlog`, `Dtr`, `Dtr2`) is read over the reals: loops that end when a double no longer changes
  are given a number of rounds, and the cut of `exp1` at -50 is kept.  Degrees of freedom are natural numbers where negative ones
  are refused before.
* `Generator.choice(l, size=k, replace=False)` returns k different entries of a list without repetitions; `np.unique` sorts and
  drops repetitions (used in `Bud`).
* `csc_array` adds values given for the same place (used in `Prm`).
* `coef_idx_per_term` of the terms of one formula are disjoint and below `n_coef` (used in `Bud`).
