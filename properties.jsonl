{"id": "C01", "title": "Merging and splitting shared penalties keeps the total penalty", "statement": "Let the user give any list of smoothing penalties, some carrying a shared id (the `id` of a smooth term, so that several penalties are estimated with one smoothing parameter). If all penalties of one id hold the same lambda, merging the penalties that share an id, and splitting the merged list again, must both leave the total penalty sum_k lambda_k * S_k that is applied to the coefficients unchanged, and splitting must give back exactly the penalties that were merged.", "quantifier": "every list of penalties, of any length, with any pattern of ids, start positions and smoothing parameters", "why_tests_cant": "The failure depends on the pattern of ids over a list of unbounded length; a test fixes one pattern (for instance two smooths with the same id) and cannot cover a list mixing shared and unshared ids.", "anchors": ["src/mssm/src/python/penalties.py:create_id_dict", "src/mssm/src/python/penalties.py:combine_shared_penalties", "src/mssm/src/python/penalties.py:split_shared_penalties", "src/mssm/src/python/penalties.py:sort_penalties"]}
{"id": "C02", "title": "A penalty acts on the coefficients of its own term and on nothing else", "statement": "When a term's penalty block is embedded into the penalty of the whole model, each of the requested repetitions appears unchanged in consecutive diagonal blocks that begin at the term's first coefficient, every entry outside those blocks is zero, and embedding several penalties into one matrix yields lambda-weighted sums. In particular the penalty of a coefficient vector equals the sum of the penalties of the slices belonging to the repetitions.", "quantifier": "every sparse block, every number of repetitions, every start column and every model size that can hold the blocks", "why_tests_cant": "Indices are computed by offset arithmetic on sparse triplets of arbitrary size; tests check a handful of shapes, not all shapes.", "anchors": ["src/mssm/src/python/penalties.py:embed_in_S_sparse", "src/mssm/src/python/penalties.py:embed_in_Sj_sparse", "src/mssm/src/python/penalties.py:embed_shared_penalties"]}
{"id": "C03", "title": "The difference penalty of order m ignores exactly the polynomials of degree below m", "statement": "For every number of coefficients n > m, the difference penalty S of order m is symmetric, equals D D^T for the returned root D, is positive semi-definite, and the penalty b^T S b is zero exactly when the m-th order differences of b vanish, that is exactly when b is a polynomial of degree less than m in the coefficient index.", "quantifier": "every order m, every number of coefficients n > m, every coefficient vector", "why_tests_cant": "The claim is about a null space for all n and m and about all real vectors; finitely many numeric checks cannot show an equivalence over a real vector space.", "anchors": ["src/mssm/src/python/penalties.py:DifferencePenalty.constructor"]}
{"id": "C04", "title": "A tensor-product penalty penalises each marginal direction slice by slice", "statement": "For a tensor smooth, the penalty built for one marginal, evaluated at a coefficient array, equals the sum over all positions of the other marginals of that marginal's own penalty applied to the corresponding slice, in the coefficient order in which the tensor model matrix is built.", "quantifier": "every number and size of marginals, every marginal penalty, every coefficient array", "why_tests_cant": "Ordering mistakes in Kronecker products cancel for symmetric or equally sized marginals, which are the ones normally tested.", "anchors": ["src/mssm/src/python/penalties.py:TP_pen", "src/mssm/src/python/smooths.py:TP_basis_calc"]}
{"id": "C05", "title": "The generalised inverse used for smoothing updates sits on the penalised coefficients", "statement": "The matrix that the smoothing parameter update uses as (pseudo-)inverse of the total penalty has its blocks at the coefficient positions of the corresponding penalties, so that for every penalty tr(S^- S_j) is computed over the coefficients that S_j penalises.", "quantifier": "every list of penalties sorted by start position, including models in which unpenalised coefficients (for instance the intercept of a second linear predictor) lie between penalised terms", "why_tests_cant": "Wrong placement only shows for layouts with a gap between penalised blocks; the value stays finite and the fit converges, so no test assertion fires.", "anchors": ["src/mssm/src/python/gamm_solvers.py:compute_S_emb_pinv_det", "src/mssm/src/python/gamm_solvers.py:compute_lgdetD_bsb"]}
{"id": "C06", "title": "Rank shortcut flags line up with the penalties they describe", "statement": "For every penalty the flag saying whether d log|S|_+ / d lambda may be computed as rank/lambda is true only if that penalty is the only one acting on its coefficients, and the list of flags has one entry per penalty in the order of the penalties.", "quantifier": "every list of penalties sorted by start position", "why_tests_cant": "Depends on the grouping structure of a list of arbitrary length.", "anchors": ["src/mssm/src/python/gamm_solvers.py:compute_S_emb_pinv_det"]}
{"id": "C07", "title": "Smoothing parameters stay inside their bounds", "statement": "A generalised Fellner-Schall update applied to any current smoothing parameter returns a step that leads to a value inside [1e-7, 1e7], whatever the (finite) trace, log-determinant derivative, penalty quadratic form and scale are; no update can make a smoothing parameter negative, zero or unbounded.", "quantifier": "every finite value of the update's inputs", "why_tests_cant": "An invariant over all real inputs including degenerate ones (zero penalty, negative differences by rounding).", "anchors": ["src/mssm/src/python/gamm_solvers.py:step_fellner_schall_sparse"]}
{"id": "C08", "title": "A Fellner-Schall step never moves against the REML gradient", "statement": "Whenever the update is not clipped by its bounds, it increases the smoothing parameter only if the derivative of the restricted likelihood with respect to it is positive, decreases it only if that derivative is negative, and leaves it alone only if it is zero.", "quantifier": "every positive scale, current smoothing parameter in bounds, non-negative quadratic form and trace difference", "why_tests_cant": "A sign equivalence over a continuous domain.", "anchors": ["src/mssm/src/python/gamm_solvers.py:step_fellner_schall_sparse", "src/mssm/src/python/gamm_solvers.py:grad_lambda"]}
{"id": "C09", "title": "Accelerated smoothing steps are bounded, keep direction and can be undone", "statement": "Extending a smoothing parameter step changes it only in the direction it already has, never leaves [1e-7, 1e7] when it extends, and undoing the extension restores the smoothing parameter and step that were there before.", "quantifier": "every extension method offered, every step and history of the extension state", "why_tests_cant": "State carried across iterations makes the reachable histories unbounded.", "anchors": ["src/mssm/src/python/gamm_solvers.py:initialize_extension", "src/mssm/src/python/gamm_solvers.py:extend_lambda_step", "src/mssm/src/python/gamm_solvers.py:undo_extension_lambda_step"]}
{"id": "C10", "title": "Coefficient step control of additive models never accepts a worse fit", "statement": "Step control for the coefficients stops after a bounded number of halvings for every sequence of deviance values (also infinite or undefined ones), and on return either the penalised deviance is defined and not larger than before or the coefficients are those from before the step; the returned deviance, mean and linear predictor belong to the returned coefficients.", "quantifier": "every evaluation outcome of the penalised deviance, every previous and proposed coefficient vector", "why_tests_cant": "Needs all sequences of outcomes, including not-a-number; a test can only drive a few.", "anchors": ["src/mssm/src/python/gamm_solvers.py:correct_coef_step"]}
{"id": "C11", "title": "Coefficient step control of multi-parameter models never accepts a worse fit", "statement": "The step control used by multi-parameter and general smooth models stops after at most 32 halvings, and on return either the penalised log-likelihood is finite and not smaller than before or the coefficients are those from before the step; the returned likelihood and linear predictors belong to the returned coefficients.", "quantifier": "every evaluation outcome, every previous and proposed coefficient vector", "why_tests_cant": "As for C10: unbounded family of likelihood oracles.", "anchors": ["src/mssm/src/python/gamm_solvers.py:correct_coef_step_gammlss", "src/mssm/src/python/gamm_solvers.py:correct_coef_step_gen_smooth"]}
{"id": "C12", "title": "Updating family parameters never lowers the log-likelihood", "statement": "The update of a family's extra parameters returns parameters whose log-likelihood is at least that of the parameters passed in, and always stops.", "quantifier": "every log-likelihood function, gradient and Hessian", "why_tests_cant": "Quantifies over all likelihood oracles.", "anchors": ["src/mssm/src/python/gamm_solvers.py:updateTheta"]}
{"id": "C13", "title": "The line search returns a step with sufficient decrease or reports failure", "statement": "The back-tracking line search returns either nothing or a positive step length that is the first power of one half times the initial one meeting the sufficient increase condition, after a bounded number of evaluations.", "quantifier": "every objective function, starting point, direction and gradient", "why_tests_cant": "Quantifies over all objective functions.", "anchors": ["src/mssm/src/python/gamm_solvers.py:back_track_alpha"]}
{"id": "C14", "title": "Smoothing parameter step control keeps parameters, steps and fixed parameters consistent", "statement": "During step control of the smoothing parameters the current parameter always equals the previous accepted parameter plus the current step, a rejected step is repeatedly halved towards the previous parameter, and the loop ends.", "quantifier": "every sequence of gradient checks returned by the model", "why_tests_cant": "Invariant over all executions of a loop with oracle-controlled exits.", "anchors": ["src/mssm/src/python/gamm_solvers.py:correct_lambda_step"]}
{"id": "C15", "title": "Quasi-Newton memory is a sliding window", "statement": "The quasi-Newton update memory never holds more than the configured number of pairs, holds the most recent accepted pairs in order, and keeps steps and gradient differences paired.", "quantifier": "every sequence of update pairs and every memory limit", "why_tests_cant": "Histories are unbounded.", "anchors": ["src/mssm/src/python/gamm_solvers.py:update_ys_qefs"]}
{"id": "C16", "title": "The AR(1) transform whitens the residuals series by series", "statement": "For every auto-correlation |rho| < 1 and every division of the rows into series, the transform built for an AR(1) model, applied to residuals that follow a stationary AR(1) process within and are independent between series, yields uncorrelated residuals of equal variance; and the log-likelihood correction equals the log-determinant of the transform.", "quantifier": "every rho in (-1,1), every number of rows, every set of series start rows (no missing values)", "why_tests_cant": "An algebraic identity in rho for matrices of every size.", "anchors": ["src/mssm/src/python/utils.py:computeAr1Chol"]}
{"id": "C17", "title": "Missing values do not glue separate series together", "statement": "If rows are excluded because the response is missing, the AR(1) transform still treats the remaining rows of different series as independent and the first remaining row of every series as a series start.", "quantifier": "every pattern of missing rows and every division into series", "why_tests_cant": "Depends on where the missing values lie; a test with a complete series or a missing value inside a series passes.", "anchors": ["src/mssm/src/python/utils.py:computeAr1Chol", "src/mssm/models.py:GAMM.fit"]}
{"id": "C18", "title": "The AR(1) correction enters every log-likelihood with the sign of the change of variables", "statement": "The log-likelihood reported for a model with AR(1) residuals is the log-density of the untransformed response: the density of the transformed response plus the log-determinant of the transform, for additive models and for hidden semi-Markov models alike.", "quantifier": "every rho, every series layout, every residual vector", "why_tests_cant": "A wrong sign changes the value smoothly; there is no reference value in a test.", "anchors": ["src/mssm/models.py:GAMM.get_llk", "src/mssm/src/python/hsmm.py:HSMMFamily.llk", "src/mssm/src/python/utils.py:computeAr1Chol"]}
{"id": "C19", "title": "Link functions and their inverses undo each other", "statement": "For every provided link, the inverse applied to the link gives back every admissible mean and the link applied to the inverse gives back every linear predictor; the inverse always returns an admissible mean.", "quantifier": "every admissible mean and every linear predictor", "why_tests_cant": "Real-valued identity over an infinite domain.", "anchors": ["src/mssm/src/python/exp_fam.py:Logit", "src/mssm/src/python/exp_fam.py:Identity", "src/mssm/src/python/exp_fam.py:LOG", "src/mssm/src/python/exp_fam.py:LOGb"]}
{"id": "C20", "title": "Link derivatives are the derivatives of the link", "statement": "For every provided link the first and second derivative functions return the first and second derivative of the link at every admissible mean.", "quantifier": "every admissible mean", "why_tests_cant": "Analytic derivative identity; finite differences only approximate it at chosen points.", "anchors": ["src/mssm/src/python/exp_fam.py:Logit", "src/mssm/src/python/exp_fam.py:Identity", "src/mssm/src/python/exp_fam.py:LOG", "src/mssm/src/python/exp_fam.py:LOGb"]}
{"id": "C21", "title": "Deviances are non-negative and vanish only at a perfect fit", "statement": "For every exponential family provided, the deviance contribution is non-negative for every admissible response and mean, is zero if and only if they are equal, and equals twice the scaled difference between saturated and model log-likelihood.", "quantifier": "every admissible response and mean", "why_tests_cant": "An inequality over a continuum, including boundary responses 0 and 1.", "anchors": ["src/mssm/src/python/exp_fam.py:Gaussian", "src/mssm/src/python/exp_fam.py:Gamma", "src/mssm/src/python/exp_fam.py:InvGauss", "src/mssm/src/python/exp_fam.py:Poisson", "src/mssm/src/python/exp_fam.py:Binomial"]}
{"id": "C22", "title": "Variance functions are positive and their derivatives correct", "statement": "For every exponential family provided, the variance function is positive at every admissible mean and the derivative function is its derivative.", "quantifier": "every admissible mean", "why_tests_cant": "Continuum of means.", "anchors": ["src/mssm/src/python/exp_fam.py:Family.V", "src/mssm/src/python/exp_fam.py:Family.dVy1"]}
{"id": "C23", "title": "Newton weights and working responses are the ones of the log-likelihood", "statement": "The Newton working weights equal minus scale times the second derivative of an observation's log-likelihood with respect to its linear predictor, and weight times (working response - linear predictor) equals scale times the first derivative; the Fisher weights equal their expectation and coincide with them for canonical links.", "quantifier": "every exponential family and link that is twice differentiable, every admissible observation, mean and linear predictor", "why_tests_cant": "A calculus identity over all families, links and points.", "anchors": ["src/mssm/src/python/gamm_solvers.py:PIRLS_newton_weights", "src/mssm/src/python/gamm_solvers.py:PIRLS_pdat_weights"]}
{"id": "C24", "title": "Derivatives with respect to means are correctly transformed to linear predictors", "statement": "First, pure second and mixed second derivatives of a log-likelihood with respect to distribution parameters are transformed into the derivatives with respect to the linear predictors.", "quantifier": "every twice differentiable log-likelihood and all smooth strictly monotone links", "why_tests_cant": "Chain-rule identity for arbitrary functions.", "anchors": ["src/mssm/src/python/gamm_solvers.py:deriv_transform_mu_eta"]}
{"id": "C25", "title": "Multinomial category probabilities form a distribution and scores are derivatives", "statement": "For every vector of linear predictors the category probabilities are positive, sum to one, the log-likelihood is the log of the observed category's probability, and the returned first and second derivatives are its derivatives.", "quantifier": "every number of categories, every vector of positive means, every observed category", "why_tests_cant": "Number of categories and real arguments unbounded.", "anchors": ["src/mssm/src/python/exp_fam.py:MULNOMLSS"]}
{"id": "C26", "title": "Location-scale families return the derivatives of their log-likelihood", "statement": "The Gaussian and Gamma location-scale families return the exact first derivatives of their own log-likelihood with respect to mean and scale parameters, and second derivatives equal to the second derivatives or their expectation.", "quantifier": "every admissible observation, mean and standard deviation/scale", "why_tests_cant": "Analytic identity.", "anchors": ["src/mssm/src/python/exp_fam.py:GAUMLSS", "src/mssm/src/python/exp_fam.py:GAMMALS"]}
{"id": "C27", "title": "The scaled t family returns the derivatives of its deviance", "statement": "The scaled t family's deviance is non-negative, vanishes at a perfect fit and the returned derivatives with respect to mean and shape parameters are its derivatives.", "quantifier": "every response, mean, degrees of freedom above the bound and scale", "why_tests_cant": "Analytic identity.", "anchors": ["src/mssm/src/python/exp_fam.py:ScaledT"]}
{"id": "C28", "title": "Treating a single-parameter family as a general smooth family keeps the gradient", "statement": "When a model with an exponential or extended single-parameter family is fitted as a general smooth model, the gradient that is handed to the optimiser is the gradient of the log-likelihood with respect to the coefficients, for every link.", "quantifier": "every provided family, every provided link, every model matrix, response and coefficient vector", "why_tests_cant": "With the default identity link the wrong formula is right, so tests on the default pass.", "anchors": ["src/mssm/src/python/utils.py:GAMLSSGSMMFamily.gradient"]}
{"id": "C29", "title": "The multivariate Gaussian parameterises every precision matrix once and scores it correctly", "statement": "The parameter vector of the multivariate Gaussian family fills the upper triangular Cholesky factor bijectively, the log-determinant used in the likelihood is the log-determinant of that factor, and the returned gradient is the gradient of the log-likelihood with respect to the coefficients for all links the user may pass.", "quantifier": "every dimension, every parameter vector, every list of links", "why_tests_cant": "Indices for all dimensions; links other than the identity are never exercised.", "anchors": ["src/mssm/src/python/exp_fam.py:MultiGauss"]}
{"id": "C30", "title": "The proportional hazards likelihood is the partial likelihood", "statement": "The log-likelihood of the proportional hazards family equals the Breslow partial likelihood: for every event, its linear predictor minus the log of the sum of exp(linear predictor) over all subjects with an event or censoring time at least as large.", "quantifier": "every number of subjects, every pattern of event times, ties and censoring", "why_tests_cant": "The single-pass accumulation must be right for every tie and censoring pattern.", "anchors": ["src/mssm/src/python/exp_fam.py:PropHaz.llk", "src/mssm/src/cpp/hazard.cpp:llk2"]}
{"id": "C31", "title": "The proportional hazards gradient is the gradient of that likelihood", "statement": "The gradient computed in a single pass equals the derivative of the partial log-likelihood with respect to each coefficient.", "quantifier": "every number of subjects, ties, censoring patterns, model matrices and coefficients", "why_tests_cant": "As C30.", "anchors": ["src/mssm/src/python/exp_fam.py:PropHaz.gradient", "src/mssm/src/cpp/hazard.cpp:grad2"]}
{"id": "C32", "title": "Survival predictions use the risk accumulated up to the requested time", "statement": "The estimated baseline cumulative hazard is non-negative and non-decreasing in time, and the survival estimate for a requested time uses the cumulative hazard of the last event time not later than the request.", "quantifier": "every data set and requested time", "why_tests_cant": "Depends on the position of the requested time relative to an arbitrary grid of event times.", "anchors": ["src/mssm/src/python/exp_fam.py:PropHaz.get_baseline_hazard", "src/mssm/src/python/exp_fam.py:PropHaz.get_survival"]}
{"id": "C33", "title": "The derivative of the Cholesky factor is the derivative of the Cholesky factor", "statement": "Given the Cholesky factor of a matrix and the matrix's derivative, the routine returns the triangular matrix that satisfies the differentiated factorisation.", "quantifier": "every size, every factor with non-zero diagonal, every symmetric derivative", "why_tests_cant": "In-place recurrence over matrices of every size.", "anchors": ["src/mssm/src/cpp/dchol.cpp:dChol"]}
{"id": "C34", "title": "Quasi-Newton matrices satisfy the secant equation", "statement": "The compact symmetric rank-one representation of Hessian and inverse Hessian is symmetric, reproduces the most recent update pair exactly and the two representations are inverse to one another.", "quantifier": "every memory size, every list of update pairs for which the inner matrix is invertible", "why_tests_cant": "Matrix identity for all sizes.", "anchors": ["src/mssm/src/python/compact_rep.py:computeVSR1", "src/mssm/src/python/compact_rep.py:computeHSR1"]}
{"id": "C35", "title": "The penalised quasi-Newton inverse is the inverse of the penalised quasi-Newton matrix", "statement": "Adding the penalty to the quasi-Newton approximation through successive low-rank updates yields the inverse of approximation plus penalty.", "quantifier": "every approximation, penalty root and memory for which the inner matrices are invertible", "why_tests_cant": "Matrix identity for all sizes.", "anchors": ["src/mssm/src/python/compact_rep.py:computeSVPS"]}
{"id": "C36", "title": "The Newton step solves the penalised system it is meant to solve", "statement": "The coefficient step taken by the multi-parameter solver satisfies (preconditioned, ridge-augmented) negative penalised Hessian times step = penalised gradient, and the returned inverse root reproduces the inverse in the original coefficient order.", "quantifier": "every Hessian and penalty for which a pivoted factorisation exists", "why_tests_cant": "Involves permutation and diagonal preconditioning; mistakes cancel for unpermuted examples.", "anchors": ["src/mssm/src/python/gamm_solvers.py:newton_coef_smooth", "src/mssm/src/python/matrix_solvers.py:compute_eigen_perm", "src/mssm/src/python/matrix_solvers.py:apply_eigen_perm"]}
{"id": "C37", "title": "Posterior samples have the posterior mean and covariance", "statement": "Samples of coefficients are the posterior mean plus a linear map of independent standard normal draws whose matrix times its transpose is scale times the inverse penalised Hessian, in original coefficient order, whether a Cholesky factor or its inverse is given.", "quantifier": "every factor, permutation, scale and subset of coefficients", "why_tests_cant": "Distributional claim; a test only sees samples.", "anchors": ["src/mssm/src/python/utils.py:sample_MVN"]}
{"id": "C38", "title": "Column permutations from the factorisation are undone exactly", "statement": "Applying the permutation returned by the sparse factorisation and its transpose returns every matrix and vector to its original order.", "quantifier": "every permutation of every size, every matrix", "why_tests_cant": "All permutations of all sizes.", "anchors": ["src/mssm/src/python/matrix_solvers.py:compute_eigen_perm", "src/mssm/src/python/matrix_solvers.py:apply_eigen_perm", "src/mssm/src/python/matrix_solvers.py:translate_sparse"]}
{"id": "C39", "title": "Identifiability constraints centre every smooth and lose exactly one column", "statement": "After absorbing a sum-to-zero constraint every column of the model matrix of a univariate smooth or of a full tensor product (te) sums to zero over the data used to build it, for tensor interactions (te=False) every marginal does; the smooth can still represent every function that sums to zero, the number of columns drops by one, and the penalty follows the same change of coefficients.", "quantifier": "every model matrix and orthogonal factor", "why_tests_cant": "Linear-algebraic claim over all matrices.", "anchors": ["src/mssm/src/python/terms.py:f.absorb_repara", "src/mssm/src/python/formula.py:Formula.__absorb_constraints"]}
{"id": "C40", "title": "The hidden semi-Markov forward pass sums over all segmentations", "statement": "The likelihood computed by the scaled forward recursion equals the sum, over all ways of dividing a series into stages with durations, of initial, transition, duration and emission probabilities, for every combination of boundary options.", "quantifier": "every series length, number of states, maximum duration, probability tables and boundary options", "why_tests_cant": "The number of segmentations is exponential; brute force is only feasible for tiny series.", "anchors": ["src/mssm/src/cpp/hsmm/llk.cpp:llk"]}
{"id": "C41", "title": "Viterbi decoding returns a most probable segmentation", "statement": "If any segmentation of the series is possible, the decoded state sequence and the remaining duration describe one segmentation, and no other segmentation has a larger probability.", "quantifier": "every series length, number of states, durations and probability tables", "why_tests_cant": "Optimality over an exponential set.", "anchors": ["src/mssm/src/cpp/hsmm/decode.cpp:viterbi"]}
{"id": "C42", "title": "Backward sampling draws from the posterior over segmentations", "statement": "The weights used at each backward sampling step are proportional to the posterior probability of the previous stage given everything sampled so far.", "quantifier": "every series length, tables, and random draws", "why_tests_cant": "Distributional claim.", "anchors": ["src/mssm/src/cpp/hsmm/decode.cpp:sample_backwards"]}
{"id": "C43", "title": "Transition and initial state probabilities are probabilities and belong to their own series", "statement": "For every series the transition rows sum to one with zero self-transition and the initial probabilities sum to one, and series k is evaluated with the k-th matrices, no matter whether series are processed serially or in parallel.", "quantifier": "every number of series, states and parameter values", "why_tests_cant": "The wrong series' matrices are still valid probabilities; a test with one series or equal series passes.", "anchors": ["src/mssm/src/python/hsmm.py:HSMMFamily.compute_Tpi"]}
{"id": "C44", "title": "Every term contributes as many columns as it reports coefficients", "statement": "For every term type, with and without factor-by, penalised or not, the number of columns that the term adds to the model matrix equals the number of coefficients the model allots to it and the number of coefficient names, and the terms' columns tile the matrix in the order of the coefficient vector.", "quantifier": "every formula: any number and kind of terms, any number of factor levels, any basis size", "why_tests_cant": "The combinations of term type, by-variable, number of levels and constraint are unbounded.", "anchors": ["src/mssm/src/python/terms.py:f.get_coef_info", "src/mssm/src/python/terms.py:f.build_matrix", "src/mssm/src/python/terms.py:get_linear_coef_info", "src/mssm/src/python/terms.py:build_linear_term", "src/mssm/src/python/terms.py:irf.get_coef_info", "src/mssm/src/python/formula.py:Formula.__get_coef_info"]}
{"id": "C45", "title": "Dropping a basis column removes that column for every factor level", "statement": "If a coefficient is dropped from a smooth's basis for identifiability, the remaining model matrix consists of the other columns, for every level of a by-factor.", "quantifier": "every number of columns, levels and dropped index", "why_tests_cant": "The error is confined to certain dropped positions.", "anchors": ["src/mssm/src/python/terms.py:f.build_matrix"]}
{"id": "C46", "title": "Penalties tile the coefficient vector", "statement": "The start positions of the penalties built for a formula lie inside the coefficient range of their own term, different terms' penalties never overlap, and unpenalised terms advance the position by exactly their coefficient number.", "quantifier": "every formula", "why_tests_cant": "Unbounded combinations of terms.", "anchors": ["src/mssm/src/python/formula.py:build_penalties", "src/mssm/src/python/terms.py:f.build_penalty", "src/mssm/src/python/terms.py:ri.build_penalty", "src/mssm/src/python/terms.py:rs.build_penalty", "src/mssm/src/python/terms.py:irf.build_penalty"]}
{"id": "C47", "title": "Factor coding is a bijection between levels and codes", "statement": "Encoding a factor column assigns one code to every level, codes are consecutive from zero, and decoding returns the original level of every row.", "quantifier": "every column of values", "why_tests_cant": "All columns.", "anchors": ["src/mssm/src/python/formula.py:Formula.__encode_var"]}
{"id": "C48", "title": "Dummy coding of linear terms spans the cell means", "statement": "For factor predictors, with an intercept every level but the first gets one indicator column, without an intercept every level of the first factor gets one; rows of the same level get the same values and different levels different ones.", "quantifier": "every number of levels and every combination of interacting factors and numeric predictors", "why_tests_cant": "Unbounded number of levels and interactions.", "anchors": ["src/mssm/src/python/terms.py:build_linear_term", "src/mssm/src/python/terms.py:get_linear_coef_info"]}
{"id": "C49", "title": "li() expands to all interactions once", "statement": "The interaction helper returns one linear term for every non-empty subset of the variables, without repetition, main effects first.", "quantifier": "every list of variables", "why_tests_cant": "Number of subsets grows without bound.", "anchors": ["src/mssm/src/python/terms.py:li"]}
{"id": "C50", "title": "Splitting work over processes or files does not change the result", "statement": "Cross products and linear predictors computed block-wise over processes or files equal those computed in one piece, for every number of processes.", "quantifier": "every number of rows, files and processes", "why_tests_cant": "All splits.", "anchors": ["src/mssm/src/python/gamm_solvers.py:form_cross_prod_mp", "src/mssm/src/python/gamm_solvers.py:read_XTX", "src/mssm/src/python/gamm_solvers.py:keep_XTX", "src/mssm/src/python/gamm_solvers.py:read_eta", "src/mssm/src/python/gamm_solvers.py:keep_eta"]}
{"id": "C51", "title": "The file cache survives repeated fits and crashes", "statement": "Setting up and clearing the cache leaves the working directory as before, and a fit that crashed between the two does not prevent the next fit.", "quantifier": "every sequence of fits and every crash point", "why_tests_cant": "Crash points.", "anchors": ["src/mssm/src/python/file_loading.py:setup_cache", "src/mssm/src/python/file_loading.py:clear_cache"]}
{"id": "C52", "title": "Parameter vectors are split consistently", "statement": "Splitting the coefficient vector by distribution parameter and concatenating the pieces is the identity, each piece has as many elements as its model matrix has columns, and asking for one parameter's coefficients returns exactly its piece.", "quantifier": "every number of parameters and coefficients", "why_tests_cant": "All sizes.", "anchors": ["src/mssm/models.py:GSMM.get_pars", "src/mssm/src/python/gamm_solvers.py:drop_terms_X"]}
{"id": "C53", "title": "Predictions are linear in the coefficients and additive over terms", "statement": "The prediction for a set of terms is the sum of the predictions for each of them, and the difference prediction is antisymmetric in the two data sets, with the standard error of the difference.", "quantifier": "every formula, set of terms and data set", "why_tests_cant": "All subsets of terms.", "anchors": ["src/mssm/models.py:GAMM.predict", "src/mssm/models.py:GAMM.predict_diff", "src/mssm/src/python/formula.py:build_model_matrix"]}
{"id": "C54", "title": "Refitting a model forgets the previous fit's options", "statement": "After fit() is called again with other options, log-likelihood and residuals refer to the latest fit only.", "quantifier": "every sequence of fit calls and option values", "why_tests_cant": "Histories of calls are unbounded.", "anchors": ["src/mssm/models.py:GAMM.fit", "src/mssm/models.py:GAMM.get_llk", "src/mssm/models.py:GAMM.get_resid"]}
{"id": "C55", "title": "Simulated confidence intervals use every coefficient the prediction depends on", "statement": "The multiplier for whole-function intervals is computed from the posterior of all coefficients with a non-zero column in the prediction matrix and the caller's interval is not altered.", "quantifier": "every prediction matrix", "why_tests_cant": "Only fails if columns cancel.", "anchors": ["src/mssm/src/python/utils.py:adjust_CI"]}
{"id": "C56", "title": "Comparing two models the other way round flips the sign", "statement": "Swapping the two models in a comparison negates the AIC difference, the signed test statistic and the difference in degrees of freedom, exchanges the values reported per model, and does not change p-value or decision. Each AIC is -2 llk + 2 k, where k counts the model's degrees of freedom and all its other estimated parameters.", "quantifier": "every pair of fitted models", "why_tests_cant": "The outcome for the swapped pair is a second run with other branches; it depends on options resolved from one model, on which family estimates theta and on the order of likelihoods, for all pairs.", "anchors": ["src/mssm/src/python/compare.py:compare_CDL"]}
{"id": "C57", "title": "Effective degrees of freedom add up", "statement": "The total effective degrees of freedom equal the number of coefficients minus the penalties' shares, terms' degrees of freedom add up to the total, and each lies between the term's null space dimension and its number of coefficients.", "quantifier": "every model", "why_tests_cant": "Linear-algebra invariant over all models.", "anchors": ["src/mssm/src/python/gamm_solvers.py:calculate_edf", "src/mssm/src/python/gamm_solvers.py:calculate_term_edf"]}
{"id": "C58", "title": "Priors on smoothing parameters repair invalid values into their support", "statement": "The log density of a uniform prior is that of a uniform distribution on its support. make_valid leaves values within the support alone and returns a value with non-zero prior density for every input.", "quantifier": "every vector of log smoothing parameters and every choice of bounds", "why_tests_cant": "Fails only for bounds that do not straddle zero.", "anchors": ["src/mssm/src/python/utils.py:MVUniformRhoPrior", "src/mssm/src/python/utils.py:CenteredUniformRhoPriors"]}
{"id": "C59", "title": "B-spline bases are a local partition of unity", "statement": "Inside the knot range each row of the B-spline basis is non-negative, sums to one and has at most degree+1 non-zero entries.", "quantifier": "every degree, number of basis functions, range and evaluation point", "why_tests_cant": "Recursion over degree on a real domain.", "anchors": ["src/mssm/src/python/smooths.py:B_spline_basis", "src/mssm/src/python/smooths.py:bbase", "src/mssm/src/python/smooths.py:tpower"]}
{"id": "C60", "title": "Impulse response smooths shift with their events and superpose", "statement": "The response to several events is the sum of the responses to each, an event's response starts at the event, and moving an event by k samples moves the response by k samples.", "quantifier": "every series length, event positions and basis", "why_tests_cant": "All positions, including near the end of the series.", "anchors": ["src/mssm/src/python/smooths.py:convolve_event", "src/mssm/src/python/terms.py:build_ir_smooth_series"]}
{"id": "C61", "title": "The assembled Hessian is the symmetric matrix of second derivatives", "statement": "The Hessian assembled from per-observation derivatives is symmetric, equals X_i^T diag(d2_ij) X_j in block (i,j) and has one row and column per coefficient.", "quantifier": "every number of parameters and every set of model matrices", "why_tests_cant": "Shape failure only for all-zero trailing columns.", "anchors": ["src/mssm/src/python/gamm_solvers.py:deriv_transform_eta_beta"]}
{"id": "C62", "title": "Dropping unidentifiable coefficients keeps every vector aligned", "statement": "After coefficients are dropped during estimation, model matrices, split positions, coefficients (including a family's extra parameters) refer to the same remaining coefficients.", "quantifier": "every set of dropped coefficients and number of parameters", "why_tests_cant": "All subsets.", "anchors": ["src/mssm/src/python/gamm_solvers.py:drop_terms_X", "src/mssm/src/python/gamm_solvers.py:check_drop_valid_gensmooth", "src/mssm/src/python/gamm_solvers.py:handle_drop_gsmm"]}
{"id": "C63", "title": "Trace terms are attributed to the right smoothing parameter", "statement": "The trace terms that update the smoothing parameters are listed in the order of the smoothing parameters: entry i belongs to smoothing parameter i, and for a shared smoothing parameter it is the sum over the penalties sharing it.", "quantifier": "every list of penalties a model can have, with any pattern of shared ids", "why_tests_cant": "Misalignment needs particular combinations of by-smooths, several penalties and shared ids.", "anchors": ["src/mssm/src/python/gamm_solvers.py:calculate_edf", "src/mssm/src/python/penalties.py:combine_shared_penalties", "src/mssm/src/python/penalties.py:split_shared_penalties"]}
{"id": "C64", "title": "Step control counts every observation", "statement": "Step control never accepts coefficients for which the predicted mean of some observation is undefined.", "quantifier": "every evaluation outcome, every previous and proposed coefficient vector", "why_tests_cant": "Overflow for single observations is hard to provoke and to notice in tests.", "anchors": ["src/mssm/src/python/gamm_solvers.py:correct_coef_step", "src/mssm/src/python/exp_fam.py:Logit.fi"]}
{"id": "C65", "title": "The model returned by smoothing parameter step control belongs to the returned smoothing parameters", "statement": "The coefficients and covariance returned with a set of smoothing parameters by step control were estimated with these smoothing parameters.", "quantifier": "every sequence of refits, with and without accelerated steps", "why_tests_cant": "Needs a particular sequence of accelerated steps, a rejection, and a small remaining step.", "anchors": ["src/mssm/src/python/gamm_solvers.py:correct_lambda_step", "src/mssm/src/python/gamm_solvers.py:extend_lambda_step", "src/mssm/src/python/gamm_solvers.py:undo_extension_lambda_step"]}
{"id": "C66", "title": "Expected values inside bumps are transformed like the responses", "statement": "In a hidden semi-Markov model with AR(1) errors and bump-shaped expected signals, the expected values inside a bump are transformed with the same auto-correlation weight as the observed series, so that their difference is the innovation of the series around its expected values.", "quantifier": "every auto-correlation, every bump length and position", "why_tests_cant": "Signs of the auto-correlation and truncated bumps are rarely combined in tests.", "anchors": ["src/mssm/src/python/hsmm.py:compute_od_probs", "src/mssm/src/python/hsmm.py:HSMMFamily.llk"]}
{"id": "C67", "title": "Log-probabilities are the ones of the documented distribution", "statement": "For every exponential family the log-probability of an observation is the logarithm of the density (or probability) of the documented distribution whose mean is mu and whose variance is the scale times the variance function at mu.", "quantifier": "every admissible response, mean and scale", "why_tests_cant": "Parameterisations of the numeric library differ from the documented ones; equality on a continuum cannot be sampled.", "anchors": ["src/mssm/src/python/exp_fam.py:Gaussian.lp", "src/mssm/src/python/exp_fam.py:Gamma.lp", "src/mssm/src/python/exp_fam.py:InvGauss.lp", "src/mssm/src/python/exp_fam.py:Poisson.lp", "src/mssm/src/python/exp_fam.py:Binomial.lp"]}
{"id": "C68", "title": "Multinomial residual intervals are the category probabilities", "statement": "The interval from which the quantile residual of an observation is drawn has the probability of the observed category as its length, and the intervals of all categories fill the unit interval without overlap, in a fixed order.", "quantifier": "every number of categories and all positive means", "why_tests_cant": "Number of categories and means are unbounded; a residual is random, so single draws show little.", "anchors": ["src/mssm/src/python/exp_fam.py:MULNOMLSS.get_resid", "src/mssm/src/python/exp_fam.py:MULNOMLSS.lcp"]}
{"id": "C69", "title": "The multivariate Gaussian family's Hessian columns are second derivatives", "statement": "The columns of the Hessian a multivariate Gaussian family returns are the second derivatives of its log-likelihood, for mean coefficients and for the parameters of the Cholesky factor of the precision.", "quantifier": "every number of responses, observations and every parameter vector", "why_tests_cant": "Analytic identity over all dimensions; only off-diagonal parameters are affected.", "anchors": ["src/mssm/src/python/exp_fam.py:MultiGauss.jcolhessian"]}
{"id": "C70", "title": "Working weights of extended families", "statement": "For an extended family the Newton weights and working responses are those of minus half the deviance, and the Fisher weights are their expectations, in particular non-negative so that they have square roots.", "quantifier": "every link, response and mean", "why_tests_cant": "With the default identity link the remaining observed term vanishes, so tests on the default pass.", "anchors": ["src/mssm/src/python/gamm_solvers.py:PIRLS_pdat_weights", "src/mssm/src/python/gamm_solvers.py:PIRLS_newton_weights", "src/mssm/src/python/exp_fam.py:ScaledT"]}
{"id": "C71", "title": "Hazard predictions belong to the coefficients they are asked for", "statement": "Baseline hazards, survival estimates and residuals of a proportional hazards family are those of the coefficients and data passed in the call, whatever the family object was used for before.", "quantifier": "every sequence of calls on one family object", "why_tests_cant": "Depends on the history of calls; tests call each function once per object.", "anchors": ["src/mssm/src/python/exp_fam.py:PropHaz.get_baseline_hazard", "src/mssm/src/python/exp_fam.py:PropHaz.get_survival"]}
{"id": "C72", "title": "The proportional hazards Hessian is the Hessian of the partial likelihood", "statement": "Every entry of the Hessian computed in a single pass over the event times is the second derivative of the partial log-likelihood.", "quantifier": "every number of subjects, ties, censoring patterns, model matrices and coefficients", "why_tests_cant": "As C30.", "anchors": ["src/mssm/src/python/exp_fam.py:PropHaz.hessian", "src/mssm/src/cpp/hazard.cpp:hessian"]}
{"id": "C73", "title": "Martingale residuals compare events with accumulated risk and sum to zero", "statement": "The Martingale residual of a subject is its event indicator minus the cumulative hazard up to its time times exp(linear predictor), and the residuals of a data set sum to zero for every coefficient vector.", "quantifier": "every data set and coefficient vector", "why_tests_cant": "The sum is zero only if hazards and risk sets agree for every tie and censoring pattern.", "anchors": ["src/mssm/src/python/exp_fam.py:PropHaz.get_resid"]}
{"id": "C74", "title": "Standard errors of survival estimates follow from the covariance of the coefficients", "statement": "The standard error returned with a survival estimate is the square root of the variance of the cumulative hazard for known coefficients plus the quadratic form of the gradient of the survival estimate in the covariance matrix of the coefficients.", "quantifier": "every data set, event time, covariate vector and covariance matrix", "why_tests_cant": "Requires the derivative of the survival estimate in all coefficients.", "anchors": ["src/mssm/src/python/exp_fam.py:PropHaz.get_survival"]}
{"id": "C75", "title": "Quasi-Newton matrices stay positive", "statement": "With positive definiteness enforced, the quasi-Newton approximation has no direction of negative curvature (positive semi-definite), with the stronger option every non-zero direction has positive curvature, and directions that did not need correction keep their curvature.", "quantifier": "every memory, every initial scaling, every direction", "why_tests_cant": "Needs the eigen-decomposition of arbitrary memories.", "anchors": ["src/mssm/src/python/compact_rep.py:computeHSR1", "src/mssm/src/python/compact_rep.py:computeVSR1"]}
{"id": "C76", "title": "The structured quasi-Newton Hessian is the same in explicit and implicit form", "statement": "The four terms returned for later updating sum to the explicitly computed matrix; the known blocks appear unchanged at the positions of their coefficients, the approximated block is quasi-Newton Schur complement plus its correction, and the whole is positive semi-definite when the known block and the complement are.", "quantifier": "every partition and order of the coefficients, every block", "why_tests_cant": "Index placement depends on the partition; tests use one.", "anchors": ["src/mssm/src/python/compact_rep.py:computeSH"]}
{"id": "C77", "title": "Sparse matrices handed to C++ are the matrices python holds", "statement": "The (value, row, column) triplets extracted from a compressed column matrix describe the same matrix, including empty columns.", "quantifier": "every well-formed compressed column matrix", "why_tests_cant": "Empty columns and unsorted rows are rare in tests.", "anchors": ["src/mssm/src/python/matrix_solvers.py:translate_sparse"]}
{"id": "C78", "title": "Uncertainty about smoothing parameters is propagated through true derivatives", "statement": "The first correction term returned for the covariance matrix of the coefficients is J V J^T with J the derivatives of the coefficients with respect to the log smoothing parameters and V their covariance; the second term is the scale times that covariance propagated through the derivatives of the inverse Cholesky factor of the penalised Hessian.", "quantifier": "every number of coefficients and penalties, every covariance matrix and scale", "why_tests_cant": "Needs derivatives of matrix factors for every penalty structure; tests compare a number with a stored one.", "anchors": ["src/mssm/src/python/utils.py:compute_Vb_corr_WPS", "src/mssm/src/cpp/dchol.cpp:computeV2"]}
{"id": "C79", "title": "Derivatives of coefficients with respect to log smoothing parameters", "statement": "The derivatives of the coefficients used in the correction are the derivatives of the solution of the penalised system, with or without coefficients dropped as unidentifiable.", "quantifier": "every penalised system, scale and set of dropped coefficients", "why_tests_cant": "As C78.", "anchors": ["src/mssm/src/python/utils.py:compute_Vb_corr_WPS"]}
{"id": "C80", "title": "The derivative of an inverse Cholesky factor has the documented sign", "statement": "The C++ helper documented to return the derivative of the inverse factor returns that derivative.", "quantifier": "every differentiable family of positive definite matrices", "why_tests_cant": "A derivative of a function of a matrix; the sign cancels where the package uses it.", "anchors": ["src/mssm/src/cpp/dchol.cpp:invdChol"]}
{"id": "C81", "title": "Coefficient names identify the rows their columns belong to", "statement": "Wherever a column of the model matrix is non-zero, the row has the factor levels that the coefficient's name mentions, with or without a codebook.", "quantifier": "every term, data set and coding of factor levels", "why_tests_cant": "Names and columns are generated by separate loops; tests check few names.", "anchors": ["src/mssm/src/python/terms.py:f.get_coef_info", "src/mssm/src/python/terms.py:ri.get_coef_info", "src/mssm/src/python/terms.py:rs.get_coef_info", "src/mssm/src/python/terms.py:get_linear_coef_info"]}
{"id": "C82", "title": "Sparse identifiability constraints are a change of coefficients", "statement": "Dropping the middle coefficient (DROP) or differencing coefficients (DIFF) turns the model matrix X into XW, the penalty root D into W'D and the penalty S into W'SW for one and the same W; with a basis whose rows sum to one every function is still a constant plus a constrained function, and the constrained functions do not contain the constants.", "quantifier": "every basis, every position of the coefficient", "why_tests_cant": "Index arithmetic of rotations and differences for every size.", "anchors": ["src/mssm/src/python/terms.py:f.build_matrix", "src/mssm/src/python/penalties.py:DifferencePenalty.constructor", "src/mssm/src/python/formula.py:Formula.__absorb_constraints"]}
{"id": "C83", "title": "Decoding a series that no segmentation can explain stays within its arrays", "statement": "When every segmentation of a series has probability zero, for example because the series is too short to reach the last state, decoding raises an error or marks the states as unknown; it does not read outside its tables.", "quantifier": "every series without possible segmentation", "why_tests_cant": "Reading outside an array has no defined result; whether a test notices is chance.", "anchors": ["src/mssm/src/cpp/hsmm/decode.cpp:viterbi"]}
{"id": "C84", "title": "Differences penalise everything but polynomials", "statement": "A B-spline smooth whose coefficients have vanishing differences of order m (the null space of the difference penalty of order m) is one polynomial of degree below m over the whole range of the covariate.", "quantifier": "every degree, number of basis functions, range, order m up to degree+1 and coefficients", "why_tests_cant": "Needs all coefficient vectors in the null space and all covariate values; the argument is an induction over the degree.", "anchors": ["src/mssm/src/python/smooths.py:B_spline_basis", "src/mssm/src/python/smooths.py:bbase", "src/mssm/src/python/penalties.py:DifferencePenalty"]}
{"id": "C85", "title": "The response to an event depends on the time since the event", "statement": "In a regularly sampled series the contribution of an impulse response smooth at a sample is its response function at the time that has passed since the event, whatever the time at which the series starts.", "quantifier": "every series, sampling interval, start time and event", "why_tests_cant": "Tests use series that start at zero.", "anchors": ["src/mssm/src/python/terms.py:build_ir_smooth_series", "src/mssm/src/python/smooths.py:B_spline_basis"]}
{"id": "C86", "title": "Predictions for selected series use the events of these series", "statement": "Predicting with data that hold some of the series of the fitted data gives the fitted contribution of impulse response smooths to these series.", "quantifier": "every selection of series and every event positions", "why_tests_cant": "All selections; tests predict for all series or for one artificial series.", "anchors": ["src/mssm/models.py:GSMM.predict", "src/mssm/src/python/terms.py:irf.build_matrix"]}
{"id": "C87", "title": "The rows a model is fitted to do not depend on how the files are read", "statement": "A model estimated from files uses the same rows, with the same values, whether or not the encoded data are kept in memory (keep_cov), and these are the rows without missing values as read with the loading options given to the formula.", "quantifier": "every set of files, loading options and positions of missing values", "why_tests_cant": "Needs the file contents as a parameter; tests use complete files and default options.", "anchors": ["src/mssm/src/python/gamm_solvers.py:read_XTX", "src/mssm/src/python/gamm_solvers.py:read_eta", "src/mssm/src/python/gamm_solvers.py:solve_gamm_sparse2", "src/mssm/src/python/formula.py:Formula.encode_data"]}
{"id": "C88", "title": "What a formula learns from files is what it learns from the same data in memory", "statement": "Limits of numeric variables, levels of factors including the reference level, and identifiability constraints computed file by file are those computed from a data frame with the same rows.", "quantifier": "every set of files", "why_tests_cant": "Order of set iteration differs between runs, so a test passes by chance.", "anchors": ["src/mssm/src/python/file_loading.py:read_unique", "src/mssm/src/python/formula.py:_compute_constraint_single_MP", "src/mssm/src/python/formula.py:Formula.__absorb_constraints2", "src/mssm/src/python/formula.py:Formula.__encode_var"]}
{"id": "C89", "title": "P-values of smooth terms do not depend on the orientation of eigenvectors", "statement": "The statistic and p-value that approx_smooth_p_values returns for a smooth are determined by the model: they are the same whichever of the two opposite unit vectors the eigenvalue routine returns for each eigenvalue. For integer degrees of freedom k the statistic is the sum of the squared components of the fitted smooth along the first k eigenvectors, each divided by its eigenvalue (divided by k if the scale is estimated).", "quantifier": "every eigendecomposition, degrees of freedom, coefficient vector and reference distribution", "why_tests_cant": "The library returns one orientation on a given machine, so a test never sees the other.", "anchors": ["src/mssm/src/python/utils.py:approx_smooth_p_values"]}
{"id": "C90", "title": "Each smooth term is tested with, and listed with, its own coefficients and degrees of freedom", "statement": "approx_smooth_p_values tests every smooth of a formula with exactly the coefficients and the entry of term_edf that belong to it, and print_smooth_terms lists every smooth and random term with its own degrees of freedom.", "quantifier": "every formula: any number and order of linear, impulse response, smooth and random terms, penalised or not, with and without by-factors", "why_tests_cant": "Tests use formulas in which every smooth is penalised and there is no impulse response term.", "anchors": ["src/mssm/src/python/utils.py:approx_smooth_p_values", "src/mssm/src/python/utils.py:print_smooth_terms", "src/mssm/src/python/formula.py:Formula.__get_coef_info"]}
{"id": "C91", "title": "The gradient of a hidden semi-Markov model is the derivative of its log-likelihood", "statement": "Each element of HSMMFamily.gradient is the derivative of HSMMFamily.llk with respect to the corresponding coefficient, wherever the log-likelihood is finite: for coefficients of emission models (including ones shared between states and signals, and event models with or without an AR model), of durations, of transition probabilities and of initial probabilities, and summed over series.", "quantifier": "every number of states, durations, signals and series, every length of the series, every table of probabilities, restrictions at the ends of the series, and probabilities that vary over time or not", "why_tests_cant": "Finite differences check single models at single points with limited precision; models in which durations vary over time or in which bump models estimate transitions are not among them.", "anchors": ["src/mssm/src/python/hsmm.py:HSMMFamily.gradient", "src/mssm/src/cpp/hsmm/llk.cpp:llkgrad", "src/mssm/src/cpp/hsmm/llk.cpp:llkFTPgrad"]}
{"id": "C92", "title": "Leapfrog steps are reversible and preserve volume", "statement": "A leapfrog step of the NUTS sampler (leap_frog in mcmc.cpp) with step size -eps from the end of a step with step size eps returns exactly to its state and momentum, so that every point lies on exactly one trajectory; the step preserves areas spanned by displacements of state and momentum (it is symplectic). The returned gradient and log joint density are those of the new state.", "quantifier": "every dimension, metric, log joint density, gradient, step size, state and momentum, in exact arithmetic", "why_tests_cant": "A test can follow a few steps of one density; that the sampler leaves the posterior invariant relies on this for all densities and metrics.", "anchors": ["src/mssm/src/cpp/mcmc.cpp:leap_frog"]}
{"id": "C93", "title": "Recorded log densities belong to the recorded states", "statement": "advance_chain records one state and one log joint density per step, the density being that of the state recorded with it, and the chain continues from the last recorded pair; advancing a chain in several calls, as sample_mssm does, gives the same distribution of samples as advancing it in one call.", "quantifier": "every draw of momenta, slice variables and directions, every number of steps, every density, metric and setting of the sampler", "why_tests_cant": "The draws determine which of many branches is taken; a test sees the branches taken for a few seeds.", "anchors": ["src/mssm/src/cpp/mcmc.cpp:advance_chain", "src/mssm/src/python/mcmc.py:advance_chain_mssm"]}
{"id": "C94", "title": "Subtrees propose the points of their slice uniformly", "statement": "build_tree with depth j either visits all 2 ** j consecutive points of the trajectory and reports success, or reports failure, irrespective of random draws and of the direction in which it is built; if it succeeds, it counts the points in the slice and proposes each of them with the same probability, and returns the two ends and the summed momenta of its points.", "quantifier": "every depth, trajectory, slice, density and metric, with independent uniform draws", "why_tests_cant": "Uniformity is a statement about all draws; a test could only compare frequencies for one trajectory.", "anchors": ["src/mssm/src/cpp/mcmc.cpp:build_tree", "src/mssm/src/cpp/mcmc.cpp:check_dynamic_divergence"]}
{"id": "C95", "title": "Transitions of the sampler are symmetric within the slice", "statement": "Given the slice variable, the probability with which one step of advance_chain moves from a point of a trajectory to another is the same as the probability of moving back, whatever the termination criterion decides along the way; the next point lies in the slice, at most 2 ** max_j - 1 leapfrog steps away, and the uniform distribution over the points of a trajectory in the slice is left invariant. With C92 this is what makes the posterior the stationary distribution of the chain.", "quantifier": "every trajectory, density, metric, step size, slice and max_j, with independent uniform draws", "why_tests_cant": "Detailed balance cannot be observed in samples except asymptotically; a bias from a wrong acceptance rule or from a criterion that depends on the starting point would look like any other posterior.", "anchors": ["src/mssm/src/cpp/mcmc.cpp:advance_chain", "src/mssm/src/cpp/mcmc.cpp:build_tree", "src/mssm/src/cpp/mcmc.cpp:check_dynamic_divergence"]}
{"id": "C96", "title": "The step size is tuned by acceptance probabilities and then stays", "statement": "The statistic that tunes the step size is a mean of acceptance probabilities, hence between 0 and 1; the step size stays positive and does not change any more when the tuning phase is over. find_reasonable_epsilon returns a positive step size at which the acceptance ratio of a single step crosses one half.", "quantifier": "every density, metric, number of steps and draw; max_j > 0", "why_tests_cant": "Tests check that sampling finishes, not which step sizes were used.", "anchors": ["src/mssm/src/cpp/mcmc.cpp:advance_chain", "src/mssm/src/cpp/mcmc.cpp:find_reasonable_epsilon"]}
{"id": "C97", "title": "The restricted likelihood score is the one its formula describes", "statement": "get_reml and utils.REML return the log-likelihood minus half the penalty, plus half the logarithm of the generalised determinant of the total penalty over the scale, minus half the log-determinant of the penalised Hessian, plus half the dimension of the null space of the penalty times log(2 pi), whatever the smoothing parameters, the number of penalties per term, the number of blocks sharing a penalty and the position of unpenalised columns.", "quantifier": "every list of penalties, smoothing parameters, scale, coefficients and Hessian for which the penalised Hessian is positive definite", "why_tests_cant": "The score is only compared between models; a term that is missing or constant in the tested models is not noticed, and no closed form is available to compare with for general penalties.", "anchors": ["src/mssm/src/python/utils.py:REML", "src/mssm/src/python/repara.py:reparam"]}
{"id": "C98", "title": "Smoothing parameters follow the derivative of the restricted likelihood", "statement": "The number that grad_lambda computes from the traces of calculate_edf and compute_lgdetD_bsb is the derivative of the restricted likelihood of the fitted model with respect to the smoothing parameter, including the change of the coefficients with it; an unclipped Fellner-Schall update of a smoothing parameter goes in a direction in which the restricted likelihood increases.", "quantifier": "every design, response, list of penalties, smoothing parameter and scale for which the penalised Hessian is positive definite", "why_tests_cant": "A derivative is a statement about a limit; finite differences of a fitted model's score are contaminated by convergence tolerances, and only a few models can be tried.", "anchors": ["src/mssm/src/python/gamm_solvers.py:grad_lambda", "src/mssm/src/python/gamm_solvers.py:compute_lgdetD_bsb", "src/mssm/src/python/gamm_solvers.py:step_fellner_schall_sparse", "src/mssm/src/python/utils.py:REML"]}
{"id": "C99", "title": "The stabilising transform of a term's penalties only changes the basis", "statement": "reparam with option 4 returns for every term an orthonormal matrix Q, a range dimension r, the transformed penalties and their weighted sum: each transformed penalty is Q.T @ S_J @ Q, which is zero outside the first r coefficients, the sum is the sum of the transformed penalties times their smoothing parameters, and it is positive definite on these r coefficients. The loop over dominant penalties always ends with such a result.", "quantifier": "every number of positive semi-definite penalties of any size and any positive smoothing parameters", "why_tests_cant": "The loop runs through a different sequence of decompositions for every combination of penalties and smoothing parameters; tests see a few, and errors only matter when smoothing parameters differ by orders of magnitude.", "anchors": ["src/mssm/src/python/repara.py:reparam"]}
{"id": "C100", "title": "A model in the transformed coordinates is the same model", "statement": "reparam_model turns model matrices, coefficients and penalties into the stabilised coordinates: the linear predictor of every parameter is unchanged, the matrix Q_emb is orthonormal and the returned coefficients are Q_emb.T @ coef, every S_J_emb, its root D_J_emb and the total penalty describe the same penalties in that basis, so the penalty of the coefficients is unchanged; and undoing the transformation after fitting returns the coefficients, the penalty matrix and a covariance factor of the original coordinates.", "quantifier": "every number of parameters, terms, repeated blocks and unpenalised coefficients, every model matrix and coefficient vector", "why_tests_cant": "Errors in the position of a block only show for particular combinations of terms, parameters without penalised terms and repeated blocks; fitting still converges in wrong coordinates.", "anchors": ["src/mssm/src/python/repara.py:reparam_model", "src/mssm/src/python/repara.py:reparam", "src/mssm/src/python/gamm_solvers.py:correct_lambda_step_gamlss", "src/mssm/src/python/gamm_solvers.py:correct_lambda_step_gen_smooth"]}
{"id": "C101", "title": "The sampler's gradient is the gradient of the density it samples", "statement": "With sampled smoothing parameters the log-density passed to the sampler is the log-likelihood plus the log prior density of the log smoothing parameters plus the log normal density of the coefficients whose precision matrix is the total penalty (up to a constant), and the gradient passed to it is the gradient of that density in coefficients and log smoothing parameters together; with fixed smoothing parameters it is the gradient of the penalised log-likelihood.", "quantifier": "every likelihood with its gradient, every list of penalties, prior, coefficient vector and vector of log smoothing parameters", "why_tests_cant": "A gradient is a statement about a limit at every point; a gradient that is slightly wrong still gives chains that move and accept, with the wrong distribution.", "anchors": ["src/mssm/src/python/mcmc.py:sample_mssm", "src/mssm/src/python/gamm_solvers.py:compute_S_emb_pinv_det", "src/mssm/src/python/repara.py:reparam"]}
{"id": "C102", "title": "The sampled density belongs to the fitted model", "statement": "The coefficients of the fitted model are a stationary point of the density that sample_mssm samples, given the smoothing parameters and the scale of the fit, whether the smoothing parameters are sampled or held fixed and whether or not the family has a scale parameter.", "quantifier": "every fitted model (without make_proper), every scale and list of smoothing parameters", "why_tests_cant": "Samples from a density with another penalty look like samples from a posterior; the difference is only visible when compared with the density of the fitted model.", "anchors": ["src/mssm/src/python/mcmc.py:sample_mssm"]}
{"id": "C103", "title": "make_proper gives the documented proper prior", "statement": "sample_mssm(make_proper=True) adds to the model's own prior independent N(0, 1/lambda_0) priors on the coefficients of unpenalised terms and on the extra parameters, and a null-space penalty with weight lambda_0 on smooths that have none, and nothing else; the resulting prior is proper for all coefficients.", "quantifier": "every list of formulas and terms, every lambda_0 and list of values for the extra parameters", "why_tests_cant": "An improper prior or a prior that is too strong on some term gives chains that run without errors; whether the prior is proper is a statement about all directions of the coefficient space.", "anchors": ["src/mssm/src/python/mcmc.py:sample_mssm", "src/mssm/src/python/formula.py:build_penalties"]}
{"id": "C104", "title": "Stored samples are the chains' states after the warm-up", "statement": "Row k of lps, coefs, lscales, thetas and rhos of a SamplerResult belongs to the same step of the same chain; the rows are consecutive steps after the warm-up, in order, of chains that continue where they stood at its end; without automatic convergence there are n_iter of them, and they depend on n_steps only through the random numbers that calls of different length draw.", "quantifier": "every number of chains, iterations, warm-up steps, steps per call, every partition of the state into coefficients, scale or theta and log smoothing parameters, every transition function", "why_tests_cant": "Off-by-one errors at the borders of calls and of the warm-up depend on how n_steps, M_adapt and n_iter divide each other; samples are random, so a shifted or repeated row does not show.", "anchors": ["src/mssm/src/python/mcmc.py:sample_mssm", "src/mssm/src/python/mcmc.py:advance_chain_mssm", "src/mssm/src/python/custom_types.py:SamplerResult"]}
{"id": "C105", "title": "Sampling stops only when the returned samples meet the criteria", "statement": "With auto_converge sampling stops before n_iter only if the split chains of all monitored parameters in the returned samples meet the thresholds for effective sample size and Rhat and at least min_iter samples per chain are returned; convergence_type 0 monitors all parameters and the log-density, convergence_type 1 all fixed effects instead of all coefficients.", "quantifier": "every chain history, criterion (as a function of the half chains of a parameter), number of formulas and design matrices", "why_tests_cant": "Whether a stopping rule looks at the samples that are returned is not visible from a run that stops or does not stop.", "anchors": ["src/mssm/src/python/mcmc.py:check_convergence", "src/mssm/src/python/mcmc.py:sample_mssm"]}
{"id": "C106", "title": "All chains use the tuned step size after the warm-up", "statement": "After the warm-up every chain makes all its steps with the same step size, the mean of the chains' tuned step sizes; without a warm-up the step size found by the initial search is used.", "quantifier": "every number of chains, every transition function that keeps equal step sizes after the warm-up (C96), every n_steps", "why_tests_cant": "A step size that is wrong in some later call changes only the acceptance rate.", "anchors": ["src/mssm/src/python/mcmc.py:sample_mssm"]}
{"id": "C107", "title": "Forward residuals of hidden semi-Markov models are conditional probabilities", "statement": "The forward residual of an observation (before the normal transform) is the probability, given all earlier observations of the series, that the model assigns to a value at most as large as the observed one. It lies between 0 and 1, grows with the observation and reaches both limits.", "quantifier": "every series, number of states and signals, duration limit, bump or flat model, constant or time-varying probabilities, and every way a series may be required to end", "why_tests_cant": "The residual is a sum over exponentially many segmentations; tests compare stored numbers of a few fits.", "anchors": ["src/mssm/src/cpp/hsmm/resid.cpp:forward_resid", "src/mssm/src/python/hsmm.py:get_resid"]}
{"id": "C108", "title": "Predictive residuals of hidden semi-Markov models are standardised prediction errors", "statement": "The predictive residual at a time point is the sum of the prediction errors up to it divided by the root of the sum of their squares, where a prediction is the mean of the observation given all earlier ones, for each signal.", "quantifier": "every series, number of states and signals, with and without bumps and autoregressive noise", "why_tests_cant": "Predictions are averages over all segmentations; a test with one signal and one fit cannot notice means taken from the wrong signal.", "anchors": ["src/mssm/src/cpp/hsmm/resid.cpp:predictive_resid", "src/mssm/src/python/hsmm.py:get_resid"]}
{"id": "C109", "title": "Residuals of durations belong to the decoded segments", "statement": "The duration residual of a state is the average, over the segments that decoding the series gives for that state, of the residual of the segment's duration under the distribution the model uses for this segment; decoding uses the series' own data and probabilities.", "quantifier": "every decoded series and every set of series", "why_tests_cant": "Holds or fails depending on how the first, last and only segments, time-varying distributions and tables per series are combined.", "anchors": ["src/mssm/src/python/hsmm.py:_compute_dur_res_series", "src/mssm/src/python/hsmm.py:get_resid", "src/mssm/src/python/hsmm.py:decode_viterbi"]}
{"id": "C110", "title": "The QR solver penalises with a root of the total penalty", "statement": "The matrix appended to the model matrix when a model is fitted by a QR decomposition is a square root of the total penalty: its rows' inner products are the lambda-weighted sum of all penalties, so every coefficient is penalised exactly as the penalties say.", "quantifier": "every list of penalties: any number of terms, penalties per term, repetitions, shared smoothing parameters and unpenalised coefficients", "why_tests_cant": "The position of a block depends on all earlier terms; tests fit formulas in which every smooth is penalised.", "anchors": ["src/mssm/src/python/gamm_solvers.py:compute_S_emb_pinv_det"]}
{"id": "C111", "title": "Coefficients for given smoothing parameters minimise the penalised sum of squares", "statement": "For given smoothing parameters the coefficient update of an additive model returns coefficients that minimise the penalised sum of squares of the (weighted) model. Coefficients that cannot be told apart from others are dropped: as many as the rank falls short, they are zero, and no other minimiser with these zeros exists.", "quantifier": "every model matrix, response, total penalty, rank and pivoting chosen by the decomposition; QR and Cholesky", "why_tests_cant": "Which columns are moved and dropped is decided by the decomposition; tests see few models, nearly all of full rank.", "anchors": ["src/mssm/src/python/gamm_solvers.py:update_coef", "src/mssm/src/cpp/eigen_solvers.cpp:solve_coef_pqr2", "src/mssm/src/cpp/eigen_solvers.cpp:solve_coef"]}
{"id": "C112", "title": "The returned factor and inverse factor describe the kept coefficients", "statement": "After a coefficient update L L^T is the penalised cross-product matrix for the kept coefficients and zero for the dropped ones, and the inverse factor's cross-product inverts it, in the order of the columns of the model matrix.", "quantifier": "every model matrix, total penalty, rank and pivoting; QR and Cholesky", "why_tests_cant": "Two permutations, a selection and two embeddings have to cancel; errors only show with dropped columns.", "anchors": ["src/mssm/src/python/gamm_solvers.py:update_coef_and_scale", "src/mssm/src/python/gamm_solvers.py:update_scale_edf", "src/mssm/src/python/gamm_solvers.py:update_coef"]}
{"id": "C113", "title": "Offsets are part of the linear predictor throughout", "statement": "An offset passed to GAMM.fit is added to the linear predictor: coefficients are those that fit best around X coef + offset, the stored predictor is X coef + offset, residuals are differences from the fit with the offset, and the estimated scale depends on the offset only through the mean.", "quantifier": "every offset, response, model matrix, family, link; data in memory or read from files", "why_tests_cant": "Tests with offsets use one Poisson or Gaussian model in memory, where the scale is known or the offset can be subtracted.", "anchors": ["src/mssm/src/python/models.py:GAMM.fit", "src/mssm/src/python/gamm_solvers.py:update_scale_edf", "src/mssm/src/python/gamm_solvers.py:update_PIRLS"]}
{"id": "C114", "title": "The estimated scale is Pearson's", "statement": "The scale estimated for an additive model is Pearson's statistic over the rows that are used, divided by their number less the effective degrees of freedom; coefficients that were dropped as unidentifiable use none.", "quantifier": "every family with an unknown scale, response, mean, set of excluded rows and of dropped coefficients", "why_tests_cant": "It is computed from working residuals and weights, not from the definition; tests compare to one reference fit with all rows and coefficients.", "anchors": ["src/mssm/src/python/gamm_solvers.py:update_scale_edf", "src/mssm/src/python/exp_fam.py:est_scale"]}
{"id": "C115", "title": "The stored Hessian uses the expected weights of the rows that are used", "statement": "The Hessian stored by GAMM.fit for families other than Gaussian is minus X^T W X divided by the scale, with the expected weight of each row that is used and zero for excluded rows.", "quantifier": "every response, mean, model matrix, variance function, link and set of excluded rows", "why_tests_cant": "Rows are only excluded for unusual means; no test has any.", "anchors": ["src/mssm/src/python/gamm_solvers.py:solve_gamm_sparse", "src/mssm/src/python/gamm_solvers.py:PIRLS_pdat_weights", "src/mssm/src/python/models.py:GAMM.fit"]}
{"id": "C116", "title": "Stored predictors and means belong to the stored coefficients", "statement": "The linear predictor and means stored by GAMM.fit are X coef + offset, and the inverse link of that, for the stored coefficients.", "quantifier": "every model, family, number of outer and inner iterations, way of controlling smoothing parameters, and every course the fit takes", "why_tests_cant": "They are assigned at many places of three nested loops and agree after ordinary fits; which branch ends a fit depends on data and settings.", "anchors": ["src/mssm/src/python/gamm_solvers.py:solve_gamm_sparse", "src/mssm/src/python/gamm_solvers.py:correct_lambda_step", "src/mssm/src/python/gamm_solvers.py:correct_coef_step"]}
{"id": "C117", "title": "Predictors and likelihood of GAMMLSS belong to the coefficients", "statement": "The split coefficients, linear predictors, means, log-likelihood and penalised log-likelihood that coefficient estimation of a GAMMLSS returns are those of the returned coefficients in the model with all columns; coefficients reported as dropped are zero.", "quantifier": "every family, design, penalty, response, settings of the iteration, and every course of the iteration: steps accepted or halved, restarts, coefficients dropped before or during the call", "why_tests_cant": "Coefficients, columns and penalty are reduced and put back at several places of the loop; a test follows one such course, and with nothing dropped the reduced and the full model are the same.", "anchors": ["src/mssm/src/python/gamm_solvers.py:update_coef_gammlss", "src/mssm/src/python/gamm_solvers.py:handle_drop_gammlss", "src/mssm/src/python/gamm_solvers.py:check_drop_valid_gammlss", "src/mssm/src/python/gamm_solvers.py:restart_coef_gammlss"]}
{"id": "C118", "title": "Estimating coefficients never lowers the penalised log-likelihood", "statement": "The penalised log-likelihood at the coefficients that coefficient estimation of a GAMMLSS returns is not smaller than at the coefficients it was given.", "quantifier": "every family, design, penalty, response and settings", "why_tests_cant": "Violations need a restart or a step at the limit of the iterations; tests with well behaved data converge before.", "anchors": ["src/mssm/src/python/gamm_solvers.py:update_coef_gammlss", "src/mssm/src/python/gamm_solvers.py:handle_drop_gammlss", "src/mssm/src/python/gamm_solvers.py:check_drop_valid_gammlss", "src/mssm/src/python/gamm_solvers.py:restart_coef_gammlss"]}
{"id": "C119", "title": "The stored Hessian is that of the stored coefficients", "statement": "The Hessian, and the covariance factor computed from it, returned by coefficient estimation of a GAMMLSS are those of the log-likelihood at the returned coefficients.", "quantifier": "every family, design, penalty, response and settings", "why_tests_cant": "For a Gaussian response the Hessian does not depend on the mean, and after convergence the difference is as small as the last step.", "anchors": ["src/mssm/src/python/gamm_solvers.py:update_coef_gammlss", "src/mssm/src/python/gamm_solvers.py:handle_drop_gammlss", "src/mssm/src/python/gamm_solvers.py:check_drop_valid_gammlss", "src/mssm/src/python/gamm_solvers.py:restart_coef_gammlss"]}
{"id": "C120", "title": "Stored smoothing parameters of GAMMLSS and GSMM belong to the stored fit", "statement": "The smoothing parameters stored after GAMMLSS.fit or GSMM.fit are those with which the stored coefficients, total penalty and degrees of freedom were estimated.", "quantifier": "every model, settings of step control and acceleration, number of iterations, and every course of the fit", "why_tests_cant": "After convergence the last step is small, so a test with a tolerance sees no difference; other ends of the loop need particular settings or data.", "anchors": ["src/mssm/src/python/gamm_solvers.py:correct_lambda_step_gamlss", "src/mssm/src/python/gamm_solvers.py:solve_gammlss_sparse", "src/mssm/src/python/gamm_solvers.py:correct_lambda_step_gen_smooth", "src/mssm/src/python/gamm_solvers.py:solve_generalSmooth_sparse"]}
{"id": "C121", "title": "Smoothing parameters of GAMMLSS and GSMM stay in range, fixed ones stay fixed", "statement": "Throughout GAMMLSS.fit and GSMM.fit all smoothing parameters stay between 1e-7 and 1e7, and one that was set to be held fixed keeps its value.", "quantifier": "every model, settings of step control and acceleration, number of iterations, initial smoothing parameters in that range, and every course of the fit", "why_tests_cant": "Extensions, damping and rejections change steps in combinations that depend on the data; no finite set of fits covers them.", "anchors": ["src/mssm/src/python/gamm_solvers.py:correct_lambda_step_gamlss", "src/mssm/src/python/gamm_solvers.py:solve_gammlss_sparse", "src/mssm/src/python/gamm_solvers.py:correct_lambda_step_gen_smooth", "src/mssm/src/python/gamm_solvers.py:solve_generalSmooth_sparse"]}
{"id": "C122", "title": "The matrix behind the uncertainty of log smoothing parameters is the Hessian of the REML criterion", "statement": "The matrix Hp that compute_Vp_WPS returns and inverts (the negative of it is the precision of the log smoothing parameters used by correct_VB) holds the second derivatives of the restricted likelihood of the fitted model with respect to the log smoothing parameters.", "quantifier": "every model with normal observations, identity link and known scale, all penalties (several per term, repeated blocks, rank-deficient), smoothing parameters, data", "why_tests_cant": "There is no closed form to compare with; finite differences of a criterion that needs a fit per evaluation are inexact, and a factor on one of five terms in one kind of term does not show in the others.", "anchors": ["src/mssm/src/python/utils.py:compute_Vp_WPS", "src/mssm/src/python/repara.py:reparam"]}
{"id": "C123", "title": "Covariance matrices of log smoothing parameters are covariance matrices of what they are computed from", "statement": "The covariance matrix from compute_Vp_WPS is the inverse of the negative Hessian (a generalised inverse if that is not positive definite), the one from estimateVp is the weighted covariance of the candidates; both are positive semi-definite. The regularised version of either belongs to the precision with 0.1 added.", "quantifier": "every symmetric matrix, every set of candidates and non-negative weights, every exact eigenvalue decomposition", "why_tests_cant": "Indefinite matrices arise only for particular fits; that a matrix is the inverse or psd for all inputs cannot be sampled.", "anchors": ["src/mssm/src/python/utils.py:compute_Vp_WPS", "src/mssm/src/python/utils.py:updateVp", "src/mssm/src/python/utils.py:estimateVp"]}
{"id": "C124", "title": "Corrected covariance matrices are covariance matrices of coefficients under uncertain smoothing parameters", "statement": "The covariance matrix returned by correct_VB is positive semi-definite. For grid_type 'JJJ1' it is that of the fit plus what the uncertainty of the log smoothing parameters adds to first order, so that no linear combination of coefficients gets less uncertain; for 'JJJ2' the same on top of the average over the candidates (or of the fit's matrix); for 'JJJ3' it is the total covariance of the mixture of the candidates with weights that are a distribution and proportional to the exponentiated criterion, or the matrix of 'JJJ1'.", "quantifier": "every model, covariance of log smoothing parameters, set of candidates, criteria, derivative of the coefficients", "why_tests_cant": "The matrices are results of sampling; positive semi-definiteness and an ordering of matrices hold for all directions or not at all, and cannot be seen in single entries.", "anchors": ["src/mssm/src/python/utils.py:correct_VB"]}
{"id": "C125", "title": "Corrected degrees of freedom lie between those of the fit and their upper bound and belong to the coefficients", "statement": "The total degrees of freedom that correct_VB returns are at least those of the fit and at most 2 tr(F) - tr(FF), and the degrees of freedom of single coefficients add up to the total. The expected degrees of freedom are at least those of the fit.", "quantifier": "every model, covariance of log smoothing parameters, set of candidates and setting", "why_tests_cant": "The bound is only active for some samples of smoothing parameters, and which of the two branches is taken is random.", "anchors": ["src/mssm/src/python/utils.py:correct_VB"]}
{"id": "C126", "title": "Corrections do not depend on the number of processes", "statement": "correct_VB computes the same results from the same candidates of smoothing parameters, and skips the same candidates, for every number of processes n_c.", "quantifier": "every model, candidate, method and n_c", "why_tests_cant": "Candidates are sampled; results of two runs differ for that reason already, so that a difference that depends on n_c cannot be told from noise.", "anchors": ["src/mssm/src/python/utils.py:correct_VB", "src/mssm/src/python/utils.py:compute_reml_candidate_GAMM", "src/mssm/src/python/utils.py:_compute_VB_corr_terms_MP", "src/mssm/src/python/utils.py:compute_REML_candidate_GSMM"]}
{"id": "C127", "title": "Candidates of smoothing parameters account for the offset of the model", "statement": "For normal observations and the identity link the coefficients, scale, likelihood and criterion that are computed for a candidate of smoothing parameters in a model with an offset are those of the model for the observations minus the offset.", "quantifier": "every model matrix, data, offset, smoothing parameters, method and number of processes", "why_tests_cant": "Nothing fails when the offset is left out, the criterion is a number that users do not see.", "anchors": ["src/mssm/src/python/utils.py:compute_reml_candidate_GAMM", "src/mssm/src/python/utils.py:_compute_VB_corr_terms_MP", "src/mssm/src/python/utils.py:correct_VB"]}
{"id": "C128", "title": "States of simulated series follow the estimated semi-Markov model", "statement": "The sequence of states that HSMMFamily.predict simulates for a series has the probability that the model behind the log-likelihood assigns to it: the first state from pi, durations from the states' duration distributions, transitions from the transition matrix (of the time point before the new state for time-varying models).", "quantifier": "every number of states and time points, duration, transition and initial probabilities (constant or varying over time), every sequence of states", "why_tests_cant": "Simulated sequences are random; that all of them have the right probability cannot be seen in samples, a shift by one time point least of all.", "anchors": ["src/mssm/src/python/hsmm.py:HSMMFamily.predict"]}
{"id": "C129", "title": "Bumps of simulated series are those of the model", "statement": "In series that HSMMFamily.predict simulates from an HMP model every bump lasts event_width time points, and the mean of its k-th observation is the k-th value of the template times the magnitude.", "quantifier": "every HMP model without autoregressive residuals, template, magnitudes, random draws", "why_tests_cant": "The mean is covered by noise, and an index of -1 is valid in Python.", "anchors": ["src/mssm/src/python/hsmm.py:HSMMFamily.predict"]}
{"id": "C130", "title": "Simulated samples and series are independent of each other", "statement": "The samples that HSMMFamily.predict draws for one series are independent of each other, different series are simulated independently, and results do not depend on the number of processes.", "quantifier": "every model, number of samples, series and processes, every generator and seed", "why_tests_cant": "Independence is a statement about all draws; a test of one seed sees plausible sequences.", "anchors": ["src/mssm/src/python/hsmm.py:HSMMFamily.predict", "src/mssm/src/python/hsmm.py:HSMMFamily.sample_posterior_states"]}
{"id": "C131", "title": "Effective degrees of freedom of qEFS models belong to the quasi-Newton matrix", "statement": "For a model estimated with method 'qEFS' the total and the term-wise effective degrees of freedom are tr((H + S)^-1 H) and lambda_j tr((H + S)^-1 S_j), H being the quasi-Newton approximation that the stored update vectors define; they are available whatever was accepted into the memory, and the scale of the initial matrix is positive.", "quantifier": "every set of update vectors (sampled or collected along the path), penalties, smoothing parameters and numbers of coefficients", "why_tests_cant": "The covariance matrix is never formed: traces are computed column by column from low-rank factors, so a missing or misplaced factor changes the numbers without an error; memories that are empty, sampled or of mixed curvature occur in few fits.", "anchors": ["src/mssm/src/python/gamm_solvers.py:getImplicitV", "src/mssm/src/python/gamm_solvers.py:computetrVS3", "src/mssm/src/python/gamm_solvers.py:calculate_edf", "src/mssm/src/python/compact_rep.py:computeHSR1", "src/mssm/src/python/compact_rep.py:compute_omega"]}
{"id": "C132", "title": "The stored factors of qEFS models belong to the stored Hessian", "statement": "After a fit with method 'qEFS' the stored L and LV are the Cholesky factor of (-H + S) and its inverse for the stored Hessian H and the total penalty S, whether the factor was computed from the explicit matrix or by up- and downdating, and with or without second derivatives known for some columns.", "quantifier": "every set of update vectors, penalties, known columns, damping factors and sizes", "why_tests_cant": "Standard errors and samples of coefficients come from LV only; which of the two ways is taken depends on the number of stored vectors, and a wrong order of a permutation shows only for matrices that are really permuted.", "anchors": ["src/mssm/src/python/gamm_solvers.py:getExplicitnH", "src/mssm/src/python/gamm_solvers.py:getCholnH", "src/mssm/src/python/gamm_solvers.py:solve_generalSmooth_sparse", "src/mssm/src/python/compact_rep.py:computeSH"]}
{"id": "C133", "title": "Columns of the numeric Hessian are put in place once", "statement": "GSMMFamily.jhessian(jcols, ...) returns a symmetric matrix that agrees with the matrix of second derivatives in all rows and columns listed in jcols and is zero elsewhere; GSMMFamily.hessian returns the complete matrix.", "quantifier": "every number of coefficients, list of distinct columns in any order, and every column function", "why_tests_cant": "Sparse triplets of equal position are added, so an entry that two listed columns share may be counted twice; a test with one column or with all of them in order does not notice.", "anchors": ["src/mssm/src/python/exp_fam.py:GSMMFamily.jhessian", "src/mssm/src/python/exp_fam.py:GSMMFamily.hessian"]}
{"id": "C134", "title": "Known second derivatives are made positive without losing their structure", "statement": "makepdd_fd2llk returns a symmetric matrix with a positive semi-definite (with make_PD: definite) block for the known columns, its (pseudo-)inverse, and mixed derivatives in the range of the block, and leaves blocks unchanged that need no correction.", "quantifier": "every symmetric matrix, set of known columns, damping factor and threshold", "why_tests_cant": "The block is indefinite only far from the optimum; a mixed derivative outside of the range makes the penalised Hessian indefinite for directions no test looks at.", "anchors": ["src/mssm/src/python/gamm_solvers.py:makepdd_fd2llk"]}
{"id": "C135", "title": "Traces without an inverse factor are traces of V S", "statement": "When a GAMM contains a factor smooth with approximated derivatives, the effective degrees of freedom of a penalty that is not clustered are lambda tr(V S), V being the unscaled covariance matrix, whatever the kind of the penalty (null-space penalties included), the position of its term in the formula and the number of processes.", "quantifier": "every invertible penalised Hessian with its (permuted) factor, number of columns, levels, position of the term and number of processes", "why_tests_cant": "Which columns of the root are visited depends on the position of the term, the kind of the penalty and its size; a few columns too few make the value slightly smaller, which no one sees in a fitted model.", "anchors": ["src/mssm/src/python/matrix_solvers.py:compute_B", "src/mssm/src/python/matrix_solvers.py:compute_block_B_shared", "src/mssm/src/python/gamm_solvers.py:calculate_edf"]}
{"id": "C136", "title": "Clusters of series are a partition with the longest series as representative", "statement": "For a factor smooth with approximated derivatives every series belongs to exactly one cluster, the series kept for a cluster belongs to it and has at least as many rows as the others, and weights are the numbers of rows relative to that series; with factors to split by, and for smooths of a sub-group, too.", "quantifier": "all data ordered by series, covariates, factors to split by, sub-groups, results of the clustering routine and numbers of restarts", "why_tests_cant": "The result depends on a random clustering; indices of parts, clusters and series are nested three deep, and an index of a part that is taken for an index of a series gives plausible numbers.", "anchors": ["src/mssm/src/python/formula.py:__split_discretize", "src/mssm/src/python/formula.py:__cluster_discretize", "src/mssm/src/python/formula.py:__discretize"]}
{"id": "C137", "title": "Series are clustered by how often each value of each covariate occurs", "statement": "The table that series are clustered by holds, for every series, every covariate and every (discretised) value of it, the number of rows of the series with that value; series with different numbers have different rows.", "quantifier": "all data ordered by series, and any number of covariates", "why_tests_cant": "The table is internal and only its clusters are seen; mixed-up columns change which series are put together, for more than two covariates only.", "anchors": ["src/mssm/src/python/formula.py:__cluster_discretize"]}
{"id": "C138", "title": "Traces from clusters are exact for clusters of equal series", "statement": "With approximated derivatives the trace computed from clusters is the trace of V S if all levels in a cluster contribute the same as the one that is kept; it does not depend on the number of processes, and the value used stays below the derivative of log|S| so that the update of the smoothing parameter stays positive.", "quantifier": "every invertible penalised Hessian, factor smooth, order of series in the data, clusters and weights", "why_tests_cant": "A representative of a wrong level gives an approximation like any other; the cap is needed only for poor clusters.", "anchors": ["src/mssm/src/python/matrix_solvers.py:compute_B", "src/mssm/src/python/matrix_solvers.py:compute_block_B_shared_cluster", "src/mssm/src/python/gamm_solvers.py:calculate_edf", "src/mssm/src/python/formula.py:__cluster_discretize"]}
{"id": "C139", "title": "Every smooth uses its own clusters, the best ones of all restarts", "statement": "Of all restarts the clusters with the smallest error are kept, and the penalties of every factor smooth with approximated derivatives use the clusters found for that smooth.", "quantifier": "every number of restarts, sequence of results of the clustering routine, and list of terms", "why_tests_cant": "Results of restarts are random; that two smooths share a dictionary of options shows in one of them only, as a slightly different smoothing parameter.", "anchors": ["src/mssm/src/python/formula.py:__cluster_discretize", "src/mssm/src/python/formula.py:Formula.__init__", "src/mssm/src/python/formula.py:build_penalties"]}
{"id": "C140", "title": "Only dependent columns are identified, and all of them", "statement": "Given two matrices, the identification of dependencies returns an order of the columns of the second one and a number of columns to keep, such that the kept columns are independent of the first matrix and span, together with it, all columns of both matrices; rescaling a column does not change what is kept.", "quantifier": "all pairs of matrices with as many rows, all tolerances", "why_tests_cant": "Tests use a few matrices of full rank; what happens for matrices whose own columns are dependent, or for small columns, depends on the order of columns and on thresholds.", "anchors": ["src/mssm/src/cpp/eigen_solvers.cpp:id_dependencies"]}
{"id": "C141", "title": "Nested smooth terms do not make a model unidentifiable", "statement": "With find_nested=True (the default) every smooth term of several variables keeps, at every level of its factor, coefficients whose columns are independent of the intercept and of the columns of the terms of fewer variables (or as many variables, listed earlier) that have a variable in common with it, and nothing that cannot be expressed by these is dropped; terms of one variable are left as they are; every formula is accepted.", "quantifier": "all lists of smooth terms, factors and levels, binary and continuous by variables, factor smooths", "why_tests_cant": "Terms are compared by constructed names and by positions of levels; dependent columns only show as large variances or as numerical failures, for some combinations of terms and factors.", "anchors": ["src/mssm/src/python/formula.py:Formula.__fix_nested", "src/mssm/src/python/formula.py:Formula.__init__", "src/mssm/src/cpp/eigen_solvers.cpp:id_dependencies"]}
{"id": "C142", "title": "Splitting the coefficients of a model of several parameters", "statement": "For every model of class GSMM or GAMMLSS, `coef_split_idx` cuts the vector of coefficients into consecutive pieces, one per formula in the order of the formulas and as long as that formula has coefficients, followed by one piece with the extra coefficients of the family if there are any; the pieces put together are the whole vector.", "quantifier": "all numbers of formulas, all numbers of coefficients per formula (zero included), with or without extra coefficients, all vectors of the right length", "why_tests_cant": "The loop works in place and is guarded by the number of formulas; tests use two or three formulas.", "anchors": ["src/mssm/models.py:1047-1073", "src/mssm/models.py:1224", "src/mssm/models.py:2057-2070"]}
{"id": "C143", "title": "Resuming a fit", "statement": "`fit(restart=True)` resumes the previous fit: it fails with ValueError if there was none, starts from the smoothing parameters stored on the model whatever `init_lambda` is, and from the coefficients stored on the model. Without `restart` the smoothing parameters start from `init_lambda` entry by entry, else from what the family suggests, else from the default.", "quantifier": "all stored states, all arguments init_lambda and init_coef (any length), all suggestions of the family, all seeds", "why_tests_cant": "Tests fit once; a resumed fit converges to the same place from other start values in well-behaved models, so that end results do not show where it started.", "anchors": ["src/mssm/models.py:974-977", "src/mssm/models.py:1023-1067", "src/mssm/models.py:2001-2061"]}
{"id": "C144", "title": "Columns of the structured quasi-Newton update", "statement": "With `method='qEFS'` and `structured_qefs=True` the columns of the Hessian that are computed rather than approximated are distinct, in increasing order, and belong to parametric terms, impulse response terms or smooth terms with an unpenalised part (or to extra coefficients), with the right offset for every formula. If there are more of them than the budget (a number, or a share of them, at least one) exactly as many as the budget are drawn; otherwise all of them are taken, but never all coefficients of the model. A list of columns is used as given; no columns are selected if the budget is zero or negative.", "quantifier": "all lists of formulas and terms, all budgets (lists, integers, floats), all seeds and draws without replacement", "why_tests_cant": "The set depends on kinds of terms, offsets, budget and random draws together; tests use the default budget.", "anchors": ["src/mssm/models.py:1075-1122"]}
{"id": "C145", "title": "Rows of responses and model matrices belong together", "statement": "With `drop_NA=True` the k-th row of every model matrix and the k-th entry of every response handed to the likelihood of a GSMM or GAMMLSS model belong to the same row of the data, also if a formula has impulse response terms (rows dropped after building). With `drop_NA=False` all rows are kept. The response of a later formula is left out (None) exactly if it is the variable of the first formula and neither is transformed.", "quantifier": "all lists of formulas, all patterns of missing responses, all row-wise constructions of matrices", "why_tests_cant": "Needs several responses with different missing values; wrong pairs of rows give estimates without any error.", "anchors": ["src/mssm/models.py:316-391", "src/mssm/models.py:393-503", "src/mssm/src/python/formula.py:616"]}
{"id": "C146", "title": "Fits with options given as dictionaries do not influence each other", "statement": "The number of vectors sampled for the Hessian during a fit with `method='qEFS'` is the number given in `sample_hessian_options`, or else the share `qEFS_memory_usage` of the approximated coefficients (at least one), whatever has been fitted before with the same dictionary; the last Hessian uses the share `qEFS_final_memory_usage` if that is given.", "quantifier": "all numbers of coefficients and selected columns, all shares, all dictionaries, all sequences of fits", "why_tests_cant": "Shows only if a dictionary is used twice; both fits succeed.", "anchors": ["src/mssm/models.py:1140-1157", "src/mssm/src/python/gamm_solvers.py:7337", "src/mssm/src/python/gamm_solvers.py:9604-9618"]}
{"id": "C147", "title": "Candidates for smoothing parameters include the estimate", "statement": "The candidates over which `estimateVp(grid_type='JJJ2')` and `correct_VB` integrate are all drawn vectors of smoothing parameters, in order and one row each, with infinite draws set to b, for every number of draws and of penalties; and the estimated smoothing parameters are one of them unless a draw is within a tenth of the smallest standard deviation of the log smoothing parameters of the estimate.", "quantifier": "all numbers of draws and penalties, all draws (infinite ones included), all estimates, with and without finite differencing", "why_tests_cant": "Depends on shapes returned for single draws and single penalties, and on a state left behind by finite differencing; results look plausible without the estimate.", "anchors": ["src/mssm/src/python/utils.py:2494-2528", "src/mssm/src/python/utils.py:2604-2644", "src/mssm/src/python/utils.py:2806-2836", "src/mssm/src/python/utils.py:4017-4054", "src/mssm/src/python/utils.py:4243-4278"]}
{"id": "C148", "title": "Candidates that fail do not stop the estimation", "statement": "`estimateVp(grid_type='JJJ2')` evaluates every candidate at its own smoothing parameters. A candidate whose score cannot be computed is left out (or gets weight zero); the remaining scores and candidates are the same for every number of processes.", "quantifier": "all lists of candidates, all patterns of failures, all numbers of processes, both kinds of families", "why_tests_cant": "Failures are rare and depend on the data; with several processes the exception comes from the handler of the first exception.", "anchors": ["src/mssm/src/python/utils.py:2001-2147", "src/mssm/src/python/utils.py:2598-2602", "src/mssm/src/python/utils.py:2740-2801", "src/mssm/src/python/utils.py:2838-2880"]}
{"id": "C149", "title": "Sampled update vectors describe the curvature at the estimate", "statement": "The update vectors that a quasi-Newton fit samples at its estimate (`sample_ys_qefs`) belong to different random draws made after the radius has been adapted, in the order of the draws and at most `n_samples` (or `maxcor`) of them: each step is the radius times a draw, each difference the change of the gradient of the negative log-likelihood along that step, each factor the inverse of their product, and the number of updates reported is the number of pairs. For a quadratic log-likelihood every difference is the negative Hessian times its step.", "quantifier": "all gradients, estimates, draws, radii, numbers of samples, tests that refuse pairs, both versions of the sampling algorithm", "why_tests_cant": "Pairs are random and depend on sign conventions of gradients passed in an unusual order; a wrong sign or order gives a plausible covariance matrix.", "anchors": ["src/mssm/src/python/gamm_solvers.py:6918-7175", "src/mssm/src/python/gamm_solvers.py:6762-6915"]}
{"id": "C150", "title": "The sampling radius is adapted by dual averaging of Metropolis acceptance rates", "statement": "With `adapt_r` the radius is the averaged radius of Hoffman and Gelman's dual averaging for the Metropolis acceptance rates of the perturbed coefficients at the penalised log-likelihood and temperature `T`, with target `delta`. Perturbations at which the likelihood is impossible or undefined are never accepted, so they reduce the radius. Without `adapt_r` the radius is `init_r`.", "quantifier": "all likelihoods (finite, infinite, undefined), penalties, draws, initial radii, temperatures, targets, numbers of steps", "why_tests_cant": "The radius is internal; that undefined values count as accepted depends on how python's min orders NaN.", "anchors": ["src/mssm/src/python/gamm_solvers.py:7043-7087"]}
{"id": "C151", "title": "Options of the Hessian sampling reach the version they belong to", "statement": "Both versions of the sampling algorithm can be selected when fitting (`sample_hessian_method`): the options given by the user are used unchanged, `n_samples` is filled in only if missing, and the options documented for the selected version are accepted.", "quantifier": "all dictionaries of options, both versions, all numbers of samples", "why_tests_cant": "The failing combination is only reached with a non-default method and a quasi-Newton fit.", "anchors": ["src/mssm/src/python/gamm_solvers.py:7011-7026", "src/mssm/src/python/gamm_solvers.py:7129-7173", "src/mssm/models.py:1139-1157"]}
{"id": "C152", "title": "A restart of a general smooth model continues from coefficients with a finite likelihood", "statement": "`restart_coef` mixes the estimate with random numbers (weight one half in the first ten iterations, then a growing weight of the estimate) until the penalised log-likelihood is finite, at most thirty times: it returns the first such mixture together with its own log-likelihood and penalised log-likelihood, or leaves coefficients and likelihoods as they were if there is none.", "quantifier": "all likelihoods, penalties, coefficients, random numbers, iterations, numbers of restarts", "why_tests_cant": "Restarts happen only when optimisation fails; that the likelihoods belong to the returned coefficients is not observable in the result.", "anchors": ["src/mssm/src/python/gamm_solvers.py:6626-6692"]}
{"id": "C153", "title": "Update vectors that are kept define a rank one update", "statement": "After a pair of update vectors has been accepted (`update_ys_qefs` with `test_SR1`), the symmetric rank one update of the vectors that are kept is defined, so that the approximation to the Hessian can be computed from them.", "quantifier": "all gradients, steps, memories, limits of the memory", "why_tests_cant": "Needs a full memory whose remaining pairs are degenerate.", "anchors": ["src/mssm/src/python/gamm_solvers.py:6695-6759", "src/mssm/src/python/gamm_solvers.py:6885-6907", "src/mssm/src/python/compact_rep.py:8-53", "src/mssm/src/python/compact_rep.py:234-271"]}
{"id": "C154", "title": "The first pair of update vectors is kept", "statement": "With an empty memory a pair of update vectors along which the log-likelihood has curvature is accepted, so that sampling gives at least one update for every model whose log-likelihood is curved.", "quantifier": "all gradients, coefficient vectors of all lengths, draws, options", "why_tests_cant": "In floating point the outcome depends on rounding of quantities that cancel exactly.", "anchors": ["src/mssm/src/python/gamm_solvers.py:6695-6759", "src/mssm/src/python/gamm_solvers.py:6885-6907", "src/mssm/src/python/gamm_solvers.py:8226-8246", "src/mssm/src/python/compact_rep.py:8-53"]}
{"id": "C155", "title": "The estimated condition number is the condition number", "statement": "`est_condition` returns the ratio of the largest to the smallest singular value of the root of the penalised system, these two values, and a code that is 0, 1 or 2 according to whether the ratio exceeds 1/sqrt(u) and 1/u for the unit round-off u; for every number of coefficients.", "quantifier": "all invertible roots, all numbers of coefficients, both solvers for singular values", "why_tests_cant": "The extreme cases are systems that cannot be built reliably in floating point, and systems of one coefficient, for which the solver refuses to work.", "anchors": ["src/mssm/src/python/matrix_solvers.py:433-533"]}
{"id": "C156", "title": "Badly conditioned systems are reported, others are not", "statement": "With `check_cond=1` a fit whose system has a condition number that is too large for the chosen method gives a warning, returns, and stores the level in `fit_info.code` if it converged; with `check_cond=2` it raises an ArithmeticError. Fits with well conditioned systems give no warning, raise nothing and keep their code.", "quantifier": "all condition numbers, both classes of methods for additive models, general models, both values of check_cond, all codes", "why_tests_cant": "Systems with condition numbers above 1/u are rarely met in tests; the branch that raises the value of warnings.warn is never executed.", "anchors": ["src/mssm/src/python/gamm_solvers.py:2847-2866", "src/mssm/src/python/gamm_solvers.py:3093-3113", "src/mssm/src/python/gamm_solvers.py:3190-3217", "src/mssm/src/python/gamm_solvers.py:6393-6412", "src/mssm/src/python/gamm_solvers.py:9681-9700"]}
{"id": "C157", "title": "What pivoted QR keeps can be identified and nothing is lost", "statement": "`identify_drop(H, S, method='QR')` returns two increasing lists that split the coefficients. The number kept is the rank of the normalised penalised Hessian; with the dropped coefficients at zero the system of the remaining ones has only one solution; and every effect of a coefficient vector on the penalised quadratic form is also obtained by a vector that is zero at the dropped positions.", "quantifier": "all symmetric Hessians and penalties of all sizes and ranks, all scalings of the diagonal", "why_tests_cant": "Tests can check a few deficient designs; that the principal submatrix left is regular is a statement about all symmetric matrices, and is false for matrices that are not symmetric.", "anchors": ["src/mssm/src/python/gamm_solvers.py:4736-4813"]}
{"id": "C158", "title": "The kernel based search ends and finds what can be identified", "statement": "`identify_drop(H, S, method)` with 'LU' or 'Direct' ends after at most as many steps as there are coefficients, returns two increasing lists that split the coefficients, and the system left after dropping has only one solution.", "quantifier": "all Hessians and penalties, all outcomes of the decompositions", "why_tests_cant": "Exactly singular systems and systems that shrink to one coefficient are needed; the loop has no bound of its own.", "anchors": ["src/mssm/src/python/gamm_solvers.py:4814-4929"]}
{"id": "C159", "title": "Coefficients of a general model come with their own log-likelihood", "statement": "Estimating the coefficients of a GSMM for given smoothing parameters ends. The log-likelihood and penalised log-likelihood returned are those of the coefficients returned, which have their original number; coefficients dropped because they cannot be identified are returned as zero, the two lists of kept and dropped coefficients split the coefficients, and coefficients that do not belong to a formula are never newly dropped.", "quantifier": "all families in which leaving out columns is the same as zero coefficients, all penalties, Newton and gradient steps, all outcomes of convergence checks and of the search for coefficients to drop, all numbers of iterations", "why_tests_cant": "Drops, restarts, failed steps and iteration limits interact; whether reported values belong to the reported coefficients must hold on all paths through the loop.", "anchors": ["src/mssm/src/python/gamm_solvers.py:7875-8514", "src/mssm/src/python/gamm_solvers.py:4577-4610", "src/mssm/src/python/gamm_solvers.py:6762-6813", "src/mssm/src/python/gamm_solvers.py:6573-6623"]}
{"id": "C160", "title": "Estimating coefficients of a general model does not make them worse", "statement": "With Newton steps the penalised log-likelihood at the coefficients returned is at least as large as at the coefficients at the start.", "quantifier": "all log-likelihoods including undefined and infinite values, all starting values", "why_tests_cant": "The random restart happens only if a step is undefined at apparent convergence; families in tests are defined everywhere.", "anchors": ["src/mssm/src/python/gamm_solvers.py:8272-8396", "src/mssm/src/python/gamm_solvers.py:6626-6692"]}
{"id": "C161", "title": "Update vectors kept between iterations describe the log-likelihood only", "statement": "With method 'qEFS' the update vectors kept between iterations are the newest `maxcor` ones of all iterations, in order, and each is the change of the gradient of the log-likelihood along a step, although penalties change between iterations and L-BFGS-B works on the penalised log-likelihood. Options for L-BFGS-B that leave out a setting give scipy's default.", "quantifier": "all sequences of penalties, all numbers of pairs per iteration, all log-likelihoods, all options", "why_tests_cant": "The vectors are internal; errors in removing the penalty lead only to slightly different smoothing parameters.", "anchors": ["src/mssm/src/python/gamm_solvers.py:8061-8176", "src/mssm/src/python/gamm_solvers.py:8401-8415", "src/mssm/src/python/gamm_solvers.py:7277-7340"]}
{"id": "C162", "title": "Rows of data are distributed to series without loss", "statement": "For a `HSMMFamily` with first rows `sid` of series and `tid` of trials, every formula gets one block of rows per series (observations and shared terms) or per trial (durations, transitions), blocks are the rows between one first row and the next, their concatenation is the data, and formulas for the initial distribution get the first row of each trial. There is exactly one entry for each formula in the documented order.", "quantifier": "all numbers of states, signals, parameters and series, all families including bump models and MultiGauss, all series lengths", "why_tests_cant": "An error shifts rows between series or formulas without changing shapes; the number of layouts is unbounded.", "anchors": ["src/mssm/src/python/hsmm.py:25-231"]}
{"id": "C163", "title": "Each signal is compared with its own observations", "statement": "The observations that a state's distribution for signal m is evaluated at are those of the variable of signal m, restricted to the series, in models with and without shared terms.", "quantifier": "all numbers of states, signals, families, shared terms and series, all data", "why_tests_cant": "Models with several signals and shared terms run without error on the wrong signal; gradients agree with the likelihood because both read the same wrong signal.", "anchors": ["src/mssm/src/python/hsmm.py:100-179", "src/mssm/src/python/hsmm.py:357-366", "src/mssm/src/python/hsmm.py:519-548", "src/mssm/src/python/hsmm.py:565-628", "src/mssm/models.py:316-391"]}
{"id": "C164", "title": "Duration residuals use the decoded states", "statement": "`get_resid` of a HSMM with `resid_type='viterbi_dur'` or `'posterior_dur'` decodes or samples the states of a series from the same observations, model matrices and transition probabilities as `decode_viterbi` and `sample_posterior_states` do.", "quantifier": "all models, all data, all numbers of series, models with and without autoregressive residuals, fixed and estimated transitions", "why_tests_cant": "Residuals are numbers without a known value; states decoded within the function are not returned.", "anchors": ["src/mssm/src/python/hsmm.py:2654-2718", "src/mssm/src/python/hsmm.py:2117-2196", "src/mssm/src/python/hsmm.py:2365-2442", "src/mssm/src/python/hsmm.py:2726-2799"]}
{"id": "C165", "title": "New data can be decoded", "statement": "`compute_od_probs`, `decode_viterbi` and `sample_posterior_states` may be given other data with their own `sid`: probabilities are computed from the same distributed data that decoding uses, after removing the autocorrelation if the model has an autoregressive part.", "quantifier": "all models and all data, with and without autoregressive residuals", "why_tests_cant": "Whether autocorrelation is removed shows only in numerical values of probabilities.", "anchors": ["src/mssm/src/python/hsmm.py:1371-1403", "src/mssm/src/python/hsmm.py:2137-2175", "src/mssm/src/python/hsmm.py:2384-2421"]}
{"id": "C166", "title": "Shared terms enter the predictors of their parameter", "statement": "With `shared_pars` the predictor of a parameter of a state and signal is its own predictor, plus that of the shared formula for this parameter (and for this signal if `shared_m` is False), and nothing else; this holds for any list of parameters.", "quantifier": "all numbers of states, signals, parameters and shared parameters, both settings of `shared_m`", "why_tests_cant": "Formula indices are counted along nested loops; tests share only the first parameter.", "anchors": ["src/mssm/src/python/hsmm.py:430-445", "src/mssm/src/python/hsmm.py:519-545"]}
{"id": "C167", "title": "Simulated observations follow the fitted distributions with separate seeds", "statement": "Simulating observations of a HSMM uses for each state and signal the predictors that the likelihood uses, and no two draws of a series have the same seed.", "quantifier": "all numbers of states, signals, parameters, all shared terms and seeds", "why_tests_cant": "Equal seeds make draws of different states perfectly dependent, which single simulated series do not show.", "anchors": ["src/mssm/src/python/hsmm.py:865-1005"]}
{"id": "C168", "title": "A term object can be used in several formulas", "statement": "Passing a term to a second `Formula` (for other data, or next to other terms) leaves models of the first formula as they are, and the second formula gets what it would get with a newly created term.", "quantifier": "all lists of smooth terms, all data, all orders in which formulas are created", "why_tests_cant": "Formulas write constraints, transformations and dropped coefficients into the terms; tests create new terms for every formula.", "anchors": ["src/mssm/src/python/formula.py:328", "src/mssm/src/python/formula.py:472-564", "src/mssm/src/python/formula.py:1517-1668", "src/mssm/src/python/formula.py:1946-1948"]}
{"id": "C169", "title": "Smoothing parameters are shared exactly by terms with the same id", "statement": "Two penalties share a smoothing parameter if and only if their terms have the same `id` (and no `by` keyword, except for random slopes) and they have the same position in their terms.", "quantifier": "all lists of terms, ids, numbers of penalties and levels", "why_tests_cant": "Ids of penalties are computed by adding positions to ids of terms; whether two sums collide depends on the combination of terms.", "anchors": ["src/mssm/src/python/terms.py:872-1119", "src/mssm/src/python/terms.py:1975-2040", "src/mssm/src/python/terms.py:2829-2876", "src/mssm/src/python/penalties.py:37-115"]}
{"id": "C170", "title": "Every penalty of a smooth is built once per variable for its own margin", "statement": "For any list of penalties, any number of variables, and `nk` given as number or list, every penalty is built once for every variable with the number of basis functions of that variable, and is transformed (if at all) by a transformation computed for itself.", "quantifier": "all lists of penalties, variables, values of nk, rp, te, identifiable", "why_tests_cant": "The position of a penalty encodes penalty and variable; tests use one penalty, for which wrong arithmetic gives the same result.", "anchors": ["src/mssm/src/python/terms.py:331-457", "src/mssm/src/python/terms.py:459-639", "src/mssm/src/python/terms.py:685-796", "src/mssm/src/python/formula.py:1522-1668", "src/mssm/src/python/formula.py:2203-2214"]}
{"id": "C171", "title": "Update vectors are drawn again reproducibly and replace the stored ones completely", "statement": "`sampleHcoef` draws with consecutive seeds until there are `force_min_updates` vectors (at most 30 draws); the storage then holds exactly the vectors of the last draw, reduced by the part of the Hessian that is exact, with scales that belong to the stored vectors, and the effective degrees of freedom are those of this storage. If nothing was accepted the storage is unchanged. Any documented seed can be used.", "quantifier": "all draws, seeds, numbers of vectors asked for, exact columns, penalties", "why_tests_cant": "Whether a draw is accepted depends on random numbers; storages that mix two draws look the same from outside.", "anchors": ["src/mssm/src/python/gamm_solvers.py:7681-7872"]}
{"id": "C172", "title": "A fitted general model has effective degrees of freedom that belong to its Hessian", "statement": "After `fit` of a general smooth model `edf` is a number: the number of coefficients if there are no penalties, otherwise that computed from the Hessian (approximation) which the model stores; `term_edf` likewise.", "quantifier": "all methods, numbers of penalties, settings of final sampling, draws", "why_tests_cant": "The value is overwritten in one branch after the optimisation; tests of unpenalised models do not use the quasi-Newton method.", "anchors": ["src/mssm/src/python/gamm_solvers.py:9589-9711", "src/mssm/models.py:1202-1220"]}
{"id": "C173", "title": "GAMM.fit uses the penalties and inner iterations that were asked for", "statement": "`GAMM.fit` uses the penalties of the formula, or of the earlier fit with `restart=True`; it makes one inner iteration for models with `rho` or without penalties and otherwise `max_inner` (500 by default); restarting before the first fit raises the ValueError that says so.", "quantifier": "all numbers of penalties, values of max_inner, restart and rho", "why_tests_cant": "Defaults depend on each other; the order of checks decides which exception a user sees.", "anchors": ["src/mssm/models.py:3078-3130"]}
{"id": "C174", "title": "GAMM.get_resid returns the residuals that were asked for", "statement": "After `fit`, every `type` that `GAMM.get_resid` accepts returns an array of residuals: Pearson and ar1 residuals are those stored by the fit, ar1 residuals require `rho`; each deviance residual has the sign of observation minus mean and the sum of their squares is the deviance of the model, for every family and link. Before `fit`, and for other types, ValueError is raised.", "quantifier": "all families, links, responses a family can have, linear predictors, types", "why_tests_cant": "Sign and scaling of residuals are only looked at in plots; types nobody calls are not run.", "anchors": ["src/mssm/models.py:2809-2878", "src/mssm/src/python/exp_fam.py:951-963"]}
{"id": "C175", "title": "Residuals of families with several parameters are on the scale of the log-likelihood", "statement": "`get_resid` of GAUMLSS and GAMMALS has the sign of observation minus mean and as square twice the log-likelihood lost against a mean equal to the observation; the residuals of MultiGauss are the entries of R(y - mu), half their sum of squares is the log-likelihood lost, and `mean=k` selects column k; deviance residuals of PropHaz have the sign of status minus cumulative hazard and the usual square (for events with cumulative hazard not below machine epsilon), in the order `reorder` asks for.", "quantifier": "all observations, parameters, coefficients, links, numbers of means and subjects", "why_tests_cant": "Formulas for residuals and for log-likelihoods are written separately; a wrong factor gives plausible plots.", "anchors": ["src/mssm/src/python/exp_fam.py:2923-2945", "src/mssm/src/python/exp_fam.py:3497-3525", "src/mssm/src/python/exp_fam.py:4166-4241", "src/mssm/src/python/exp_fam.py:4986-5075"]}
{"id": "C176", "title": "Simulated observations come from the distribution of the family", "statement": "`rvs` of GAUMLSS, GAMMALS, MULNOMLSS and MultiGauss draws from the distribution whose log-density (log-probability) the family uses: same density, mean and variance, category probabilities that sum to one, and for MultiGauss the covariance that belongs to the quadratic form of the log-likelihood. Rows of one data set, and data sets simulated with different seeds, are drawn from different random streams.", "quantifier": "all parameters, means, numbers of categories and rows, seeds", "why_tests_cant": "A wrong parametrisation changes variances by a factor that a single sample does not show; shared random streams show only when several data sets are compared.", "anchors": ["src/mssm/src/python/exp_fam.py:2894-2921", "src/mssm/src/python/exp_fam.py:3176-3207", "src/mssm/src/python/exp_fam.py:3466-3495", "src/mssm/src/python/exp_fam.py:5156-5240"]}
{"id": "C177", "title": "The table of parametric terms lists every linear coefficient with its test", "statement": "`print_parametric_terms(model, par)` prints one line per coefficient of the linear terms of formula `par`, in order, with the estimate, the estimate over its posterior standard deviation and the two-sided p-value: of a t distribution for families with a scale parameter, of a normal distribution otherwise; p-values lie between 0 and 1 and marks belong to them. Every coefficient that was estimated has a p-value.", "quantifier": "all formulas, parameters, estimates, covariance factors, symmetric distribution functions", "why_tests_cant": "Printed text is not parsed by tests; wrong columns of the covariance factor give plausible numbers.", "anchors": ["src/mssm/src/python/utils.py:675-811"]}
{"id": "C178", "title": "A GAMM fitted as a general model has the parameters and residuals of the GAMM", "statement": "For `GAMLSSGSMMFamily` around a GAMM family the initial coefficients are those of the GAMM followed by log scale 0 or theta; coefficients split back into linear predictor and scale or theta; the residuals are the deviance residuals `GAMM.get_resid` returns at the same coefficients. This holds for every ExtendedFamily.", "quantifier": "all families, links, model matrices, coefficients, scales and numbers of additional parameters", "why_tests_cant": "Slices with negative bounds behave differently for length zero; residuals of both classes are written separately.", "anchors": ["src/mssm/src/python/utils.py:189-235", "src/mssm/src/python/utils.py:270-286", "src/mssm/src/python/utils.py:454-513"]}
{"id": "C179", "title": "Log-likelihoods of a fitted general model are those of the data it was fitted to", "statement": "`get_llk`, `get_reml` and `get_resid` of a GSMM, with the `drop_NA` of the fit, evaluate the family at the estimate on the responses the fit used: the values of every formula that are present, transformed by the function of its left-hand side, with None exactly for formulas that share the untransformed variable of the first. `compare_CDL(..., drop_NA=...)` compares these log-likelihoods. Before `fit` there is no log-likelihood.", "quantifier": "all formulas, missing values, functions, families, penalties", "why_tests_cant": "Data without missing values do not show the difference.", "anchors": ["src/mssm/models.py:316-391", "src/mssm/models.py:505-617", "src/mssm/models.py:986-999", "src/mssm/src/python/compare.py:510-511"]}
{"id": "C180", "title": "Reference distributions of smooth terms have the degrees of freedom of the term", "statement": "For a smooth with fractional degrees of freedom r > 1 approx_smooth_p_values compares its statistic with a sum of weighted chi-square variables with positive weights whose mean is r and whose variance is 2r; the last two weights are the eigenvalues of the 2 x 2 block used to form the statistic. With an estimated scale the statistic is compared with that sum over a chi-square variable with the residual degrees of freedom divided by these degrees of freedom (of mean 1).", "quantifier": "all degrees of freedom, residual degrees of freedom, statistics", "why_tests_cant": "Test suites compare a few p-values to stored numbers; mean, variance and eigenvalues of the reference hold for every fraction or not at all.", "anchors": ["src/mssm/src/python/utils.py:1292-1303", "src/mssm/src/python/utils.py:1329-1350", "src/mssm/src/python/utils.py:1369-1417", "src/mssm/src/python/utils.py:1460-1486", "src/mssm/src/cpp/davies.cpp:423-453"]}
{"id": "C181", "title": "P-values of smooth terms lie between 0 and 1", "statement": "Every p-value approx_smooth_p_values returns lies between 0 and 1 and, where Davies' routine reports no error, is within the accuracy asked of it of the mean of the two upper tail probabilities; if the routine fails, the value of a proper distribution function is used instead.", "quantifier": "all degrees of freedom, statistics, error codes, results of Davies' routine within its accuracy", "why_tests_cant": "Whether an approximation of a probability exceeds 1 depends on rounding and on the data; tests rarely meet it.", "anchors": ["src/mssm/src/python/utils.py:1292-1326", "src/mssm/src/python/utils.py:1398-1458", "src/mssm/src/python/utils.py:1481-1524"]}
{"id": "C182", "title": "Smooths of every parameter of a distribution get their own degrees of freedom", "statement": "For a model of several parameters approx_smooth_p_values(par) and print_smooth_terms(par) use exactly the entries of the degrees of freedom that belong to the smooths of formula `par`, in order and once per smooth however many penalties it has; the test caps them at the number of coefficients of the smooth.", "quantifier": "all numbers of parameters, smooths, penalties per smooth, degrees of freedom", "why_tests_cant": "Both functions walk over the penalties with hand-kept indices; the combinations of terms with several penalties and several formulas are unbounded.", "anchors": ["src/mssm/src/python/utils.py:865-889", "src/mssm/src/python/utils.py:1192-1238"]}
{"id": "C183", "title": "Tests of large models use a sample of rows", "statement": "approx_smooth_p_values tests smooths of models with more than `n_sel` rows (default 1e5) with a random sample of `n_sel` distinct rows per smooth, and of other models with all rows.", "quantifier": "all numbers of rows and smooths, sample sizes, generators", "why_tests_cant": "Tests use data sets far smaller than the default of n_sel.", "anchors": ["src/mssm/src/python/utils.py:1096-1103", "src/mssm/src/python/utils.py:1178", "src/mssm/src/python/utils.py:1274-1279"]}
{"id": "C184", "title": "Davies' routine ranks all weights by absolute value", "statement": "For all weights handed to `daviesQF`, the ranking used for convergence factors lists every weight exactly once, larger absolute values first, and never refers to memory outside the arrays.", "quantifier": "all numbers of weights and weights, all previous contents of memory", "why_tests_cant": "The ranking is internal; p-values computed with a wrong ranking look plausible and only lose accuracy.", "anchors": ["src/mssm/src/cpp/davies.cpp:64-91"]}
{"id": "C185", "title": "The error of a convergence factor accounts for all degrees of freedom", "statement": "The coefficient that `cfe` returns for a small point and positive weights is 2^(N/4) / (pi x^2), where N is the number of all degrees of freedom (plus noncentralities), whatever the order of the weights, so that the error of the p-value stays within the accuracy that was asked for.", "quantifier": "all numbers of weights, weights, degrees of freedom, noncentralities and points within the range", "why_tests_cant": "Too small a coefficient makes the returned probability inaccurate without an error code.", "anchors": ["src/mssm/src/cpp/davies.cpp:228-256"]}
{"id": "C186", "title": "Cutoff points of Davies' routine come with a valid bound", "statement": "`errbd` returns as cutoff the derivative of the cumulant generating function of the sum at u, and as bound of the tail probability Chernoff's bound at that cutoff (0 where it is below exp(-50)).", "quantifier": "all lists of weights, degrees of freedom and noncentralities, all u for which the function exists", "why_tests_cant": "The bound is an algebraic identity over sums of any length; tests of p-values cannot tell a bound that is slightly wrong.", "anchors": ["src/mssm/src/cpp/davies.cpp:93-110"]}
{"id": "C187", "title": "Davies' routine always answers, and says so if it cannot", "statement": "`daviesQF` returns for all inputs: bounds are evaluated at most lim + 1 times, integrations use at most lim terms (plus rounding for each of them); the code is 3 exactly for negative degrees of freedom or noncentralities, and the value is -1 whenever code 1, 3 or 4 is reported.", "quantifier": "all weights, degrees of freedom, noncentralities, points, limits, and all values of bounds and integrals", "why_tests_cant": "Termination of nested loops whose conditions depend on real functions cannot be tested.", "anchors": ["src/mssm/src/cpp/davies.cpp:33-41", "src/mssm/src/cpp/davies.cpp:112-195", "src/mssm/src/cpp/davies.cpp:258-420"]}
{"id": "C188", "title": "Diagonal penalties come with their root and rank", "statement": "`IdentityPenalty.constructor` returns a diagonal penalty with entries 1, or f(1), f(2), ... if `f` is given, a root whose product with its transpose is the penalty, and the rank of the penalty; a constraint takes away one dimension.", "quantifier": "all sizes, with and without constraint, all functions f with values that are not negative", "why_tests_cant": "The root and rank enter determinants and reparameterisations only; a wrong root gives slightly different smoothing parameters and no error.", "anchors": ["src/mssm/src/python/penalties.py:599-644"]}
{"id": "C189", "title": "Predictors stored by GSMM.fit belong to the coefficients stored with them", "statement": "After any sequence of calls of `GSMM.fit` `preds` holds, for every formula, the model matrix times the coefficients of the formula in `coef`, and `mus` the parameters computed from them with the inverse links.", "quantifier": "all sequences of fits, numbers of formulas, matrices, coefficients, extra coefficients, links, and all values of build_mat that ask for every matrix", "why_tests_cant": "A property of sequences of calls; single fits with default arguments behave.", "anchors": ["src/mssm/models.py:1202-1228"]}
{"id": "C190", "title": "Working residuals of GAMMLSS vanish where the model is exact", "statement": "The entry of `model.res` of a fitted GAMMLSS is zero wherever the observation equals the fitted mean of the first parameter, and is observation minus fitted mean for the identity link.", "quantifier": "all links of the first parameter, model matrices, coefficients, observations", "why_tests_cant": "Tests use families with an identity link for the mean, where the mistake does not show.", "anchors": ["src/mssm/src/python/gamm_solvers.py:6413-6414", "src/mssm/models.py:2112-2114"]}
{"id": "C191", "title": "Points found by Davies' routine meet the accuracy asked for", "statement": "If `findu` returns, the bound of the truncation error at its point is at most the accuracy, and (if the bound does not increase) larger than the accuracy at a point smaller by a factor of 1.2; if `ctff` returns, its cutoff is the one for which the bound of the tail probability is at most the accuracy.", "quantifier": "all bounds, accuracies, starting points, limits of the counter", "why_tests_cant": "Results of nested searches over real functions; tests of p-values see neither point.", "anchors": ["src/mssm/src/cpp/davies.cpp:112-136", "src/mssm/src/cpp/davies.cpp:175-195"]}
{"id": "C192", "title": "The integral of Davies' routine is that of the characteristic function", "statement": "`integrate` adds the sum of interv/pi times the imaginary part of E[exp(i u (Q - c))]/u at u = (k + 1/2) interv, k = 0, ..., nterm, where Q is the weighted sum of (noncentral) chi-square variables plus a normal variable; in auxiliary integrations every summand is multiplied by 1 - exp(-tausq u^2/2); numbers below exp(-50) count as zero.", "quantifier": "all lists of weights, degrees of freedom and noncentralities, all points, steps and numbers of terms", "why_tests_cant": "An identity between a product of complex powers and a loop over angles and logarithms, for lists of any length.", "anchors": ["src/mssm/src/cpp/davies.cpp:197-226"]}
{"id": "C193", "title": "The test for round-off compares with the size of what was summed", "statement": "What `integrate` adds to the number used for detecting round-off error is at least the absolute value of what it adds to the integral.", "quantifier": "all lists of weights, degrees of freedom and noncentralities, all points, steps and numbers of terms", "why_tests_cant": "The number is only compared with a threshold inside the routine.", "anchors": ["src/mssm/src/cpp/davies.cpp:197-226"]}
{"id": "C194", "title": "Logarithms near one are accurate relative to their argument", "statement": "`log1(x, true)` is ln(1 + x) and `log1(x, false)` is ln(1 + x) - x; for |x| <= 0.1, where a series is summed, the error after m rounds of the loop is at most 2 |x| / 361^(m + 1), so that seven rounds suffice for doubles, and the sums converge.", "quantifier": "all x, both forms, all numbers of rounds", "why_tests_cant": "An error bound for all arguments of a series.", "anchors": ["src/mssm/src/cpp/davies.cpp:43-63"]}
{"id": "C195", "title": "The search for the end of integration stops close to the first point that is good enough", "statement": "`truncation` bounds the error of ending the integration at u by a number between 0 and 1 that does not increase with u; `findu` therefore returns a point where the bound is within the accuracy, and at a point smaller by the factor 1.2 it is not, as its comment says.", "quantifier": "all weights, degrees of freedom and noncentralities, all accuracies and start values", "why_tests_cant": "A statement about the shape of a function and about points that the search does not visit.", "anchors": ["src/mssm/src/cpp/davies.cpp:138-173", "src/mssm/src/cpp/davies.cpp:175-195"]}
{"id": "C196", "title": "What is left out by ending the integration is not larger than the bound", "statement": "If `truncation(u)` returns a number below 1, the integral of Im E[exp(i t (Q - c))] / (pi t) from u to any larger T is at most that number in absolute value; a point returned by `findu` therefore leaves out at most the accuracy asked for. Moduli below exp(-50) count as zero.", "quantifier": "all weights, degrees of freedom, noncentralities, variances, points u < T, and all accuracies below 1", "why_tests_cant": "A bound on an improper integral for every distribution of the family.", "anchors": ["src/mssm/src/cpp/davies.cpp:138-173", "src/mssm/src/cpp/davies.cpp:175-195"]}
{"id": "C197", "title": "Structured quasi-Newton storage reorders coefficients and puts them back", "statement": "For distinct differenced columns, `init_qEFS_storage` orders all coefficients so that these come first in the order given and the others follow in increasing order; `P1.T @ H @ P1` has the entries of H in this order, `P1 @ . @ P1.T` restores H, and `P2 @ Q @ P2.T` places Q at the other coefficients with zeros at the differenced ones.", "quantifier": "all numbers of coefficients, all lists of distinct columns, all matrices", "why_tests_cant": "An identity for every choice of columns (which is random) and every matrix.", "anchors": ["src/mssm/src/python/gamm_solvers.py:7277-7376", "src/mssm/src/python/gamm_solvers.py:7237", "src/mssm/models.py:1120-1122"]}
{"id": "C198", "title": "The structured quasi-Newton method differences at most the budget and leaves something to the updates", "statement": "With `structured_qefs=True`, the columns of the Hessian that are differenced are distinct coefficients in increasing order, at most as many as `structured_qefs_budget` allows (a number, a part of the fixed columns, or the ones listed), and at least one coefficient is left to the quasi-Newton updates.", "quantifier": "all models, all budgets, all draws of the random generator", "why_tests_cant": "The columns are drawn at random, and the claim is about every draw and every formula.", "anchors": ["src/mssm/models.py:1075-1122"]}
