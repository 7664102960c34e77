# Formal model of brentyi/jaxfg in Rocq (Coq 8.16.1)

This document says what is modelled, how each property of `properties.jsonl` is
stated and proved, and what the results rest on. It is updated as the model grows.

## 1. Shape of the development

| layer | files (`rocq/theories/`) | content |
|---|---|---|
| numbers | `Num.v`, `NumR.v`, `NumF32.v`, `NumB32.v` | a record of arithmetic operations `Num T` without laws; four instances: Coq reals, reals extended with inf/NaN (`xr`), IEEE binary32 twice: stdlib `SpecFloat` (computes, no axioms) and Flocq's `binary_float 24 128` (exactly the binary32 values, with rounding theorems; used for C68, shown to compute the same) |
| Python/JAX prelude | `Py.v`, `Arr.v` | exceptions as values, insertion-ordered dicts, arrays, pytrees, slicing / gather / scatter semantics |
| model (no proofs) | `M*.v` | one definition per function of `/repo`, each with a `(* file:lines *)` citation |
| specification | `Spec*.v` | the few independent notions the theorem statements use |
| proofs | `P*.v` except `Prop*.v` | lemmas; `PEx*.v` bundle them into the stated form and hold the concrete instances |
| concrete data | `Ex.v`, `ExG.v`, `ExS.v`, ... | the graphs, assignments and environments of examples and counterexamples |
| results | `Prop*.v` | only the property theorems, each `exact` a lemma, with `Print Assumptions`, plus non-vacuity `Example`s |

Every model definition is parametric in the number type and its operations
(`Num T`). Structural theorems (layouts, assignments, stacking, index arithmetic,
termination, totality, symmetry, layout independence) are proved for *every* `Num`
instance, so they do not depend on algebraic laws and hold for floats as well. Theorems
that need algebra (adjointness, cost sums in another order, dogleg geometry, normal
equations, derivatives, convergence) are stated for the real instance: exact arithmetic,
no rounding. Where division by zero matters (conjugate gradient, stationary points) the
extended reals are used, with IEEE-like 0/0 = NaN. Counterexample theorems
(`..._refuted`) are on the binary32 instance, computed with `vm_compute`, or on reals; the
statement shows which.

User code (variable classes, residual functions, Jacobian functions) is a record of
arbitrary functions (`env`) over which theorems quantify.

A property whose plain form is false of the code is stated as the guarded positive claim
together with a `..._refuted` theorem showing that the guard is needed.

## 2. How each property is modelled and proved

* C01-C03, C53 (`MLayout.v`): fold over the variable list, invariants on the insertion-ordered dict, closed form of the layout; duplicates handled explicitly.
* C04 (`Arr.v`, `MAssign.v`): pytrees as finite trees with array leaves; induction on the tree.
* C05-C12, C54 (`MAssign.v`): storage as a list; slice lemmas; layout invariants of C01/C02; the default retraction of plain classes is pinned separately (`C11_plain_classes_add`).
* C13-C19 (`MFactor.v`, `MGraph.v`): graph construction as a fold; `stack`/`index` inverse lemma; per-factor specification evaluated without stacking.
* C20: derivative of finite sums (stdlib `derivable_pt_lim`), hypotheses on user Jacobians.
* C21-C24 (`MSparse.v`, `MLinear.v`): finite sums over coordinate lists.
* C25, C30: normal equations in weak form; an executable symmetric elimination stands for CHOLMOD and is proved correct on positive definite systems. Order invariance by transporting blocks between layouts.
* C26, C52, C58 (`MMisc.v`): state machines over call histories.
* C27-C29, C31-C39 (`MSolver.v`): solver step functions, `while_loop` with explicit fuel, invariants over iterations.
* C40-C43 (`MNoise.v`, `MGraph.v`): vector algebra over reals.
* C44-C45 (`MLie.v`): an abstract group with exp/log; SO(2) and SE(2) are shown to be instances.
  SO(3) and SE(3) are not, because a rotation has two quaternions. `PSpatial.v` to `PSpatial4.v` prove their laws up to sign: Rodrigues' formula, log inverse to exp below half a turn, exp inverse to log, and the adjoint law.
* C46-C48, C59 (`MCov.v`): recursion with memo table as a state-passing function with fuel.
* C49-C50, C60 (`MG2o.v`): characters, words, tokens; `int()`/`float()` are oracles.
* C51 (`MFactor.v`): decision procedure on hints.
* C55-C57 (`MLinear.v`): `jax.scipy.sparse.linalg.cg` as used by the repository; conjugacy invariants, finite termination, NaN propagation on extended reals.
* C61: every predicate on values preserved by retraction is an invariant of all solvers; unit quaternions / rotations for the pose classes (`MPose.v`).
* C62: totality: each model function that can raise is shown not to under `well_posed`, and each excluded situation is shown to raise.
* C63: a simulation relation between the runs of two problems; frame changes of pose graphs as the instance.
* C64 (`MAuto.v`): reshape and concatenation index arithmetic; multivariate chain rule from a Fréchet derivative hypothesis.
* C65: the damped normal equations make each iteration a proximal-point step; telescoping sum. A minimum exists by orthogonal projection, one unit vector at a time. For Dogleg the linear model is exact, so every step is accepted with quality 1; no step leads away from the minimum, a truncated step triples the radius, and the radius never shrinks before the minimum, so at most K steps are truncated.
* C66: NaN rules as a record of laws, shown for extended reals and binary32; a NaN anywhere in the inputs of the step quality makes it NaN, and the comparison false.
* C67: induction over the lines read (C50) shows every edge and vertex has the shapes of its class, so the factors are pose factors in the sense of C62; totality is C62, unit norms are C61, the AssertionError is C29; the objective follows from C16 and C41 with the reader's square weight matrices.
* C68: Flocq's correctness theorems give the sign of a rounded difference and quotient, so a quality above a positive threshold with a negative predicted change forces a negative actual change; lambda by monotonicity of rounding and induction over the run, with powers of two as lower bounds.
* C69: two IEEE rules for infinity make every step quality NaN; induction over the run.
* C70 (`MPose.v`): the log of a normalised pose is zero only at the identity (planar: C44; quaternions: directly, up to sign), and non-degenerate whitening is injective.
  `C45_consistent_graphs` differentiates log(exp(-td) exp(te)) for the four groups and feeds C20.
* C71: derivative of the loss of one factor (case split at the threshold, where both branches have the same value and slope), adjointness of A, sum over factors.
* C72: the Jacobian acts factor by factor (C33, C40), so A^T A is the sum of the factors' squared whitened Jacobians as a quadratic form; more information gives smaller inverses by completing the square; for priors the form is identified with the sum of inverse covariances by polarisation, and the marginal with its inverse by C46-C48. Hypothesis: CHOLMOD did not permute.
* C73 (`SpecSum.v`, `PSumTree.v`): induction over evaluation trees; each square, addition or fused multiply-add commits one relative rounding error, and only squares and fused multiply-adds can also underflow (sums of floats are exact when subnormal). Assumes round to nearest even and gradual underflow.
* C74 (`SpecPart.v`, `PPart.v`, `PPart2.v`, `PPartCg.v`): the Jacobian maps vectors supported on one part to rows of that part, so the regularised normal equations and A^T A restrict to a part (tested against all vectors extended by zero); their solutions are unique. Induction over the run. With conjugate gradients the same argument uses the exactness of n iterations (C56) and uniqueness from full rank. The refutations are problems of two or three variables.
* C75 (`SpecDescent.v`, `PDescent.v`): the damped step and the dogleg step lower the linear model at least as much as the best step along the gradient (Cauchy-Schwarz); the acceptance test turns this into a decrease of the cost; induction over the accepted iterations and a minimum-below-mean argument. Acceptance: the quality is at least 1 minus the curvature error over the model decrease. The refutation is x^2 - 2 from x = 1/100, in exact reals.
* C76 (`SpecCgLin`, `PLinCg`): the conjugate gradient invariant of C56 extended with "the iterate lies in the span of the directions", so the residual of the linear system is orthogonal to the iterate (Galerkin). On a linear problem that residual is the next gradient. The Jacobian is constant (C65).
* C77 (`SpecLocal`, `PLocal`): with e = z - x the damped normal equations give (A^T A + b) e' = b e + A^T (A e + r - r_z) + A^T r_z, plus the residual of the linear system for conjugate gradients. Taking the product with e' and bounding |A e'| from below by m |e'| gives the one-step bound; the distance never leaves rho, so it chains by induction. The distance is stated on the values of the variables (`distance`), not on the storage vector. The hypotheses are collected in `good_solution` and met by (x^2 - 3)^2 + (x - 6)^2 at x = 2, where the residual is not zero.
* C78 (`SpecTwin`, `PTwin`, `PTwin2`): `same_information` compares the sums of |J(val) xi + w(old)|^2 for all val, old, xi (old differs from val after a rejected step, C33). Polarisation turns that equality into equality of A^T A, A^T r and |r|^2 block by block, and the two runs are simulated in lockstep as for C30; conjugate gradients need in addition that the Jacobi diagonal is the diagonal of A^T A, which is where `no_repeats` (C53) enters. Each factor's model is written as a quadratic form of the precision matrix, with scalar weights for the Huber layers, so only W^T W and the thresholds matter. For Jacobians with a zero column conjugate gradients divide by zero in the code (C57); there the theorem compares the real-number convention x/0 = 0 on both sides.
* C79 (`MJit`, `SpecJit`, `PJit`, `PJit2`): a state machine over calls of `solve`: the jit cache maps keys to the address of the CholmodSolver captured while tracing, and `cstep` of C26 runs on that address. `calls_alike` spells the key out as a relation; the invariant says the cache entry of a trace is the pattern of the first alike call. `C79_alike_graphs` follows the shapes through `tree_stack`, `noise_stack` and the coordinate builder. jit's key is modelled without dtypes and without eviction, and every call is assumed to reach the linear solver.
* C80 (`SpecResume`, `PResume`, `PExResume`): two simulations between runs. `shifts`: the loop body with limit m does what the one with limit n + m does n iterations later, on states that differ only in the iteration number. `limits`: lowering the limit leaves all states alone except that the last one is done. `layouts_back` shows that the detour through the caller's layout between the calls restores the very same assignment. The counterexamples are computed in binary32.
* C81 (`SpecBook`, `PBook`, `PExBook`): refinement. `SpecBook` states the iterations over value functions, tangent fields and sums over the factor list. `linearise` turns the sparse Jacobian and residual vector of a state into the factor-wise model of C40 (`model_sum`), `normal_damped` turns the normal equations into the one minimiser, `block_tangent` and `field_vec` translate between tangent fields and the flat vector, and `dl_book` rebuilds the dogleg path. Whole runs follow with C27 (termination) and C60 (no exceptions).
* C82 (`SpecOutlier`, `POutlier`, `POutlier2`, `PExOutlier`): through C81 a solver run is a number of textbook turns. `obs_turn` minimises the model of one turn in closed form for any pair of weights of residual and Jacobian; `huber_weighs` gives the weights sqrt(delta/n) and (delta/n)^(1/4). `POutlier2` analyses the two scalar recursions (with fourth roots, and the intermediate value theorem for the rest point).
* C83 (`SpecStraight`, `PStraight`, `PExStraight`): through C81 a solver run is a number of textbook turns. On the line the model of a turn is the scalar cost at the moved x coordinates plus a sideways square, so the damped step is a proximal-point step of Q and the sideways part vanishes (`straight_step`); `three_points` gives the telescoping inequality; the predicted change equals the actual change, so Levenberg-Marquardt accepts every step that changes the cost (`lm_one`).
* C84 (`MDual`, `SpecDual`, `PDual`, `PDual2`, `PExDual`): jacfwd is evaluation of the same program in the `Num` instance of value/tangent pairs `NumDual`, with JAX's symbolic zeros as missing tangents. `denote` gives programs their meaning independently of `Num`. Frechet derivatives are closed under the primitives (products by polarisation from squares, everything else by one composition lemma), so induction on the program gives `jvp_diffable`; array lemmas place the entries where C64 expects them.
* C85 (`SpecNear.v`, `PNear.v`, `PFree.v`, `PExNear.v`, `PropNear.v`): `nearest_minimum` is a minimum (as in C65) no other minimum is closer to the start than. `PNear.v` proves a positive lower bound mu of |Ax|²/|x|² on the orthogonal complement of the kernel (via the pseudo-inverse built column by column from existence of least-squares solutions), and one-step contraction from the proximal inequality of C65: comparing with points moved along the kernel makes the step orthogonal to it, comparing with points moved towards the minimiser gives the factor. `PFree.v` does the orthogonality for nonlinear problems from the textbook iterations of C81. The refutation runs one CG iteration on x + 2y = 5 from (0, 0): it ends at (5/2, 5/4), the nearest minimiser is (1, 2).
* C86 (`SpecTurn.v`): each iteration is a proximal step of the problem unwound at the current angles. The wrapped cost lies below it and touches it at the current angles. A cost below (w pi)^2 keeps all unwound problems equal, so the telescoping bound of C83 applies.
* C87 (`SpecBasin.v`): near z the residual and its code Jacobian differ from the linear ones at z by O(|e|^2) and O(|e|), by explicit bounds on log(exp e exp xi) and on the adjoint near the identity. The damped step of the linearised problem contracts by beta/(m^2+beta), where m bounds the whitened Jacobian from below (from rigidity, by induction on the dimension). The Huber loss is the identity near zero residual. For the trust-region solvers, the residuals after the step differ from the predicted ones by O(|e|^2) while the predicted decrease is at least c |e|^2, so the gain ratio tends to 1; a run that reaches z exactly (ratio 0/0) stays there.
* C88 (`SpecSettle.v`): the damped model at val is cost + 2 <A^T r, xi> + |A xi|^2 + beta |xi|^2, so its minimiser is zero iff the linear form `pull` vanishes; then every iteration of the four solvers retracts by zero (book-keeping of C81). Two priors: with d = log(mu1^-1 mu2) the residuals at mu1 exp(k d) are -k d and (1-k) d exactly, so their pulls cancel for s1^2 k = s2^2 (1-k). Rotations: exp is one-parameter, log is shortest, and the derivative of |log(q exp(t d))|^2 is 2 <log q, d>, proved from the quaternion product and acos; the triangle inequality for the angle (spherical cosine rule) makes the midpoint the global minimum. Rigid motions: translating the midpoint by -t n, n = axis x translation of d, changes the cost at first order in t by a negative multiple of |n|^2.
* C89 (`SpecMean.v`): |log(exp(d)^-1 exp(e))| <= |e - d| is the comparison between the sphere and its tangent space: the half angle satisfies the spherical cosine rule, and cos c >= cos a cos b + sin a sin b cos(angle) is compared with the flat law by monotonicity of sin(x)/x and tan(x)/x (`PMean1.v`). With residual log(x^-1 mu) and J = -I, the residual after retracting by d is log(exp(d)^-1 exp(r)), so each squared residual is at most |r - d|^2, its linearisation: the model of C81 majorises the cost. A damped minimiser of a convex quadratic gains at least inner products of the gradient, which gives the strict decrease; for LM and Dogleg the majorisation makes the quality ratio at least 1, so every step is accepted. Summing the gains gives the rate of C89_slope.
* C90 (`MLog.v`, `SpecLog.v`): the model of `_hcb_print` threads the list of printed messages through the loops of `MSolver.v`. Induction over the loop relates the logged to the plain loop and produces the sequence of states (`trail`) that the lines report; the printed cost is current by the invariant of C32/C33, the number of lines is bounded by C27, and `update_storage_layout` keeps the cost by C20/C15.
* C91 (`MHand.v`, `SpecHand.v`): `traverse` of `get_value` gives the values (C05/C08), C51 wraps them, and the result is the right-hand side of C15/C16.
* C92 (`MUtils.v`, `SpecUtils.v`): arrays are row-major lists; the model interleaves rows, the specification speaks of elements by multi-index (`element`, `offset`) and of leaves by path. The two are related by arithmetic on offsets and induction over trees.
* C93 (`SpecNoisy.v`): `noisy eps fs fs'` moves each measurement in its tangent space. The Jacobians of priors and relative measurements do not depend on the measurement, so only the residuals change, by eps and a second-order term (`PNoisy.v`); the damped step is then the one of C87 with a larger remainder (`PNoisy3.v`).
* C94 (`SpecRatio.v`, `PRatio.v`): the lockstep simulation of C78 with a factor k. Costs, gradients and diagonals of A^T A scale by k, the conjugate gradient loop keeps x, z, p, alpha and beta and scales r, gamma by k and the tolerance by k^2, step qualities are ratios, the Cauchy step is invariant. `C94_noise` is `weight_base` of C78 with a factor; the counterexamples are x^2 = 4 with two weights (`PExRatio.v`).
* C95 (`SpecTrCg.v`, `PLinTr.v`, `PExLinTr.v`): the Galerkin property of C76 gives that a conjugate gradient step x removes at least x.A^T b of the cost, and that x.A^T b >= (1-t)^2 |A^T b|^2 / ((1+lambda) F), F bounding A^T A and its diagonal. On a linear problem the predicted cost is the new cost, so quality is 1 and every step is accepted. sigma (from C85) bounds |A^T r|^2 below by sigma times the excess cost; the rates follow by induction on the iterations.
* C96 (`PExSuper.v`): the one-step bound of C77 with the tolerance of that iteration; the distances themselves shrink geometrically (C77), so both K m d and tol times its constant tend to zero uniformly in the start. The counterexample runs Gauss-Newton with CHOLMOD on one anchor in closed form.
* C97 (`SpecHalt.v`, `PHalt.v`, `PExHalt.v`): an accepted iteration removes at least the share q of the excess and, for the exact or conjugate gradient step, the cost drop also bounds the step length from below (`PHalt.v: exact_lower`, `part_bound`). A passed cost test therefore bounds the excess by the tolerance times the cost, a passed parameter test by the size of the result. On linear problems every step is accepted, so no rejected step is tested. `halt_accuracy` picks the tolerance from q. The refutations run the solvers in closed form on one-variable problems.
* C98 (`SpecRobust.v`, `PRobust.v` to `PRobust5.v`, `PExRobust.v`): writing s for the weight the code puts on an outlying residual, the Jacobian gets the weight q = sqrt s, so the code's model of a step is the quadratic with curvature q^2 while the followed loss has slope weight s q. `PRobust.v: majorise` shows the loss lies below that quadratic for every step, `strongly` that it is strongly convex on bounded sets; both are one-variable inequalities in the norm, proved with n = delta u^4. `PRobust2.v` splits the quadratic forms of the sparse Jacobian into factors, `PRobust3.v: step_forms` adds up the factor bounds, `PRobust4.v: loss_excess` is the Polyak-Lojasiewicz inequality (with a projection off the kernel, so no rank assumption) and `loss_falls` one step. `PRobust5.v` compares the Jacobians at all points entry by entry, which conjugate gradients need for their uniform bounds.
* C99 (`PRobust6.v`, `PRobust7.v`, `PExFit.v`): the damping of CholmodSolver bounds the squared step by 2e5 times the loss it removes, so by C98 the steps shrink geometrically and the storage vectors form a Cauchy sequence (`PRobust6.v: vector_limit`, from completeness of the reals). The majorising quadratic of C98 at the iterates bounds the loss of the limit (`iterates_limit`). Uniqueness of the fit is strong convexity at a point with zero gradient (`least_grows`, `same_fit`).
* C100 (`SpecSmooth.v`, `PSmooth.v`, `PSmooth2.v`, `PSmooth3.v`, `PExSmooth.v`, `PropSmooth.v`): derives the hypotheses of C77 (constants rho, m, K and f) from the programs themselves. `PSmooth` shows by induction on programs that value and forward-mode tangent are Lipschitz near a smooth point and the linearisation error is quadratic. `PSmooth2` identifies the model's Jacobian blocks with the rows of tangents (uniqueness of the derivative, using C64 and C84). `PSmooth3` whitens (near an exact fit all Huber weights are 1), sums over factors and uses that an injective matrix is bounded below. Example: a point located by two range measurements.
* C101 (`SpecTrust.v`, `PSmooth4.v`, `PTrust.v`, `PTrust2.v`, `PExTrust.v`, `PropTrust.v`): near an exact fit both trust-region solvers accept every step. `taylor_near` is a two-point estimate of the linearisation error; `PSmooth4` proves it for programs, by bounding each operation's derivative on a neighbourhood. At distance e from the fit the residual is of size e, the predicted decrease is at least a fixed fraction of the cost, and the error of the prediction is of order e^3, so the quality of the step exceeds any q < 1 close enough. The decrease then bounds the cost geometrically, which keeps the iterates in the neighbourhood; lambda only falls and the radius only grows. `C101_runs` and `C101_solves` are stated for any problem with the constants of `exact_solution`, `C101_constants` gives these constants for programs, and `C101_program_runs`, `C101_program_solves` combine them. `C101_without_exact_fit_refuted`: residuals (x, x^2 + 5), where Gauss-Newton's Hessian is 1 and the true one 11.
* C102 (`SpecFinish.v`, `PFinish.v`, `PFinish2.v`, `PExFinish.v`, `PropFinish.v`): what the stopping tests say near an exact fit. Every step of each solver decreases the linear model by at least kappa |A^T r|^2, so its length is at least kappa |A^T r|/2 and the distance to the fit is at most a constant times the length of the step: a passed parameter test bounds the distance. The cost falls by a fixed share per iteration (C101; Gauss-Newton takes the Levenberg-Marquardt step with lambda = 0, and the same Taylor estimate bounds its cost), so a cost tolerance below that share never passes away from the fit. The rates turn both into a wanted accuracy.
* C103 (`SpecPoseStop.v`, `PPoseStop.v`, `PPoseStop2.v`, `PExPoseStop.v`, `PropPoseStop.v`): the analogue of C102 for pose graphs. `PPoseStop.v` bounds the stored parameters of all poses near z (exp and group product are bounded near 0), and shows that a damped step from z (+) e has length at least h |e| and lowers the cost by a fixed share; both come from the estimates of C87. `PPoseStop2.v` follows one iteration of each solver down to the step it takes and the tests it evaluates, keeps `state` of C87 as the loop invariant, and turns a passed test into a bound on |e'|. Rejected steps occur only at e = 0.
* C104 (`SpecGauge.v`, `PGauge.v`–`PGauge4.v`, `PExGauge.v`, `PropGauge.v`): between factors read only relative poses, so residuals, Jacobians, cost, model, damped steps and gain ratios are the same in every world frame (`PGauge.v`). A displacement e of z can be split into a common motion and a displacement eta that leaves the root pose at rest, with |eta| <= C |e| (`PGauge2.v`: reslice). On such displacements the whitened Jacobian has a positive lower bound (slice_lower, from connectedness), so the linearised contraction of C87 holds for the part the measurements see, although the step also contains a drift along the common motion; `slice_step` bounds both. After each iteration the displacement is re-split, and the invariant is carried by the cost, which is comparable to |eta|^2 (`PGauge4.v`). `gauge_loose` exhibits the unseen direction Ad(z_v^-1 z_0) d, which shows that these graphs are never rigid.
* C105 (`SpecLoose.v`, `PLoose.v`–`PLoose3.v`, `PExLoose.v`, `PropLoose.v`): generalises C104 to graphs with any mix of held and floating parts. `parts_exist` builds, by recursion over the factors as in union-find, a map from each pose to None (tied to a prior) or to the root of its part. Each factor sees the same residual and Jacobian after an unseen motion (`carried_one`: a between factor by the single-factor case of C104's frame lemmas, a prior because its pose does not move). The lower bound of the whitened Jacobian holds on displacements that keep all roots in place (`parts_lower`), a displacement is split into an unseen motion and a rooted displacement (`resplit`), and the one-step estimates of `PGauge3.v`, stated for any class of displacements with a lower bound, apply.
* C106 (`SpecDrift`, `PDrift`, `PDrift2`, `PDrift3`, `PExDrift`, `PropDrift`): a step of length s changes each stored parameter by at most K s, uniformly over all unit poses (families of order 1 for exp and for the product, all four groups). By C105 the steps shrink geometrically with the root of the cost, so distances add up to a geometric series (`creep`). A displaced moved solution is close to the moved solution itself, by associativity. For the limit: one Gauss-Newton step is determined by the poses of the graph, so the runs of the fixed-iteration solver are initial parts of each other; their values form Cauchy sequences, chosen as the results of the solver (no choice axiom); the exact fits reached by unseen motions form a closed set (`alike_closed`), so the limit is one of them.
* C107 (`SpecQuit`, `PQuit`, `PQuit2`, `PExQuit`, `PropQuit`): C103 without rigidity. `step_long` shows that a damped step is at least a constant times the visible error: the predicted decrease is at most twice the residual times the linearised change of it, while the true decrease is a fixed share of the cost (C105) and agrees with the predicted one up to a factor. So the parameter test can only fire when the visible error is small, and the cost test cannot fire while the tolerance is below the share of the cost removed by a step. The parameter test compares with the norm of the stored values; these stay near their starting values because the distances travelled telescope against the root of the cost (`quit_on`).
* C108 (`SpecRecover`, `PRecover`, `PRecover2`, `PExRecover`, `PropRecover`): at damping b the step d solves (A^T A + b) d = -A^T rho with rho the kept residual, so |d| <= sqrt F |rho| / b and b r0.Ad = -|A^T r0|^2 + O(|rho - r0| + |d|). After one rejection rho - r0 is O(1/b), because rho is the residual of a proposal at distance O(1/b). Hence the change of the cost is -2 G/b + O(1/b^2) and that of the model, which counts the previous step again, is -2 G (1/b + 1/b') + O(1/b^2), where b <= f b'. The quality tends to at least 1/(1 + f), which gives the condition on the threshold. The constants are explicit in `recover_vec` but hidden behind `exists` in the theorem. `stays` describes a rejection by its effect, not by the quality. The refutation about results works on a residual that is 1 + x + M x^2 from -1 on and constant below: the first step is rejected, the second lands on the plateau and is accepted because numerator and denominator of the quality are both positive, and on the plateau the gradient is zero. There the quality is 0/0, which is 0 over R and nan in the code; both are rejected.
* C109 (`PRebound`, `PRebound2`, `PExRebound`, `PropRebound`; vocabulary of C108 in `SpecRecover`): for a radius D small against the gradient the Gauss-Newton step and the Cauchy point both lie outside the region (`cauchy_branch`), so the proposal is D times the normalised steepest descent direction of the kept residual rho. Its length is at most D whatever rho is, so after one rejection rho - r0 is O(D) with constants that do not depend on the first kept residual, after which the direction is that of the true gradient up to O(D) (`cauchy_dir`). The change of the cost is then -2 D g + O(D^2) and that of the model, which counts the previous step of length D1 <= 2 D again, is at least -2 (D + D1) g - O(D^2), so the quality tends to at least 1/3 (`small_numbers`). Rejections with a threshold of at most 1/4 halve the radius, which bounds their number. `PExRebound` handles one-variable graphs once (`scalar_dl`) and uses that for all instances. The refutation about results uses 1 + x + (16 H - 12) x^2 from -1/4 on and H below: the first proposal is the full Gauss-Newton step and lands on the plateau, the second has length 1/2, lands there too, and is accepted because the model built on the stale residual predicts an increase. From then on the gradient is zero; the step quality is 0/0, which is 0 over R and nan in the code, and both leave the assignment alone.
* C110 (`SpecFall`, `PFall`, `PExFall`, `PropFall`): the damped step d solves (A^T A + mu) d = g with g = -A^T r, so the linear model falls by |A d|^2 + 2 mu |d|^2, which is at least |g|^2 / (F + mu). The true residual differs from r + A d by e with |e| <= K |d|^2; with |r + A d| <= |r| and |d|^2 <= |r|^2 / (m + 2 mu) the error in the cost is at most (2 t + t^2) (m + 2 mu) |d|^2, a share 2 t + t^2 of the decrease. The hypothesis K |r| <= t (m + 2 mu) is inherited because the cost falls. The whole-solve theorems need the bounds only on the sublevel set of the start (`tame_below`); with |A^T r|^2 >= sigma |r|^2 there (`seen_below`) the decrease is a fixed share of the cost, which gives the geometric rate. The counterexample is the residual 1 + x + M x^2 near 0, flattened further out, from x = 0.
* C111 (`SpecPull`, `PPull`, `PExPull`, `PropPull`): proved on the textbook form of the iteration (C81), where xi and xi' are the minimisers of two damped sums over factors. Each factor's model is a squared length of beta u(xi) + alpha r, with u linear in xi and alpha, beta the Huber weights, so along the line from xi to xi' both sums are quadratics; their minima at the two ends give Q(h) + <U, V> + |V|^2 = 0 for h = xi' - xi, where V = beta u(h) and U = beta u(xi) + alpha r, and Cauchy-Schwarz gives the bound. The weights (C42) make alpha beta n = delta (n/delta)^(1/4) and beta^2 = (delta/n)^(1/2). The counterexample pins a scalar to 0 and pulls it to k^4 with threshold 1: the step is k / (1 + 1e-5 + 1/k^2).
* C112 (`SpecGate`, `PExGate`, `PropGate`): the reported cost of the longer graph is the reported cost of the shorter one plus the new factor's squared residual (from the per-factor form of the cost). With d the distance, n = |r| and n' the new residual's length, n <= n' + sqrt(G) d, and (m + G)(m d^2 + n'^2) - m (n' + sqrt(G) d)^2 is a square; the distance bounds follow from m d^2 + n'^2 <= n^2. On linear problems no solver ends above its starting cost (C65, used with the start itself as comparison point). Two measurements of one scalar with weights sqrt(m) and sqrt(G) attain the lower bound. The counterexample measures only the difference of two scalars before the new factor fixes one of them.

## 3. Trusted base

* Coq's kernel (8.16.1) and its virtual machine (`vm_compute`).
* The axioms `Print Assumptions` lists for each theorem (section 5). They are all from the
  standard library.
* Flocq's definition of binary32 (an installed library, no axioms of its own), for C68, C73 and the
  binary32 parts of C69.
* The reading of the Python source: each definition cites the lines it models and names its
  simplifications.
* The semantics given to the libraries the code calls (JAX, numpy, scipy, CHOLMOD, jaxlie);
  see section 4.

## 4. Modelled and not modelled

| code | model | remarks |
|---|---|---|
| `core/_storage_layout.py` | `MLayout.v` | whole file |
| `core/_variables.py` | `MLayout.v`, `MAssign.v`, `MAuto.v`, `MMisc.v` | parameter/local dimension, flatten/unflatten, default retraction and its Jacobian wrapper, canonical instances, `RealVectorVariable` templating. Equality and hash are object identity: a variable is the pair (class number, creation number) |
| `core/_variable_assignments.py` | `MAssign.v` | all methods except `__repr__`; the stacked pytree of `get_stacked_value` is its list of rows |
| `core/_factor_base.py` | `MFactor.v`, `MAuto.v`, `MDual.v`, `MMisc.v`, `MHand.v` | grouping key, `anonymize_variables`, `build_variable_value_tuple`, `get_variable_values_from_assignments`, default Jacobians. `jax.jacfwd` is an input, and for scalar programs it is modelled (`MDual.v`, our reading of JAX's tangent rules). |
| `core/_factor_stack.py` | `MFactor.v` | `make`, residuals and Jacobians under `vmap` as maps over the stack |
| `core/_stacked_factor_graph.py` | `MGraph.v` | `make`, residual vector, cost, sparse Jacobian, joint NLL with `include_constants` left at its default (the argument is traced, so passing it explicitly raises). `solve` is the call of the solver |
| `sparse/_sparse_matrix.py` | `MSparse.v` | whole file; `from_scipy_coo_matrix`/`as_scipy_coo_matrix` on triplets |
| `sparse/_linear_solve.py` | `MLinear.v`, `MMisc.v`, `MJit.v` | CHOLMOD's numeric work is an exact symmetric elimination that never reports a matrix as not positive definite; the analysis cache is a state machine; CG follows `jax.scipy.sparse.linalg.cg` |
| `solvers/*.py` | `MSolver.v`, `MLog.v` | all four solvers, termination criteria, trust-region mixin; what `_hcb_print` prints (arguments of the lines, not their formatting or the time of flushing) |
| `noises/*.py` | `MNoise.v` | Gaussian, diagonal, Huber. Cholesky, inverse, log, determinant are arguments |
| `geometry/_factors.py`, `_lie_variables.py` | `MLie.v`, `MPose.v` | residuals, analytic Jacobians, retraction, groups given by records of functions. Exact-real formulas without jaxlie's small-angle Taylor branches |
| `experimental/_sparse_covariance.py` | `MCov.v` | all methods; `inv` and CHOLMOD's factor are arguments; recursion has fuel |
| `scripts/_g2o_utils.py` | `MG2o.v` | from the file's characters to factors and initial poses; ASCII white space |
| `scripts/pose_graph_g2o.py:51-107` | `MScript.v` | Huber wrapping, graph, initial poses, the two single-step solves and the full solve; jaxlie's constructors over exact reals |
| `utils.py` | `MUtils.v` | stack / concatenate of pytrees along an axis, the stopwatch; deprecation warnings, dtype promotion and escape codes left out |
| `misc/`, `hints/`, `__init__.py`, `setup.py`, `tests/`, the CLI, timing and plotting in `scripts/pose_graph_*.py`, the rest of `scripts/pose_graph_simple.py` | none | type aliases, packaging |

Not modelled anywhere: dtypes; rounding (except on the binary32 instances, with a fixed
summation order, right to left; C73 covers every order of summing the cost); jit, tracing and compilation caches (except the CHOLMOD
analysis cache and canonical-instance caches); `vmap` over whole solves; concurrency;
memory. Python dicts iterate in insertion order. `jax.lax.while_loop` is a loop
with explicit fuel; theorems say when the fuel suffices. Out-of-range slices
and gathers clamp and out-of-range scatters are dropped (`Arr.v`, `MSparse.v`), our reading
of XLA; C18 shows the Jacobian coordinates are in range.

## 5. Assumptions of each theorem

`none` = "Closed under the global context".
`R` = the axioms of the standard library's real numbers:
`ClassicalDedekindReals.sig_not_dec`, `ClassicalDedekindReals.sig_forall_dec`,
`FunctionalExtensionality.functional_extensionality_dep`.
`R+classic` = those and `Classical_Prop.classic` (it enters through stdlib trigonometry and
analysis lemmas, and through Flocq's rounding theorems).

| property | theorem | assumptions |
|---|---|---|
| C01 | `C01_layout_blocks_tile` | none |
| C01 | `C01_block_sizes` | none |
| C02 | `C02_layout_order_and_runs` | none |
| C03 | `C03_local_global_same_enumeration` | none |
| C04 | `C04_flatten_unflatten_inverse` | none |
| C05 | `C05_make_from_dict_round_trip` | none |
| C06 | `C06_make_from_defaults` | none |
| C07 | `C07_dict_round_trip` | none |
| C08 | `C08_set_value_lens` | none |
| C09 | `C09_update_storage_layout` | none |
| C10 | `C10_get_stacked_value` | none |
| C11 | `C11_manifold_retract_per_variable` | none |
| C11 | `C11_plain_classes_add` | none |
| C12 | `C12_manifold_retract_positional` | none |
| C12 | `C12_per_variable_refuted` | none |
| C13 | `C13_graph_partition` | none |
| C14 | `C14_graph_construction` | none |
| C15 | `C15_residuals_per_factor` | none |
| C16 | `C16_cost_per_factor` | R |
| C17 | `C17_layout_independence` | none |
| C18 | `C18_jacobian_coordinates` | none |
| C18 | `C18_repeated_variable_refuted` | none |
| C19 | `C19_jacobian_rows` | R |
| C20 | `C20_jacobian_is_derivative` | R |
| C21 | `C21_transpose_adjoint` | R |
| C22 | `C22_as_dense` | R |
| C22 | `C22_repeated_coordinates_refuted` | R |
| C23 | `C23_scipy_round_trip` | none |
| C24 | `C24_cg_operator` | R |
| C24 | `C24_scale_invariance` | R |
| C24 | `C24_repeated_coordinates_refuted` | R |
| C25 | `C25_cholmod_subproblem` | R |
| C26 | `C26_analysis_of_first_pattern` | none |
| C26 | `C26_second_pattern_refuted` | none |
| C27 | `C27_termination` | none |
| C28 | `C28_exactly_iterations` | none |
| C28 | `C28_zero_iterations_refuted` | none |
| C29 | `C29_returns_callers_layout` | none |
| C30 | `C30_order_independent` | R |
| C30 | `C30_fixed_order_independent` | R |
| C30 | `C30_floats_refuted` | none |
| C31 | `C31_fixed_in_graph_order` | none |
| C31 | `C31_other_order_refuted` | none |
| C32 | `C32_tracked_cost` | none |
| C33 | `C33_residual_of_last_proposal` | none |
| C33 | `C33_until_rejection` | none |
| C33 | `C33_after_rejection_refuted` | none |
| C34 | `C34_accepted_decreases` | R |
| C34 | `C34_lm_predicts_decrease` | R |
| C34 | `C34_cost_raised_refuted` | none |
| C35 | `C35_lambda_bounds` | R |
| C35 | `C35_lambda_min_refuted` | none |
| C36 | `C36_dogleg_step` | R |
| C36 | `C36_step_taken` | R |
| C37 | `C37_radius` | R |
| C38 | `C38_convergence_meaning` | R |
| C38 | `C38_when_solvers_stop` | R |
| C38 | `C38_infinity_norm_refuted` | R |
| C38 | `C38_premature_stop_refuted` | none |
| C39 | `C39_stationary` | R |
| C40 | `C40_mahalanobis` | R |
| C40 | `C40_information_form` | R |
| C40 | `C40_jacobian_columns` | R |
| C41 | `C41_huber_residual` | R |
| C42 | `C42_huber_jacobian` | R |
| C42 | `C42_bounded_influence_refuted` | R |
| C43 | `C43_joint_nll` | R |
| C44 | `C44_zero_iff_consistent` | R |
| C44 | `C44_gauge_free` | none |
| C44 | `C44_formulas` | none |
| C44 | `C44_full_step` | R |
| C44 | `C44_spatial_zero` | R+classic |
| C44 | `C44_spatial_full_step` | R+classic |
| C44 | `C44_quaternion_sign_refuted` | R+classic |
| C45 | `C45_exact_at_zero_residual` | R |
| C45 | `C45_derivative_at_zero_residual` | R |
| C45 | `C45_so2_everywhere` | R+classic |
| C45 | `C45_se2_exactly_when_unrotated` | R+classic |
| C45 | `C45_prior_jacobian_everywhere_refuted` | R+classic |
| C45 | `C45_spatial_exact` | R+classic |
| C45 | `C45_full_turn_refuted` | R+classic |
| C45 | `C45_so3_rotated_refuted` | R+classic |
| C45 | `C45_consistent_graphs` | R+classic |
| C46 | `C46_cache_transparent` | none |
| C46 | `C46_inverse` | R |
| C46 | `C46_as_dense` | R |
| C47 | `C47_marginal_blocks` | none |
| C48 | `C48_marginals_permuted` | R |
| C48 | `C48_marginals_of_the_variables_refuted` | R |
| C49 | `C49_symmetric` | none |
| C49 | `C49_wrong_count` | none |
| C49 | `C49_whitened_quadratic` | R |
| C50 | `C50_parse` | none |
| C50 | `C50_pose_limit` | none |
| C50 | `C50_rejects_unknown` | none |
| C50 | `C50_rejects_misnumbered` | none |
| C50 | `C50_rejects_dangling` | none |
| C50 | `C50_negative_numbers_rejected_refuted` | none |
| C51 | `C51_value_tuple` | none |
| C52 | `C52_stable_identities` | none |
| C53 | `C53_duplicates` | none |
| C54 | `C54_get_value_on_local_assignments` | none |
| C55 | `C55_cg_quality` | R |
| C55 | `C55_inexact_tolerance` | R |
| C55 | `C55_solver_classes` | R |
| C56 | `C56_cg_converges` | R |
| C57 | `C57_cg_zero_column_nan` | R |
| C58 | `C58_real_subscript` | none |
| C58 | `C58_history_independence_refuted` | none |
| C59 | `C59_depth_bound` | none |
| C59 | `C59_constant_depth_refuted` | none |
| C60 | `C60_text` | none |
| C60 | `C60_tabs_do_not_separate` | none |
| C61 | `C61_values_keep_invariants` | none |
| C61 | `C61_fixed_iteration` | none |
| C61 | `C61_rotation_norms_never_change` | R+classic |
| C62 | `C62_solve_never_raises` | none |
| C62 | `C62_fixed_iteration` | none |
| C62 | `C62_linear_solvers` | none |
| C62 | `C62_pose_graphs` | R+classic |
| C62 | `C62_without_parameters_refuted` | none |
| C62 | `C62_without_residuals_refuted` | none |
| C63 | `C63_solve_commutes_with_symmetries` | none |
| C63 | `C63_fixed_iteration` | none |
| C63 | `C63_frame_invariance` | R+classic |
| C63 | `C63_gauge_freedom` | R+classic |
| C63 | `C63_settings` | R |
| C63 | `C63_default_settings_refuted` | R |
| C64 | `C64_default_jacobians` | none |
| C64 | `C64_is_derivative` | R |
| C64 | `C64_not_overridden` | R |
| C64 | `C64_plain_classes` | R |
| C64 | `C64_guards` | none |
| C65 | `C65_linear_solves` | R |
| C65 | `C65_rate` | R |
| C65 | `C65_minimum` | R |
| C65 | `C65_dogleg` | R |
| C65 | `C65_exact_refuted` | R |
| C66 | `C66_nan_rejected` | none |
| C66 | `C66_cost_never_nan` | none |
| C66 | `C66_number_types` | R |
| C66 | `C66_recovery_refuted` | none |
| C66 | `C66_dogleg_recovery_refuted` | none |
| C66 | `C66_gauss_newton_refuted` | none |
| C67 | `C67_graph_and_poses` | R+classic |
| C67 | `C67_objective` | R+classic |
| C67 | `C67_solves` | R+classic |
| C67 | `C67_unconnected_pose_raises` | R+classic |
| C67 | `C67_fixed_iteration` | R+classic |
| C67 | `C67_file_order_refuted` | R+classic |
| C67 | `C67_pose_limit_refuted` | R+classic |
| C68 | `C68_accepted_decreases` | R+classic |
| C68 | `C68_lambda_range` | R+classic |
| C68 | `C68_lambda_positive` | R+classic |
| C68 | `C68_lambda_zero_refuted` | R+classic |
| C68 | `C68_radius_not_negative` | R+classic |
| C68 | `C68_same_as_specfloat` | R+classic |
| C69 | `C69_infinite_cost` | none |
| C69 | `C69_number_types` | R+classic |
| C69 | `C69_finite_start_refuted` | none |
| C70 | `C70_zero_cost_iff_consistent` | R+classic |
| C70 | `C70_solver_results` | R+classic |
| C70 | `C70_between_make` | none |
| C70 | `C70_parameters_equal_refuted` | R+classic |
| C70 | `C70_unnormalised_refuted` | R+classic |
| C71 | `C71_followed_gradient` | R |
| C71 | `C71_loss_shape` | R |
| C71 | `C71_minimises_cost_refuted` | R |
| C72 | `C72_information_adds` | R |
| C72 | `C72_more_factors` | R |
| C72 | `C72_priors_fuse` | R+classic |
| C72 | `C72_repeated_prior` | R+classic |
| C73 | `C73_cost_in_any_order` | R+classic |
| C73 | `C73_relative_bound` | R |
| C73 | `C73_comparisons` | R+classic |
| C73 | `C73_order_refuted` | R+classic |
| C73 | `C73_zero_residual_refuted` | R+classic |
| C74 | `C74_fixed_iterations` | R |
| C74 | `C74_conjugate_gradients` | R |
| C74 | `C74_marginals` | R |
| C74 | `C74_uncorrelated` | R |
| C74 | `C74_gauss_newton_refuted` | R |
| C74 | `C74_trust_region_refuted` | R |
| C74 | `C74_loose_tolerance_refuted` | R |
| C75 | `C75_levenberg_marquardt` | R |
| C75 | `C75_dogleg` | R |
| C75 | `C75_large_damping` | R |
| C75 | `C75_small_radius` | R |
| C75 | `C75_after_rejection_refuted` | R |
| C76 | `C76_inexact_descent` | R |
| C76 | `C76_linear_gradient` | R |
| C76 | `C76_tolerances` | R |
| C77 | `C77_gauss_newton` | R |
| C77 | `C77_conjugate_gradients` | R |
| C77 | `C77_levenberg_marquardt` | R |
| C77 | `C77_solves` | R |
| C77 | `C77_only_stationary` | R |
| C77 | `C77_everywhere_refuted` | R |
| C78 | `C78_solve` | R |
| C78 | `C78_fixed` | R |
| C78 | `C78_closed` | R |
| C78 | `C78_noise` | R+classic |
| C78 | `C78_split` | R |
| C78 | `C78_cost_only_refuted` | R |
| C79 | `C79_analysis_of_first_alike` | none |
| C79 | `C79_own_analysis` | none |
| C79 | `C79_objects_irrelevant` | none |
| C79 | `C79_alike_graphs` | none |
| C79 | `C79_same_connections` | none |
| C79 | `C79_fresh_solver_refuted` | R |
| C80 | `C80_blind_solvers` | none |
| C80 | `C80_fixed_iterations_split` | none |
| C80 | `C80_limit_not_reached` | none |
| C80 | `C80_resumes` | none |
| C80 | `C80_gauss_newton_split` | none |
| C80 | `C80_inexact_refuted` | none |
| C80 | `C80_gradient_start_refuted` | none |
| C80 | `C80_damping_refuted` | none |
| C80 | `C80_rejected_refuted` | none |
| C81 | `C81_gauss_newton` | R |
| C81 | `C81_trust_region` | R |
| C81 | `C81_solves` | R |
| C81 | `C81_deterministic` | R |
| C82 | `C82_gaussian` | R+classic |
| C82 | `C82_rest_point` | R |
| C82 | `C82_huber` | R+classic |
| C82 | `C82_huber_beats_gaussian` | R+classic |
| C82 | `C82_bounded_influence_refuted` | R+classic |
| C83 | `C83_gauss_newton` | R+classic |
| C83 | `C83_levenberg_marquardt` | R+classic |
| C83 | `C83_tests` | R+classic |
| C84 | `C84_jvp` | R |
| C84 | `C84_exact` | R |
| C84 | `C84_plain_variables` | R |
| C84 | `C84_plain_retraction` | R |
| C84 | `C84_well_posed` | R |
| C84 | `C84_kinks` | R |
| C84 | `C84_not_smooth_refuted` | none |
| C85 | `C85_nearest` | R |
| C85 | `C85_rate` | R |
| C85 | `C85_solves` | R |
| C85 | `C85_limit` | R |
| C85 | `C85_steps` | R |
| C85 | `C85_unseen` | R |
| C85 | `C85_cg_refuted` | R |
| C86 | `C86_gauss_newton` | R+classic |
| C86 | `C86_levenberg_marquardt` | R+classic |
| C86 | `C86_all_angles` | R+classic |
| C86 | `C86_global_optimum_refuted` | R+classic |
| C87 | `C87_turn` | R+classic |
| C87 | `C87_run` | R+classic |
| C87 | `C87_solve` | R+classic |
| C87 | `C87_limit` | R+classic |
| C87 | `C87_tied` | R+classic |
| C87 | `C87_gain` | R+classic |
| C87 | `C87_trust_region` | R+classic |
| C88 | `C88_rotation_gradient` | R+classic |
| C88 | `C88_step` | R |
| C88 | `C88_rest` | R |
| C88 | `C88_pose_rest` | R+classic |
| C88 | `C88_midpoint` | R+classic |
| C88 | `C88_rotation_minimum` | R+classic |
| C88 | `C88_cheaper` | R+classic |
| C88 | `C88_minimum_refuted` | R+classic |
| C89 | `C89_shortens` | R+classic |
| C89 | `C89_model` | R+classic |
| C89 | `C89_general` | R |
| C89 | `C89_descent` | R+classic |
| C89 | `C89_half_turns` | R+classic |
| C89 | `C89_slope` | R+classic |
| C89 | `C89_best_refuted` | R+classic |
| C90 | `C90_transparent` | none |
| C90 | `C90_silent` | none |
| C90 | `C90_report` | none |
| C90 | `C90_fixed` | none |
| C90 | `C90_last` | none |
| C90 | `C90_refuted` | none |
| C91 | `C91_values` | none |
| C91 | `C91_graph` | none |
| C91 | `C91_cost` | R |
| C92 | `C92_stack` | none |
| C92 | `C92_concatenate` | none |
| C92 | `C92_default` | none |
| C92 | `C92_stopwatch` | none |
| C92 | `C92_time` | R |
| C92 | `C92_refuted` | R |
| C93 | `C93_turn` | R+classic |
| C93 | `C93_run` | R+classic |
| C93 | `C93_solve` | R+classic |
| C93 | `C93_limit` | R+classic |
| C94 | `C94_solve` | R |
| C94 | `C94_fixed` | R |
| C94 | `C94_noise` | R+classic |
| C94 | `C94_closed` | R |
| C94 | `C94_cholmod_refuted` | R+classic |
| C94 | `C94_gradient_refuted` | R+classic |
| C95 | `C95_rates` | R |
| C95 | `C95_solves` | R |
| C95 | `C95_dogleg_rate` | R |
| C95 | `C95_tolerance_refuted` | R |
| C96 | `C96_steps` | R |
| C96 | `C96_solves` | R |
| C96 | `C96_forcing_sequence` | R |
| C96 | `C96_cholmod_refuted` | R |
| C97 | `C97_solves` | R |
| C97 | `C97_accuracy` | R |
| C97 | `C97_default_refuted` | R |
| C97 | `C97_gradient_refuted` | R |
| C98 | `C98_iterations` | R |
| C98 | `C98_solves` | R |
| C98 | `C98_rest` | R |
| C98 | `C98_cost_falls_refuted` | R |
| C99 | `C99_exists` | R |
| C99 | `C99_one_fit` | R |
| C99 | `C99_iterations` | R |
| C99 | `C99_solves` | R |
| C99 | `C99_full_rank` | R |
| C99 | `C99_least_cost_refuted` | R |
| C99 | `C99_uniform_refuted` | R |
| C100 | `C100_constants` | R+classic |
| C100 | `C100_solves` | R+classic |
| C100 | `C100_conjugate_gradients` | R+classic |
| C100 | `C100_levenberg_marquardt` | R+classic |
| C100 | `C100_isolated` | R+classic |
| C100 | `C100_kinks_refuted` | R |
| C101 | `C101_constants` | R+classic |
| C101 | `C101_runs` | R |
| C101 | `C101_solves` | R |
| C101 | `C101_program_runs` | R+classic |
| C101 | `C101_program_solves` | R+classic |
| C101 | `C101_without_exact_fit_refuted` | R |
| C102 | `C102_solves` | R |
| C102 | `C102_accuracy` | R |
| C102 | `C102_programs` | R+classic |
| C102 | `C102_cost_refuted` | R |
| C102 | `C102_gradient_refuted` | R |
| C103 | `C103_solves` | R+classic |
| C103 | `C103_accuracy` | R+classic |
| C103 | `C103_tied` | R+classic |
| C104 | `C104_floating_graphs_converge` | R+classic |
| C104 | `C104_floating_graphs_converge_trust_region` | R+classic |
| C104 | `C104_any_accuracy` | R+classic |
| C104 | `C104_common_motion_changes_nothing` | R+classic |
| C104 | `C104_never_rigid` | R+classic |
| C105 | `C105_every_consistent_graph_converges` | R+classic |
| C105 | `C105_every_consistent_graph_converges_trust_region` | R+classic |
| C105 | `C105_any_accuracy` | R+classic |
| C105 | `C105_unseen_motion_changes_nothing` | R+classic |
| C106 | `C106_iterates_have_a_limit` | R+classic |
| C106 | `C106_trust_region_ends_near_start` | R+classic |
| C106 | `C106_limits_fit_exactly` | R+classic |
| C107 | `C107_solves` | R+classic |
| C107 | `C107_accuracy` | R+classic |
| C108 | `C108_recovers` | R |
| C108 | `C108_no_endless_rejection` | R |
| C108 | `C108_threshold_needed_refuted` | R |
| C108 | `C108_result_worse_refuted` | R |
| C109 | `C109_recovers` | R |
| C109 | `C109_no_endless_rejection` | R |
| C109 | `C109_threshold_needed_refuted` | R |
| C109 | `C109_result_worse_refuted` | R |
| C110 | `C110_descends` | R |
| C110 | `C110_large_gradients` | R |
| C110 | `C110_solves` | R |
| C110 | `C110_converges` | R |
| C110 | `C110_large_curvature_refuted` | R |
| C111 | `C111_pull` | R |
| C111 | `C111_bounded_pull_refuted` | R |
| C112 | `C112_bounds` | R |
| C112 | `C112_restart` | R |
| C112 | `C112_sharp` | R |
| C112 | `C112_flat_refuted` | R |

## 6. What the model showed about the code

Behaviour that differs from what a caller might expect. The property named holds the theorem,
except where the line says otherwise. All of it is about the model; the code was not run.

* C12, C31: `manifold_retract` pairs tangent blocks with variables by position within a type; the fixed-iteration solver does not convert the layout and applies steps to the wrong variables for another order.
* C22: `as_dense` overwrites repeated coordinates, while `@` adds them. C18: coordinates repeat when a factor lists a variable twice.
* C26: the CHOLMOD analysis cache is keyed by object identity and reused for another sparsity pattern (the source's docstring says so; what CHOLMOD then computes is not modelled).
* C33: after a rejected trust-region step the residual vector stays that of the rejected point; the next linearisation mixes two points. C34: a step raising the cost from below 5 to above 1e17 is then accepted in a binary32 run.
* C35: lambda can fall below `lambda_min` (the bound is only applied on rejection, as a comment in the source says).
* C38: the gradient test takes a maximum without absolute value; it accepts arbitrarily large gradients of one sign.
* C42: the Huber weight of the Jacobian is computed from the already weighted residual.
* C43: joint NLL raises for graphs with Huber noise (an explicit assertion in the source).
* C45: the analytic prior Jacobian -I is wrong for rotated SE(2) and SO(3) residuals.
* C48: marginal covariances ignore CHOLMOD's fill-reducing permutation. C59: recursion depth grows linearly.
* C50: negative g2o vertex numbers are accepted; the SE(2) pose limit keeps one pose more than asked. SE(3) poses are not limited (read off the model; no theorem of its own).
* C57: one zero Jacobian column turns the whole conjugate gradient result into NaN (right-hand side nonzero, tolerance below 1).
* C58: whether a non-integer template argument is accepted depends on earlier calls.
* C30: with floats the solution depends on factor order. C63: the default parameter tolerance depends on the world origin.
* C62: solving without parameters raises ValueError (not in the fixed-iteration solver), without residual entries AssertionError (one binary32 instance each).
* C66: after a proposal with a NaN residual the trust-region solvers also reject the next iteration, because that residual is kept (C33); Dogleg does not shrink its radius on NaN. In binary32 runs both end at their starting point.
* C67: a g2o file with a vertex that no kept edge touches makes the script raise AssertionError; the pose limit can cause this on a connected file. A file whose edges first name the vertices in another order than the vertex lines gives an assignment in an order the fixed-iteration solver mishandles (C31).
* C68: lambda is divided by its factor without a lower limit and reaches 0 in binary32 after 142 accepted iterations (more than the default limit of 100).
* C69: Levenberg-Marquardt and Dogleg return their start when its cost overflows, though all residuals are finite; Gauss-Newton recovers.
* C70: an unnormalised value can have zero cost without being the prior mean (nothing renormalises, C61); a quaternion and its negative cost the same.
* C71: because of the C42 weight, solvers on Huber problems follow the gradient of an n^(5/4) loss, not of the cost they report; Gauss-Newton can stand still where the cost is not minimal.
* C73: the single-precision cost depends on the order of summation, and is 0 for residuals of 2^-75 or less.
* C74: disconnected parts of a graph influence each other through the stopping tests and the trust region: Levenberg-Marquardt accepts a step that raises the cost of one part from 9801 to millions because another part gains more. With conjugate gradients stopped at a positive tolerance, a variable measured once is no longer solved exactly when an unrelated pair of variables is added.
* C75: one rejected Levenberg-Marquardt step on x^2 - 2 from x = 1/100 is followed by an accepted one that raises the cost from 4 to about 10^17: the residual of the rejected proposal is kept (C33, C34) and no rounding is involved.
* C65: the constant 1e-5 keeps Gauss-Newton from the exact minimum of linear problems.
* C77: the quadratic convergence of Gauss-Newton at an exact fit stops at the linear rate 1e-5/(m^2 + 1e-5), again because of the constant damping; x^2 = 4 from x = 0 is reported as converged at x = 0.
* C78: replacing one residual by two with the same sum of squares changes the path of every solver: on (x^2+1)^2 Gauss-Newton does not settle at the minimum x = 0, on (x^2-1)^2 + (2x)^2 it halves x every step (up to the damping).
* C79: a fresh CholmodSolver does not protect against reuse of an analysis: the identity that keys the cache is that of a copy made by jit, shared by all solves of graphs with equal structure and variables. Conversely one solver object used for graphs of different structure is safe.
* C80: solve cannot be resumed in general: it returns only the assignment, so the damping, the radius, the CG forcing sequence and the count of iterations before the gradient test all start again. After a rejected step a restart even behaves better than the uninterrupted run, because it recomputes the residual.
* C82: with Huber loss the influence of an outlier at distance D grows like D^(1/4) instead of staying at delta/m, because the Jacobian is scaled by (delta/n)^(1/4) and not by the weight sqrt(delta/n) of the residual (C42). The test's factor of 100 still holds, by a margin of two in the distance.
* C84: norms are a trap for default Jacobians: a range factor evaluated where its distance is zero, for instance at the default value of `RealVectorVariable`, has a finite residual and a NaN Jacobian, and no solver recovers.
* C85: with CholmodSolver all solvers return (approach) the minimiser nearest to the start; with the CG solvers an underdetermined problem ends at a different one, because the Jacobi preconditioner does not preserve orthogonality to the kernel.
* C86: rotation graphs can be stuck for good in a wound state far from the optimum (five rotations in a ring), with a cost low enough that nothing ever wraps.
* C88: with the analytic Jacobians of `_factors.py` the solvers minimise the reported cost on graphs of rotations with isotropic noise, but on SE2/SE3 graphs with contradicting measurements they come to rest at poses that do not minimise it (already with two priors on one pose, equal unit noise). The Jacobians leave out the derivative of the logarithm, which for rotations happens to be harmless: it is the identity in the direction of the residual.
* C89: on graphs of rotations with priors the logarithm's missing Jacobian makes the Gauss-Newton model an upper bound of the cost, so the undamped solvers cannot overshoot from any start; but they need not find the best rotation: at half a turn from the mean of two measurements the pulls cancel too.
* C94: rescaling all noise models by a common factor changes what CholmodSolver computes (absolute damping) and when every solver stops (absolute gradient tolerance).
* C96: CholmodSolver never gets beyond linear convergence, even on linear problems, because of its constant damping; the inexact conjugate gradient solver is asymptotically faster per iteration.
* C97: with the default settings and CholmodSolver, a single measurement x = 1 of weight 1e-6 is declared solved after one iteration with 99.9% of its cost left. The constant damping 1e-5 of CholmodSolver is large compared with the squared weight, so the step is tiny and passes the cost test.
* C98: under Huber noise the reported cost can go up although Gauss-Newton makes progress on the loss it actually follows: two measurements -8 (weight 2) and 248 (weight 1) with delta 1, started at -8, go from cost 256 to about 256.98 in one step. The cost test of the stopping rule looks at the absolute relative change of that cost.
* C99: two Huber measurements, -8 with weight 2 and 256 with weight 1: from every start Gauss-Newton converges to 0, cost 272, although -8 has cost 264.
* C100: an exact fit at a kink of max(x, 0) has Jacobian 1/2 and a unique linearised solution, yet Gauss-Newton does not move from any x < 0.
* C101: close to a minimum whose residual is not small, both trust-region solvers reject their first step however close they start (residuals (x, x^2 + 5)); each rejected step also overwrites the stored residual with that of the rejected proposal.
* C102: near an exact fit the cost test and the gradient test can stop the solvers at once, at any distance: the cost test compares with the current cost, which changes slowly when measurements are weak, and the gradient test passes whenever every component of the gradient has the right sign.
* C108: the default Levenberg-Marquardt settings can return a result far worse than the starting values (cost 1 becomes M^2 for any M >= 2000, at every max_iterations >= 2). The step quality is a ratio of two changes, and after a rejection the model built on the stale residual can predict an increase, so that an increase of the cost counts as a good step.
* C109: the default Dogleg settings, too, can return a result worse than the starting values (cost 1 becomes H^2 for any H >= 2). With step_quality_min = 3/4 Dogleg can reject the same proposal for ever without shrinking the radius, because a quality between 1/4 and 3/4 leaves the radius alone.
* C110: Gauss-Newton and the fixed-iteration solver never compare the new cost with the old. On a one-variable problem with start cost 1 the first iteration can return any cost, so callers cannot assume `solve` improves on its input.
* C111: adding one Huber factor can move a Gauss-Newton step by any amount, because the Jacobian is weighted by the square root of the weight the residual already carries (C42). The growth is only the fourth root of the outlier's distance, so in practice Huber factors still help.

## 7. Mutation testing

`seeded/LOG.jsonl` has one line per attempt finished so far: the definition edited, the edit,
the claim it is meant to break, the theorems whose proofs failed, the theorems tightened. The
edits are made in scratch copies; every proof is replayed on the edited model, and failing
proofs are admitted one by one so that all affected property theorems are listed.

How to read it:

* `theorems_failed` means the existing proof no longer goes through, directly or through a
  lemma it uses. It does not show the statement false of the edited model. The control m009 is
  an equivalent program and still lists four theorems: scripts depend on the syntax of
  definitions. Long lists mostly come from shared lemmas. A proof stopped at 150 s counts as
  failed; that happened in m426 and m509 (one lemma each).
* The informative outcome is the opposite one, a claim that should break and does not. That
  happened with m006 and m007, and C11 was strengthened (`C11_plain_classes_add`).
* `outcome: inconclusive` marks edits (m008, m017, m326, m417, m418, m433, m640, m801) for which a theorem
  statement no longer typechecked, so nothing was tested. m417 and m418 were re-run in a
  well-typed form as m501 and m502.
* Four more such edits: m321 (Huber threshold replaced by 1 in the script) broke nothing, m315
  (default Jacobians in reverse slot order) broke only an example, m317 and m318 (ends of a pose
  edge swapped in the residual or Jacobian) broke no theorem of their claim. `C67_objective`,
  `C64_not_overridden`, `C70_zero_cost_iff_consistent` and `C45_consistent_graphs` now fix these,
  and the re-runs m401-m405 fail the intended theorems. m119 (tab not stripped by the g2o reader)
  broke nothing because the specification used the model's own notion of white space; C60 now
  lists the characters.
* `claim_broken` was first written down before the run. Some entries (m005, m080, m105, m424,
  m503-m507) were refiled afterwards under the claim whose statement the edit really falsifies;
  where no statement is falsified the entry says so.
* The batches ran against the commit that was current when each was started: m001-m039 with
  C01-C60 proved, m040-m355 with C01-C67, m401-m438 up to C75, m501-m518 up to C78, m601-m718
  with C01-C84 or later, m801-m827 at c2cb041 (up to C92), m901-m1005 at ff15708 (up to C101). The
  batches m1201 ff. and m1301 ff. were run on the part of the development that their claims need:
  the files below C34-C39, C75 and C101-C109 at 65ebe96 for the first, the files below C25, C28,
  C40-C43, C71, C81, C82 and C110-C112 for the second. A theorem outside that part, or added
  later, cannot appear in the lists of these batches.
* Reading the statements for edits they would miss led to `C01_block_sizes`, `C36_step_taken`
  and `C38_when_solvers_stop`, to the exact damping update in `C35_lambda_bounds`, and to the
  step quality being spelt out in the specification's `trust_step`.
