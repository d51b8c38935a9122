# Formal model of option-pricer: design

Subject: the C++20 library in `/repo` (anthonymakarewicz/option-pricer), read as text.
Tool: Coq/Rocq 8.16.1. Model, specifications and proofs are in `/verif/rocq/theories`.

## Layout

| prefix | content |
|---|---|
| `M_*.v` | executable model of the C++ code, function by function, with `/repo` file and line citations; no proofs |
| `S_*.v` | small independent specifications used in the theorem statements |
| `L_*.v` | lemmas and proofs |
| `P_*.v` | the property theorems (`Theorem ... exact lemma`), concrete non-vacuity examples, and `Print Assumptions` |

## Modelling decisions

* **double.** The code is modelled once, over a record `Num` of numeric operations
  (carrier, `+ - * /`, `<`, `<=`, `==`, `sqrt`, `exp`, `log`, integer conversion), and
  instantiated twice:
  * `B64`: IEEE-754 binary64 from Flocq (`BinarySingleNaN`, round to nearest even): NaN,
    infinities, signed zeros and rounding are those of the hardware. `exp`/`log` are library
    functions without a specified rounding, so they are oracle parameters of this instance.
    C126, C127 and C128 ask of them the accuracy stated in `S_Libm`, as a hypothesis of the theorem.
  * `Rnum`: the real numbers: exact arithmetic. Theorems stated on this instance say what the
    algorithm computes apart from rounding. This is an idealisation and each such theorem says so.
* **Outcomes.** Every function that can fail returns `Ok v`, `Throw k` with
  `k` one of `InvalidArgument`, `LogicError`, `RuntimeError`, or `UB` (undefined behaviour:
  out-of-bounds read, signed overflow, `back()` of an empty vector). Exception texts are dropped
  unless a property is about them.
* **Integers.** `unsigned int`/`unsigned long` are `Z` with explicit wrap-around where the code can
  wrap; `int` loop counters give `UB` when they would pass `INT_MAX`.
* **Pointers.** `shared_ptr<StockData>` is a location in a heap; tickers map to locations; observers
  are weak references to objects with a reference count.
* **Random numbers.** The standard library engines and distributions and Boost's quasi-random
  engines are oracles: theorems hold for every stream they may produce.
* **Expectations.** Means (C38, C39, C94-C99) are taken in `S_Expect.v`: a `sampler` is a program that
  asks for draws; its mean integrates each draw against the law its distribution object stands
  for (normal, uniform, exponential and gamma densities, Poisson weights), independently of the
  earlier ones. The theorems show that the modelled function follows such a sampler on every
  oracle, so the mean is about the function itself. That the standard library's engines produce
  independent draws with these laws is the assumption behind the word "expected"; it is part of
  the definition of a mean and not an axiom.
* **Eigen.** Sparse/dense LU, SVD and LDLT are oracles with their documented contract stated as a
  hypothesis of the theorem that uses it. The Thomas algorithm is modelled in full.
* **Threads.** Only `MarketData::getInstance` synchronises; it is modelled as an interleaving
  transition system.

## What is modelled

| file of the model | code in `/repo` |
|---|---|
| `M_Num`, `M_Outcome`, `M_Dict` | `double`, exceptions and undefined behaviour, `std::vector` access, `int`/`unsigned` loops, `std::unordered_map` |
| `M_Stock`, `M_Market` | `src/market_data/stock_data.cpp`, `market_data.cpp`, `market_data_observer.cpp` and headers |
| `M_Singleton` | `market_data.cpp: getInstance` under threads |
| `M_Payoff`, `M_Option` | `src/payoff/**`, `src/option/**`: payoffs, parameter object, options, all factories, help text |
| `M_Random` | `src/random/**`: distributions, inverse normal CDF, pseudo- and quasi-random generators |
| `M_Model` | `src/model/**`: GBM, Heston, Bates, Kou, Merton, Variance Gamma, both CIR discretisations, the GBM bridge |
| `M_Regression` | `src/numerical_analysis/basis_function/**`, `regression/**` |
| `M_MonteCarlo` | `src/solver/monte_carlo/mc_*.cpp`: European/digital, Asian, barrier, lookback, American (both algorithms) |
| `M_Builder` | `src/solver/monte_carlo/builder/**`, `mc_solver.cpp` |
| `M_Numeric` | `src/numerical_analysis/interpolation/**`, `linear_algebra/matrix_solver/**` |
| `M_Fdm` | `src/solver/finite_difference_method/**`: Black-Scholes PDE, explicit, implicit and Crank-Nicolson solvers |
| `M_FdmWarn` | the conditions of the warnings on `std::cerr` in the finite-difference solvers |
| `M_Main` | `main.cpp` |
| `M_Print` | `operator<<` of `StockData`, `Payoff` and `Option`, `Option::getType` (number formatting is an arbitrary function) |
| `M_Export` | `examples/generate_sobol.cpp` (prompt, loops, normalisation; not the file name and the decimal format) |

## Check of the model against the repository's tests

`E_RepoTests` replays the unit tests below `tests/unit` (payoffs, stock data, market data, options,
factories) on the model in binary64: every expected value and exception comes out. These are tests
of the model, not properties, and no claim rests on them.

## Not modelled

* The decimal formatting of numbers by `operator<<`, the text of the warnings on `std::cerr`
  (when they are printed is modelled).
* Empty stub files (`multi_factor/*`, `src/solver/tree/*`), `examples/notebooks`. The unit tests are not part of the
  model; `E_RepoTests` replays them on it (see below).
* Memory exhaustion (`std::bad_alloc`), data races on the unsynchronised methods.
* Observers whose `update()` re-enters the market data (all observers in `/repo` have an empty
  `update()`).
* The internals of the C++ standard library, Boost and Eigen. They appear as arbitrary functions
  (`Env`, `LinAlg`, `LuAlg`) and every theorem quantifies over all of them; the few theorems that
  need a fact about them state it as a hypothesis:
  * C65: `ldlt().solve` is only used through the system it is given (the theorems speak of any
    solution of that system); C77 and C64: any least-squares oracle;
  * C71, C79: `SparseLU` reports failure on a matrix with a zero row. `C71_lu_ex` gives an LU
    algorithm satisfying it.
* The uninitialised elements of the Crank-Nicolson vector `b`, which the code reads before writing
  them: formally undefined in C++, modelled as arbitrary values (`mem`), so the C70 theorems hold
  for every content.

## Properties: what is modelled and how it is proved

| ids | model | approach |
|---|---|---|
| C01, C02, C11 | `StockData` over `B64` | case analysis on IEEE comparison; NaN witnesses refute C02 |
| C03-C06 | `MarketData` as heap + map + rate | refinement to an abstract map by induction over call sequences; witnesses for the refuted C04/C05 |
| C07-C09 | observers as weak references | induction over the registry and over lifetime histories, invariant |
| C10 | interleaving of threads over a mutex | invariant over all schedules, any number of threads |
| C12 | dictionary of variants | refinement to a last-write function by induction over calls |
| C13-C15 | factories composed with market model | case analysis per kind; exact success condition |
| C16 | option equality | witnesses (refutation), plus what equality does guarantee |
| C17-C25 | payoffs and barrier predicate over `B64` | Flocq correctness lemmas: sign, monotonicity, negation symmetry of rounding |
| C26, C27, C30, C31, C76 | generators and distributions | refinement to the concatenated stream by induction over draws |
| C28, C29 | inverse normal CDF over R | polynomial positivity certificates, monotonicity of branches, bounds at the joins |
| C32-C37 | stock models as state-passing draws | induction over steps; witness for Kou and Heston |
| C38 | one-step expectation; mean of the simulated price at every date | Gaussian integral by Coquelicot, Poisson series, exponential and gamma integrals, induction over the steps; witnesses for Merton, Bates, Kou and Variance Gamma |
| C39 | distribution parameters | witness and exact mean; mean of the gamma law by parts |
| C40 | model pointer into the market heap | refinement, witness for replacement |
| C41-C46 | Monte Carlo pricers over R and B64 | induction over number of paths and steps; AM-GM |
| C47 | definedness | characterisation of `UB`; witnesses |
| C48-C50 | American pricer, regression as oracle | backward induction invariant; witness |
| C51-C54 | builders and solver as state machines | induction over call sequences; witnesses |
| C55-C58 | interpolation | loop/binary-search invariants, algebra over R, witnesses over B64 |
| C59 | Thomas algorithm | induction over sweeps; diagonal-dominance invariant on the pivots |
| C60-C63 | basis functions | two-step induction over the degree |
| C64, C65, C77 | regressions | algebra, convexity; witness for the lasso |
| C66, C67, C78 | grid and time loop | induction over nodes and steps; binary64 witnesses by kernel computation; a stalling-clock invariant |
| C68, C69 | explicit and implicit Euler | step = scheme by unfolding the loops; discrete maximum principle; M-matrix uniqueness; induction over time layers |
| C70, C71 | Crank-Nicolson | exact system solved in the last inner iteration; witnesses |
| C72, C80 | boundary functions | exact conditions |
| C73-C75, C79 | caching | state invariant over call sequences; witnesses |
| C81 | parity on the grid | linearity of the schemes, preservation of affine data, induction over layers |
| C82-C88 | relations between Monte Carlo prices | relational invariants between two runs of the state-passing simulation on proportional or equal draws (`L_McScale.v`), then algebra on path values |
| C89 | comparison and strikes on the grid | discrete minimum principle for a linear combination of runs, induction over layers |
| C90, C91 | discretisation error | barrier function e0 + t tau and the minimum principle; Taylor bounds from the mean value theorem |
| C92 | zero-strike call | the affine solution is a fixed point; uniqueness; witness |
| C93 | regression strategy constructors | case analysis; NaN witness |
| C94, C95 | whole price as a sampler | induction over the number of paths: linearity, independence, Markov's inequality |
| C96, C97 | GBM path as a sampler | convolution of normals by induction over the steps (the last draw smooths the payoff, the others are absorbed), closed form by substitution |
| C98 | forward and backward GBM simulation as samplers | moment generating function of the normal law, induction over the dates in both directions, both sums equal the covariance form |
| C99 | Black-Scholes coefficients and initial condition; price as in C96 | derivatives of the building blocks (cash, stock, cash-or-nothing, asset-or-nothing), linearity; limits of the normal distribution function |
| C100 | whole `calculatePrice` in binary64, all classes | every operation is monotone under rounding; sign invariant through the state monad (NaN allowed, negative numbers and -infinity not) |
| C101, C102 | two runs on the same draws in binary64 | relational invariant "second value not below the first unless one is NaN" through payoffs, path steps and sums |
| C103, C105 | price written as a fold over the payoffs of the simulated paths (`S_McPaths`) | pathwise order of the payoffs, monotone rounding of sum, division and product; exact counting up to 2^53 |
| C104 | the same fold | standard error analysis of a recursive sum with Flocq's relative and absolute error bounds |
| C106, C107 | simulation and pricing on `Quasi_ctor`, binary64 (C106) and any arithmetic (C107) | a program logic counting the coordinates read (`walks`); the path as a function of the coordinates it reads; two point sequences that agree on point 0 for the refutation |
| C108 | pricing on `Pseudo_ctor`, any arithmetic | every draw succeeds, so a run fails exactly at a rejected distribution object |
| C109 | `main.cpp` as a program over a `World` | evaluation of the setup with symbolic constants, then C106, C108, C87, C100 and independence of the seed |
| C110, C112 | the two `std::cerr` tests of the solvers (`M_FdmWarn`) | exact conditions by algebra over the rows; witnesses on grids of four and five nodes; the maximum principle of C68 |
| C111 | implicit and Crank-Nicolson steps on the Black-Scholes operator | recurrence of the Thomas pivots: an invariant on products of consecutive pivots, by induction over rows, for every sign of the drift |
| C113 | two solvers for one contract in two units of currency | simulation: states in the ratio of the units are preserved by every step (matrices scale by the square, right-hand sides by the cube; induction over the Thomas sweep); both interpolations are homogeneous |
| C114, C115 | the three solvers run in binary64 (`M_Fdm` at `B64 fexp flog`), Thomas solver | closed form of the Thomas sweep over any number type (`L_Thomas`); monotonicity of rounded operations; induction over rows, then over time steps (simulation of two runs) |
| C116 | `export_main` (`M_Export`) over arbitrary engines | loop invariants by induction over the counters; wrap-around witnesses quantified over all engines and inputs |
| C117 | the do-while prompt over a stream with a failure flag | induction over the pairs typed; the failed state is absorbing |
| C118 | the quotient written to the column Sobol, at `B64 fexp flog` | monotonicity of rounding between the computed neighbours of 2^64; dyadic numbers are exact |
| C119 | the text as a string (`M_Print`) | the lines before the ticker are cut off from the front, the ones behind it from the back, so no assumption on tickers is needed |
| C120 | histories of market calls, a creation in between | refinement of C03 and the page as a list of lines |
| C121 | `invalidParams` and `getType` of the factories, `createOption` | the parameters read: by congruence and C13; entries: search of the ten texts, all cases |
| C122 | all joint power moments of the dates of a path (`S_Levy`: `levy_moment`), as means of samplers | one step multiplies the mean of every power in front of any continuation (`L_Levy`); induction on the number of dates; the exponent is unique |
| C123 | Merton paths as samplers; `S_Merton`: `jump_mixture`, `merton_1976` | mixtures absorb a normal increment, a normal jump and a Poisson number of jumps (`L_Mixture`); induction on the number of dates (`L_Merton`); strictly increasing in the forward for calls |
| C124 | `snd_inv_cdf` over R against `Phi`, the integral of the Gaussian density (`S_Normal`) | the derivative of the error is bounded by polynomial inequalities, checked over whole intervals by a verified integer checker (`L_ZPoly`); centre in `L_Accuracy`, tails through the log of the density ratio in `L_AccTail` |
| C125 | Monte Carlo run on a quasi-random generator with one date; `S_Discrepancy`: share below a level, star discrepancy, variation of a payoff | the quantiles below a level are counted with C124; a put is squeezed between sums of digital puts, for the sample and for the lognormal law alike (`L_Discrepancy`) |
| C126 | `snd_inv_cdf` over binary64; `S_Libm`: what is asked of the logarithm | running error bounds (`L_Near`) through both branches, exactness of `1 - u`, and the cases where rounding moves a number across the branch test (`L_AccDouble`); then C124 |
| C127 | `gbm_prices`, the payoffs and `calculatePrice` over binary64; `S_GbmDouble`: exact closed-form path, payoff and amount exchanged over R; `S_Libm`: what is asked of the exponential | relative errors of the exponent (`L_GbmDouble`), log errors added along the path by induction, forward errors of min, max, mean and payoff (`L_MeanDouble`, `L_PathDouble`) |
| C128 | quasi-random generator, quantile function, GBM path, payoff, mean and discount over binary64; the Black-Scholes price over R | rounding of the path is absorbed into the quantile (`moved_quantile`), so that C126, C127 and the discrepancy argument of C125 (`L_Discrepancy`, for any approximate quantile) combine |
| C129 | the explicit solver (constructor, clock, boundary values, update) and the Black-Scholes coefficients over binary64 | every factor of the update carries a relative error (`prel`), so that one step loses at most 63 u K (`update`); the exact weights are non-negative with sum at most 1, so earlier errors are not amplified: induction over the steps (`at_seq`), the number of steps from the distance of the computed clock to the exact one (`clock_near`) |
| C130 | explicit and implicit steps on the Black-Scholes operator over R, with the boundary values of the code; the explicit step over binary64 | the second differences of a layer satisfy a difference equation of their own: nonnegative weights (explicit), a flux argument on their negative part (implicit, no condition on the time step); induction over layers; binary64 through C129; witness for calls on four nodes; prices: every chord of the linear interpolant lies below it |
| C131 | the same | the difference of two runs has a residual proportional to the second difference of the first, nonnegative by C130; minimum principle of C89; linear interpolation preserves the order |
| C132 | the same | as C131; the residual of the difference adds the slope and the value of the first run, whose signs C130 gives |
| C133 | the same | without drift each step adds a nonnegative multiple of the second difference, so layers rise; the comparison of C131 at equal layer numbers; convexity of the payoff between nodes |
| C134 | the expected prices of C96 and C123 | derivative of the formula in the volatility, F phi(d1), positive and at most F/2; mean value theorem; put-call parity; uniqueness of the mean (C94); Merton: term by term in the Poisson series |
| C135 | the expected price of C96 | the formula scales with the discount factor, rises with the volatility (C134) and falls with the strike (derivative -Phi(d2)); a put is a call with spot and strike exchanged |
| C136 | the expected prices of C96 and C97 | the average has the lower forward and the lower volatility; the formula rises with both (C134) |

None of the listed properties is inexpressible; where the code violates one, the theorem is named
`..._refuted` and gives a witness, and the strongest true part is proved as `..._partial` or as an
exact characterisation. Theorem names per property are in `MANIFEST.json`.

## Findings (claims the code violates)

| id | finding | theorem |
|---|---|---|
| C02 | NaN passes `validate` (all comparisons are false) | `C02_nan_rejected_refuted` |
| C04, C05 | setters assign before validating: a rejected update stays in the object and blocks later updates of the other fields | `C04_rejected_changes_nothing_refuted`, `C05_rejected_update_does_not_block_refuted` |
| C16 | option equality ignores class, ticker and barrier (it compares the current stock data) | `C16_equal_options_refuted` |
| C25 | NaN strikes and maturities are accepted | `C25_no_nan_strike_refuted` |
| C27 | the seed of the pseudo-random generator is stored but never used | `C27_seed_refuted` |
| C30 | `ContinuousUniformDistribution(a, b)` draws on [0, 1) | `C30_uniform_interval_refuted` |
| C35 | `HestonModel` tests the moved-from parameter: a user-supplied scheme is never used | `C35_heston_scheme_refuted` |
| C36 | Milstein does not stay nonnegative and does not move to kappa theta dt at zero draw | `C36_milstein_refuted` |
| C37 | a Kou jump always also subtracts a downward jump | `C37_kou_jump_refuted` |
| C38 | Merton and Bates lack the jump compensator | `C38_merton_refuted`, `C38_bates_refuted` |
| C38 | Kou adds a down-jump to every up-jump but compensates one jump: the mean is below the forward price | `C38_kou_refuted` |
| C38 | Variance Gamma compensates scale nu while the clock has scale 1/nu | `C38_vg_refuted` |
| C39 | the Variance Gamma clock has mean dt / nu^2 | `C39_clock_mean_refuted` |
| C40 | `addStock` of a listed ticker detaches existing models | `C40_follows_market_refuted` |
| C40 | the variance gamma correction omega is computed once in the constructor (variance_gamma_model.cpp:21-22): after `updateStockSigma` the model no longer agrees with one built anew | `C40_vg_refuted` |
| C47 | N = 0 gives NaN; N > INT_MAX and dimension 0 are undefined | `C47_refuted` |
| C49 | American cash flows are not discounted over dates where no path is in the money | `C49_refuted` |
| C52 | a reused builder keeps the cached default model of the first option | `C52_refuted` |
| C53 | a rejected `setOption` clears the option | `C53_refuted` |
| C56 | a NaN query makes the interval search read out of bounds | `C56_refuted` |
| C58 | quadratic interpolation of nonnegative prices can be negative; linear interpolation can be negative by one rounding in binary64 | `C58_refuted`, `C58_binary64_refuted` |
| C62 | the Laguerre recursion starts with x instead of 1 - x: every column from 1 on is wrong (the span is right) | `C62_refuted` |
| C66, C67 | in binary64 the last node may be below `xDom` and the time loop may make an extra step beyond `tDom` | `C66_binary64_refuted`, `C67_binary64_refuted` |
| C70 | Crank-Nicolson drops the old boundary values at the first and last interior node | `C70_refuted` |
| C71 | Crank-Nicolson calls the matrix solver inside the assembly loop on a singular matrix: the default LU solver throws in the first step | `C71_throws` |
| C72 | the call's right boundary discounts over T - t with t the time since the start of the march (time to maturity), so it disagrees with the payoff at the start; digital options get vanilla boundary values | `C72_refuted`, `C72_digital_refuted` |
| C73 | with `tDom = 0` the price is 0 | `C73_refuted` |
| C75 | prices after the first solve ignore changes of rate, volatility and coupon | `C75_refuted` |
| C76 | `FaureGenerator(seed, dim)` in the header, `(dim, seed)` in the definition | `C76_faure_arguments_refuted` |
| C77 | the lasso is soft-thresholded least squares, the minimiser only for orthonormal columns | `C77_refuted` |
| C78 | N = 0 makes the time loop run forever | `C78_refuted` |
| C79 | after a failed solve the next call returns a price | `C79_refuted` |
| C80, C81 | the put's left boundary value is not discounted, which also breaks parity on the grid | `C80_refuted`, `C81_refuted` |
| C130 | with a positive rate the value of a call can fall when the spot rises: the right boundary value is largest in the first step and the inner nodes remember it | `C130_call_refuted` |
| C92 | the call's right boundary value ignores the dividend yield | `C92_refuted` |
| C93 | Ridge and Lasso accept a NaN penalty | `C93_refuted` |
| C107 | Heston on a quasi-random generator spends two points of dimension dim on one path | `C107_heston_refuted` |
| C108 | jump models with intensity 0, Kou with eta2 = 0 and jump models with maturity 0 are accepted, but pricing throws | `C108_refuted` |
| C109 | consequence of C27: the pseudo-random price `main` prints is the same in every execution | `C109_main` |
| C110 | the CFL test compares dt/dx^2 with 1/2 without the diffusion coefficient: silent unstable runs, and warnings that depend on the currency unit | `C110_refuted`, `C110_false_alarm` |
| C112 | a silent implicit step can return a negative put price | `C112_refuted` |
| C116 | the exporter never ends for N = 2^32-1 and reads out of bounds for s = 2^32-1 | `C116_refuted`, `C116_overrun_refuted` |
| C117 | the exporter prompts forever after a word or the end of the input, and accepts an overflowing number with a stale dimension | `C117_refuted` |
| C118 | a normalised number can be 1, the comment says [0, 1) | `C118_refuted` |
| C119 | barrier and direction are not printed | `C119_refuted` |
| C121 | help texts: barrier factories omit `B` and `direction`, floating lookback asks for `K` | `C121_refuted` |
| C122 | Kou: the law of the jumps is that of a downward jump plus, with probability p, an upward one; no drift repairs it | `C122_kou_refuted`, `C122_kou_partial` |
| C122 | variance gamma: the clock has the scale 1/nu; no drift repairs it unless nu = 1 | `C122_vg_refuted`, `C122_vg_partial` |
| C123 | Merton: the prices are those of the formula without the correction for the mean jump; for calls equal to the textbook price only when the mean jump is zero | `C123_refuted`, `C123_partial` |

Further observations made while modelling, without a theorem of their own: the help text of the
double-digital factory replaces 24 characters where the matched text has 21; the std distribution objects are constructed before the
arguments are checked; the barrier is not monitored at the initial price; Kou accepts eta1 = 1, for which the compensator divides by
zero.

## Mutation testing

Realistic bugs are edited into a scratch copy of the model, the proofs are rebuilt, and every failing
proof is recorded; `seeded/LOG.jsonl` has one line per attempt with the theorems that failed and the
theorems that were tightened because they survived.

## Trusted base

* Coq's kernel (8.16.1), including its virtual machine (`vm_compute` is used for IEEE witnesses and
  polynomial certificates).
* The axioms of the standard library that `Print Assumptions` lists, in the table below
  (D `ClassicalDedekindReals.sig_not_dec`, F `ClassicalDedekindReals.sig_forall_dec`,
  E `functional_extensionality_dep`, C `Classical_Prop.classic`). They come with the real numbers of
  the standard library, Flocq and Coquelicot. No axiom is declared in this development.
* The correspondence between the C++ text and the `M_*.v` files, which is by reading; every
  definition cites its lines.
* The specifications in `S_*.v`.

The table is produced by `tools/assumptions.py`.

<!-- assumptions -->
| axioms | theorems |
|---|---|
| CDEF | `C01_stock_validation`, `C02_nan_rejected_refuted`, `C02_nan_accepted_everywhere`, `C04_rejected_changes_nothing_refuted`, `C05_rejected_update_does_not_block_refuted`, `C11_stock_equality`, `C16_equal_options_refuted`, `C16_equal_options_partial`, `C17_knock_complementary`, `C18_vanilla_split`, `C19_vanilla_monotone`, `C19_vanilla_convex`, `C20_digital`, `C20_digital_nan`, `C21_double_digital`, `C21_double_digital_nan`, `C21_side_ignored`, `C22_floating`, `C23_payoff_equality`, `C25_no_nan_strike_refuted`, `C25_nonnegative_partial`, `C28_domain`, `C28_symmetry_sign`, `C29_increasing`, `C30_uniform_interval_refuted`, `C30_uniform_unit_partial`, `C32_path_positive`, `C32_path_exists`, `C33_gbm_closed_form`, `C33_forward_curve`, `C34_bridge_pinned`, `C35_heston_scheme_refuted`, `C36_milstein_refuted`, `C36_steps_defined`, `C36_paths_defined`, `C36_euler_from_zero`, `C36_milstein_nonneg_partial`, `C37_kou_jump_refuted`, `C37_kou_jump_partial`, `C38_density_total`, `C38_gbm_martingale`, `C38_heston_martingale`, `C38_merton_refuted`, `C38_merton_expectation_partial`, `C38_bates_refuted`, `C38_bates_expectation_partial`, `C38_diffusion_every_date`, `C38_jumps_every_date_partial`, `C38_kou_every_date_partial`, `C38_kou_refuted`, `C38_vg_every_date_partial`, `C38_vg_refuted`, `C39_clock_mean_refuted`, `C39_gamma_mean`, `C40_follows_market_refuted`, `C40_vg_refuted`, `C41_discounted_mean`, `C41_asian_any_N`, `C41_bounds`, `C42_put_call_parity`, `C43_in_plus_out`, `C44_flag_exact`, `C44_pays_exactly`, `C45_averages`, `C45_asian_prices`, `C46_prices`, `C46_floating`, `C47_refuted`, `C47_no_simulations`, `C47_defined_partial`, `C48_american_bounds`, `C49_refuted`, `C49_cash_flows`, `C49_discounting_partial`, `C55_linear_interpolation`, `C55_nodes_binary64`, `C55_throws_iff_nan`, `C56_refuted`, `C56_nan_undefined`, `C56_numbers_partial`, `C57_quadratic_interpolation`, `C58_refuted`, `C58_binary64_refuted`, `C58_linear_partial`, `C59_thomas`, `C59_dominant`, `C60_chebyshev`, `C60_bounded`, `C61_legendre`, `C62_refuted`, `C62_value_at_zero`, `C62_wrong_columns`, `C62_recurrence_partial`, `C63_span`, `C63_same_fits`, `basis_rows`, `C64_lasso_soft_threshold`, `C65_ridge_minimises`, `C65_ridge_definite`, `C65_ridge_solvable`, `C77_refuted`, `C77_orthonormal_partial`, `C66_grid`, `C66_binary64_refuted`, `C66_binary64_last_node`, `C67_exact`, `C67_binary64_refuted`, `C67_binary64_extra_step`, `C68_step`, `C68_run`, `C68_bounds`, `C68_vanilla_bounds`, `C69_step`, `C69_run`, `C69_bounds`, `C69_vanilla_bounds`, `C70_put_violation`, `C70_refuted`, `C70_step`, `C70_run`, `C70_partial`, `C71_refuted`, `C72_refuted`, `C72_digital_refuted`, `C72_partial`, `C73_refuted`, `C73_zero_prices`, `C74_node_price`, `C75_refuted`, `C78_refuted`, `C78_never_returns`, `C79_refuted`, `C80_refuted`, `C80_partial`, `C81_refuted`, `C81_parity_partial`, `C82_one_date`, `C82_floating`, `C82_american`, `C83_paths_proportional`, `C83_homogeneous`, `C84_strike`, `C84_convex`, `C85_spot`, `C85_convex`, `C86_batches`, `C88_barrier_level`, `C89_comparison`, `C89_strike`, `C89_convex`, `C90_error`, `C91_order`, `C92_refuted`, `C92_zero_strike_partial`, `C93_refuted`, `C93_basis`, `C93_penalty_partial`, `C94_unbiased`, `C94_unique`, `C95_variance`, `C96_black_scholes`, `C96_call`, `C96_digital_variance`, `normal_cdf`, `C97_geometric_asian`, `C98_bridge_moments`, `C99_equation`, `C99_initial`, `C99_on_the_strike`, `C99_monte_carlo`, `C100_never_negative`, `C101_strike`, `C102_spot`, `C103_below_european`, `C103_barrier_level`, `C104_rounding`, `C105_digital`, `C106_quasi_run`, `C107_heston_refuted`, `C108_refuted`, `C109_main`, `C110_exact`, `C110_partial`, `C110_refuted`, `C110_false_alarm`, `C111_implicit`, `C111_crank_nicolson`, `C112_rows`, `C112_exact`, `C112_calm_partial`, `C112_refuted`, `C113_layers`, `C113_price`, `C113_vanilla`, `C114_nonnegative`, `C114_nodes`, `C114_put`, `C114_call`, `C115_comparison`, `C115_put`, `C115_call`, `C118_normalised`, `C118_refuted`, `C119_refuted`, `C122_gbm`, `C122_merton`, `C122_kou_partial`, `C122_kou_refuted`, `C122_vg_partial`, `C122_vg_refuted`, `C123_mixture`, `C123_partial`, `C123_refuted`, `C124_accuracy`, `C124_tails`, `C124_law`, `C124_distribution`, `C124_quantile`, `C125_discrepancy`, `C126_accuracy`, `C126_centre`, `C126_tails`, `C126_law`, `C127_path`, `C127_price`, `C128_black_scholes`, `C129_put`, `C129_reference`, `C130_call_refuted`, `C130_put_partial`, `C130_put_price_partial`, `C130_call_zero_rate`, `C130_double`, `C131_volatility`, `C131_price`, `C132_put`, `C132_price`, `C133_maturity`, `C133_price`, `C134_volatility`, `C134_implied`, `C134_merton`, `C135_maturity`, `C136_geometric` |
| EF | `C39_clock_mean_partial`, `C46_fixed_dominates`, `C52_refuted` |
| F | `C53_refuted` |
| none | `C03_market_is_map`, `C03_unknown_ticker`, `C03_rate`, `C03_outcome`, `C04_rejected_changes_nothing_partial`, `C05_update_succeeds_iff`, `C05_blocked_until_repaired`, `C06_handle`, `C06_handle_is_live_view`, `C06_old_handle_frozen`, `C07_update_notifies`, `C07_no_other_notification`, `C08_rate_notifies_all`, `C09_registry`, `C10_one_instance`, `C10_same_instance_over_time`, `C10_no_deadlock`, `C12_parameter_object`, `C13_factory_exact`, `C13_call_put`, `C14_failed_creation`, `C15_created_registered`, `C15_created_follows`, `C24_arity`, `C26_quasi_walk`, `C26_int_counter_refuted`, `C27_seed_refuted`, `C27_reproducible_partial`, `C31_jump_models_need_pseudo`, `C76_faure_arguments_refuted`, `C76_sobol_arguments_partial`, `C76_sobol_path_length_partial`, `C32_path_length`, `C32_maturity`, `C34_backward_only_gbm`, `C35_scheme_partial`, `C39_gamma_draws`, `C40_follows_market_partial`, `C47_too_many_simulations`, `C47_no_steps`, `C50_bridge_only_supported`, `C50_no_logic_error`, `C51_builder_protocol`, `C52_same_stock_partial`, `C53_rejection_clears`, `C54_solver_protocol`, `C54_default`, `C59_too_small`, `C71_throws`, `C74_solved_once`, `C75_stale`, `C79_after_failure`, `C87_no_interference`, `C107_gbm`, `C107_heston_partial`, `C108_exact_partial`, `C116_table`, `C116_refuted`, `C116_overrun_refuted`, `C117_partial`, `C117_stuck`, `C117_refuted`, `C119_partial`, `C119_contract`, `C120_print`, `C121_reads`, `C121_partial`, `C121_refuted` |
<!-- end assumptions -->
