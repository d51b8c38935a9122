{
 "claims": [
  {
   "property": "C01",
   "status": "proved",
   "theorems": [
    "C01_stock_validation"
   ],
   "note": "IEEE binary64, all non-NaN inputs."
  },
  {
   "property": "C02",
   "status": "partial",
   "theorems": [
    "C02_nan_rejected_refuted",
    "C02_nan_accepted_everywhere"
   ],
   "note": "REFUTED: NaN price, volatility and coupon pass validation. Exact acceptance condition proved."
  },
  {
   "property": "C03",
   "status": "proved",
   "theorems": [
    "C03_market_is_map",
    "C03_unknown_ticker",
    "C03_rate",
    "C03_outcome"
   ],
   "note": "Any history, exact and IEEE numbers. The per-ticker specification records that an update writes its field even when it then throws (see C04)."
  },
  {
   "property": "C04",
   "status": "partial",
   "theorems": [
    "C04_rejected_changes_nothing_refuted",
    "C04_rejected_changes_nothing_partial"
   ],
   "note": "REFUTED: a rejected update leaves the invalid value in the stock. Proved: everything else is unchanged, and addStock is atomic."
  },
  {
   "property": "C05",
   "status": "partial",
   "theorems": [
    "C05_rejected_update_does_not_block_refuted",
    "C05_update_succeeds_iff",
    "C05_blocked_until_repaired"
   ],
   "note": "REFUTED: after a rejected price every volatility/coupon update throws. Exact success condition proved."
  },
  {
   "property": "C06",
   "status": "proved",
   "theorems": [
    "C06_handle",
    "C06_handle_is_live_view",
    "C06_old_handle_frozen"
   ],
   "note": "Any history."
  },
  {
   "property": "C07",
   "status": "proved",
   "theorems": [
    "C07_update_notifies",
    "C07_no_other_notification"
   ],
   "note": "Any history of registrations and lifetimes."
  },
  {
   "property": "C08",
   "status": "proved",
   "theorems": [
    "C08_rate_notifies_all"
   ],
   "note": "Any history."
  },
  {
   "property": "C09",
   "status": "proved",
   "theorems": [
    "C09_registry"
   ],
   "note": "Any history; observers that are not Options can stay as dead entries but are never notified."
  },
  {
   "property": "C10",
   "status": "proved",
   "theorems": [
    "C10_one_instance",
    "C10_same_instance_over_time",
    "C10_no_deadlock"
   ],
   "note": "Any number of threads, calls, schedules; sequentially consistent memory under the mutex."
  },
  {
   "property": "C11",
   "status": "proved",
   "theorems": [
    "C11_stock_equality"
   ],
   "note": "IEEE binary64."
  },
  {
   "property": "C12",
   "status": "proved",
   "theorems": [
    "C12_parameter_object"
   ],
   "note": "Any sequence of setParameter calls."
  },
  {
   "property": "C13",
   "status": "proved",
   "theorems": [
    "C13_factory_exact",
    "C13_call_put"
   ],
   "note": "All kinds, sides, parameter objects, markets; NaN strikes and maturities count as not negative (see C25)."
  },
  {
   "property": "C14",
   "status": "proved",
   "theorems": [
    "C14_failed_creation"
   ],
   "note": ""
  },
  {
   "property": "C15",
   "status": "proved",
   "theorems": [
    "C15_created_registered",
    "C15_created_follows"
   ],
   "note": "Any history before and after the creation."
  },
  {
   "property": "C16",
   "status": "partial",
   "theorems": [
    "C16_equal_options_refuted",
    "C16_equal_options_partial"
   ],
   "note": "REFUTED: equality ignores the option class, the ticker name and the barrier terms. Proved: what equality does imply."
  },
  {
   "property": "C17",
   "status": "proved",
   "theorems": [
    "C17_knock_complementary"
   ],
   "note": "IEEE binary64."
  },
  {
   "property": "C18",
   "status": "proved",
   "theorems": [
    "C18_vanilla_split"
   ],
   "note": "IEEE binary64, overflow included."
  },
  {
   "property": "C19",
   "status": "proved",
   "theorems": [
    "C19_vanilla_monotone",
    "C19_vanilla_convex"
   ],
   "note": "Monotone in IEEE; convex and 1-Lipschitz in exact arithmetic."
  },
  {
   "property": "C20",
   "status": "proved",
   "theorems": [
    "C20_digital",
    "C20_digital_nan"
   ],
   "note": "IEEE binary64."
  },
  {
   "property": "C21",
   "status": "proved",
   "theorems": [
    "C21_double_digital",
    "C21_double_digital_nan",
    "C21_side_ignored"
   ],
   "note": "IEEE binary64."
  },
  {
   "property": "C22",
   "status": "proved",
   "theorems": [
    "C22_floating"
   ],
   "note": "IEEE binary64."
  },
  {
   "property": "C23",
   "status": "proved",
   "theorems": [
    "C23_payoff_equality"
   ],
   "note": "IEEE binary64."
  },
  {
   "property": "C24",
   "status": "proved",
   "theorems": [
    "C24_arity"
   ],
   "note": ""
  },
  {
   "property": "C25",
   "status": "partial",
   "theorems": [
    "C25_no_nan_strike_refuted",
    "C25_nonnegative_partial"
   ],
   "note": "REFUTED for NaN strikes and maturities. Nonnegativity proved for everything else."
  },
  {
   "property": "C26",
   "status": "proved",
   "theorems": [
    "C26_quasi_walk",
    "C26_int_counter_refuted"
   ],
   "note": "Any underlying sequence (oracle), any number type. C26_int_counter_refuted shows why dimensions above INT_MAX are excluded."
  },
  {
   "property": "C27",
   "status": "partial",
   "theorems": [
    "C27_seed_refuted",
    "C27_reproducible_partial"
   ],
   "note": "REFUTED: the engine is never seeded; every seed gives the same stream."
  },
  {
   "property": "C28",
   "status": "proved",
   "theorems": [
    "C28_domain",
    "C28_symmetry_sign"
   ],
   "note": "Domain in IEEE binary64 (NaN is accepted); symmetry and sign in exact arithmetic."
  },
  {
   "property": "C29",
   "status": "proved",
   "theorems": [
    "C29_increasing"
   ],
   "note": "Exact arithmetic, with certified polynomial bounds at the branch joins."
  },
  {
   "property": "C30",
   "status": "partial",
   "theorems": [
    "C30_uniform_interval_refuted",
    "C30_uniform_unit_partial"
   ],
   "note": "REFUTED: the distribution object is built on [0,1) whatever a and b are."
  },
  {
   "property": "C31",
   "status": "proved",
   "theorems": [
    "C31_jump_models_need_pseudo"
   ],
   "note": "Any number type, any earlier use of the generator."
  },
  {
   "property": "C76",
   "status": "partial",
   "theorems": [
    "C76_faure_arguments_refuted",
    "C76_sobol_arguments_partial",
    "C76_sobol_path_length_partial"
   ],
   "note": "REFUTED for FaureGenerator: header and definition disagree on the argument order. Holds for SobolGenerator."
  },
  {
   "property": "C32",
   "status": "proved",
   "theorems": [
    "C32_path_length",
    "C32_path_positive",
    "C32_path_exists",
    "C32_maturity"
   ],
   "note": "All six models. Length for any number type; positivity in exact arithmetic; exact condition under which a path is produced on a pseudo-random generator."
  },
  {
   "property": "C33",
   "status": "proved",
   "theorems": [
    "C33_gbm_closed_form",
    "C33_forward_curve"
   ],
   "note": "Any environment, generator and number of steps, exact arithmetic."
  },
  {
   "property": "C34",
   "status": "proved",
   "theorems": [
    "C34_bridge_pinned",
    "C34_backward_only_gbm"
   ],
   "note": "Exact arithmetic."
  },
  {
   "property": "C35",
   "status": "partial",
   "theorems": [
    "C35_heston_scheme_refuted",
    "C35_scheme_partial"
   ],
   "note": "REFUTED for HestonModel: the constructor tests the moved-from parameter and always installs Euler. Proved for BatesModel and for the default."
  },
  {
   "property": "C36",
   "status": "partial",
   "theorems": [
    "C36_milstein_refuted",
    "C36_steps_defined",
    "C36_paths_defined",
    "C36_euler_from_zero",
    "C36_milstein_nonneg_partial"
   ],
   "note": "No square root of a negative number: proved. The Milstein nonnegativity and zero-draw claims are REFUTED; the exact zero-draw values and a sufficient condition are proved."
  },
  {
   "property": "C37",
   "status": "partial",
   "theorems": [
    "C37_kou_jump_refuted",
    "C37_kou_jump_partial"
   ],
   "note": "REFUTED: every jump also subtracts a downward size. Exact description proved."
  },
  {
   "property": "C38",
   "status": "partial",
   "theorems": [
    "C38_density_total",
    "C38_gbm_martingale",
    "C38_heston_martingale",
    "C38_merton_refuted",
    "C38_merton_expectation_partial",
    "C38_bates_refuted",
    "C38_bates_expectation_partial",
    "C38_diffusion_every_date",
    "C38_jumps_every_date_partial",
    "C38_kou_every_date_partial",
    "C38_kou_refuted",
    "C38_vg_every_date_partial",
    "C38_vg_refuted"
   ],
   "note": "GBM and Heston: proved for every date of the simulated path. REFUTED for Merton, Bates, Kou and Variance Gamma, whose exact mean at every date is proved (VG: a martingale exactly when nu = 1 or theta + sigma^2/2 = 0). Expectations are improper integrals against the normal, exponential, uniform and gamma densities and Poisson series."
  },
  {
   "property": "C39",
   "status": "partial",
   "theorems": [
    "C39_clock_mean_refuted",
    "C39_gamma_mean",
    "C39_gamma_draws",
    "C39_clock_mean_partial"
   ],
   "note": "REFUTED: the clock has mean dt/nu^2, equal to dt only for nu = 1."
  },
  {
   "property": "C40",
   "status": "partial",
   "theorems": [
    "C40_follows_market_refuted",
    "C40_vg_refuted",
    "C40_follows_market_partial"
   ],
   "note": "REFUTED after addStock of a listed ticker, and for the variance gamma correction omega after updateStockSigma. Proved otherwise: any model reads the current stock data and rate as long as no addStock replaces the ticker."
  },
  {
   "property": "C41",
   "status": "proved",
   "theorems": [
    "C41_discounted_mean",
    "C41_asian_any_N",
    "C41_bounds"
   ],
   "note": "All pricers but the American, any model, generator and N >= 1; exact arithmetic."
  },
  {
   "property": "C42",
   "status": "proved",
   "theorems": [
    "C42_put_call_parity"
   ],
   "note": "Exact arithmetic; same generator state."
  },
  {
   "property": "C43",
   "status": "proved",
   "theorems": [
    "C43_in_plus_out"
   ],
   "note": "Exact arithmetic; same generator state."
  },
  {
   "property": "C44",
   "status": "proved",
   "theorems": [
    "C44_flag_exact",
    "C44_pays_exactly"
   ],
   "note": "Any path."
  },
  {
   "property": "C45",
   "status": "proved",
   "theorems": [
    "C45_averages",
    "C45_asian_prices"
   ],
   "note": "Exact arithmetic, any path of positive prices."
  },
  {
   "property": "C46",
   "status": "proved",
   "theorems": [
    "C46_fixed_dominates",
    "C46_prices",
    "C46_floating"
   ],
   "note": "Exact arithmetic, any path."
  },
  {
   "property": "C47",
   "status": "partial",
   "theorems": [
    "C47_refuted",
    "C47_no_simulations",
    "C47_too_many_simulations",
    "C47_no_steps",
    "C47_defined_partial"
   ],
   "note": "REFUTED: N = 0 gives NaN, N > INT_MAX and generator dimension 0 give undefined behaviour. Proved: with 1 <= N, dim <= INT_MAX on a pseudo-random generator no operation is undefined and the price is a number, for every pricer class and model."
  },
  {
   "property": "C48",
   "status": "proved",
   "theorems": [
    "C48_american_bounds"
   ],
   "note": "Any linear algebra, basis and regression (also user-defined ones); exact arithmetic."
  },
  {
   "property": "C49",
   "status": "partial",
   "theorems": [
    "C49_refuted",
    "C49_cash_flows",
    "C49_discounting_partial"
   ],
   "note": "REFUTED: at a date where no path is in the money nothing is discounted. Exact description of every run proved; the claim holds when every date has a path in the money."
  },
  {
   "property": "C50",
   "status": "proved",
   "theorems": [
    "C50_bridge_only_supported",
    "C50_no_logic_error"
   ],
   "note": "Any number type, model, generator."
  },
  {
   "property": "C51",
   "status": "proved",
   "theorems": [
    "C51_builder_protocol"
   ],
   "note": "Any sequence of calls on any of the builders."
  },
  {
   "property": "C52",
   "status": "partial",
   "theorems": [
    "C52_refuted",
    "C52_same_stock_partial"
   ],
   "note": "REFUTED: the default model is cached, so a reused builder prices the new option on the old stock and market."
  },
  {
   "property": "C53",
   "status": "partial",
   "theorems": [
    "C53_refuted",
    "C53_rejection_clears"
   ],
   "note": "REFUTED: a rejected setOption always clears the option. Proved: what stays."
  },
  {
   "property": "C54",
   "status": "proved",
   "theorems": [
    "C54_solver_protocol",
    "C54_default"
   ],
   "note": "Any sequence of calls."
  },
  {
   "property": "C55",
   "status": "proved",
   "theorems": [
    "C55_linear_interpolation",
    "C55_nodes_binary64",
    "C55_throws_iff_nan"
   ],
   "note": "Formula in exact arithmetic; node values and the throw condition in IEEE binary64."
  },
  {
   "property": "C56",
   "status": "partial",
   "theorems": [
    "C56_refuted",
    "C56_nan_undefined",
    "C56_numbers_partial"
   ],
   "note": "REFUTED: a NaN query makes findInterval read out of bounds on every grid. Proved for every query that is a number."
  },
  {
   "property": "C57",
   "status": "proved",
   "theorems": [
    "C57_quadratic_interpolation"
   ],
   "note": "Exact arithmetic."
  },
  {
   "property": "C58",
   "status": "partial",
   "theorems": [
    "C58_refuted",
    "C58_binary64_refuted",
    "C58_linear_partial"
   ],
   "note": "REFUTED for quadratic interpolation (negative prices from nonnegative data) and, by one rounding, for linear interpolation in binary64. Proved for linear interpolation in exact arithmetic."
  },
  {
   "property": "C59",
   "status": "proved",
   "theorems": [
    "C59_thomas",
    "C59_dominant",
    "C59_too_small"
   ],
   "note": "Exact arithmetic, any size."
  },
  {
   "property": "C60",
   "status": "proved",
   "theorems": [
    "C60_chebyshev",
    "C60_bounded"
   ],
   "note": "Exact arithmetic, any degree."
  },
  {
   "property": "C61",
   "status": "proved",
   "theorems": [
    "C61_legendre"
   ],
   "note": "Exact arithmetic, any degree."
  },
  {
   "property": "C62",
   "status": "partial",
   "theorems": [
    "C62_refuted",
    "C62_value_at_zero",
    "C62_wrong_columns",
    "C62_recurrence_partial"
   ],
   "note": "REFUTED: column 1 is x instead of 1 - x, and every later column is wrong too. The recurrence itself is right."
  },
  {
   "property": "C63",
   "status": "proved",
   "theorems": [
    "C63_span",
    "C63_same_fits",
    "basis_rows"
   ],
   "note": "Exact arithmetic; also for the wrong Laguerre columns, whose span is still all polynomials of the degree."
  },
  {
   "property": "C64",
   "status": "proved",
   "theorems": [
    "C64_lasso_soft_threshold"
   ],
   "note": "Any least-squares oracle."
  },
  {
   "property": "C65",
   "status": "proved",
   "theorems": [
    "C65_ridge_minimises",
    "C65_ridge_definite",
    "C65_ridge_solvable"
   ],
   "note": "Exact arithmetic; LDLT as an oracle that solves the normal equations."
  },
  {
   "property": "C77",
   "status": "partial",
   "theorems": [
    "C77_refuted",
    "C77_orthonormal_partial"
   ],
   "note": "REFUTED: soft-thresholding the least-squares solution is the lasso solution only for orthonormal columns, for which it is proved."
  },
  {
   "property": "C66",
   "status": "partial",
   "theorems": [
    "C66_grid",
    "C66_binary64_refuted",
    "C66_binary64_last_node"
   ],
   "note": "Proved in exact arithmetic for all J >= 2. REFUTED in binary64: the last node can be below xDom."
  },
  {
   "property": "C67",
   "status": "partial",
   "theorems": [
    "C67_exact",
    "C67_binary64_refuted",
    "C67_binary64_extra_step"
   ],
   "note": "Proved in exact arithmetic for all N >= 2. REFUTED in binary64: the rounded clock can need one step more."
  },
  {
   "property": "C68",
   "status": "proved",
   "theorems": [
    "C68_step",
    "C68_run",
    "C68_bounds",
    "C68_vanilla_bounds"
   ],
   "note": "Exact arithmetic, any J, N and PDE; maximum principle under the stability condition."
  },
  {
   "property": "C69",
   "status": "proved",
   "theorems": [
    "C69_step",
    "C69_run",
    "C69_bounds",
    "C69_vanilla_bounds"
   ],
   "note": "Exact arithmetic, any J, N; the Thomas solver; unconditional maximum principle and uniqueness."
  },
  {
   "property": "C70",
   "status": "partial",
   "theorems": [
    "C70_put_violation",
    "C70_refuted",
    "C70_step",
    "C70_run",
    "C70_partial"
   ],
   "note": "REFUTED: the boundary terms are dropped at the first and last interior node. Proved: the exact system solved, and the scheme at every other node."
  },
  {
   "property": "C71",
   "status": "partial",
   "theorems": [
    "C71_throws",
    "C71_refuted"
   ],
   "note": "REFUTED: every default-built Crank-Nicolson solver throws in its first step (the solver is called inside the assembly loop on a singular matrix). Hypothesis: sparse LU fails on a matrix with a zero row."
  },
  {
   "property": "C72",
   "status": "partial",
   "theorems": [
    "C72_refuted",
    "C72_digital_refuted",
    "C72_partial"
   ],
   "note": "REFUTED: the call's right value is discounted over the whole maturity at the start; digital options get vanilla values. Exact conditions proved."
  },
  {
   "property": "C73",
   "status": "partial",
   "theorems": [
    "C73_refuted",
    "C73_zero_prices"
   ],
   "note": "REFUTED: the price at tDom = 0 is always 0."
  },
  {
   "property": "C74",
   "status": "proved",
   "theorems": [
    "C74_solved_once",
    "C74_node_price"
   ],
   "note": "Any call sequence; node price in exact arithmetic."
  },
  {
   "property": "C75",
   "status": "partial",
   "theorems": [
    "C75_refuted",
    "C75_stale",
    "C74_solved_once"
   ],
   "note": "REFUTED: the price depends on the market after the first solve only through the spot."
  },
  {
   "property": "C78",
   "status": "partial",
   "theorems": [
    "C78_refuted",
    "C78_never_returns",
    "C67_exact",
    "C68_run",
    "C69_run"
   ],
   "note": "REFUTED: with N = 0 the clock stalls and the loop never ends (binary64). Proved to end for N >= 2 in exact arithmetic."
  },
  {
   "property": "C79",
   "status": "partial",
   "theorems": [
    "C79_refuted",
    "C79_after_failure"
   ],
   "note": "REFUTED: the clock is advanced before the failing computation, so the next call finds the march finished and prices from the unfinished vector."
  },
  {
   "property": "C80",
   "status": "partial",
   "theorems": [
    "C80_refuted",
    "C80_partial"
   ],
   "note": "REFUTED for puts: the strike is not discounted. Exact condition proved; holds for calls."
  },
  {
   "property": "C81",
   "status": "partial",
   "theorems": [
    "C81_refuted",
    "C81_parity_partial"
   ],
   "note": "REFUTED for r > 0 by the put's left boundary. Proved at every node for r = 0 and no dividend, any grid, any number of steps, explicit and implicit."
  },
  {
   "property": "C82",
   "status": "proved",
   "theorems": [
    "C82_one_date",
    "C82_floating",
    "C82_american"
   ],
   "note": "American: forward and backward simulation alike, any regression."
  },
  {
   "property": "C83",
   "status": "proved",
   "theorems": [
    "C83_paths_proportional",
    "C83_homogeneous"
   ],
   "note": "Options without early exercise; the regression of the American pricer is an oracle."
  },
  {
   "property": "C84",
   "status": "proved",
   "theorems": [
    "C84_strike",
    "C84_convex"
   ],
   "note": ""
  },
  {
   "property": "C85",
   "status": "proved",
   "theorems": [
    "C85_spot",
    "C85_convex"
   ],
   "note": ""
  },
  {
   "property": "C86",
   "status": "proved",
   "theorems": [
    "C86_batches"
   ],
   "note": "Exact arithmetic; in binary64 the accumulation order of the sums differs."
  },
  {
   "property": "C87",
   "status": "proved",
   "theorems": [
    "C87_no_interference"
   ],
   "note": "For any arithmetic."
  },
  {
   "property": "C88",
   "status": "proved",
   "theorems": [
    "C88_barrier_level"
   ],
   "note": ""
  },
  {
   "property": "C89",
   "status": "proved",
   "theorems": [
    "C89_comparison",
    "C89_strike",
    "C89_convex"
   ],
   "note": "Exact arithmetic; implicit scheme with the Thomas solver. The Crank-Nicolson code is not covered: it drops the old boundary values (C70)."
  },
  {
   "property": "C90",
   "status": "proved",
   "theorems": [
    "C90_error"
   ],
   "note": "Exact arithmetic; implicit scheme with the Thomas solver."
  },
  {
   "property": "C91",
   "status": "proved",
   "theorems": [
    "C91_order"
   ],
   "note": "Exact arithmetic; implicit scheme with the Thomas solver."
  },
  {
   "property": "C92",
   "status": "partial",
   "theorems": [
    "C92_refuted",
    "C92_zero_strike_partial"
   ],
   "note": "REFUTED for positive dividend yields (the right boundary value ignores the yield). Proved exact without dividends."
  },
  {
   "property": "C93",
   "status": "partial",
   "theorems": [
    "C93_refuted",
    "C93_basis",
    "C93_penalty_partial"
   ],
   "note": "REFUTED: a NaN penalty is accepted. Proved for bases and for penalties that are numbers."
  },
  {
   "property": "C94",
   "status": "proved",
   "theorems": [
    "C94_unbiased",
    "C94_unique"
   ],
   "note": "Exact arithmetic; independent draws with the laws of the distribution objects; pseudo-random generators."
  },
  {
   "property": "C95",
   "status": "proved",
   "theorems": [
    "C95_variance"
   ],
   "note": "As C94."
  },
  {
   "property": "C96",
   "status": "proved",
   "theorems": [
    "C96_black_scholes",
    "C96_call",
    "C96_digital_variance",
    "normal_cdf"
   ],
   "note": "As C94."
  },
  {
   "property": "C97",
   "status": "proved",
   "theorems": [
    "C97_geometric_asian"
   ],
   "note": "As C94."
  },
  {
   "property": "C98",
   "status": "proved",
   "theorems": [
    "C98_bridge_moments"
   ],
   "note": "As C94; the draws of one path in the order of the pricer. The exponents are real, so this is the joint moment generating function of the log-prices."
  },
  {
   "property": "C99",
   "status": "proved",
   "theorems": [
    "C99_equation",
    "C99_initial",
    "C99_on_the_strike",
    "C99_monte_carlo"
   ],
   "note": "On the strike of a digital call the solvers start from 0, the value from 1/2 (C99_on_the_strike)."
  },
  {
   "property": "C100",
   "status": "proved",
   "theorems": [
    "C100_never_negative"
   ],
   "note": "The library's exp is only assumed to return no negative number."
  },
  {
   "property": "C101",
   "status": "proved",
   "theorems": [
    "C101_strike"
   ],
   "note": "As C100."
  },
  {
   "property": "C102",
   "status": "proved",
   "theorems": [
    "C102_spot"
   ],
   "note": "As C100."
  },
  {
   "property": "C103",
   "status": "proved",
   "theorems": [
    "C103_below_european",
    "C103_barrier_level"
   ],
   "note": "As C100."
  },
  {
   "property": "C104",
   "status": "proved",
   "theorems": [
    "C104_rounding"
   ],
   "note": "As C100. The error of the paths themselves is not part of the statement: they are the ones the code simulates."
  },
  {
   "property": "C105",
   "status": "proved",
   "theorems": [
    "C105_digital"
   ],
   "note": "As C100."
  },
  {
   "property": "C106",
   "status": "proved",
   "theorems": [
    "C106_quasi_run"
   ],
   "note": "Binary64; exp and log arbitrary."
  },
  {
   "property": "C107",
   "status": "partial",
   "theorems": [
    "C107_gbm",
    "C107_heston_partial",
    "C107_heston_refuted"
   ],
   "note": "REFUTED for Heston: a path uses points 2j and 2j+1, and point j alone does not determine it. Proved for GBM, and the exact points for Heston."
  },
  {
   "property": "C108",
   "status": "partial",
   "theorems": [
    "C108_exact_partial",
    "C108_refuted"
   ],
   "note": "REFUTED: jump models with intensity 0, Kou with eta2 = 0, and jump models with maturity 0 are accepted but every pricing throws. Proved: exactly when a run returns a price, in any arithmetic."
  },
  {
   "property": "C109",
   "status": "proved",
   "theorems": [
    "C109_main"
   ],
   "note": "Binary64. The labels and the number formatting of the output are not modelled."
  },
  {
   "property": "C110",
   "status": "partial",
   "theorems": [
    "C110_exact",
    "C110_partial",
    "C110_refuted",
    "C110_false_alarm"
   ],
   "note": "REFUTED: dt/dx^2 is compared with 1/2 in currency units, without the diffusion coefficient; a silent run gives a digital call the price -1, and a change of currency unit makes a stable run warn. Proved: exactly when the warning is printed, and that silence suffices when diffusion is at most 1 and dominates convection."
  },
  {
   "property": "C111",
   "status": "proved",
   "theorems": [
    "C111_implicit",
    "C111_crank_nicolson"
   ],
   "note": "Over the reals, J >= 4 as in C69."
  },
  {
   "property": "C112",
   "status": "partial",
   "theorems": [
    "C112_rows",
    "C112_exact",
    "C112_calm_partial",
    "C112_refuted"
   ],
   "note": "REFUTED: diagonal dominance does not give signs; a silent implicit step returns a negative put price. Proved: exactly which rows are reported, and that nothing is reported where the minimum principle of C69 applies."
  },
  {
   "property": "C113",
   "status": "proved",
   "theorems": [
    "C113_layers",
    "C113_price",
    "C113_vanilla"
   ],
   "note": "Over the reals, Thomas solver, J >= 4 as in C69. The CFL warning does depend on the unit (C110)."
  },
  {
   "property": "C114",
   "status": "proved",
   "theorems": [
    "C114_nonnegative",
    "C114_nodes",
    "C114_put",
    "C114_call"
   ],
   "note": "binary64, the three schemes, Thomas solver; J >= 4 as in C69."
  },
  {
   "property": "C115",
   "status": "proved",
   "theorems": [
    "C115_comparison",
    "C115_put",
    "C115_call"
   ],
   "note": "binary64, the three schemes, Thomas solver; J >= 4 as in C69. Calls need an exponential that never returns a negative number."
  },
  {
   "property": "C116",
   "status": "partial",
   "theorems": [
    "C116_table",
    "C116_refuted",
    "C116_overrun_refuted"
   ],
   "note": "REFUTED at the greatest unsigned int: with N = 2^32-1 (also what the input -1 gives) the counter wraps and the program never ends; with s = 2^32-1 it reads behind the vector. C116_table is the claim for all other N and s."
  },
  {
   "property": "C117",
   "status": "partial",
   "theorems": [
    "C117_partial",
    "C117_stuck",
    "C117_refuted"
   ],
   "note": "REFUTED: after input that is not a number, or at the end of the input, the stream stays failed and the program prompts forever; a number that does not fit is accepted as the greatest one, together with the dimension typed a round earlier. C117_partial is the claim for inputs that are numbers."
  },
  {
   "property": "C118",
   "status": "partial",
   "theorems": [
    "C118_normalised",
    "C118_refuted"
   ],
   "note": "REFUTED: the 1024 greatest 64-bit numbers become exactly 1; C118_normalised is everything else for every engine. Such numbers have more than 53 significant bits, which a Sobol sequence reaches only after 2^53 points."
  },
  {
   "property": "C119",
   "status": "partial",
   "theorems": [
    "C119_partial",
    "C119_contract",
    "C119_refuted"
   ],
   "note": "REFUTED: barrier options that differ in the barrier and its direction print the same text. C119_partial and C119_contract: everything else is determined, also for tickers with line breaks. Numbers are determined as far as their printed form is."
  },
  {
   "property": "C120",
   "status": "proved",
   "theorems": [
    "C120_print"
   ],
   "note": "No call removes a ticker, so the stock of an option always exists."
  },
  {
   "property": "C121",
   "status": "partial",
   "theorems": [
    "C121_reads",
    "C121_partial",
    "C121_refuted"
   ],
   "note": "REFUTED: the barrier factories read B and direction, which their help text omits; the help text of the floating-strike lookback factory asks for a strike it does not read. C121_partial: every other parameter has its entry."
  },
  {
   "property": "C122",
   "status": "partial",
   "theorems": [
    "C122_gbm",
    "C122_merton",
    "C122_kou_partial",
    "C122_kou_refuted",
    "C122_vg_partial",
    "C122_vg_refuted"
   ],
   "note": "Holds for GBM and Merton. REFUTED for Kou (holds exactly when p = 0, for no drift otherwise) and variance gamma (holds exactly when nu = 1 or without noise); the exponents the code does have are proved."
  },
  {
   "property": "C123",
   "status": "partial",
   "theorems": [
    "C123_mixture",
    "C123_partial",
    "C123_refuted"
   ],
   "note": "The expected price is proved to be a Poisson mixture of Black's formulas, whatever the numbers of dates and paths. REFUTED: the terms are not corrected for the mean jump, so for calls the textbook formula holds exactly when the mean jump is zero."
  },
  {
   "property": "C124",
   "status": "proved",
   "theorems": [
    "C124_accuracy",
    "C124_tails",
    "C124_law",
    "C124_distribution",
    "C124_quantile"
   ],
   "note": "Exact arithmetic; polynomial inequalities checked by a verified integer checker."
  },
  {
   "property": "C125",
   "status": "proved",
   "theorems": [
    "C125_discrepancy"
   ],
   "note": "Exact arithmetic; calls are left out because their payoff has unbounded variation."
  },
  {
   "property": "C126",
   "status": "proved",
   "theorems": [
    "C126_accuracy",
    "C126_centre",
    "C126_tails",
    "C126_law"
   ],
   "note": "IEEE binary64; the accuracy of the logarithm of the C library is a hypothesis of the theorems about the tails, met by the correctly rounded logarithm (C126_ex)."
  },
  {
   "property": "C127",
   "status": "proved",
   "theorems": [
    "C127_path",
    "C127_price"
   ],
   "note": "IEEE binary64; the accuracy of the exponential of the C library is a hypothesis, met by the correctly rounded exponential (C127_ex)."
  },
  {
   "property": "C128",
   "status": "proved",
   "theorems": [
    "C128_black_scholes"
   ],
   "note": "IEEE binary64; the accuracy of the exponential and the logarithm of the C library is a hypothesis, met by the correctly rounded functions; C128_ex prices a put on 2^p points."
  },
  {
   "property": "C129",
   "status": "proved",
   "theorems": [
    "C129_put",
    "C129_reference"
   ],
   "note": "IEEE binary64; puts only, whose boundary values need no exponential; C129_reference ties the exact-arithmetic scheme to the real-number model of the same solver; C129_ex is a five-node grid."
  },
  {
   "property": "C130",
   "status": "partial",
   "theorems": [
    "C130_call_refuted",
    "C130_put_partial",
    "C130_put_price_partial",
    "C130_call_zero_rate",
    "C130_double"
   ],
   "note": "REFUTED: with a positive rate the value of a call can fall from one node to the next, because the right boundary value moves backwards in time. Proved for puts when the dividend yield is not above the rate, for calls when the rate is 0, and in binary64 up to rounding for puts under the explicit scheme; the price returned with the default interpolation is then falling and convex in the spot on the whole interval, between nodes too."
  },
  {
   "property": "C131",
   "status": "proved",
   "theorems": [
    "C131_volatility",
    "C131_price"
   ],
   "note": "Both schemes, over the reals, at the nodes and for the price returned with the default interpolation at any spot of the grid; C130_C131_ex is a five-node grid with two volatilities."
  },
  {
   "property": "C132",
   "status": "proved",
   "theorems": [
    "C132_put",
    "C132_price"
   ],
   "note": "Both schemes, over the reals; C132_ex is a five-node grid with two markets."
  },
  {
   "property": "C133",
   "status": "proved",
   "theorems": [
    "C133_maturity",
    "C133_price"
   ],
   "note": "Both schemes, over the reals; C133_ex is a five-node grid with five and ten steps."
  },
  {
   "property": "C134",
   "status": "proved",
   "theorems": [
    "C134_volatility",
    "C134_implied",
    "C134_merton"
   ],
   "note": "Expectations over the reals as in C96 and C123; C134_ex is a put with volatilities 20% and 21%."
  },
  {
   "property": "C135",
   "status": "proved",
   "theorems": [
    "C135_maturity"
   ],
   "note": "Expectations over the reals as in C96; C135_ex is a call for one year and for two."
  },
  {
   "property": "C136",
   "status": "proved",
   "theorems": [
    "C136_geometric"
   ],
   "note": "Expectations over the reals as in C96 and C97; the two pricers may use different numbers of steps and paths. C136_ex averages a call over twelve dates."
  }
 ]
}