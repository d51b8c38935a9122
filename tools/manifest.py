"""Writes ../MANIFEST.json; one entry per property."""
import json, os
C = []
def claim(p, status, theorems, note):
    C.append({"property": p, "status": status, "theorems": theorems.split(), "note": note})

claim("C01", "proved", "C01_stock_validation", "IEEE binary64, all non-NaN inputs.")
claim("C02", "partial", "C02_nan_rejected_refuted C02_nan_accepted_everywhere",
      "REFUTED: NaN price, volatility and coupon pass validation. Exact acceptance condition proved.")
claim("C03", "proved", "C03_market_is_map C03_unknown_ticker C03_rate C03_outcome",
      "Any history, exact and IEEE numbers. The per-ticker specification records that an update writes its field even when it then throws (see C04).")
claim("C04", "partial", "C04_rejected_changes_nothing_refuted C04_rejected_changes_nothing_partial",
      "REFUTED: a rejected update leaves the invalid value in the stock. Proved: everything else is unchanged, and addStock is atomic.")
claim("C05", "partial", "C05_rejected_update_does_not_block_refuted C05_update_succeeds_iff C05_blocked_until_repaired",
      "REFUTED: after a rejected price every volatility/coupon update throws. Exact success condition proved.")
claim("C06", "proved", "C06_handle C06_handle_is_live_view C06_old_handle_frozen", "Any history.")
claim("C07", "proved", "C07_update_notifies C07_no_other_notification", "Any history of registrations and lifetimes.")
claim("C08", "proved", "C08_rate_notifies_all", "Any history.")
claim("C09", "proved", "C09_registry", "Any history; observers that are not Options can stay as dead entries but are never notified.")
claim("C10", "proved", "C10_one_instance C10_same_instance_over_time C10_no_deadlock", "Any number of threads, calls, schedules; sequentially consistent memory under the mutex.")
claim("C11", "proved", "C11_stock_equality", "IEEE binary64.")

claim("C12", "proved", "C12_parameter_object", "Any sequence of setParameter calls.")
claim("C13", "proved", "C13_factory_exact C13_call_put", "All kinds, sides, parameter objects, markets; NaN strikes and maturities count as not negative (see C25).")
claim("C14", "proved", "C14_failed_creation", "")
claim("C15", "proved", "C15_created_registered C15_created_follows", "Any history before and after the creation.")
claim("C16", "partial", "C16_equal_options_refuted C16_equal_options_partial", "REFUTED: equality ignores the option class, the ticker name and the barrier terms. Proved: what equality does imply.")
claim("C17", "proved", "C17_knock_complementary", "IEEE binary64.")
claim("C18", "proved", "C18_vanilla_split", "IEEE binary64, overflow included.")
claim("C19", "proved", "C19_vanilla_monotone C19_vanilla_convex", "Monotone in IEEE; convex and 1-Lipschitz in exact arithmetic.")
claim("C20", "proved", "C20_digital C20_digital_nan", "IEEE binary64.")
claim("C21", "proved", "C21_double_digital C21_double_digital_nan C21_side_ignored", "IEEE binary64.")
claim("C22", "proved", "C22_floating", "IEEE binary64.")
claim("C23", "proved", "C23_payoff_equality", "IEEE binary64.")
claim("C24", "proved", "C24_arity", "")
claim("C25", "partial", "C25_no_nan_strike_refuted C25_nonnegative_partial", "REFUTED for NaN strikes and maturities. Nonnegativity proved for everything else.")

claim("C26", "proved", "C26_quasi_walk C26_int_counter_refuted", "Any underlying sequence (oracle), any number type. C26_int_counter_refuted shows why dimensions above INT_MAX are excluded.")
claim("C27", "partial", "C27_seed_refuted C27_reproducible_partial", "REFUTED: the engine is never seeded; every seed gives the same stream.")
claim("C28", "proved", "C28_domain C28_symmetry_sign", "Domain in IEEE binary64 (NaN is accepted); symmetry and sign in exact arithmetic.")
claim("C29", "proved", "C29_increasing", "Exact arithmetic, with certified polynomial bounds at the branch joins.")
claim("C30", "partial", "C30_uniform_interval_refuted C30_uniform_unit_partial", "REFUTED: the distribution object is built on [0,1) whatever a and b are.")
claim("C31", "proved", "C31_jump_models_need_pseudo", "Any number type, any earlier use of the generator.")
claim("C76", "partial", "C76_faure_arguments_refuted C76_sobol_arguments_partial C76_sobol_path_length_partial", "REFUTED for FaureGenerator: header and definition disagree on the argument order. Holds for SobolGenerator.")

claim("C32", "proved", "C32_path_length C32_path_positive C32_path_exists C32_maturity", "All six models. Length for any number type; positivity in exact arithmetic; exact condition under which a path is produced on a pseudo-random generator.")
claim("C33", "proved", "C33_gbm_closed_form C33_forward_curve", "Any environment, generator and number of steps, exact arithmetic.")
claim("C34", "proved", "C34_bridge_pinned C34_backward_only_gbm", "Exact arithmetic.")
claim("C35", "partial", "C35_heston_scheme_refuted C35_scheme_partial", "REFUTED for HestonModel: the constructor tests the moved-from parameter and always installs Euler. Proved for BatesModel and for the default.")
claim("C36", "partial", "C36_milstein_refuted C36_steps_defined C36_paths_defined C36_euler_from_zero C36_milstein_nonneg_partial", "No square root of a negative number: proved. The Milstein nonnegativity and zero-draw claims are REFUTED; the exact zero-draw values and a sufficient condition are proved.")
claim("C37", "partial", "C37_kou_jump_refuted C37_kou_jump_partial", "REFUTED: every jump also subtracts a downward size. Exact description proved.")
claim("C38", "partial", "C38_density_total C38_gbm_martingale C38_heston_martingale C38_merton_refuted C38_merton_expectation_partial C38_bates_refuted C38_bates_expectation_partial C38_diffusion_every_date C38_jumps_every_date_partial C38_kou_every_date_partial C38_kou_refuted C38_vg_every_date_partial C38_vg_refuted", "GBM and Heston: proved for every date of the simulated path. REFUTED for Merton, Bates, Kou and Variance Gamma, whose exact mean at every date is proved (VG: a martingale exactly when nu = 1 or theta + sigma^2/2 = 0). Expectations are improper integrals against the normal, exponential, uniform and gamma densities and Poisson series.")
claim("C39", "partial", "C39_clock_mean_refuted C39_gamma_mean C39_gamma_draws C39_clock_mean_partial", "REFUTED: the clock has mean dt/nu^2, equal to dt only for nu = 1.")
claim("C40", "partial", "C40_follows_market_refuted C40_vg_refuted C40_follows_market_partial", "REFUTED after addStock of a listed ticker, and for the variance gamma correction omega after updateStockSigma. Proved otherwise: any model reads the current stock data and rate as long as no addStock replaces the ticker.")

claim("C41", "proved", "C41_discounted_mean C41_asian_any_N C41_bounds", "All pricers but the American, any model, generator and N >= 1; exact arithmetic.")
claim("C42", "proved", "C42_put_call_parity", "Exact arithmetic; same generator state.")
claim("C43", "proved", "C43_in_plus_out", "Exact arithmetic; same generator state.")
claim("C44", "proved", "C44_flag_exact C44_pays_exactly", "Any path.")
claim("C45", "proved", "C45_averages C45_asian_prices", "Exact arithmetic, any path of positive prices.")
claim("C46", "proved", "C46_fixed_dominates C46_prices C46_floating", "Exact arithmetic, any path.")
claim("C47", "partial", "C47_refuted C47_no_simulations C47_too_many_simulations C47_no_steps C47_defined_partial", "REFUTED: N = 0 gives NaN, N > INT_MAX and generator dimension 0 give undefined behaviour. Proved: with 1 <= N, dim <= INT_MAX on a pseudo-random generator no operation is undefined and the price is a number, for every pricer class and model.")
claim("C48", "proved", "C48_american_bounds", "Any linear algebra, basis and regression (also user-defined ones); exact arithmetic.")
claim("C49", "partial", "C49_refuted C49_cash_flows C49_discounting_partial", "REFUTED: at a date where no path is in the money nothing is discounted. Exact description of every run proved; the claim holds when every date has a path in the money.")
claim("C50", "proved", "C50_bridge_only_supported C50_no_logic_error", "Any number type, model, generator.")
claim("C51", "proved", "C51_builder_protocol", "Any sequence of calls on any of the builders.")
claim("C52", "partial", "C52_refuted C52_same_stock_partial", "REFUTED: the default model is cached, so a reused builder prices the new option on the old stock and market.")
claim("C53", "partial", "C53_refuted C53_rejection_clears", "REFUTED: a rejected setOption always clears the option. Proved: what stays.")
claim("C54", "proved", "C54_solver_protocol C54_default", "Any sequence of calls.")

claim("C55", "proved", "C55_linear_interpolation C55_nodes_binary64 C55_throws_iff_nan", "Formula in exact arithmetic; node values and the throw condition in IEEE binary64.")
claim("C56", "partial", "C56_refuted C56_nan_undefined C56_numbers_partial", "REFUTED: a NaN query makes findInterval read out of bounds on every grid. Proved for every query that is a number.")
claim("C57", "proved", "C57_quadratic_interpolation", "Exact arithmetic.")
claim("C58", "partial", "C58_refuted C58_binary64_refuted C58_linear_partial", "REFUTED for quadratic interpolation (negative prices from nonnegative data) and, by one rounding, for linear interpolation in binary64. Proved for linear interpolation in exact arithmetic.")
claim("C59", "proved", "C59_thomas C59_dominant C59_too_small", "Exact arithmetic, any size.")
claim("C60", "proved", "C60_chebyshev C60_bounded", "Exact arithmetic, any degree.")
claim("C61", "proved", "C61_legendre", "Exact arithmetic, any degree.")
claim("C62", "partial", "C62_refuted C62_value_at_zero C62_wrong_columns C62_recurrence_partial", "REFUTED: column 1 is x instead of 1 - x, and every later column is wrong too. The recurrence itself is right.")
claim("C63", "proved", "C63_span C63_same_fits basis_rows", "Exact arithmetic; also for the wrong Laguerre columns, whose span is still all polynomials of the degree.")
claim("C64", "proved", "C64_lasso_soft_threshold", "Any least-squares oracle.")
claim("C65", "proved", "C65_ridge_minimises C65_ridge_definite C65_ridge_solvable", "Exact arithmetic; LDLT as an oracle that solves the normal equations.")
claim("C77", "partial", "C77_refuted C77_orthonormal_partial", "REFUTED: soft-thresholding the least-squares solution is the lasso solution only for orthonormal columns, for which it is proved.")

claim("C66", "partial", "C66_grid C66_binary64_refuted C66_binary64_last_node", "Proved in exact arithmetic for all J >= 2. REFUTED in binary64: the last node can be below xDom.")
claim("C67", "partial", "C67_exact C67_binary64_refuted C67_binary64_extra_step", "Proved in exact arithmetic for all N >= 2. REFUTED in binary64: the rounded clock can need one step more.")
claim("C68", "proved", "C68_step C68_run C68_bounds C68_vanilla_bounds", "Exact arithmetic, any J, N and PDE; maximum principle under the stability condition.")
claim("C69", "proved", "C69_step C69_run C69_bounds C69_vanilla_bounds", "Exact arithmetic, any J, N; the Thomas solver; unconditional maximum principle and uniqueness.")
claim("C70", "partial", "C70_put_violation C70_refuted C70_step C70_run C70_partial", "REFUTED: the boundary terms are dropped at the first and last interior node. Proved: the exact system solved, and the scheme at every other node.")
claim("C71", "partial", "C71_throws C71_refuted", "REFUTED: every default-built Crank-Nicolson solver throws in its first step (the solver is called inside the assembly loop on a singular matrix). Hypothesis: sparse LU fails on a matrix with a zero row.")
claim("C72", "partial", "C72_refuted C72_digital_refuted C72_partial", "REFUTED: the call's right value is discounted over the whole maturity at the start; digital options get vanilla values. Exact conditions proved.")
claim("C73", "partial", "C73_refuted C73_zero_prices", "REFUTED: the price at tDom = 0 is always 0.")
claim("C74", "proved", "C74_solved_once C74_node_price", "Any call sequence; node price in exact arithmetic.")
claim("C75", "partial", "C75_refuted C75_stale C74_solved_once", "REFUTED: the price depends on the market after the first solve only through the spot.")
claim("C78", "partial", "C78_refuted C78_never_returns C67_exact C68_run C69_run", "REFUTED: with N = 0 the clock stalls and the loop never ends (binary64). Proved to end for N >= 2 in exact arithmetic.")
claim("C79", "partial", "C79_refuted C79_after_failure", "REFUTED: the clock is advanced before the failing computation, so the next call finds the march finished and prices from the unfinished vector.")
claim("C80", "partial", "C80_refuted C80_partial", "REFUTED for puts: the strike is not discounted. Exact condition proved; holds for calls.")
claim("C81", "partial", "C81_refuted C81_parity_partial", "REFUTED for r > 0 by the put's left boundary. Proved at every node for r = 0 and no dividend, any grid, any number of steps, explicit and implicit.")
claim("C82", "proved", "C82_one_date C82_floating C82_american", "American: forward and backward simulation alike, any regression.")
claim("C83", "proved", "C83_paths_proportional C83_homogeneous", "Options without early exercise; the regression of the American pricer is an oracle.")
claim("C84", "proved", "C84_strike C84_convex", "")
claim("C85", "proved", "C85_spot C85_convex", "")
claim("C86", "proved", "C86_batches", "Exact arithmetic; in binary64 the accumulation order of the sums differs.")
claim("C87", "proved", "C87_no_interference", "For any arithmetic.")
claim("C88", "proved", "C88_barrier_level", "")
claim("C89", "proved", "C89_comparison C89_strike C89_convex", "Exact arithmetic; implicit scheme with the Thomas solver. The Crank-Nicolson code is not covered: it drops the old boundary values (C70).")
claim("C90", "proved", "C90_error", "Exact arithmetic; implicit scheme with the Thomas solver.")
claim("C91", "proved", "C91_order", "Exact arithmetic; implicit scheme with the Thomas solver.")
claim("C92", "partial", "C92_refuted C92_zero_strike_partial", "REFUTED for positive dividend yields (the right boundary value ignores the yield). Proved exact without dividends.")
claim("C93", "partial", "C93_refuted C93_basis C93_penalty_partial", "REFUTED: a NaN penalty is accepted. Proved for bases and for penalties that are numbers.")

claim("C94", "proved", "C94_unbiased C94_unique", "Exact arithmetic; independent draws with the laws of the distribution objects; pseudo-random generators.")
claim("C95", "proved", "C95_variance", "As C94.")
claim("C96", "proved", "C96_black_scholes C96_call C96_digital_variance normal_cdf", "As C94.")
claim("C97", "proved", "C97_geometric_asian", "As C94.")

claim("C98", "proved", "C98_bridge_moments", "As C94; the draws of one path in the order of the pricer. The exponents are real, so this is the joint moment generating function of the log-prices.")
claim("C99", "proved", "C99_equation C99_initial C99_on_the_strike C99_monte_carlo", "On the strike of a digital call the solvers start from 0, the value from 1/2 (C99_on_the_strike).")

claim("C100", "proved", "C100_never_negative", "The library's exp is only assumed to return no negative number.")
claim("C101", "proved", "C101_strike", "As C100.")
claim("C102", "proved", "C102_spot", "As C100.")
claim("C103", "proved", "C103_below_european C103_barrier_level", "As C100.")
claim("C104", "proved", "C104_rounding", "As C100. The error of the paths themselves is not part of the statement: they are the ones the code simulates.")
claim("C105", "proved", "C105_digital", "As C100.")

claim("C106", "proved", "C106_quasi_run", "Binary64; exp and log arbitrary.")
claim("C107", "partial", "C107_gbm C107_heston_partial C107_heston_refuted", "REFUTED for Heston: a path uses points 2j and 2j+1, and point j alone does not determine it. Proved for GBM, and the exact points for Heston.")
claim("C108", "partial", "C108_exact_partial C108_refuted", "REFUTED: jump models with intensity 0, Kou with eta2 = 0, and jump models with maturity 0 are accepted but every pricing throws. Proved: exactly when a run returns a price, in any arithmetic.")
claim("C109", "proved", "C109_main", "Binary64. The labels and the number formatting of the output are not modelled.")

claim("C110", "partial", "C110_exact C110_partial C110_refuted C110_false_alarm", "REFUTED: dt/dx^2 is compared with 1/2 in currency units, without the diffusion coefficient; a silent run gives a digital call the price -1, and a change of currency unit makes a stable run warn. Proved: exactly when the warning is printed, and that silence suffices when diffusion is at most 1 and dominates convection.")
claim("C111", "proved", "C111_implicit C111_crank_nicolson", "Over the reals, J >= 4 as in C69.")
claim("C112", "partial", "C112_rows C112_exact C112_calm_partial C112_refuted", "REFUTED: diagonal dominance does not give signs; a silent implicit step returns a negative put price. Proved: exactly which rows are reported, and that nothing is reported where the minimum principle of C69 applies.")

claim("C113", "proved", "C113_layers C113_price C113_vanilla", "Over the reals, Thomas solver, J >= 4 as in C69. The CFL warning does depend on the unit (C110).")
claim("C114", "proved", "C114_nonnegative C114_nodes C114_put C114_call", "binary64, the three schemes, Thomas solver; J >= 4 as in C69.")
claim("C115", "proved", "C115_comparison C115_put C115_call", "binary64, the three schemes, Thomas solver; J >= 4 as in C69. Calls need an exponential that never returns a negative number.")

claim("C116", "partial", "C116_table C116_refuted C116_overrun_refuted", "REFUTED at the greatest unsigned int: with N = 2^32-1 (also what the input -1 gives) the counter wraps and the program never ends; with s = 2^32-1 it reads behind the vector. C116_table is the claim for all other N and s.")
claim("C117", "partial", "C117_partial C117_stuck C117_refuted", "REFUTED: after input that is not a number, or at the end of the input, the stream stays failed and the program prompts forever; a number that does not fit is accepted as the greatest one, together with the dimension typed a round earlier. C117_partial is the claim for inputs that are numbers.")
claim("C118", "partial", "C118_normalised C118_refuted", "REFUTED: the 1024 greatest 64-bit numbers become exactly 1; C118_normalised is everything else for every engine. Such numbers have more than 53 significant bits, which a Sobol sequence reaches only after 2^53 points.")
claim("C119", "partial", "C119_partial C119_contract C119_refuted", "REFUTED: barrier options that differ in the barrier and its direction print the same text. C119_partial and C119_contract: everything else is determined, also for tickers with line breaks. Numbers are determined as far as their printed form is.")
claim("C120", "proved", "C120_print", "No call removes a ticker, so the stock of an option always exists.")
claim("C121", "partial", "C121_reads C121_partial C121_refuted", "REFUTED: the barrier factories read B and direction, which their help text omits; the help text of the floating-strike lookback factory asks for a strike it does not read. C121_partial: every other parameter has its entry.")
claim("C122", "partial", "C122_gbm C122_merton C122_kou_partial C122_kou_refuted C122_vg_partial C122_vg_refuted", "Holds for GBM and Merton. REFUTED for Kou (holds exactly when p = 0, for no drift otherwise) and variance gamma (holds exactly when nu = 1 or without noise); the exponents the code does have are proved.")
claim("C123", "partial", "C123_mixture C123_partial C123_refuted", "The expected price is proved to be a Poisson mixture of Black's formulas, whatever the numbers of dates and paths. REFUTED: the terms are not corrected for the mean jump, so for calls the textbook formula holds exactly when the mean jump is zero.")
claim("C124", "proved", "C124_accuracy C124_tails C124_law C124_distribution C124_quantile", "Exact arithmetic; polynomial inequalities checked by a verified integer checker.")
claim("C125", "proved", "C125_discrepancy", "Exact arithmetic; calls are left out because their payoff has unbounded variation.")
claim("C126", "proved", "C126_accuracy C126_centre C126_tails C126_law", "IEEE binary64; the accuracy of the logarithm of the C library is a hypothesis of the theorems about the tails, met by the correctly rounded logarithm (C126_ex).")
claim("C127", "proved", "C127_path C127_price", "IEEE binary64; the accuracy of the exponential of the C library is a hypothesis, met by the correctly rounded exponential (C127_ex).")
claim("C128", "proved", "C128_black_scholes", "IEEE binary64; the accuracy of the exponential and the logarithm of the C library is a hypothesis, met by the correctly rounded functions; C128_ex prices a put on 2^p points.")
claim("C129", "proved", "C129_put C129_reference", "IEEE binary64; puts only, whose boundary values need no exponential; C129_reference ties the exact-arithmetic scheme to the real-number model of the same solver; C129_ex is a five-node grid.")
claim("C130", "partial", "C130_call_refuted C130_put_partial C130_put_price_partial C130_call_zero_rate C130_double", "REFUTED: with a positive rate the value of a call can fall from one node to the next, because the right boundary value moves backwards in time. Proved for puts when the dividend yield is not above the rate, for calls when the rate is 0, and in binary64 up to rounding for puts under the explicit scheme; the price returned with the default interpolation is then falling and convex in the spot on the whole interval, between nodes too.")
claim("C131", "proved", "C131_volatility C131_price", "Both schemes, over the reals, at the nodes and for the price returned with the default interpolation at any spot of the grid; C130_C131_ex is a five-node grid with two volatilities.")
claim("C132", "proved", "C132_put C132_price", "Both schemes, over the reals; C132_ex is a five-node grid with two markets.")
claim("C133", "proved", "C133_maturity C133_price", "Both schemes, over the reals; C133_ex is a five-node grid with five and ten steps.")
claim("C134", "proved", "C134_volatility C134_implied C134_merton", "Expectations over the reals as in C96 and C123; C134_ex is a put with volatilities 20% and 21%.")
claim("C135", "proved", "C135_maturity", "Expectations over the reals as in C96; C135_ex is a call for one year and for two.")
claim("C136", "proved", "C136_geometric", "Expectations over the reals as in C96 and C97; the two pricers may use different numbers of steps and paths. C136_ex averages a call over twelve dates.")
here = os.path.dirname(os.path.abspath(__file__))
json.dump({"claims": C}, open(os.path.join(here, "..", "MANIFEST.json"), "w"), indent=1)

# every theorem named above must exist, and every property must have an entry
import re, glob
names = set()
for f in glob.glob(os.path.join(here, "..", "rocq", "theories", "*.v")):
    names |= set(re.findall(r"^(?:Theorem|Lemma)\s+([\w']+)", open(f).read(), re.M))
for c in C:
    for t in c["theorems"]:
        if t not in names:
            print("missing theorem", c["property"], t)
ids = [json.loads(l)["id"] for l in open(os.path.join(here, "..", "properties.jsonl")) if l.strip()]
have = {c["property"] for c in C}
print("without entry:", [i for i in ids if i not in have])
listed = {t for c in C for t in c["theorems"]}
print("unlisted theorems:", sorted(t for t in names if re.match(r"C\d\d", t) and t not in listed and not t.endswith("_ex")))
