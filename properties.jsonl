{"id": "C01", "title": "Stock validation is exact", "statement": "Constructing a StockData with price S, volatility sigma and optional coupon c (none of them NaN) succeeds exactly when S > 0, sigma >= 0 and (no coupon or 0 <= c <= 1); otherwise it throws std::invalid_argument. On success the getters return the constructor arguments unchanged.", "quantifier": "all doubles S, sigma, c that are not NaN, including infinities, signed zeros and subnormals; coupon present or absent", "why_tests_cant": "The input space is every triple of doubles; tests sample a handful of values and never the boundary cases (-0.0, denormals, infinities).", "anchors": ["src/market_data/stock_data.cpp: StockData::StockData, StockData::validate, getPrice, getSigma, getCoupon"]}
{"id": "C02", "title": "NaN market inputs are rejected", "statement": "No StockData whose price, volatility or coupon is NaN can be constructed or installed by an update: such a call throws std::invalid_argument.", "quantifier": "all NaN inputs in any field", "why_tests_cant": "A green test for a negative price says nothing about NaN; the guard is written with < and <=, which are false on NaN.", "anchors": ["src/market_data/stock_data.cpp: StockData::validate"]}
{"id": "C03", "title": "Market data behaves as a map from ticker to stock", "statement": "After any sequence of addStock / updateStockPrice / updateStockSigma / updateStockCoupon / setR calls, reading ticker t returns the values determined by the last addStock of t and the later updates of t, unaffected by calls for other tickers; getStockData throws std::invalid_argument exactly for tickers never successfully added; getR returns the last rate set (0.05 initially).", "quantifier": "all finite call sequences, all tickers, all doubles (including calls that throw)", "why_tests_cant": "Requires all histories of calls; tests run a few scripted histories.", "anchors": ["src/market_data/market_data.cpp: addStock, updateStockPrice, updateStockSigma, updateStockCoupon, getStockData, setR, getR", "include/market_data/market_data.h: addStock"]}
{"id": "C04", "title": "A rejected market-data call changes nothing", "statement": "If addStock or an updateStock* call throws, the observable market data (every stock's price, volatility, coupon; the rate; the set of tickers) is the same as before the call.", "quantifier": "all market states, all tickers, all arguments for which the call throws", "why_tests_cant": "Tests check that the exception is thrown, not that no state leaked; leakage depends on the order of assignment and validation.", "anchors": ["src/market_data/stock_data.cpp: setPrice, setSigma, setCoupon, validate", "src/market_data/market_data.cpp: updateStock*", "include/market_data/market_data.h: addStock"]}
{"id": "C05", "title": "One rejected update does not block later valid updates", "statement": "After a rejected update of one field of a stock, an update of another field of that stock with a valid value still succeeds.", "quantifier": "all market states reachable by API calls; all pairs of fields", "why_tests_cant": "It is a two-call history property over all reachable states; no test performs a valid call after a rejected one.", "anchors": ["src/market_data/stock_data.cpp: setPrice, setSigma, setCoupon, validate"]}
{"id": "C06", "title": "Handles returned by getStockData are live views until the ticker is replaced", "statement": "A StockData handle obtained for ticker t shows every later update of t and no update of other tickers; after addStock(t, ...) replaces t, an old handle keeps the old values and no longer follows updates, while getStockData(t) returns the new object.", "quantifier": "all call sequences before and after obtaining the handle", "why_tests_cant": "Pointer aliasing over arbitrary later histories; tests look at one update.", "anchors": ["src/market_data/market_data.cpp: getStockData, updateStock*", "include/market_data/market_data.h: addStock"]}
{"id": "C07", "title": "Per-ticker notification is exact", "statement": "A successful updateStockPrice/Sigma/Coupon for ticker t calls update() once per registration on exactly the registered observers that are still alive and whose ID is t, in registration order, and on nobody else; calls that throw and addStock notify nobody.", "quantifier": "all registries (any number of observers, duplicates, dead entries, any IDs), all tickers", "why_tests_cant": "Depends on arbitrary registries mixing live, dead, duplicate and foreign observers; tests use one mock.", "anchors": ["src/market_data/market_data.cpp: notifyObserver, updateStock*", "include/market_data/market_data.h: addStock"]}
{"id": "C08", "title": "Rate changes reach every live observer", "statement": "setR(r) stores r and calls update() once per registration on every live registered observer, in registration order, whatever its ID.", "quantifier": "all registries, all doubles r", "why_tests_cant": "Quantifies over all registries; tests use one mock.", "anchors": ["src/market_data/market_data.cpp: setR, notifyObservers"]}
{"id": "C09", "title": "Observer registry holds exactly the live registrations", "statement": "Under any interleaving of creating options, sharing and dropping references to them, and market updates, the registry never keeps an option that has been destroyed, never loses one that is alive, and keeps registration order.", "quantifier": "all finite sequences of create / share / drop / update operations on any number of options", "why_tests_cant": "Object-lifetime histories are unbounded; tests destroy one option.", "anchors": ["src/market_data/market_data.cpp: addObserver, removeObserver", "src/option/base_option.cpp: Option::~Option, Option::initialize"]}
{"id": "C10", "title": "MarketData::getInstance returns one instance under every thread schedule", "statement": "However many threads call getInstance, in any interleaving, the constructor runs at most once, every call that returns returns the same instance, and no schedule deadlocks.", "quantifier": "any number of threads, any number of calls per thread, all schedules", "why_tests_cant": "Thread schedules cannot be enumerated by tests.", "anchors": ["src/market_data/market_data.cpp: MarketData::getInstance"]}
{"id": "C11", "title": "StockData equality is an equivalence on NaN-free data", "statement": "operator== on StockData is symmetric for all values, reflexive and transitive on values without NaN, true exactly when price, volatility and coupon (presence and value) are numerically equal, and operator!= is its negation.", "quantifier": "all pairs/triples of StockData", "why_tests_cant": "Algebraic laws over all doubles, including signed zeros and NaN.", "anchors": ["src/market_data/stock_data.cpp: operator==, operator!="]}
{"id": "C12", "title": "ParameterObject is a typed last-write-wins dictionary", "statement": "getParameter<X>(name) returns v exactly when the last setParameter(name, ...) stored v with type X; it throws std::invalid_argument when the name was never set or was last set with another type (an int is not a double); setting one name never affects another; hasParameter is true exactly for names that were set.", "quantifier": "all sequences of setParameter calls, all names, all stored types", "why_tests_cant": "All call histories and name/type combinations.", "anchors": ["src/option/parameter_object.cpp: setParameter, hasParameter", "include/option/parameter_object.h: getParameter"]}
{"id": "C13", "title": "Factories accept exactly the valid parameter sets", "statement": "For every option factory, createCallOption/createPutOption succeeds exactly when the documented parameters are present with the right types, strikes and maturity are not negative, and the ticker is known to the market; the option produced has the requested maturity, ticker, kind and a payoff of the documented class with the requested side and strikes. Otherwise it throws std::invalid_argument.", "quantifier": "all ten option kinds, both sides, all parameter objects, all markets", "why_tests_cant": "The product of option kinds, parameter presence, parameter types and markets is far beyond the sampled tests.", "anchors": ["include/option/base_factory_option.h: createCallOption, createPutOption, createOption", "src/option/single_path/factory_*.cpp", "src/option/path_dependent/factory_*.cpp"]}
{"id": "C14", "title": "A failed option creation has no effect", "statement": "If a factory throws, no observer has been registered, the market data is unchanged and nobody was notified.", "quantifier": "all kinds, sides, parameter objects, markets and registries", "why_tests_cant": "Quantifies over all failing inputs and prior states.", "anchors": ["include/option/base_factory_option.h: createOption", "src/option/base_option.cpp: Option::Option"]}
{"id": "C15", "title": "A created option is registered once and follows its own ticker", "statement": "A successful factory call appends exactly one registration, with the option's ticker as ID, leaving the other registrations as they were; afterwards an update of that ticker notifies the option exactly once as long as it is alive and an update of another ticker does not.", "quantifier": "all kinds, parameter objects, markets and prior registries; all later update calls", "why_tests_cant": "Combines all creation inputs with all later histories.", "anchors": ["include/option/base_factory_option.h: createOption", "src/option/base_option.cpp: initialize", "src/market_data/market_data.cpp: addObserver, notifyObserver"]}
{"id": "C16", "title": "Options that compare equal are the same contract", "statement": "Two options for which operator== returns true are of the same kind (e.g. European vs American), refer to the same ticker and have the same barrier terms.", "quantifier": "all pairs of options over all markets", "why_tests_cant": "Requires all pairs of contracts; tests compare two Europeans.", "anchors": ["src/option/base_option.cpp: operator==, operator!="]}
{"id": "C17", "title": "Knock-in and knock-out activity are complementary", "statement": "For the same barrier level, direction and price (none NaN), a knock-in option is active exactly when the corresponding knock-out option is not; an up barrier is touched exactly when price >= B and a down barrier when price <= B.", "quantifier": "all doubles S and B, both directions", "why_tests_cant": "All doubles, including equality, infinities and NaN.", "anchors": ["src/option/path_dependent/barrier_option.cpp: isActive"]}
{"id": "C18", "title": "Vanilla payoffs are nonnegative and split the forward", "statement": "In IEEE double arithmetic, for S and K finite, call(S) and put(S) are never NaN and never negative, at least one of them is zero, and call(S) - put(S) is numerically the double S - K.", "quantifier": "all finite doubles S and K", "why_tests_cant": "All pairs of doubles with rounding; tests use a few round numbers.", "anchors": ["src/payoff/single_strike/payoff_vanilla.cpp: operator()"]}
{"id": "C19", "title": "Vanilla payoffs are monotone", "statement": "In IEEE double arithmetic, the call payoff is nondecreasing in S and nonincreasing in K, the put payoff the reverse; in exact arithmetic both are convex in S and change by at most the change of S.", "quantifier": "all finite doubles S1 <= S2, K1 <= K2 (reals for convexity)", "why_tests_cant": "Relational property over pairs of all doubles.", "anchors": ["src/payoff/single_strike/payoff_vanilla.cpp: operator()"]}
{"id": "C20", "title": "Digital payoffs pay exactly one side except at the strike", "statement": "A digital call pays 1 exactly when S > K and a digital put exactly when S < K, and 0 otherwise; so call + put = 1 unless S = K (or an operand is NaN), where both pay 0.", "quantifier": "all doubles S, K", "why_tests_cant": "All doubles including ties, infinities and NaN.", "anchors": ["src/payoff/single_strike/payoff_digital.cpp: operator()"]}
{"id": "C21", "title": "Double digital pays exactly inside the closed strike interval", "statement": "The double digital payoff is 1 exactly when K_lower <= S <= K_upper and 0 otherwise, whatever the side passed to the factory; with K_lower > K_upper it is always 0.", "quantifier": "all doubles S, K_lower, K_upper", "why_tests_cant": "All doubles and strike orders.", "anchors": ["src/payoff/double_strikes/payoff_double_digital.cpp: operator()", "src/option/single_path/factory_double_digital_option.cpp"]}
{"id": "C22", "title": "Floating-strike lookback payoff is the distance to the extreme", "statement": "For S and the extreme finite, the floating-strike payoff is nonnegative and not NaN; when the extreme is a lower bound of S (call) or an upper bound (put) it equals the IEEE difference |S - extreme|.", "quantifier": "all finite doubles S, extreme, both sides", "why_tests_cant": "All doubles with rounding.", "anchors": ["src/payoff/payoff_floating_strike_lookback.cpp: operator()"]}
{"id": "C23", "title": "Payoff equality is a congruence and clones are equal", "statement": "operator== on payoffs is symmetric, reflexive and transitive on payoffs with NaN-free strikes, holds between a payoff and its clone, only relates payoffs of the same class, side and strikes, and equal payoffs give numerically equal values at every spot.", "quantifier": "all payoffs of all classes and all spots", "why_tests_cant": "All pairs of payoffs and all spots.", "anchors": ["src/payoff/base_payoff.cpp: operator==", "src/payoff/**: compare, clone"]}
{"id": "C24", "title": "Calling a payoff with the wrong number of spots is reported", "statement": "Every payoff accepts exactly one of the one-argument and two-argument calls; the other throws std::logic_error for all inputs.", "quantifier": "all payoff classes, all arguments", "why_tests_cant": "For-all over classes and arguments.", "anchors": ["src/payoff/base_payoff.cpp: operator()", "src/payoff/**: operator()"]}
{"id": "C25", "title": "Strikes and maturities accepted are nonnegative numbers", "statement": "No payoff has a negative or NaN strike and no option has a negative or NaN maturity.", "quantifier": "all constructor arguments", "why_tests_cant": "Tests cover negative values, not NaN.", "anchors": ["src/payoff/single_strike/base_payoff_single_strike.cpp", "src/payoff/double_strikes/base_payoff_double_strikes.cpp", "src/option/base_option.cpp: Option::Option"]}
{"id": "C26", "title": "Quasi-random draws walk the points coordinate by coordinate", "statement": "A Sobol or Faure generator of dimension 1 <= d <= INT_MAX returns, over any number of draws, the coordinates of the underlying d-dimensional points in order, each exactly once, none skipped or repeated (after normalisation and inversion); it never reads outside its point buffer. Beyond INT_MAX the signed step counter overflows.", "quantifier": "all dimensions 1 <= d <= INT_MAX, all underlying sequences, all numbers of draws", "why_tests_cant": "Buffer-refill off-by-one errors show up only over long histories and every dimension.", "anchors": ["src/random/number_generator/sobol_quasi_random_generator.cpp", "src/random/number_generator/faure_quasi_random_generator.cpp"]}
{"id": "C27", "title": "The seed of the pseudo-random generator selects the stream", "statement": "Two pseudo-random generators constructed with different seeds produce different streams in general; with the same seed they produce the same stream.", "quantifier": "all seeds, all draw sequences", "why_tests_cant": "A statistical test cannot see that a seed is ignored; it is a property of the data flow.", "anchors": ["include/random/number_generator/pseudo_random_generator.h", "src/random/number_generator/pseudo_random_generator.cpp"]}
{"id": "C28", "title": "Inverse normal CDF: domain, symmetry and sign", "statement": "inv_cdf(q) throws std::invalid_argument exactly for q <= 0 or q >= 1; in exact arithmetic inv_cdf(1/2) = 0, inv_cdf(1-q) = -inv_cdf(q), and inv_cdf(q) is negative below 1/2 and positive above.", "quantifier": "all q (doubles for the domain, reals for the symmetry and sign)", "why_tests_cant": "Continuum of inputs over three branches.", "anchors": ["src/random/distribution/standard_normal_distribution.cpp: inv_cdf"]}
{"id": "C29", "title": "Inverse normal CDF is increasing", "statement": "In exact arithmetic q1 < q2 implies inv_cdf(q1) < inv_cdf(q2) on (0,1).", "quantifier": "all reals 0 < q1 < q2 < 1", "why_tests_cant": "Relational property over a continuum and across branch boundaries.", "anchors": ["src/random/distribution/standard_normal_distribution.cpp: inv_cdf"]}
{"id": "C30", "title": "Uniform draws honour the configured interval", "statement": "A ContinuousUniformDistribution(a, b) produces draws in [a, b).", "quantifier": "all a < b, all draws", "why_tests_cant": "Every existing use has a=0, b=1, so no run exposes the parameters being dropped.", "anchors": ["include/random/distribution/continuous_uniform_distrib.h", "src/random/distribution/continuous_uniform_distrib.cpp"]}
{"id": "C31", "title": "Jump models cannot run on quasi-random generators", "statement": "Simulating at least one step of the Merton, Bates, Kou or Variance Gamma model with a quasi-random generator always ends in an exception, never in a price path.", "quantifier": "all parameters, dimensions, sequences", "why_tests_cant": "For-all over parameters and point sequences.", "anchors": ["src/random/distribution/*.cpp: inv_cdf", "src/model/*.cpp: simulatePrices"]}
{"id": "C32", "title": "Simulated paths have one positive price per step", "statement": "For every stock model, simulatePrices over a generator of dimension d returns exactly d prices; in exact arithmetic every price is positive whenever the initial price is positive.", "quantifier": "all models, parameters, dimensions, random draws", "why_tests_cant": "All random streams and all parameters.", "anchors": ["src/model/*.cpp: simulatePrices"]}
{"id": "C33", "title": "GBM paths follow the exact solution", "statement": "In exact arithmetic the k-th simulated GBM price equals S0 exp((r-c-sigma^2/2) t_k + sigma sqrt(dt) (z_1+...+z_k)), uses each draw once in order, and with sigma = 0 reproduces the forward curve S0 exp((r-c) t_k).", "quantifier": "all parameters, numbers of steps, draws", "why_tests_cant": "Holds for all numbers of steps and draws; tests cannot check an accumulating product for all lengths.", "anchors": ["src/model/gbm_model.cpp: simulatePrices"]}
{"id": "C34", "title": "Backward (bridge) simulation is pinned at both ends", "statement": "simulatePriceBackward at t_j = t_{j+1} returns the later price, at t_j = 0 the initial price, and is positive and geometrically between the end points for zero volatility.", "quantifier": "all 0 <= t_j <= t_{j+1}, t_{j+1} > 0, positive prices, draws", "why_tests_cant": "Continuum of times and draws.", "anchors": ["src/model/gbm_model.cpp: simulatePriceBackward"]}
{"id": "C35", "title": "The variance scheme chosen by the user is the one used", "statement": "A Heston or Bates model constructed with a user-supplied variance discretisation uses it; without one it uses full-truncation Euler.", "quantifier": "all model parameters and schemes", "why_tests_cant": "Both schemes give plausible numbers, so a price test cannot tell which one ran.", "anchors": ["src/model/heston_model.cpp: HestonModel::HestonModel", "src/model/bates_model.cpp: BatesModel::BatesModel"]}
{"id": "C36", "title": "Variance discretisations are well defined and truncated", "statement": "Neither scheme ever takes the square root of a negative variance; with zero variance and zero draw the variance moves to kappa*theta*dt; the Milstein step from V >= 0 stays nonnegative when 4 kappa theta >= sigma_v^2 and kappa dt <= 1.", "quantifier": "all parameters, variances and draws", "why_tests_cant": "Continuum of states and draws.", "anchors": ["src/model/discretization/*.cpp: integrate"]}
{"id": "C37", "title": "Each Kou jump is either up or down", "statement": "When a Kou path jumps, each single jump contributes one signed size: an upward exponential with probability p and otherwise a downward exponential.", "quantifier": "all parameters, jump counts, draws", "why_tests_cant": "Prices stay plausible with a biased jump law; only the per-draw data flow shows it.", "anchors": ["src/model/kou_model.cpp: simulatePrices"]}
{"id": "C38", "title": "Simulated discounted prices are martingales", "statement": "For GBM and the jump-diffusion models the one-step conditional expectation of the price is S exp((r-c) dt).", "quantifier": "all parameters with a standard normal / Poisson law for the draws", "why_tests_cant": "An expectation over a continuous law cannot be settled by finitely many simulated paths.", "anchors": ["src/model/gbm_model.cpp", "src/model/merton_jump_diffusion_model.cpp", "src/model/bates_model.cpp"]}
{"id": "C39", "title": "The Variance Gamma clock runs at calendar speed", "statement": "The gamma time change used over a step of length dt has mean dt.", "quantifier": "all nu > 0, dt > 0", "why_tests_cant": "A distribution-parameter convention (scale versus rate); finite samples only hint at it.", "anchors": ["src/model/variance_gamma_model.cpp: simulatePrices", "src/random/distribution/gamma_distrib.cpp"]}
{"id": "C40", "title": "Models follow the current market data of their ticker", "statement": "A stock model simulates with the current price, volatility and coupon of its ticker, whatever market-data calls were made since it was built.", "quantifier": "all call sequences between building and simulating", "why_tests_cant": "All histories of market calls.", "anchors": ["src/model/base_model.cpp: StockModel::StockModel", "include/market_data/market_data.h: addStock"]}
{"id": "C41", "title": "Monte Carlo price is the discounted average payoff", "statement": "For every pricer the result is exp(-rT) times the arithmetic mean of the option payoffs over N simulated paths, where N paths are simulated one after another from the same generator; it is never negative, and a bounded payoff bounds the price.", "quantifier": "all models, generators, N >= 1, options", "why_tests_cant": "All path counts and random streams.", "anchors": ["src/solver/monte_carlo/mc_*.cpp: calculatePrice"]}
{"id": "C42", "title": "Monte Carlo put-call parity on common paths", "statement": "In exact arithmetic, pricing a European call and put with equal terms from the same generator state gives call - put = exp(-rT) (mean S_T - K).", "quantifier": "all models, generator states, N >= 1, K, T, r", "why_tests_cant": "Relational property over two runs and all random streams.", "anchors": ["src/solver/monte_carlo/mc_single_path.cpp: calculatePrice"]}
{"id": "C43", "title": "Knock-in plus knock-out equals vanilla", "statement": "From the same generator state, knock-in price + knock-out price = European price with the same strike (exact arithmetic); knock-in and knock-out prices each lie between 0 and the European price.", "quantifier": "all models, generator states, N >= 1, barriers, directions", "why_tests_cant": "Relational property over three runs and all random streams.", "anchors": ["src/solver/monte_carlo/mc_barrier.cpp"]}
{"id": "C44", "title": "Barrier monitoring is exact on the simulated dates", "statement": "A knock-in (knock-out) path pays exactly when some (no) simulated price touches the barrier.", "quantifier": "all paths of all lengths", "why_tests_cant": "All path lengths; early-exit and flag-reset errors appear only on particular paths.", "anchors": ["src/solver/monte_carlo/mc_barrier.cpp: calculatePayoff"]}
{"id": "C45", "title": "Asian averages are ordered and within the path range", "statement": "For positive prices the geometric average does not exceed the arithmetic average and both lie between the smallest and largest price; hence the geometric Asian call price does not exceed the arithmetic one on common paths.", "quantifier": "all paths of positive prices of every length >= 1; all N", "why_tests_cant": "AM-GM for every length is a theorem, not a test.", "anchors": ["src/solver/monte_carlo/mc_asian.cpp"]}
{"id": "C46", "title": "Lookback payoffs dominate the vanilla payoff", "statement": "On every path the fixed-strike lookback call (put) payoff is at least the vanilla call (put) payoff and at least the arithmetic Asian payoff; the floating-strike payoff equals the distance from the last price to the path extreme.", "quantifier": "all paths of every length >= 1", "why_tests_cant": "All paths of all lengths.", "anchors": ["src/solver/monte_carlo/mc_lookback.cpp"]}
{"id": "C47", "title": "Monte Carlo runs are defined for every accepted configuration", "statement": "For every number of simulations and generator dimension the constructors accept, calculatePrice finishes with a number (no undefined behaviour, no NaN from 0/0).", "quantifier": "all N (unsigned long), all generator dimensions (unsigned int)", "why_tests_cant": "The failing values (0 and beyond INT_MAX) are not practical to test; out-of-bounds reads may pass silently.", "anchors": ["src/solver/monte_carlo/mc_*.cpp: calculatePrice", "src/random/number_generator/base_generator.cpp: validateDim"]}
{"id": "C48", "title": "American price is bounded for every regression", "statement": "Whatever basis functions and regression strategy are used, for r >= 0 the American Monte Carlo price is nonnegative and not above the largest payoff met on the simulated paths discounted by one step.", "quantifier": "all regressions, bases, paths, N >= 1, steps >= 1", "why_tests_cant": "Quantifies over user-supplied regression strategies and all paths.", "anchors": ["src/solver/monte_carlo/mc_american.cpp"]}
{"id": "C49", "title": "American cash flows are discounted from their exercise date", "statement": "The American price is the mean over paths of payoff at the exercise date times exp(-r * exercise date).", "quantifier": "all paths, regressions, N >= 1, steps >= 1", "why_tests_cant": "The defect appears only on time steps where no path is in the money.", "anchors": ["src/solver/monte_carlo/mc_american.cpp: calculatePriceStandard, calculatePriceBrownianBridge"]}
{"id": "C50", "title": "The American pricer never asks an unsupported model for a bridge", "statement": "calculatePrice of the American pricer never ends in the 'backward simulation not supported' error, for any model and generator.", "quantifier": "all models and generators", "why_tests_cant": "All pairs of model and generator classes.", "anchors": ["src/solver/monte_carlo/mc_american.cpp: calculatePrice", "src/model/base_model.cpp: simulatePriceBackward"]}
{"id": "C51", "title": "Monte Carlo builder protocol", "statement": "build() throws std::logic_error exactly when no option is set; otherwise it yields a pricer for the last option, the last explicitly set stock model (a GBM on the option's ticker by default), basis and regression set.", "quantifier": "all sequences of builder calls on a fresh builder with the model set explicitly or built once", "why_tests_cant": "All call histories.", "anchors": ["src/solver/monte_carlo/builder/*.cpp"]}
{"id": "C52", "title": "Reusing a builder prices the option's own stock", "statement": "When no stock model is set explicitly, each pricer built simulates the stock of its own option and market data, also when the builder is reused for another option.", "quantifier": "all sequences of builder calls", "why_tests_cant": "A two-build history; examples build once.", "anchors": ["src/solver/monte_carlo/builder/*.cpp: build"]}
{"id": "C53", "title": "A rejected setOption keeps the builder usable", "statement": "If setOption throws because the option has the wrong class, the previously set option is still in place.", "quantifier": "all builder states and options", "why_tests_cant": "History property on the exceptional path.", "anchors": ["src/solver/monte_carlo/builder/*.cpp: setOption"]}
{"id": "C54", "title": "MCSolver protocol", "statement": "MCSolver::solve throws std::logic_error exactly when no pricer is set, and otherwise runs the last pricer set with the last number of simulations set (100000 by default).", "quantifier": "all call sequences", "why_tests_cant": "All call histories.", "anchors": ["src/solver/monte_carlo/mc_solver.cpp"]}
{"id": "C55", "title": "Linear interpolation is exact, bounded and total", "statement": "On strictly increasing nodes linear interpolation returns the node value at nodes, a value between the two neighbouring node values elsewhere, the end values outside the range, reproduces affine data, and throws only for NaN.", "quantifier": "all grids of every size >= 1, all query points", "why_tests_cant": "All grids and query points.", "anchors": ["src/numerical_analysis/interpolation/linear_interpolation.cpp"]}
{"id": "C56", "title": "Interval search is memory safe and correct", "statement": "For every strictly increasing grid and every non-NaN query, quadratic interpolation finishes without reading outside the grid, and the interval it uses contains the query point; the same holds for NaN.", "quantifier": "all grids of size >= 2 (below 2^32), all doubles", "why_tests_cant": "Unsigned wrap-around and off-by-one errors of the binary search appear on particular sizes and queries.", "anchors": ["src/numerical_analysis/interpolation/quadratic_interpolation.cpp: findInterval"]}
{"id": "C57", "title": "Quadratic interpolation reproduces quadratics", "statement": "At interior intervals the interpolant passes through the nodes and reproduces every quadratic polynomial exactly; in the first and last interval it reproduces affine data and matches the nodes.", "quantifier": "all strictly increasing grids, all query points, all quadratics", "why_tests_cant": "Algebraic identity over all grids.", "anchors": ["src/numerical_analysis/interpolation/quadratic_interpolation.cpp: interpolate"]}
{"id": "C58", "title": "Interpolating nonnegative prices gives a nonnegative price", "statement": "If all grid values are nonnegative, the interpolated value is nonnegative (linear and quadratic).", "quantifier": "all grids and nonnegative data", "why_tests_cant": "For-all over data; an undershoot needs specific data.", "anchors": ["src/numerical_analysis/interpolation/*.cpp"]}
{"id": "C59", "title": "The Thomas algorithm solves the tridiagonal system", "statement": "For every tridiagonal system of size n >= 2 whose pivots do not vanish - in particular every strictly diagonally dominant one - the returned vector satisfies A x = b exactly in exact arithmetic and is the only solution; n < 2 throws std::invalid_argument.", "quantifier": "all sizes n, all tridiagonal matrices, all right-hand sides", "why_tests_cant": "All sizes and matrices.", "anchors": ["src/numerical_analysis/linear_algebra/matrix_solver/thomas_algorithm.cpp: solve"]}
{"id": "C60", "title": "Chebyshev basis columns are Chebyshev polynomials", "statement": "Column n of the Chebyshev basis evaluated at cos(t) is cos(n t) for every n; hence it is bounded by 1 on [-1,1].", "quantifier": "all n, all t", "why_tests_cant": "All degrees and points.", "anchors": ["src/numerical_analysis/basis_function/chebyshev.cpp"]}
{"id": "C61", "title": "Legendre basis columns are Legendre polynomials", "statement": "Column n of the Legendre basis satisfies Legendre's differential equation, equals 1 at x = 1 and has parity (-1)^n, for every n.", "quantifier": "all n, all x", "why_tests_cant": "All degrees and points.", "anchors": ["src/numerical_analysis/basis_function/legendre.cpp"]}
{"id": "C62", "title": "Laguerre basis columns are Laguerre polynomials", "statement": "Column n of the Laguerre basis is the n-th Laguerre polynomial (value 1 at x = 0 for every n).", "quantifier": "all n, all x", "why_tests_cant": "All degrees; regression prices stay plausible with a wrong basis.", "anchors": ["src/numerical_analysis/basis_function/laguerre.cpp"]}
{"id": "C63", "title": "Every basis spans the polynomials of its degree", "statement": "With k basis functions, every basis class spans exactly the polynomials of degree below k, so regressions on different bases have the same fitted values.", "quantifier": "all k >= 1, all basis classes", "why_tests_cant": "All degrees.", "anchors": ["src/numerical_analysis/basis_function/*.cpp"]}
{"id": "C64", "title": "Lasso coefficients are soft-thresholded least squares coefficients", "statement": "Each Lasso coefficient is the least-squares coefficient shrunk towards zero by lambda: it never changes sign, never grows, is zero within lambda of zero, and minimises the one-dimensional lasso objective (b-x)^2/2 + lambda |x|; lambda = 0 changes nothing.", "quantifier": "all coefficients, all lambda >= 0", "why_tests_cant": "All reals; optimality is a for-all over competitors.", "anchors": ["src/numerical_analysis/regression/lasso.cpp"]}
{"id": "C65", "title": "Ridge coefficients minimise the penalised least squares", "statement": "Any solution of the linear system handed to the solver minimises |A x - y|^2 + lambda |x|^2; for lambda > 0 the minimiser is unique.", "quantifier": "all matrices, right-hand sides and competitors, lambda >= 0", "why_tests_cant": "Optimality is a for-all over competitors.", "anchors": ["src/numerical_analysis/regression/ridge.cpp"]}
{"id": "C66", "title": "The finite-difference grid covers the spot domain", "statement": "For J >= 2 the grid starts at 0, ends at xDom, is strictly increasing and uniform, and has J nodes.", "quantifier": "all J >= 2, all xDom > 0", "why_tests_cant": "All sizes; rounding at the last node.", "anchors": ["src/solver/finite_difference_method/solver/one_factor/base_fdm_solver.cpp: calculateStepSize, setInitialConditions"]}
{"id": "C67", "title": "The time loop performs exactly N-1 steps and ends at tDom", "statement": "For N >= 2 and tDom > 0 the time loop runs exactly N-1 steps and stops at tDom.", "quantifier": "all N >= 2, tDom > 0 (exact and IEEE arithmetic)", "why_tests_cant": "Accumulated rounding makes the number of steps depend on N and tDom.", "anchors": ["src/solver/finite_difference_method/solver/one_factor/base_fdm_solver.cpp: solve"]}
{"id": "C68", "title": "Explicit Euler step satisfies the scheme and preserves nonnegativity under the stability condition", "statement": "Every explicit step satisfies the forward-Euler central-difference equation at each interior node; if sigma^2 >= |r-c| and dt (sigma^2 (J-2)^2 + r) <= 1 and the boundary values are nonnegative, all prices stay nonnegative and bounded by the data.", "quantifier": "all J >= 3, all numbers of steps, all nonnegative payoffs", "why_tests_cant": "Stability is a for-all over grids, data and step counts.", "anchors": ["src/solver/finite_difference_method/solver/one_factor/euler_explicit_fdm_solver.cpp", "src/solver/finite_difference_method/pde/one_factor/black_scholes_pde.cpp"]}
{"id": "C69", "title": "Implicit Euler step solves the implicit scheme and preserves nonnegativity", "statement": "With the Thomas solver every implicit step satisfies the backward-Euler equation at each interior node with the new boundary values, is uniquely determined, and keeps prices nonnegative without a restriction on dt when sigma^2 >= |r-c| and r >= 0.", "quantifier": "all J >= 4, all numbers of steps, data", "why_tests_cant": "All sizes and data.", "anchors": ["src/solver/finite_difference_method/solver/one_factor/euler_implicit_fdm_solver.cpp"]}
{"id": "C70", "title": "Crank-Nicolson step satisfies the Crank-Nicolson scheme", "statement": "Every Crank-Nicolson step satisfies the Crank-Nicolson equation at each interior node.", "quantifier": "all J >= 5, data", "why_tests_cant": "Boundary-adjacent nodes are special; a price test cannot localise a missing term.", "anchors": ["src/solver/finite_difference_method/solver/one_factor/crank_nicolson_fdm_solver.cpp"]}
{"id": "C71", "title": "Crank-Nicolson works with its default matrix solver", "statement": "A Crank-Nicolson solver built with default collaborators completes a time step.", "quantifier": "all J, PDE coefficients", "why_tests_cant": "Integration tests for it are commented out; the failure is in the interplay with the sparse LU.", "anchors": ["src/solver/finite_difference_method/solver/one_factor/crank_nicolson_fdm_solver.cpp"]}
{"id": "C72", "title": "Boundary values agree with the payoff at the start of the time march", "statement": "At the start of the march (the instant of the initial condition) the boundary functions agree with the payoff at the ends of the grid.", "quantifier": "all strikes, maturities, rates, sides", "why_tests_cant": "For-all over parameters; a time-direction error is invisible at r = 0.", "anchors": ["src/solver/finite_difference_method/pde/one_factor/black_scholes_pde.cpp: boundaryLeft, boundaryRight"]}
{"id": "C73", "title": "A finite-difference price at zero maturity is the payoff", "statement": "With tDom = 0 the computed price at a grid node is the payoff at that node.", "quantifier": "all payoffs, grids", "why_tests_cant": "Edge of the domain; never tested.", "anchors": ["src/solver/finite_difference_method/solver/one_factor/base_fdm_solver.cpp: solve, calculatePrice"]}
{"id": "C74", "title": "Finite-difference solutions are computed once", "statement": "Calling solve or calculatePrice again does not march further: the grid values stay the same; calculatePrice returns the interpolation of these values at the current spot, equal to the node value when the spot is a node.", "quantifier": "all numbers of calls, all market updates in between", "why_tests_cant": "All call histories.", "anchors": ["src/solver/finite_difference_method/solver/one_factor/base_fdm_solver.cpp: solve, calculatePrice"]}
{"id": "C75", "title": "Finite-difference prices follow the market", "statement": "After the rate, volatility or coupon changes, calculatePrice on the same solver returns a price for the new market data.", "quantifier": "all market updates after the first price", "why_tests_cant": "A history property; the first price is right and later ones silently stale.", "anchors": ["src/solver/finite_difference_method/solver/one_factor/base_fdm_solver.cpp: calculatePrice"]}
{"id": "C76", "title": "The two-argument quasi-random constructors take the arguments their headers declare", "statement": "The two-argument constructors of SobolGenerator and FaureGenerator give the generator the dimension passed in the position that the header names dim, so that a path simulated with the generator has that many prices.", "quantifier": "all pairs of arguments", "why_tests_cant": "Both arguments are unsigned integers, so a swap compiles; a test that uses equal values or only the one-argument constructor cannot see it.", "anchors": ["include/random/number_generator/faure_quasi_random_generator.h", "src/random/number_generator/faure_quasi_random_generator.cpp", "include/random/number_generator/sobol_quasi_random_generator.h", "src/random/number_generator/sobol_quasi_random_generator.cpp"]}
{"id": "C77", "title": "Lasso regression minimises the lasso objective", "statement": "The coefficients returned by LassoRegression::solve minimise |A x - y|^2 / 2 + lambda * |x|_1 over all coefficient vectors x.", "quantifier": "all matrices of full column rank, all right-hand sides, all lambda >= 0", "why_tests_cant": "The returned vector always looks plausible (shrunken, with zeros); only a comparison with every other coefficient vector shows that it is not the minimiser.", "anchors": ["src/numerical_analysis/regression/lasso.cpp"]}
{"id": "C78", "title": "The finite-difference time march ends", "statement": "Whenever the constructor of a finite-difference solver succeeds, solve() returns or throws: the time loop performs finitely many steps.", "quantifier": "all domains, grid sizes J >= 2 and step counts N that the constructor accepts, IEEE arithmetic", "why_tests_cant": "A test can only show that some runs end; that one never does needs an invariant of the clock over unboundedly many steps.", "anchors": ["src/solver/finite_difference_method/solver/one_factor/base_fdm_solver.cpp: calculateStepSize, solve"]}
{"id": "C79", "title": "A failed finite-difference solve is never followed by a price", "statement": "If solve() or calculatePrice() throws, a later call on the same object in the same market does not return a price.", "quantifier": "all solvers, markets and call sequences", "why_tests_cant": "Tests stop at the first exception; the leftover clock and vectors of a half-finished step are only seen by a second call.", "anchors": ["src/solver/finite_difference_method/solver/one_factor/base_fdm_solver.cpp: solve, calculatePrice"]}
{"id": "C80", "title": "The left boundary value is the discounted payoff at spot 0", "statement": "At the grid node 0 (where the Black-Scholes equation reduces to u_t = -r u) the boundary value at time to maturity t is payoff(0) * exp(-r t), the exact solution there.", "quantifier": "all strikes, rates, times, both sides", "why_tests_cant": "Tests price near the strike, where an error at the left boundary is damped below the tolerance.", "anchors": ["src/solver/finite_difference_method/pde/one_factor/black_scholes_pde.cpp: boundaryLeft"]}
{"id": "C81", "title": "Put-call parity holds on the finite-difference grid", "statement": "On the same grid and market, the values of the call and of the put with the same strike and maturity differ at every node by x e^{-cT} - K e^{-rT}.", "quantifier": "all grids, step counts, volatilities, rates, explicit and implicit scheme", "why_tests_cant": "A numerical test must allow a discretisation error, and with it boundary errors of the same order.", "anchors": ["src/solver/finite_difference_method/pde/one_factor/black_scholes_pde.cpp", "src/solver/finite_difference_method/solver/one_factor/"]}
{"id": "C82", "title": "With one date the path-dependent options are the European option", "statement": "On a generator of dimension 1, on the same draws, the arithmetic Asian, geometric Asian, fixed lookback and American prices equal the European price with the same side, strike and maturity, and the floating lookback is worth 0.", "quantifier": "all models, markets, sides, strikes, maturities, generators of dimension 1, N >= 1", "why_tests_cant": "Prices of different pricer classes are only ever compared to loose tolerances on many dates; the reduction is exact and must hold for every draw.", "anchors": ["src/solver/monte_carlo/: all pricers"]}
{"id": "C83", "title": "Monte Carlo prices do not depend on the currency unit", "statement": "Multiplying the spot, the strikes and the barrier by the same positive factor multiplies the price by this factor (digital options: leaves it unchanged), on the same draws; every model's paths are proportional to the initial price.", "quantifier": "all six models, all option kinds without early exercise, all factors, all draws", "why_tests_cant": "A test would compare two runs for one factor; hidden absolute constants (a hard-coded level) need the statement for all factors and models.", "anchors": ["src/model/: simulatePrices of all models", "src/solver/monte_carlo/"]}
{"id": "C84", "title": "Prices are monotone, Lipschitz and convex in the strike", "statement": "On the same draws the call price falls (the put price rises) with the strike, by at most the discounted difference of strikes, and is convex in the strike: no static arbitrage between strikes.", "quantifier": "all models, European, Asian, fixed lookback and barrier options, all strikes, N >= 1", "why_tests_cant": "Tests compare a few strikes on random numbers; no-arbitrage is a statement on all triples of strikes.", "anchors": ["src/solver/monte_carlo/", "src/payoff/"]}
{"id": "C85", "title": "Prices are monotone and convex in the spot", "statement": "On the same draws a call grows at least in proportion to the spot, a put falls, and both are convex in the spot.", "quantifier": "all models, European, Asian and fixed lookback options, all spots and strikes, N >= 1", "why_tests_cant": "Needs the dependence of every simulated path on the initial price for all draws.", "anchors": ["src/model/: simulatePrices of all models", "src/solver/monte_carlo/"]}
{"id": "C86", "title": "Pricing in two batches is pricing once", "statement": "Pricing with N1 simulations and then with N2 on the same generator uses exactly the draws of one pricing with N1 + N2 simulations: the weighted mean of the two prices is the single price, failures are the same, and the generator ends in the same state.", "quantifier": "all models, option kinds without early exercise, N1, N2 >= 1", "why_tests_cant": "The leftover state of distributions and generators between calls is invisible to tests that build a new pricer each time.", "anchors": ["src/solver/monte_carlo/", "include/random/"]}
{"id": "C87", "title": "Pricers interfere through a shared generator only", "statement": "Pricing with one pricer does not change the price another returns unless the two models share a generator; pricing in either order then leaves the same state.", "quantifier": "all pricers of all classes, all worlds, any arithmetic, including failing runs", "why_tests_cant": "Absence of hidden shared state is a statement on all pairs of calls.", "anchors": ["src/solver/monte_carlo/", "src/model/base_model.cpp"]}
{"id": "C88", "title": "Barrier prices are monotone in the barrier level", "statement": "Moving the barrier away from the prices makes a knock-in cheaper and a knock-out dearer, on the same draws.", "quantifier": "all models, barriers of both directions, payoffs, N >= 1", "why_tests_cant": "Statement on all pairs of levels; discretely monitored prices have no closed form to test against.", "anchors": ["src/solver/monte_carlo/: barrier pricers", "include/option/: barrier options"]}
{"id": "C89", "title": "Finite-difference values are ordered like their data", "statement": "On one grid, raising initial values or boundary values (or lowering the right-hand side) lowers no computed value (comparison principle). In particular the value of a call falls and that of a put rises in the strike, by at most the difference of the strikes, and is convex in the strike.", "quantifier": "all grids, numbers of steps, markets and strikes; explicit scheme under its step condition, implicit scheme for every step", "why_tests_cant": "Order between all pairs (triples) of runs on grids of any size.", "anchors": ["src/solver/finite_difference_method/solver/", "src/solver/finite_difference_method/pde/"]}
{"id": "C90", "title": "Discretisation error of the finite-difference solvers", "statement": "The computed values differ from any function u by at most the error of the initial and boundary values plus the elapsed time times the residual with which u satisfies the difference equations (stability and consistency imply convergence).", "quantifier": "all equations, grids, numbers of steps and functions u; explicit scheme under its step condition, implicit scheme for every step", "why_tests_cant": "An a priori bound for every grid; a test measures the error for a few.", "anchors": ["src/solver/finite_difference_method/solver/: calculateInnerDomain", "src/solver/finite_difference_method/solver/: stepMarch"]}
{"id": "C91", "title": "First order in time, second order in space", "statement": "If the equation with the code's boundary conditions has a smooth solution u, the computed values differ from u at maturity by at most dt*(M1 + T*M2/2) + h^2*T*(D*M4/12 + C*M3/6), with bounds M on the derivatives of u and D, C on the coefficients; for the implicit scheme M1 is not needed.", "quantifier": "all smooth solutions, equations and grids; explicit scheme under its step condition", "why_tests_cant": "A rate of convergence is a statement on all grids.", "anchors": ["src/solver/finite_difference_method/solver/: calculateInnerDomain"]}
{"id": "C92", "title": "A zero-strike call is worth the stock less its dividends", "statement": "The finite-difference value of a call with strike 0 is x*exp(-c*T) at every node x, c the dividend yield.", "quantifier": "all grids, rates, volatilities, dividend yields; explicit and implicit schemes", "why_tests_cant": "Exact equality at all nodes of all grids.", "anchors": ["src/solver/finite_difference_method/pde/one_factor/black_scholes_pde.cpp: boundaryRight"]}
{"id": "C93", "title": "Regression strategies are validated", "statement": "A basis is built exactly for a positive number of functions and then yields that many columns; Ridge and Lasso are built exactly for a penalty lambda >= 0; otherwise std::invalid_argument is thrown.", "quantifier": "all numbers of functions, all penalties including NaN", "why_tests_cant": "All doubles.", "anchors": ["src/numerical_analysis/basis_function/base_basis_function.cpp", "src/numerical_analysis/regression/ridge.cpp", "src/numerical_analysis/regression/lasso.cpp"]}
{"id": "C94", "title": "Monte Carlo prices are unbiased", "statement": "The expected Monte Carlo price equals exp(-rT) times the expected payoff of one simulated path, and no other number.", "quantifier": "all numbers of paths, steps, models, payoffs with a mean; all pricers but the American", "why_tests_cant": "An expectation over all streams of random draws.", "anchors": ["src/solver/monte_carlo/mc_single_path.cpp", "src/solver/monte_carlo/base_mc.cpp"]}
{"id": "C95", "title": "The error shrinks like one over the root of N", "statement": "The variance of the price is the variance of the discounted payoff of a path divided by the number of paths N; the probability of an error of eps or more is at most that variance over eps^2.", "quantifier": "all N, models, payoffs with a variance, eps > 0", "why_tests_cant": "Needs the independence of the paths drawn from one generator, for every N.", "anchors": ["src/solver/monte_carlo/mc_single_path.cpp", "src/random/number_generator/pseudo_random_generator.cpp"]}
{"id": "C96", "title": "Under GBM the expected price is the Black-Scholes price", "statement": "The expected price of a European, digital or double digital option simulated under GBM is the Black-Scholes formula, whatever the number of time steps.", "quantifier": "all S > 0, sigma > 0, T > 0, strikes > 0, rates, dividend yields, numbers of steps and of paths", "why_tests_cant": "Exact equality of an expectation with a closed formula for all parameters.", "anchors": ["src/model/gbm_model.cpp: simulatePrices", "src/solver/monte_carlo/mc_single_path.cpp"]}
{"id": "C97", "title": "Under GBM the expected geometric Asian price has its closed form", "statement": "The expected price of a geometric Asian option is Black's formula with the mean and the variance of the logarithm of the discrete geometric average over the simulated dates.", "quantifier": "all S > 0, sigma > 0, T > 0, strikes > 0, rates, dividend yields, numbers of dates and of paths", "why_tests_cant": "Exact equality of an expectation with a closed formula for all parameters and all numbers of dates.", "anchors": ["src/model/gbm_model.cpp: simulatePrices", "src/solver/monte_carlo/mc_asian.cpp"]}
{"id": "C98", "title": "Paths drawn backwards have the moments of GBM paths", "statement": "The American pricer draws the price at maturity first and fills the earlier dates backwards with a Brownian bridge; for all real exponents the mean of the product of powers of the prices of such a path equals that of a path of the forward GBM simulation and of geometric Brownian motion.", "quantifier": "all numbers of dates, real exponents, S > 0, sigma, T > 0, rates, dividend yields", "why_tests_cant": "An identity between expectations over all draws for every number of dates and every exponent.", "anchors": ["src/model/gbm_model.cpp: simulatePriceAtMaturity, simulatePriceBackward", "src/solver/monte_carlo/mc_american.cpp:105-130"]}
{"id": "C99", "title": "Monte Carlo and finite differences solve the same problem", "statement": "As a function of time to maturity and spot, the expected GBM Monte Carlo price satisfies the partial differential equation whose coefficients BlackScholesPDE returns, and tends to its initial condition at every price where the payoff does not jump.", "quantifier": "all t > 0, x > 0, sigma > 0, rates, dividend yields, vanilla, digital and double digital payoffs with positive strikes", "why_tests_cant": "A differential equation at every point of a quarter plane and a limit.", "anchors": ["src/solver/finite_difference_method/pde/one_factor/black_scholes_pde.cpp", "src/solver/monte_carlo/mc_single_path.cpp"]}
{"id": "C100", "title": "No Monte Carlo price computed in binary64 is negative", "statement": "Whatever the rounding errors, a Monte Carlo price of any pricer class (including American) is NaN or not negative, -infinity excluded.", "quantifier": "all pricers, models, generators, draws, markets, regression oracles, N >= 1; every exp returning no negative number, every log", "why_tests_cant": "Rounding of every operation on every stream of draws; infinities and NaN included.", "anchors": ["src/solver/monte_carlo/mc_single_path.cpp", "src/solver/monte_carlo/mc_asian.cpp", "src/solver/monte_carlo/mc_barrier.cpp", "src/solver/monte_carlo/mc_lookback.cpp", "src/solver/monte_carlo/mc_american.cpp"]}
{"id": "C101", "title": "Binary64 prices are ordered in the strike", "statement": "On the same draws, raising the strike of a call never raises, and of a put never lowers, the binary64 price of a European, Asian, barrier or fixed lookback option; both calls end in the same way (value, same exception or undefined behaviour).", "quantifier": "all K <= K' (infinities included), models, markets, draws, N >= 1", "why_tests_cant": "Monotonicity must survive every rounding on every pair of strikes.", "anchors": ["src/solver/monte_carlo/mc_single_path.cpp", "src/payoff/single_strike/payoff_vanilla.cpp"]}
{"id": "C102", "title": "Binary64 prices are ordered in the spot", "statement": "On the same draws, raising the spot never lowers the binary64 price of a European or arithmetic Asian call and never raises that of the put, for every model.", "quantifier": "all S <= S', models, draws, N >= 1", "why_tests_cant": "Monotonicity must survive every rounding of every step of every path.", "anchors": ["src/solver/monte_carlo/mc_single_path.cpp", "src/solver/monte_carlo/mc_asian.cpp", "src/model/*.cpp: generatePriceAtNextTimeStep"]}
{"id": "C103", "title": "Binary64 barrier prices are bounded by the European price and ordered in the level", "statement": "On the same draws a barrier price computed in binary64 is at most the European price, and moving the barrier away from the path (lower for down, higher for up) never lowers a knock-out and never raises a knock-in price.", "quantifier": "all barrier kinds, levels, strikes, models, draws, 1 <= N <= INT_MAX", "why_tests_cant": "Order between two rounded sums for every stream of draws.", "anchors": ["src/solver/monte_carlo/mc_barrier.cpp", "src/solver/monte_carlo/mc_single_path.cpp"]}
{"id": "C104", "title": "Rounding error of a Monte Carlo price", "statement": "A finite binary64 price differs from the exactly computed discounted mean of the payoffs of the simulated paths by at most (N+1) 2^-52 times that value plus 2^-1074 (1 + discount factor); all the payoffs are then finite and not negative.", "quantifier": "all pricer classes but American, models, draws, 1 <= N <= INT_MAX", "why_tests_cant": "An error bound for every number of paths and every sequence of payoffs.", "anchors": ["src/solver/monte_carlo/mc_single_path.cpp", "src/solver/monte_carlo/mc_asian.cpp", "src/solver/monte_carlo/mc_barrier.cpp", "src/solver/monte_carlo/mc_lookback.cpp"]}
{"id": "C105", "title": "A binary64 digital price lies between 0 and the discount factor", "statement": "The binary64 Monte Carlo price of a digital or double digital option is not negative and at most the computed discount factor, in spite of rounding.", "quantifier": "all strikes, models, draws, 1 <= N <= INT_MAX", "why_tests_cant": "Counts up to INT_MAX are summed and divided in floating point; the bound must hold for all of them.", "anchors": ["src/solver/monte_carlo/mc_single_path.cpp", "src/payoff/single_strike/payoff_digital.cpp", "src/payoff/double_strikes/payoff_double_digital.cpp"]}
{"id": "C106", "title": "A run on quasi-random points ends with a price unless a coordinate is 0 or 1", "statement": "A Monte Carlo run (any class but American, GBM or Heston) on a fresh Sobol or Faure generator returns a price exactly when every coordinate it reads, scaled to the unit interval, lies strictly between 0 and 1 (or is NaN); otherwise it throws std::invalid_argument. It reads N * (normals per date) * dim coordinates.", "quantifier": "all point sequences, generator dimensions and N from 1 to INT_MAX, options, markets", "why_tests_cant": "Whether some coordinate among billions is an endpoint depends on the sequence; the claim is about every sequence and every length.", "anchors": ["src/random/number_generator/sobol_quasi_random_generator.cpp", "src/random/number_generator/faure_quasi_random_generator.cpp", "src/random/distribution/standard_normal_distribution.cpp"]}
{"id": "C107", "title": "One quasi-random point per path", "statement": "On a quasi-random generator of dimension dim, path number j is a fixed function of point number j of the sequence.", "quantifier": "all sequences, dimensions, numbers of paths, GBM and Heston models", "why_tests_cant": "Which coordinate feeds which date of which path is invisible in prices.", "anchors": ["src/model/gbm_model.cpp", "src/model/heston_model.cpp", "src/random/number_generator/base_quasi_random_generator.cpp"]}
{"id": "C108", "title": "A model its constructor accepts can be priced", "statement": "With a pseudo-random generator of positive dimension, every model its constructor accepted and every option a factory made (not American), calculatePrice returns a price.", "quantifier": "all models, options, markets, draws, N and dimensions from 1 to INT_MAX", "why_tests_cant": "The combinations of accepted arguments are unbounded.", "anchors": ["src/model/merton_jump_diffusion_model.cpp", "src/model/kou_model.cpp", "src/model/bates_model.cpp", "src/model/variance_gamma_model.cpp", "src/random/distribution/*.cpp"]}
{"id": "C109", "title": "What the program prints", "statement": "main builds everything without an exception. It first prints the Monte Carlo value of the arithmetic Asian call over 100000 pseudo-random GBM paths, a number (or NaN) that is not negative and is the same in every execution; then it prints the value over 100000 Sobol paths and ends normally if all the 10^8 coordinates it reads lie strictly between 0 and 1, and ends by std::invalid_argument if one does not.", "quantifier": "all values of std::random_device, all engines, all exp that return no negative number", "why_tests_cant": "A test run sees one platform and one seed.", "anchors": ["main.cpp:51-203"]}
{"id": "C110", "title": "The CFL warning is a trustworthy stability test", "statement": "If the explicit solver prints no CFL warning, the prices it computes stay within the range of the initial and boundary data.", "quantifier": "all grids with J >= 2 and N >= 2, all positive domains, all equations without source term", "why_tests_cant": "Stability is a statement about every node, every step and every grid, and an unstable run may look fine on a coarse grid.", "anchors": ["src/solver/finite_difference_method/solver/one_factor/base_fdm_solver.cpp:19-20", "src/solver/finite_difference_method/solver/one_factor/euler_explicit_fdm_solver.cpp"]}
{"id": "C111", "title": "Implicit and Crank-Nicolson steps of the Black-Scholes equation are well posed", "statement": "With the Thomas solver, every time step of the implicit and of the Crank-Nicolson solver on the Black-Scholes equation completes, whatever the volatility and the sign of the drift, as long as 1 + r dt > 0 (respectively 1 + r dt / 2 > 0): no pivot vanishes, the run returns a value, and the computed layers are the only solutions of the scheme.", "quantifier": "all grid sizes, time steps, volatilities, rates and coupons", "why_tests_cant": "A vanishing pivot occurs at isolated parameter values; testing cannot exclude them.", "anchors": ["src/solver/finite_difference_method/solver/one_factor/euler_implicit_fdm_solver.cpp", "src/solver/finite_difference_method/solver/one_factor/crank_nicolson_fdm_solver.cpp", "src/numerical_analysis/linear_algebra/matrix_solver/thomas_algorithm.cpp"]}
{"id": "C112", "title": "An implicit step without diagonal-dominance warning keeps nonnegative prices nonnegative", "statement": "The diagonal-dominance warning is printed for exactly the interior rows whose diagonal is smaller than the sum of the off-diagonal magnitudes; a step without such a warning maps nonnegative data to nonnegative prices.", "quantifier": "all grids with J >= 3 and N >= 2, all rows, volatilities, nonnegative rates, coupons", "why_tests_cant": "The sign of the solution of a linear system of unbounded size is at stake.", "anchors": ["src/solver/finite_difference_method/solver/one_factor/euler_implicit_fdm_solver.cpp", "src/solver/finite_difference_method/solver/one_factor/crank_nicolson_fdm_solver.cpp"]}
{"id": "C113", "title": "Finite-difference prices do not depend on the unit of currency", "statement": "Quoting spot, strike and price domain in another unit multiplies every grid value and the interpolated price by the ratio of the units and changes nothing else (in particular not which exception is thrown).", "quantifier": "all ratios l > 0, grids with J >= 4, numbers of steps, the three schemes with the Thomas solver, stable or not, both interpolations, all equations in the ratio of the units; vanilla options under Black-Scholes as an instance", "why_tests_cant": "A dimensional slip (a missing dx, a hidden absolute tolerance) shows only for particular sizes of the numbers.", "anchors": ["src/solver/finite_difference_method/solver/one_factor/base_fdm_solver.cpp", "src/solver/finite_difference_method/solver/one_factor/euler_explicit_fdm_solver.cpp", "src/solver/finite_difference_method/solver/one_factor/euler_implicit_fdm_solver.cpp", "src/solver/finite_difference_method/solver/one_factor/crank_nicolson_fdm_solver.cpp", "src/numerical_analysis/interpolation/linear_interpolation.cpp", "src/numerical_analysis/interpolation/quadratic_interpolation.cpp"]}
{"id": "C114", "title": "Computed finite-difference prices are not negative", "statement": "In binary64 arithmetic, with all roundings, every price that a finite-difference solver returns on its grid is nonnegative (or not a number) when the payoff and the boundary values are nonnegative and the computed weights at the nodes have the signs of a monotone scheme; explicit conditions on the products formed by the code guarantee those signs.", "quantifier": "all grid sizes J >= 4, numbers of steps, equations, the three schemes with the Thomas solver, all rounding errors", "why_tests_cant": "Rounding can turn a tiny positive price negative at isolated inputs.", "anchors": ["src/solver/finite_difference_method/solver/one_factor/base_fdm_solver.cpp", "src/solver/finite_difference_method/solver/one_factor/euler_explicit_fdm_solver.cpp", "src/solver/finite_difference_method/solver/one_factor/euler_implicit_fdm_solver.cpp", "src/solver/finite_difference_method/solver/one_factor/crank_nicolson_fdm_solver.cpp", "src/numerical_analysis/linear_algebra/matrix_solver/thomas_algorithm.cpp"]}
{"id": "C115", "title": "Computed finite-difference prices are ordered like their data", "statement": "In binary64 arithmetic, with all roundings, two runs of a finite-difference solver on the same grid and operator whose payoffs and boundary values are ordered return prices ordered the same way at every node: puts rise and calls fall with the strike.", "quantifier": "all grid sizes J >= 4, numbers of steps, equations, the three schemes with the Thomas solver, all rounding errors", "why_tests_cant": "The two runs accumulate different rounding errors; an inversion would show at isolated inputs only.", "anchors": ["src/solver/finite_difference_method/solver/one_factor/base_fdm_solver.cpp", "src/solver/finite_difference_method/solver/one_factor/euler_explicit_fdm_solver.cpp", "src/solver/finite_difference_method/solver/one_factor/euler_implicit_fdm_solver.cpp", "src/solver/finite_difference_method/solver/one_factor/crank_nicolson_fdm_solver.cpp"]}
{"id": "C116", "title": "The exporter writes the whole table", "statement": "Given a number of points N and a dimension s, the program ends after writing N*s lines; the line i*s+d holds sample i+1, dimension d+1 and the (i*s+d)-th number of each of the three engines, the quasi-random ones divided by their maximum.", "quantifier": "all N >= 1, all s >= 1 the engines support, all engine outputs", "why_tests_cant": "Tables of every size and the wrap-around of the unsigned loop counters at the greatest N and s cannot be run.", "anchors": ["examples/generate_sobol.cpp:58-77"]}
{"id": "C117", "title": "The prompt returns the first valid pair", "statement": "The prompt of the exporter ends, with the first pair of positive numbers typed, whatever was typed before.", "quantifier": "all inputs", "why_tests_cant": "Inputs are unbounded sequences, and not ending cannot be observed.", "anchors": ["examples/generate_sobol.cpp:24-31"]}
{"id": "C118", "title": "Exported Sobol numbers lie in [0, 1)", "statement": "In binary64 every number in the column Sobol is finite, at least 0 and below 1, equals raw/2^64 whenever that needs no more than 53 bits, and the column keeps the order of the engine's numbers.", "quantifier": "all 64-bit engine outputs, all N and s", "why_tests_cant": "2^64 engine outputs; only the 1024 greatest ones round to 1.", "anchors": ["examples/generate_sobol.cpp:64-67"]}
{"id": "C119", "title": "The printed text of an option determines the contract", "statement": "Two options that print the same text are the same contract: same class, ticker, maturity, payoff and barrier, on the same stock data and interest rate.", "quantifier": "all options made by the factories, all markets, all tickers, all ways to print a number on one line", "why_tests_cant": "Ambiguity of a text format is a statement about pairs of arbitrary objects, including tickers that contain line breaks or imitate other lines.", "anchors": ["src/option/base_option.cpp:50-70", "src/market_data/stock_data.cpp:68-75", "src/payoff/base_payoff.cpp:17-33", "src/payoff/single_strike/base_payoff_single_strike.cpp:17-20", "src/payoff/double_strikes/base_payoff_double_strikes.cpp:23-27"]}
{"id": "C120", "title": "Printing an option never fails and shows the market of the moment", "statement": "After any market history an option can be printed without an exception, and the page shows its own class, maturity, payoff and ticker with the current price, volatility, dividend and rate.", "quantifier": "all histories before and after the creation, all options", "why_tests_cant": "Histories are unbounded.", "anchors": ["src/option/base_option.cpp:50-70", "src/market_data/market_data.cpp:82-91"]}
{"id": "C121", "title": "The help text lists the parameters of the factory", "statement": "The text of the exception of a failed creation has an entry with name and type for every parameter the factory reads and for no other.", "quantifier": "all factories, both sides; that the parameters are the ones listed: all parameter objects and markets", "why_tests_cant": "That no other parameter matters is a statement about all parameter objects.", "anchors": ["include/option/base_factory_option.h:56-81", "src/option/single_path/factory_double_digital_option.cpp:22-28", "src/option/path_dependent/factory_barrier_option.cpp", "src/option/path_dependent/factory_lookback_option.cpp"]}
{"id": "C122", "title": "The paths of GBM, Merton, Kou and variance gamma have the law of the Levy process of the model", "statement": "The logarithm of the price moves by independent increments with the same law for every step, and the exponent of that law is that of the model: Brownian motion, plus normal jumps for Merton, plus double exponential jumps for Kou, or a Brownian motion run by a gamma clock of variance rate nu.", "quantifier": "all models, rates, dividends, maturities, numbers of dates, pseudo-random generators and all exponents of the joint moments of the dates for which they are finite", "why_tests_cant": "The law of a path is a statement about all joint moments over all dates; a simulation estimates a few of them.", "anchors": ["src/model/gbm_model.cpp:13-33", "src/model/merton_jump_diffusion_model.cpp:26-60", "src/model/kou_model.cpp:30-74", "src/model/variance_gamma_model.cpp:31-55"]}
{"id": "C123", "title": "Under the Merton model the expected price is Merton's formula", "statement": "The expected Monte Carlo price of a European, digital or double digital option under the Merton model is the discounted Poisson mixture of Black's formulas, with each term corrected for the mean jump as in Merton (1976), whatever the number of dates and of paths.", "quantifier": "all strikes, maturities, rates, dividends, volatilities, jump parameters, numbers of dates and paths", "why_tests_cant": "The claim is about an expectation over a random number of jumps at every date; a simulation only comes near one value for one set of values.", "anchors": ["src/model/merton_jump_diffusion_model.cpp", "src/solver/monte_carlo/mc_single_path.cpp: calculatePrice"]}
{"id": "C124", "title": "The quantile function used on quasi-random numbers is accurate to 5e-10", "statement": "In exact arithmetic, for every u in (0,1), the value x returned by inv_cdf(u) satisfies |Phi(x) - u| <= 5e-10, with an error proportional to the probability in the tails; the values obtained from a uniform number have a distribution function within 5e-10 of the normal one everywhere.", "quantifier": "all real u in (0,1), all thresholds z", "why_tests_cant": "A bound on the error over a continuum, against an integral that a test could only approximate by another formula of the same kind.", "anchors": ["src/random/distribution/standard_normal_distribution.cpp: inv_cdf"]}
{"id": "C125", "title": "A quasi-random price is within the discrepancy of its points of the Black-Scholes price", "statement": "In exact arithmetic, under GBM with one date and a quasi-random generator whose N numbers lie in (0,1) and have star discrepancy at most D, the price of a European put, a digital or a double digital option exists and differs from the Black-Scholes price by at most the discounted total variation of the payoff times D + 5e-10.", "quantifier": "all point sets, numbers of paths, market data, strikes and maturities", "why_tests_cant": "An error bound for every point set and every parameter; a test sees one sequence and one option.", "anchors": ["src/random/number_generator/base_quasi_random_generator.cpp", "src/random/distribution/standard_normal_distribution.cpp: inv_cdf", "src/model/gbm_model.cpp", "src/solver/monte_carlo/mc_single_path.cpp: calculatePrice"]}
{"id": "C126", "title": "The quantile function keeps its accuracy when computed in double precision", "statement": "In IEEE binary64, with all operations and literals rounded and a logarithm off by at most 1e-15 (1 + |ln x|), inv_cdf returns for every finite double u in (0,1) a finite double x with |Phi(x) - u| <= 5e-10; in the tails the error is at most 2e-9 times the probability plus 4e-12; between 8.1% and 91.9% nothing is assumed of the C library.", "quantifier": "all finite doubles in (0,1), all C libraries with an accurate logarithm", "why_tests_cant": "There are about 4.6e18 doubles in (0,1), and the branch test is itself subject to rounding.", "anchors": ["src/random/distribution/standard_normal_distribution.cpp: inv_cdf"]}
{"id": "C127", "title": "Simulated GBM prices in double precision against exact arithmetic", "statement": "In IEEE binary64, with all operations and literals rounded and an exponential of relative error at most 1e-15, every price of a simulated GBM path is within a factor exp(+-1.2e-15 * sum (1 + size of the step)) of the exact closed-form solution on the same draws, and the price computed by calculatePrice for European, arithmetic Asian, fixed and floating lookback options is finite and differs from the discounted mean of the exact payoffs by at most (1.3 L + 2.5e-16 (N + |rT| + 7)) times the discounted mean of the amounts exchanged, L being the largest log error.", "quantifier": "all C libraries with an accurate exponential, all generators and draws of ordinary size, all numbers of dates and paths, all market data of ordinary size", "why_tests_cant": "A test compares one run with a tolerance chosen by hand; the bound covers every draw and grows explicitly with the number of dates and paths.", "anchors": ["src/model/gbm_model.cpp: simulatePrices", "src/payoff/payoff_floating_strike_lookback.cpp", "src/solver/monte_carlo/mc_*.cpp: calculatePrice"]}
{"id": "C128", "title": "Quasi-random prices computed in double precision against Black-Scholes, all errors included", "statement": "In IEEE binary64, with an exponential and a logarithm of the C library accurate to about 1e-15, a European put, digital or double digital option under GBM priced on a one-dimensional Sobol or Faure sequence yields a finite price whose distance from the Black-Scholes price is at most df * V * (D + 5e-10 + 4.8e-16 (1 + h) / (sigma sqrt T) + 2.5e-16 (N + |rT| + 8)): V the variation of the payoff, D the star discrepancy of the N doubles the points were scaled to, h the size of the largest step.", "quantifier": "all sequences of points, seeds, numbers of points, all market data and strikes of ordinary size, all accurate C libraries", "why_tests_cant": "It needs the discrepancy of the points, the accuracy of the quantile function at every double and the rounding error of every operation at once; a test sees one sequence and one tolerance.", "anchors": ["src/random/number_generator/sobol_quasi_random_generator.cpp: operator()", "src/random/distribution/standard_normal_distribution.cpp: inv_cdf", "src/model/gbm_model.cpp: simulatePrices", "src/solver/monte_carlo/mc_single_path.cpp: calculatePrice"]}
{"id": "C129", "title": "Rounding error of the explicit finite-difference scheme", "statement": "In IEEE binary64, for a put under the Black-Scholes equation with non-negative exact weights, the explicit solver ends after N-1 or N steps (the rounding of the clock decides) and after m steps every node is finite and within (4 + 64 m) * 2^-53 * K of the scheme run in exact arithmetic, which is the scheme the solver computes over the reals. Rounding errors do not grow along the grid: the bound does not depend on the number of nodes.", "quantifier": "all grids of at least four nodes, all 2 <= N <= 2^25, all strikes, volatilities, domains between 2^-50 and 2^50, all rates and yields meeting the stability condition", "why_tests_cant": "The claim is a bound over all grids and all data; a test compares one price with one formula under a tolerance that hides both rounding and discretisation.", "anchors": ["src/solver/finite_difference_method/solver/one_factor/euler_explicit_fdm_solver.cpp: calculateInnerDomain", "src/solver/finite_difference_method/solver/one_factor/base_fdm_solver.cpp: solve", "src/solver/finite_difference_method/pde/one_factor/black_scholes_pde.cpp: diffusion"]}
{"id": "C130", "title": "Finite-difference values are monotone and convex in the spot", "statement": "The values that the explicit and the implicit solver compute for a vanilla option are monotone along the grid (falling for a put, rising for a call) and the slopes of their chords increase with the spot, on every grid that meets the usual stability condition.", "quantifier": "all grids, numbers of steps, strikes inside the grid, volatilities, rates and dividend yields", "why_tests_cant": "A test inspects the price at one spot; convexity along the grid after any number of steps is a statement about all nodes, all grids and all markets.", "anchors": ["src/solver/finite_difference_method/solver/one_factor/euler_explicit_fdm_solver.cpp: calculateInnerDomain", "src/solver/finite_difference_method/solver/one_factor/euler_implicit_fdm_solver.cpp: calculateInnerDomain", "src/solver/finite_difference_method/pde/one_factor/black_scholes_pde.cpp: boundaryRight"]}
{"id": "C131", "title": "Finite-difference put values rise with the volatility", "statement": "Under the explicit and the implicit scheme, on one grid and with the same rate, dividend yield (not above the rate) and strike, a higher volatility gives a value of the put that is at least as high at every node.", "quantifier": "all grids, numbers of steps, strikes inside the grid, all pairs of volatilities, rates and dividend yields meeting the stability condition", "why_tests_cant": "It compares two runs for every pair of volatilities; it rests on convexity of every intermediate layer.", "anchors": ["src/solver/finite_difference_method/solver/one_factor/euler_explicit_fdm_solver.cpp: calculateInnerDomain", "src/solver/finite_difference_method/solver/one_factor/euler_implicit_fdm_solver.cpp: calculateInnerDomain", "src/solver/finite_difference_method/pde/one_factor/black_scholes_pde.cpp: boundaryRight"]}
{"id": "C132", "title": "Finite-difference put values fall with the rate and rise with the dividend yield", "statement": "On one grid and for one strike, if a second market has no lower volatility, no higher rate and no lower dividend yield than a first one whose yield is not above its rate, the explicit and the implicit solver give the put at least as high a value at every node, and with the default interpolation at every spot of the grid not above the first market's.", "quantifier": "all grids, numbers of steps, strikes inside the grid, pairs of markets meeting the stability condition", "why_tests_cant": "It compares two runs for every pair of markets; it rests on the shape of every intermediate layer.", "anchors": ["src/solver/finite_difference_method/solver/one_factor/euler_explicit_fdm_solver.cpp: calculateInnerDomain", "src/solver/finite_difference_method/solver/one_factor/euler_implicit_fdm_solver.cpp: calculateInnerDomain", "src/solver/finite_difference_method/pde/one_factor/black_scholes_pde.cpp: convection", "src/solver/finite_difference_method/pde/one_factor/black_scholes_pde.cpp: reaction"]}
{"id": "C133", "title": "Without rate and dividends finite-difference values rise with the maturity", "statement": "With rate 0 and no dividends, a vanilla option priced by the explicit or the implicit solver with the same time step but more steps, and no lower volatility, has at least as high a value, and no value is below the immediate payoff; at every node, and with the default interpolation at every spot of the grid.", "quantifier": "all grids, pairs of numbers of steps, strikes inside the grid, pairs of volatilities meeting the stability condition, calls and puts", "why_tests_cant": "It compares runs of every pair of lengths; it rests on convexity of every intermediate layer.", "anchors": ["src/solver/finite_difference_method/solver/one_factor/euler_explicit_fdm_solver.cpp: calculateInnerDomain", "src/solver/finite_difference_method/solver/one_factor/euler_implicit_fdm_solver.cpp: calculateInnerDomain", "src/solver/finite_difference_method/pde/one_factor/black_scholes_pde.cpp: boundaryLeft", "src/solver/finite_difference_method/pde/one_factor/black_scholes_pde.cpp: boundaryRight"]}
{"id": "C134", "title": "Under GBM and the Merton model the expected price rises with the volatility", "statement": "Of two European options with one strike and maturity, on stocks with one price and dividend yield at one rate, the one on the more volatile stock has the strictly higher expected Monte Carlo price, under GBM by at most half the discounted forward price times sqrt T times the difference of the volatilities; so at most one volatility explains an expected price. Under the Merton model with one set of jump parameters the expected price also rises strictly.", "quantifier": "all pairs of positive volatilities, spots, strikes, maturities, rates, dividend yields, numbers of steps and of paths, calls and puts", "why_tests_cant": "Compares expectations over all random streams for every pair of volatilities.", "anchors": ["src/model/gbm_model.cpp: simulatePrices", "src/model/merton_jump_diffusion_model.cpp", "src/solver/monte_carlo/mc_single_path.cpp"]}
{"id": "C135", "title": "Under GBM the expected price of a call rises with the maturity", "statement": "With a rate that is not negative and no dividends, a European call that is equal but for a longer maturity has the strictly higher expected Monte Carlo price; at rate 0 the same holds for a put, with any dividend yield that is not negative.", "quantifier": "all pairs of maturities, spots, strikes, volatilities, rates, numbers of steps and of paths", "why_tests_cant": "Compares expectations over all random streams for every pair of maturities.", "anchors": ["src/model/gbm_model.cpp: simulatePrices", "src/solver/monte_carlo/mc_single_path.cpp"]}
{"id": "C136", "title": "Under GBM a geometric Asian call is worth at most the European call", "statement": "At a rate not below the dividend yield, the expected Monte Carlo price of a geometric Asian call is at most that of the European call of the same strike and maturity, and strictly less with two averaging dates or more.", "quantifier": "all spots, strikes, maturities, volatilities, dividend yields, rates not below them, numbers of steps and of paths", "why_tests_cant": "Compares expectations over all random streams for every parameter and number of dates.", "anchors": ["src/model/gbm_model.cpp: simulatePrices", "src/solver/monte_carlo/mc_asian.cpp"]}
